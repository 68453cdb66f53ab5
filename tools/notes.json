{
 "C01": "Exact real arithmetic. Usable = built by the public constructors without empty containers (C01_usable_of_built).",
 "C02": "Interior is defined in Spec.v without reference to the transforms; canon only reorders dictionary members, drops extra keys and turns 0-d leaves into 1-d.",
 "C03": "For every scalar type (float, int, bool).",
 "C05": "random() is fold of a real vector, so the theorem covers it.",
 "C06": "For one-dimensional input vectors; the wrong-length exception of a dictionary depends on whether str(pattern) works.",
 "C11": "flat_indices of a leaf with an all-False mask returns [] before free is resolved; the theorem covers all other cases.",
 "C65": "flatten with a missing key never succeeds; it is a ValueError unless validation of another member raises first (see C10).",
 "C07": "valid is a recursive specification in SpecValid.v, independent of the code's checks; extended values (NaN, infinities) included.",
 "C10": "Arrays of any base pattern answer instead of raising, because the shape is checked before the blocks.",
 "C13": "Stated on the entries of the folded value in non-free order.",
 "C15": "Exactness proved for all trees of numeric and simplex patterns; the PSD counterexample is for all free vectors.",
 "C46": "psd_free_iff: the free flattening exists exactly when the matrix minus the diagonal bound has a Cholesky factor with positive diagonal.",
 "C60": "Sizes are rationals; float rounding of the size itself is not modelled.",
 "C61": "Over exact reals with finite entries.",
 "C20": "Heap of shared mutable dictionary objects, arbitrary operation sequences; C20_tree_view shows the tree view used by the other files is sound.",
 "C25": "Character-level model of json.dumps/json.loads. The text of a finite float is a parameter with the contract float_io_ok (JSON float grammar, reads back); JsonInst.v exhibits an instance.",
 "C26": "Includes validate_value=None because default_validate is kept.",
 "C28": "Refuted forms show the side conditions are needed.",
 "C32": "Registry over any type of classes.",
 "C35": "Functions are modelled with arbitrary positional arguments, keyword arguments and state, so 'called exactly once / not at all' is part of the statement. Pattern objects are arbitrary pairs of methods fold and flatten, so user-defined patterns are covered. C35_unique shows the specification determines the argument list.",
 "C36": "Not the claim first written (argnums=-1 only): every list of distinct in-range positions with negative ones is covered, also mixed with non-negative ones.",
 "C37": "argnums/retnums are integers; patterns, argnums and free may be arrays of any number of axes.",
 "C38": "Stated with the patterns of Pattern.v; uses the round-trip theorems C01-C04.",
 "C39": "The empty-retnums case follows numpy releases in which an empty array counts as false.",
 "C40": "Both classes; conversion failures of the outputs are described by the same relation as in C39.",
 "C41": "all shapes, bounds, interior points; both directions; zero off-diagonal entries stated separately",
 "C42": "one block per simplex; an empty array of simplexes raises ValueError (C42_no_simplexes)",
 "C43": "C43_inverse covers every tree without PSD members; C43_inverse_from_derivatives adds PSD members when autograd.jacobian is right along symmetric directions (freeing) and right (unfreeing); C43_inverse_with_psd under the weaker hypothesis that its results are inverse there",
 "C44": "C44_derivatives covers every tree without PSD members; with PSD members under the hypothesis that autograd.jacobian is right at them, which C44_psd_differentiable shows can be met; C44_symmetrised_refuted: symmetrised columns are not partial derivatives; C44_derivatives_along: right along symmetric directions suffices for the whole tree; block structure for every successful call",
 "C45": "determinant by Laplace expansion; NotImplementedError for any usable tree with a simplex, PSD or array member",
 "C49": "installed: a separate inductive description of the last call that did not raise.",
 "C50": "eigh is an oracle: the hypotheses say what it returns for the symmetrised Hessian (orthonormal eigenvectors and the eigenvalues).",
 "C51": "Entries may be infinite or NaN; missing bounds included; complex bounds raise.",
 "C52": "Trace-based specification; printing included; f returns f(x) except when printing is due and the value cannot be formatted (TypeError).",
 "C62": "Cholesky and factorized are oracles: S S^T = H and the solver returns a solution.",
 "C63": "Also for rectangular operators.",
 "C64": "NaN in the round trip passes for every tolerance.",
 "C67": "C67_log_refuted gives the witness; C67_log_without_late_writes is the version that holds.",
 "C54": "Proved for integer labels; C54_float_labels_refuted and C54_bool_labels_refuted show why the other label types are excluded.",
 "C55": "C55_duplicate_refuted, C55_matrix_rows_refuted and C55_number_refuted are witnesses for the cases where the rules are wrong.",
 "C56": "Shapes (c,) and (c, l); every derivative of every order is one of the two primitives (derived path).",
 "C57": "inv and solve are parameters with their contract; DemoAd.v gives routines meeting the contract in every dimension.",
 "C68": "solve is a parameter with its contract; determinants by expansion along the first row (SpecJac.det), multiplicativity and Jacobi's formula are proved in DetFacts.v.",
 "C69": "The special functions are parameters; the stated relations are hypotheses.",
 "C58": "String-level model (decimal printing, numpy's stripping of trailing NULs). The two refuted theorems exhibit patterns built by the public constructors.",
 "C70": "Flocq binary64. np.exp, np.log and np.sum are parameters with an accuracy contract (SpecFlt.v) met by correctly rounded functions (FltInst.v).",
 "C71": "Same contract as C70.",
 "C72": "Same contract as C70; np.sum may add in any order and any bracketing.",
 "C73": "Same contract as C70; the matrix product is modelled for 1 x 1 matrices only (C84 folds matrices of any size).",
 "C74": "Theorems C74_* in PropEnd.v.",
 "C75": "Theorem C75_* in PropEnd.v.",
 "C76": "Theorems C76_* in PropEnd.v. The objective is any function that returns a number for each admissible value; differentiability is in the usual sense (small remainder against distance). With PSD matrices autograd's Jacobian is assumed right at the value, as in C44.",
 "C77": "Theorems C77_* in PropEnd.v. Draws are real numbers.",
 "C78": "The never-return-a-reference comment is refuted for fold with free=False (C78_never_a_reference_refuted); the exact behaviour is C78_nonfree_view. Arrays are contiguous windows of buffers.",
 "C79": "nesting part refuted with a witness",
 "C80": "expected/got order, naming of members and wrapper errors refuted",
 "C81": "",
 "C84": "Same contract as C70 for exp; the matrix product is a parameter (SpecFltMat.gram_contract): some order of multiplications, additions and fused multiply-adds, mirrored entries equal. Flattening in float64 is C88.",
 "C85": "Values are exact reals with IEEE infinities and NaN (Num.v). For PSD matrices the theorems say which entries become NaN; the infinities among the other entries are not described.",
 "C86": "The backward rules of autograd's own primitives (exp, log, matmul, diag, indexing, cholesky) are written from the author's knowledge of autograd, whose source was not available; np.linalg.solve is a parameter with a contract for upper triangular systems, met by back substitution (DemoRev.v). C86_partials_refuted: for size two or more the freeing Jacobian is not the matrix of partial derivatives.",
 "C87": "The objective is any callable that returns Phi of the flat vector at admissible values, with Phi Frechet differentiable at the point. The image theorem holds for any automatic differentiation that is right on the PSD leaves, and C87_image_reverse instantiates it with the backward passes of C86. C87_free_convex_refuted: -x on the positive numbers is convex, -exp is not.",
 "C88": "np.linalg.cholesky is a parameter (SpecFltChol.chol_contract): column by column, any order of the subtractions, LinAlgError at the first pivot that is not positive; DemoFltChol.v has an instance. The two refutations hold for every routine meeting the contract.",
 "C89": "Contracts as in C70-C73, C84 and C88; DemoFltPat.v has a dictionary of all four kinds of leaves that meets every hypothesis. Two finite bounds other than 0 and 1 are left out of the validation statement because of C71's refutation.",
 "C90": "Contracts as in C70-C73; the Jacobian is compared with Jac.v's at the exact values of the floats. PSD members are left out since autograd computes their Jacobians. C90_log_det_refuted, C90_lost and C90_row_lost give the failing case near the upper bound, where 1 - ratio rounds to zero.",
 "C91": "The Hessian is that of a second-order expansion with remainder small against the squared distance. C91_derivative and C91_hessian assume that autograd.jacobian returns the partial derivatives of the PSD members; the _reverse theorems derive this from the model of reverse mode (C86). C91_hessian_refuted: PNum with lower bound 0 and the objective z.",
 "C92": "The perturbation bound for the factor of a matrix is proved in TriPerturb.v (real triangular matrices) and applied to the folded matrix in FltTripMat.v. C89 covers the opposite direction, from values to free vectors and back.",
 "C93": "eigh is assumed to return an orthonormal eigenbasis of the matrix it is given. The existence of such a basis (the spectral theorem) is part of that assumption and is not proved.",
 "C94": "Labels are integers; numpy's += on a row is one rounded addition per entry.",
 "C95": "Extends C72 from coordinates up to 100 to coordinates of any size up to 2^50; one row at a time."
}