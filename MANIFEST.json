{
 "claims": [
  {
   "property": "C01",
   "status": "proved",
   "theorems": [
    "C01_free_flatten_of_fold",
    "C01_usable_of_built"
   ],
   "note": "Exact real arithmetic. Usable = built by the public constructors without empty containers (C01_usable_of_built)."
  },
  {
   "property": "C02",
   "status": "proved",
   "theorems": [
    "C02_free_fold_of_flatten"
   ],
   "note": "Interior is defined in Spec.v without reference to the transforms; canon only reorders dictionary members, drops extra keys and turns 0-d leaves into 1-d."
  },
  {
   "property": "C03",
   "status": "proved",
   "theorems": [
    "C03_nonfree_fold_of_flatten"
   ],
   "note": "For every scalar type (float, int, bool)."
  },
  {
   "property": "C04",
   "status": "proved",
   "theorems": [
    "C04_nonfree_flatten_of_fold"
   ],
   "note": ""
  },
  {
   "property": "C05",
   "status": "proved",
   "theorems": [
    "C05_fold_interior"
   ],
   "note": "random() is fold of a real vector, so the theorem covers it."
  },
  {
   "property": "C06",
   "status": "proved",
   "theorems": [
    "C06_length"
   ],
   "note": "For one-dimensional input vectors; the wrong-length exception of a dictionary depends on whether str(pattern) works."
  },
  {
   "property": "C07",
   "status": "proved",
   "theorems": [
    "C07_validate_iff",
    "C07_bounds_and_nan_validate"
   ],
   "note": "valid is a recursive specification in SpecValid.v, independent of the code's checks; extended values (NaN, infinities) included."
  },
  {
   "property": "C08",
   "status": "proved",
   "theorems": [
    "C08_upper_bound_lost",
    "C08_other_bounds_kept"
   ],
   "note": ""
  },
  {
   "property": "C09",
   "status": "proved",
   "theorems": [
    "C09_lenient"
   ],
   "note": ""
  },
  {
   "property": "C10",
   "status": "proved",
   "theorems": [
    "C10_array_validation_answers",
    "C10_numeric_validation_answers",
    "C10_simplex_psd_validation_raises",
    "C10_dict_validation_raises"
   ],
   "note": "Arrays of any base pattern answer instead of raising, because the shape is checked before the blocks."
  },
  {
   "property": "C11",
   "status": "proved",
   "theorems": [
    "C11_free_default",
    "C11_flat_indices_default",
    "C11_nested_default_ignored"
   ],
   "note": "flat_indices of a leaf with an all-False mask returns [] before free is resolved; the theorem covers all other cases."
  },
  {
   "property": "C12",
   "status": "proved",
   "theorems": [
    "C12_nonfree_indices"
   ],
   "note": ""
  },
  {
   "property": "C13",
   "status": "proved",
   "theorems": [
    "C13_free_indices_dependencies"
   ],
   "note": "Stated on the entries of the folded value in non-free order."
  },
  {
   "property": "C14",
   "status": "proved",
   "theorems": [
    "C14_indices_well_formed"
   ],
   "note": ""
  },
  {
   "property": "C15",
   "status": "proved",
   "theorems": [
    "C15_free_indices_exact",
    "C15_psd_imprecise"
   ],
   "note": "Exactness proved for all trees of numeric and simplex patterns; the PSD counterexample is for all free vectors."
  },
  {
   "property": "C16",
   "status": "proved",
   "theorems": [
    "C16_empty_bool"
   ],
   "note": ""
  },
  {
   "property": "C17",
   "status": "proved",
   "theorems": [
    "C17_empty_valid"
   ],
   "note": ""
  },
  {
   "property": "C18",
   "status": "proved",
   "theorems": [
    "C18_dict_flatten",
    "C18_dict_fold",
    "C18_dict_local"
   ],
   "note": ""
  },
  {
   "property": "C19",
   "status": "proved",
   "theorems": [
    "C19_array_flatten",
    "C19_array_fold",
    "C19_ravel_rank"
   ],
   "note": ""
  },
  {
   "property": "C20",
   "status": "proved",
   "theorems": [
    "C20_dict_lengths",
    "C20_tree_view"
   ],
   "note": "Heap of shared mutable dictionary objects, arbitrary operation sequences; C20_tree_view shows the tree view used by the other files is sound."
  },
  {
   "property": "C21",
   "status": "proved",
   "theorems": [
    "C21_lock_forever",
    "C21_lock_happens",
    "C21_locked_tree"
   ],
   "note": ""
  },
  {
   "property": "C22",
   "status": "proved",
   "theorems": [
    "C22_self_insertion"
   ],
   "note": ""
  },
  {
   "property": "C23",
   "status": "proved",
   "theorems": [
    "C23_failed_assignment"
   ],
   "note": ""
  },
  {
   "property": "C24",
   "status": "proved",
   "theorems": [
    "C24_emptied_lengths",
    "C24_emptied_empty_bool",
    "C24_emptied_inside_never_folds",
    "C24_emptied_fold_type_error"
   ],
   "note": ""
  },
  {
   "property": "C25",
   "status": "proved",
   "theorems": [
    "C25_round_trip",
    "C25_reads_back",
    "C25_any_string_key_refuted",
    "C25_parse_any_bound",
    "C25_reader_any_bound"
   ],
   "note": "Character-level model of json.dumps/json.loads. The text of a finite float is a parameter with the contract float_io_ok (JSON float grammar, reads back); JsonInst.v exhibits an instance."
  },
  {
   "property": "C26",
   "status": "proved",
   "theorems": [
    "C26_same_behaviour",
    "C26_emptied_refuted"
   ],
   "note": "Includes validate_value=None because default_validate is kept."
  },
  {
   "property": "C27",
   "status": "proved",
   "theorems": [
    "C27_json_loses",
    "C27_json_unlocks"
   ],
   "note": ""
  },
  {
   "property": "C28",
   "status": "proved",
   "theorems": [
    "C28_eq_equivalence",
    "C28_eq_same_behaviour",
    "C28_surrogate_refuted",
    "C28_fractional_size_refuted"
   ],
   "note": "Refuted forms show the side conditions are needed."
  },
  {
   "property": "C29",
   "status": "proved",
   "theorems": [
    "C29_eq_not_congruence"
   ],
   "note": ""
  },
  {
   "property": "C30",
   "status": "proved",
   "theorems": [
    "C30_int_keys"
   ],
   "note": ""
  },
  {
   "property": "C31",
   "status": "proved",
   "theorems": [
    "C31_no_pattern_entry",
    "C31_unregistered",
    "C31_not_object",
    "C31_other_name",
    "C31_other_class"
   ],
   "note": ""
  },
  {
   "property": "C32",
   "status": "proved",
   "theorems": [
    "C32_registry_resolves",
    "C32_registry_refuses",
    "C32_builtins_registered"
   ],
   "note": "Registry over any type of classes."
  },
  {
   "property": "C33",
   "status": "proved",
   "theorems": [
    "C33_save_load",
    "C33_save_succeeds",
    "C33_save_history",
    "C33_any_extra_refuted",
    "C33_other_files",
    "C33_texts"
   ],
   "note": ""
  },
  {
   "property": "C34",
   "status": "proved",
   "theorems": [
    "C34_extension_added",
    "C34_extension_kept"
   ],
   "note": ""
  },
  {
   "property": "C35",
   "status": "proved",
   "theorems": [
    "C35_inputs",
    "C35_self",
    "C35_unique"
   ],
   "note": "Functions are modelled with arbitrary positional arguments, keyword arguments and state, so 'called exactly once / not at all' is part of the statement. Pattern objects are arbitrary pairs of methods fold and flatten, so user-defined patterns are covered. C35_unique shows the specification determines the argument list."
  },
  {
   "property": "C36",
   "status": "proved",
   "theorems": [
    "C36_negative_inputs",
    "C36_negative_outputs",
    "C36_mixed_inputs",
    "C36_mixed_outputs",
    "C36_mixed_length"
   ],
   "note": "Not the claim first written (argnums=-1 only): every list of distinct in-range positions with negative ones is covered, also mixed with non-negative ones."
  },
  {
   "property": "C37",
   "status": "proved",
   "theorems": [
    "C37_checks"
   ],
   "note": "argnums/retnums are integers; patterns, argnums and free may be arrays of any number of axes."
  },
  {
   "property": "C38",
   "status": "proved",
   "theorems": [
    "C38_inputs",
    "C38_inputs_flat",
    "C38_outputs",
    "C38_outputs_flat"
   ],
   "note": "Stated with the patterns of Pattern.v; uses the round-trip theorems C01-C04."
  },
  {
   "property": "C39",
   "status": "proved",
   "theorems": [
    "C39_outputs",
    "C39_wrappers_unnamed"
   ],
   "note": "The empty-retnums case follows numpy releases in which an empty array counts as false."
  },
  {
   "property": "C40",
   "status": "proved",
   "theorems": [
    "C40_combined"
   ],
   "note": "Both classes; conversion failures of the outputs are described by the same relation as in C39."
  },
  {
   "property": "C41",
   "status": "proved",
   "theorems": [
    "C41_numeric_jacobians",
    "C41_edges",
    "C41_upper_bound_refuted"
   ],
   "note": "all shapes, bounds, interior points; both directions; zero off-diagonal entries stated separately"
  },
  {
   "property": "C42",
   "status": "proved",
   "theorems": [
    "C42_simplex_jacobians",
    "C42_no_simplexes"
   ],
   "note": "one block per simplex; an empty array of simplexes raises ValueError (C42_no_simplexes)"
  },
  {
   "property": "C43",
   "status": "proved",
   "theorems": [
    "C43_inverse",
    "C43_inverse_with_psd",
    "C43_inverse_from_derivatives"
   ],
   "note": "C43_inverse covers every tree without PSD members; C43_inverse_from_derivatives adds PSD members when autograd.jacobian is right along symmetric directions (freeing) and right (unfreeing); C43_inverse_with_psd under the weaker hypothesis that its results are inverse there"
  },
  {
   "property": "C44",
   "status": "proved",
   "theorems": [
    "C44_derivatives",
    "C44_derivatives_with_psd",
    "C44_psd_unfreeing_differentiable",
    "C44_psd_differentiable",
    "C44_partials_suffice",
    "C44_derivatives_along",
    "C44_symmetrised_refuted",
    "C44_symmetrised_accepted",
    "C44_dict_blocks",
    "C44_array_blocks"
   ],
   "note": "C44_derivatives covers every tree without PSD members; with PSD members under the hypothesis that autograd.jacobian is right at them, which C44_psd_differentiable shows can be met; C44_symmetrised_refuted: symmetrised columns are not partial derivatives; C44_derivatives_along: right along symmetric directions suffices for the whole tree; block structure for every successful call"
  },
  {
   "property": "C45",
   "status": "proved",
   "theorems": [
    "C45_log_determinants",
    "C45_unsupported"
   ],
   "note": "determinant by Laplace expansion; NotImplementedError for any usable tree with a simplex, PSD or array member"
  },
  {
   "property": "C46",
   "status": "proved",
   "theorems": [
    "C46_psd_free_iff"
   ],
   "note": "psd_free_iff: the free flattening exists exactly when the matrix minus the diagonal bound has a Cholesky factor with positive diagonal."
  },
  {
   "property": "C47",
   "status": "proved",
   "theorems": [
    "C47_validates_but_not_free"
   ],
   "note": ""
  },
  {
   "property": "C48",
   "status": "proved",
   "theorems": [
    "C48_unvectorize_accepts",
    "C48_unvectorize_rejects",
    "C48_vectorize_spec",
    "C48_vectorize_of_unvectorize",
    "C48_unvectorize_of_vectorize",
    "C48_unvectorize_adjoint",
    "C48_unvectorize_vjp_shapes",
    "C48_unvectorize_jvp_linear",
    "C48_symmetric_unvectorize",
    "C48_symmetric_of_vectorize",
    "C48_symmetric_rejects",
    "C48_symmetric_infinite",
    "C48_symmetric_infinite_refuted",
    "C48_sym_index"
   ],
   "note": ""
  },
  {
   "property": "C49",
   "status": "proved",
   "theorems": [
    "C49_history",
    "C49_initial",
    "C49_failed_call",
    "C49_call_evaluates",
    "C49_inverse_call",
    "C49_matrices"
   ],
   "note": "installed: a separate inductive description of the last call that did not raise."
  },
  {
   "property": "C50",
   "status": "proved",
   "theorems": [
    "C50_hessian_preconditioner",
    "C50_whitens",
    "C50_vector_not_definite",
    "C50_arguments",
    "C50_failures"
   ],
   "note": "eigh is an oracle: the hypotheses say what it returns for the symmetrised Hessian (orthonormal eigenvectors and the eigenvalues)."
  },
  {
   "property": "C51",
   "status": "proved",
   "theorems": [
    "C51_truncation",
    "C51_complex_minimum",
    "C51_complex_maximum"
   ],
   "note": "Entries may be infinite or NaN; missing bounds included; complex bounds raise."
  },
  {
   "property": "C52",
   "status": "proved",
   "theorems": [
    "C52_history",
    "C52_outcomes",
    "C52_raising"
   ],
   "note": "Trace-based specification; printing included; f returns f(x) except when printing is due and the value cannot be formatted (TypeError)."
  },
  {
   "property": "C53",
   "status": "proved",
   "theorems": [
    "C53_grouped_sum",
    "C53_errors",
    "C53_low_label",
    "C53_float_labels"
   ],
   "note": ""
  },
  {
   "property": "C54",
   "status": "proved",
   "theorems": [
    "C54_derivatives",
    "C54_float_labels_refuted",
    "C54_bool_labels_refuted"
   ],
   "note": "Proved for integer labels; C54_float_labels_refuted and C54_bool_labels_refuted show why the other label types are excluded."
  },
  {
   "property": "C55",
   "status": "proved",
   "theorems": [
    "C55_replace",
    "C55_replace_by_number",
    "C55_inputs_kept",
    "C55_bad_index",
    "C55_mask",
    "C55_derivatives",
    "C55_duplicate_refuted",
    "C55_matrix_forward_fails",
    "C55_matrix_rows_refuted",
    "C55_number_refuted"
   ],
   "note": "C55_duplicate_refuted, C55_matrix_rows_refuted and C55_number_refuted are witnesses for the cases where the rules are wrong."
  },
  {
   "property": "C56",
   "status": "proved",
   "theorems": [
    "C56_products",
    "C56_derivatives",
    "C56_parity",
    "C56_errors",
    "C56_solvers"
   ],
   "note": "Shapes (c,) and (c, l); every derivative of every order is one of the two primitives (derived path)."
  },
  {
   "property": "C57",
   "status": "proved",
   "theorems": [
    "C57_inverse",
    "C57_inverse_stack",
    "C57_solve_matrix_argument_vector",
    "C57_solve_matrix_argument_matrix",
    "C57_solve_right_side_vector",
    "C57_solve_right_side_matrix"
   ],
   "note": "inv and solve are parameters with their contract; DemoAd.v gives routines meeting the contract in every dimension."
  },
  {
   "property": "C58",
   "status": "proved",
   "theorems": [
    "C58_count",
    "C58_int_keys",
    "C58_numeric",
    "C58_numeric_entry",
    "C58_numeric_unique",
    "C58_plain",
    "C58_dict",
    "C58_distinct",
    "C58_distinct_plain",
    "C58_distinct_refuted",
    "C58_default_refuted",
    "C58_default_error_refuted",
    "C58_default_agree"
   ],
   "note": "String-level model (decimal printing, numpy's stripping of trailing NULs). The two refuted theorems exhibit patterns built by the public constructors."
  },
  {
   "property": "C59",
   "status": "proved",
   "theorems": [
    "C59_numeric_constructor",
    "C59_numeric_failures",
    "C59_simplex_constructor",
    "C59_psd_constructor",
    "C59_array_constructor"
   ],
   "note": ""
  },
  {
   "property": "C60",
   "status": "proved",
   "theorems": [
    "C60_fractional_psd"
   ],
   "note": "Sizes are rationals; float rounding of the size itself is not modelled."
  },
  {
   "property": "C61",
   "status": "proved",
   "theorems": [
    "C61_logsumexp_spec",
    "C61_logsumexp_no_overflow",
    "C61_logsumexp_shift"
   ],
   "note": "Over exact reals with finite entries."
  },
  {
   "property": "C62",
   "status": "proved",
   "theorems": [
    "C62_sparse_preconditioner",
    "C62_dense_argument"
   ],
   "note": "Cholesky and factorized are oracles: S S^T = H and the solver returns a solution."
  },
  {
   "property": "C63",
   "status": "proved",
   "theorems": [
    "C63_operator_matrix",
    "C63_preconditioner",
    "C63_dimension_zero"
   ],
   "note": "Also for rectangular operators."
  },
  {
   "property": "C64",
   "status": "proved",
   "theorems": [
    "C64_raises",
    "C64_correct_passes",
    "C64_nan_passes",
    "C64_lengths",
    "C64_errors"
   ],
   "note": "NaN in the round trip passes for every tolerance."
  },
  {
   "property": "C65",
   "status": "proved",
   "theorems": [
    "C65_same_entries",
    "C65_same_indices",
    "C65_permuted",
    "C65_extra_keys",
    "C65_missing_key",
    "C65_missing_key_rejected"
   ],
   "note": "flatten with a missing key never succeeds; it is a ValueError unless validation of another member raises first (see C10)."
  },
  {
   "property": "C66",
   "status": "proved",
   "theorems": [
    "C66_subclass_not_locked",
    "C66_subclass_stale"
   ],
   "note": ""
  },
  {
   "property": "C67",
   "status": "proved",
   "theorems": [
    "C67_log_refuted",
    "C67_log_without_late_writes"
   ],
   "note": "C67_log_refuted gives the witness; C67_log_without_late_writes is the version that holds."
  },
  {
   "property": "C68",
   "status": "proved",
   "theorems": [
    "C68_slogdet",
    "C68_slogdet_stack"
   ],
   "note": "solve is a parameter with its contract; determinants by expansion along the first row (SpecJac.det), multiplicativity and Jacobi's formula are proved in DetFacts.v."
  },
  {
   "property": "C69",
   "status": "proved",
   "theorems": [
    "C69_special_functions"
   ],
   "note": "The special functions are parameters; the stated relations are hypotheses."
  },
  {
   "property": "C70",
   "status": "proved",
   "theorems": [
    "C70_open_valid",
    "C70_lower_round_trip",
    "C70_upper_round_trip",
    "C70_unbounded_exact",
    "C70_round_trip_refuted"
   ],
   "note": "Flocq binary64. np.exp, np.log and np.sum are parameters with an accuracy contract (SpecFlt.v) met by correctly rounded functions (FltInst.v)."
  },
  {
   "property": "C71",
   "status": "proved",
   "theorems": [
    "C71_accurate",
    "C71_unit_interval",
    "C71_no_nan_refuted",
    "C71_within_bounds_refuted"
   ],
   "note": "Same contract as C70."
  },
  {
   "property": "C72",
   "status": "proved",
   "theorems": [
    "C72_valid",
    "C72_accurate",
    "C72_round_trip",
    "C72_tame",
    "C72_valid_refuted",
    "C72_round_trip_refuted"
   ],
   "note": "Same contract as C70; np.sum may add in any order and any bracketing."
  },
  {
   "property": "C73",
   "status": "proved",
   "theorems": [
    "C73_exp_diagonal",
    "C73_log_diagonal",
    "C73_off_diagonal",
    "C73_fold_flatten_refuted",
    "C73_flatten_fold_refuted"
   ],
   "note": "Same contract as C70; the matrix product is modelled for 1 x 1 matrices only (C84 folds matrices of any size)."
  },
  {
   "property": "C74",
   "status": "proved",
   "theorems": [
    "C74_bijection",
    "C74_minimisers"
   ],
   "note": "Theorems C74_* in PropEnd.v."
  },
  {
   "property": "C75",
   "status": "proved",
   "theorems": [
    "C75_preconditioned_minimisers"
   ],
   "note": "Theorem C75_* in PropEnd.v."
  },
  {
   "property": "C76",
   "status": "proved",
   "theorems": [
    "C76_gradient",
    "C76_gradient_psd",
    "C76_stationary",
    "C76_stationary_simplex"
   ],
   "note": "Theorems C76_* in PropEnd.v. The objective is any function that returns a number for each admissible value; differentiability is in the usual sense (small remainder against distance). With PSD matrices autograd's Jacobian is assumed right at the value, as in C44."
  },
  {
   "property": "C77",
   "status": "proved",
   "theorems": [
    "C77_random_value",
    "C77_float_length",
    "C77_range"
   ],
   "note": "Theorems C77_* in PropEnd.v. Draws are real numbers."
  },
  {
   "property": "C78",
   "status": "proved",
   "theorems": [
    "C78_fold_values",
    "C78_flatten_values",
    "C78_free_fold_copies",
    "C78_array_fold_copies",
    "C78_flatten_copies",
    "C78_members_apart",
    "C78_nonfree_view",
    "C78_nonfree_reference",
    "C78_never_a_reference_refuted",
    "C78_assignment"
   ],
   "note": "The never-return-a-reference comment is refuted for fold with free=False (C78_never_a_reference_refuted); the exact behaviour is C78_nonfree_view. Arrays are contiguous windows of buffers."
  },
  {
   "property": "C79",
   "status": "proved",
   "theorems": [
    "C79_succeeds",
    "C79_leaf_texts",
    "C79_dict_text",
    "C79_determines",
    "C79_nesting_refuted"
   ],
   "note": "nesting part refuted with a witness"
  },
  {
   "property": "C80",
   "status": "proved",
   "theorems": [
    "C80_empty_iff_valid",
    "C80_leaf",
    "C80_numeric_shape",
    "C80_array_swapped_refuted",
    "C80_array_first",
    "C80_dict",
    "C80_member_not_named_refuted",
    "C80_wrapper_refuted"
   ],
   "note": "expected/got order, naming of members and wrapper errors refuted"
  },
  {
   "property": "C81",
   "status": "proved",
   "theorems": [
    "C81_constructors",
    "C81_classes",
    "C81_shape",
    "C81_valid_shape",
    "C81_keys",
    "C81_set",
    "C81_del"
   ],
   "note": ""
  },
  {
   "property": "C82",
   "status": "proved",
   "theorems": [
    "C82_grammar",
    "C82_loads",
    "C82_refuses",
    "C82_unambiguous",
    "C82_written"
   ],
   "note": ""
  },
  {
   "property": "C83",
   "status": "proved",
   "theorems": [
    "C83_numeric",
    "C83_psd",
    "C83_refused",
    "C83_bounds_refused",
    "C83_simplex",
    "C83_array",
    "C83_dict"
   ],
   "note": ""
  },
  {
   "property": "C84",
   "status": "proved",
   "theorems": [
    "C84_entries",
    "C84_valid",
    "C84_accurate",
    "C84_overflow_refuted"
   ],
   "note": "Same contract as C70 for exp; the matrix product is a parameter (SpecFltMat.gram_contract): some order of multiplications, additions and fused multiply-adds, mirrored entries equal. Flattening in float64 is C88."
  },
  {
   "property": "C85",
   "status": "proved",
   "theorems": [
    "C85_fold",
    "C85_flatten",
    "C85_interior",
    "C85_numeric_nan",
    "C85_simplex_nan",
    "C85_psd_nan",
    "C85_psd_off_diagonal",
    "C85_psd_first_column_refuted",
    "C85_logsumexp",
    "C85_every_infinity_refuted"
   ],
   "note": "Values are exact reals with IEEE infinities and NaN (Num.v). For PSD matrices the theorems say which entries become NaN; the infinities among the other entries are not described."
  },
  {
   "property": "C86",
   "status": "proved",
   "theorems": [
    "C86_unpack_vjp",
    "C86_pack_vjp",
    "C86_unfreeing",
    "C86_freeing",
    "C86_inverse",
    "C86_partials_refuted",
    "C86_gradient",
    "C86_backward"
   ],
   "note": "The backward rules of autograd's own primitives (exp, log, matmul, diag, indexing, cholesky) are written from the author's knowledge of autograd, whose source was not available; np.linalg.solve is a parameter with a contract for upper triangular systems, met by back substitution (DemoRev.v). C86_partials_refuted: for size two or more the freeing Jacobian is not the matrix of partial derivatives."
  },
  {
   "property": "C87",
   "status": "proved",
   "theorems": [
    "C87_directions",
    "C87_image",
    "C87_image_reverse",
    "C87_first_order",
    "C87_psd",
    "C87_local_minimum",
    "C87_inside_convex",
    "C87_convex",
    "C87_free_convex_refuted"
   ],
   "note": "The objective is any callable that returns Phi of the flat vector at admissible values, with Phi Frechet differentiable at the point. The image theorem holds for any automatic differentiation that is right on the PSD leaves, and C87_image_reverse instantiates it with the backward passes of C86. C87_free_convex_refuted: -x on the positive numbers is convex, -exp is not."
  },
  {
   "property": "C88",
   "status": "proved",
   "theorems": [
    "C88_accurate",
    "C88_round",
    "C88_accepts",
    "C88_rejects",
    "C88_definite_refuted",
    "C88_indefinite_refuted",
    "C88_one",
    "C88_infinite_refuted"
   ],
   "note": "np.linalg.cholesky is a parameter (SpecFltChol.chol_contract): column by column, any order of the subtractions, LinAlgError at the first pivot that is not positive; DemoFltChol.v has an instance. The two refutations hold for every routine meeting the contract."
  },
  {
   "property": "C89",
   "status": "proved",
   "theorems": [
    "C89_fold",
    "C89_wrong_length",
    "C89_valid",
    "C89_flatten",
    "C89_round",
    "C89_validate",
    "C89_accepts",
    "C89_float_bounds",
    "C89_int_bounds"
   ],
   "note": "Contracts as in C70-C73, C84 and C88; DemoFltPat.v has a dictionary of all four kinds of leaves that meets every hypothesis. Two finite bounds other than 0 and 1 are left out of the validation statement because of C71's refutation."
  },
  {
   "property": "C90",
   "status": "proved",
   "theorems": [
    "C90_jacobian",
    "C90_log_det",
    "C90_raises",
    "C90_log_det_refuted",
    "C90_lost",
    "C90_row_lost",
    "C90_no_blocks"
   ],
   "note": "Contracts as in C70-C73; the Jacobian is compared with Jac.v's at the exact values of the floats. PSD members are left out since autograd computes their Jacobians. C90_log_det_refuted, C90_lost and C90_row_lost give the failing case near the upper bound, where 1 - ratio rounds to zero."
  },
  {
   "property": "C91",
   "status": "proved",
   "theorems": [
    "C91_derivative",
    "C91_derivative_reverse",
    "C91_hessian",
    "C91_hessian_reverse",
    "C91_hessian_refuted",
    "C91_definite",
    "C91_sufficient",
    "C91_necessary"
   ],
   "note": "The Hessian is that of a second-order expansion with remainder small against the squared distance. C91_derivative and C91_hessian assume that autograd.jacobian returns the partial derivatives of the PSD members; the _reverse theorems derive this from the model of reverse mode (C86). C91_hessian_refuted: PNum with lower bound 0 and the objective z."
  },
  {
   "property": "C92",
   "status": "proved",
   "theorems": [
    "C92_round_trip",
    "C92_round_trip_refuted"
   ],
   "note": "The perturbation bound for the factor of a matrix is proved in TriPerturb.v (real triangular matrices) and applied to the folded matrix in FltTripMat.v. C89 covers the opposite direction, from values to free vectors and back."
  },
  {
   "property": "C93",
   "status": "proved",
   "theorems": [
    "C93_hessian",
    "C93_truncated",
    "C93_whitened",
    "C93_conditioning",
    "C93_optimum"
   ],
   "note": "eigh is assumed to return an orthonormal eigenbasis of the matrix it is given. The existence of such a basis (the spectral theorem) is part of that assumption and is not proved."
  },
  {
   "property": "C94",
   "status": "proved",
   "theorems": [
    "C94_grouped",
    "C94_failures",
    "C94_accuracy",
    "C94_whole",
    "C94_nan",
    "C94_order_refuted",
    "C94_logsumexp"
   ],
   "note": "Labels are integers; numpy's += on a row is one rounded addition per entry."
  },
  {
   "property": "C95",
   "status": "proved",
   "theorems": [
    "C95_accurate",
    "C95_sum",
    "C95_infinite",
    "C95_first_zero_refuted",
    "C95_gone",
    "C95_logsumexp_gone",
    "C95_later_zero"
   ],
   "note": "Extends C72 from coordinates up to 100 to coordinates of any size up to 2^50; one row at a time."
  }
 ]
}
