# Formal model of paragami in Rocq (Coq 8.16.1)

This file says what is modelled, how each property of `properties.jsonl` is
stated and proved, and what has to be trusted.  It is kept in step with the
development in `rocq/theories/`.

## 1. Shape of the development

| file | contents |
|---|---|
| `Base.v` | exceptions as values (`res`), list utilities |
| `Num.v` | scalars: exact reals extended with +inf, -inf, NaN and IEEE rules for them |
| `Nd.v` | numpy arrays: shape + row-major data; reshape, slices, sub-arrays, masks, `itertools.product`, `ravel_multi_index` |
| `Numeric.v`, `Simplex.v`, `Psd.v` | the leaf transforms of the three pattern modules |
| `Pattern.v` | the pattern tree, all public methods (validate/fold/flatten/flat_length/flat_indices/empty/...) |
| `Jac.v`, `SpecJac.v` | Jacobians and log determinants; derivatives, block diagonal matrices, determinant |
| `DictHeap.v` | PatternDict as shared mutable objects with cached lengths and locks |
| `Json.v`, `PatJson.v`, `SaveLoad.v` | json.dumps/json.loads on text, to_json/from_json, registry, save/load |
| `FunWrap.v`, `SpecWrap.v` | the function wrappers; what they should do, stated position by position |
| `Optim.v`, `SpecOptim.v` | OptimizationObjective, PreconditionedFunction, eigenvalue tools, sparse preconditioner; real matrices, traces |
| `AdSupp.v` | autograd supplements: grouped_sum, replace, sparse product, solver, matrix and special function jvps |
| `Names.v`, `SpecNames.v` | names of flat entries as strings |
| `Text.v`, `SpecText.v` | `str(pattern)` and the messages of validation as strings |
| `Access.v` | the accessor methods |
| `SpecGrammar.v` | the grammar of JSON texts; hand-written descriptions of patterns |
| `Flt.v`, `SpecFlt.v` | the leaf transforms in binary64 (Flocq); accuracy contract for exp, log, sum |
| `FltMat.v`, `SpecFltMat.v` | folding PSD matrices of any size in binary64; contract for the matrix product |
| `FltChol.v`, `SpecFltChol.v` | flattening PSD matrices of any size in binary64; contract for `np.linalg.cholesky` |
| `FltPat.v`, `SpecFltPat.v` | folding, validating and flattening whole pattern trees in binary64; leafwise comparison with exact values |
| `SpecFltTrip.v` | conditioning of free vectors in binary64, errors of a round trip |
| `FltSum.v`, `SpecFltSum.v` | grouped_sum in binary64; members, exact totals |
| `FltJac.v`, `SpecFltJac.v` | Jacobians and log determinants of PSD-free trees in binary64; entrywise comparison with the exact matrices |
| `Random.v`, `SpecEnd.v` | Pattern.random; objectives of folded values, gradients, minimisers |
| `Alias.v`, `SpecAlias.v` | fold/flatten on a heap of buffers: views and copies |
| `SpecBound.v` | free vectors with infinities, values on the boundary |
| `RevPsd.v`, `SpecRev.v` | reverse mode through the PSD transforms |
| `SpecDir.v` | directions that keep the constraints, convex objectives |
| `SpecSecond.v` | total derivatives, quadratic forms, second-order expansions |
| `SpecWhite.v` | functions of finite vectors, products with real matrices |
| `Spec.v` | small independent specifications used by the theorem statements |
| `*Facts.v`, `*Props.v`, `*Odd.v`, ... | proofs |
| `Demo*.v` | concrete instances for the examples beside the theorems |
| `Prop*.v` | the property theorems only, each followed by `Print Assumptions` |

Model files contain no proofs; every definition cites the file and lines of
`/repo` it models and states its simplifications.

## 2. Modelling decisions

* **Numbers.**  A numpy float is modelled by `num := Fin r | PInf | NInf | NaN`
  with `r` an exact real (Coq `R`).  Arithmetic on finite values is exact (no
  rounding, no overflow, no underflow); infinities and NaN follow IEEE 754;
  zero is unsigned (+0).  Python `int` arguments and float bounds are `pynum`
  (an integer, or a float given by sign/mantissa/exponent).
* **Exceptions** are values: `res A := Ok a | Err e` with the Python class.
* **Arrays** are a shape and the row-major list of entries, polymorphic in the
  scalar type, because `fold`/`flatten` with `free=False` are used by the code
  on float, int and bool arrays alike.
* **Folded values** are arrays or association lists (dicts) of folded values.
* **Lengths** carry a flag "is a numpy float": `np.sum([])` and `np.prod(())`
  are floats in numpy and a float cannot be used as a slice bound.
* **Patterns** are trees; a dictionary node carries the two cached lengths,
  exactly the attributes of the Python object.  `DictHeap.v` models the same
  objects as mutable references and proves that the tree view is sound.
* **External functions**: Cholesky is modelled by the actual (row) algorithm
  reading the lower triangle, not by an oracle.  `eigh`, sparse factorisation,
  `inv` and the float<->text conversion of `repr`/`json` are universally
  quantified parameters of the theorems with their contract as an explicit
  hypothesis; instances satisfying the hypotheses are exhibited.

## 3. Properties: what is modelled and how it is proved

C01-C06, C09, C11, C16-C19, C65: `Pattern.v`; by structural induction on the
pattern tree, leaf lemmas per pattern type (real analysis for exp/log, the
softmax identities, uniqueness and existence of the Cholesky factor).
C07, C08, C10, C59, C60: leaf characterisations on extended reals; the false
half of each statement is a theorem named `..._refuted` with a witness.
C12-C15: index theorems by induction on the tree; C13 is a non-interference
statement about pairs of vectors.
C20-C24: `DictHeap.v`; invariant by induction over arbitrary operation lists
on a heap of shared mutable dictionaries.
C25-C31: `Json.v` has a character-level printer and parser for the JSON the
library produces; round trip by induction on JSON values, then on patterns.
C32-C34: registry and file store as state machines.
C35-C40: `FunWrap.v`; a callable is a function of positional arguments, keyword
arguments and a state, so theorems say how often and with what it is called; the
loop over sorted argnums is proved equal to pointwise replacement (`placed`).
C41-C45: `Jac.v`; derivatives are stated with the standard library's
`derivable_pt_lim` for the public `fold`/`flatten` composition, coordinate by
coordinate.  `SimplexArrayPattern`, numeric patterns and the containers compute
their Jacobians by formula and are proved right.  `PSDSymmetricMatrixPattern`
hands its transform to `autograd.jacobian`, which is a parameter `ad`; trees with
PSD members are covered under the hypothesis that `ad` is right at the PSD
members (`..._with_psd`), and `C44_psd_differentiable` shows that the hypothesis
can be met at every interior value: the partial derivatives of both transforms
exist (`CholDiff.v` differentiates the Cholesky recursion).  For freeing, the
plain partial derivatives are not what autograd returns (its Cholesky rule
symmetrises, numpy's Cholesky reads the lower triangle only):
`C44_symmetrised_refuted` proves that no Jacobian with equal columns for mirrored
entries is the matrix of partial derivatives beyond size one.  What such a Jacobian
can satisfy is `jacobian_on_symmetric`, derivatives along straight lines in the
symmetric matrices; `C44_derivatives_along` lifts this to whole trees, and
`C43_inverse_from_derivatives` derives the inverse property from it.
C46-C48: `Psd.v`; Cholesky algorithm verified; positive definiteness is the
quadratic form over all vectors.
C49-C52, C62-C64, C67: `Optim.v`.  Operators are arbitrary functions on vectors;
histories are lists of method calls, some of which raise.  `LinAlg.v` proves the
linear algebra that is needed from scratch (a square matrix with orthonormal
columns has orthonormal rows; an injective square matrix is invertible).  `eigh`,
`inv`, Cholesky and `factorized` are parameters with their contract as hypothesis.
The objective's counter, log and printed lines are compared with a description of
the trace of calls (`SpecOptim.v`); C67 adds a heap because the log keeps the
caller's array.
C53-C57, C68, C69: `AdSupp.v`.  For the linear operations "derivative" is stated as
an exact difference quotient and "vjp" as the adjoint of the jvp (`SpecAd.v`).  For
`inv`, `solve` and `slogdet` the derivatives are limits (`derivable_pt_lim`) along
every line through an invertible matrix; `inv` and `solve` are parameters with their
contract.  `DetFacts.v` proves the determinant theory that is needed (alternating
forms are multiples of the determinant, products, Jacobi's formula) from scratch.
C58: `Names.v`; strings are lists of code points.  What a numeral and a bracketed
index list are is defined by reading them (`SpecNames.v`), not by the code's
printing, and reading is proved unambiguous.  Two parts of the natural statement are
false and recorded as `_refuted`: names of a dictionary can collide, and
`flat_names(None)` does not use the dictionary's own default.
C61: `Simplex.v`.
C70-C73: `Flt.v`.  Here nothing is exact: additions, products, quotients and square
roots are Flocq's binary64 operations (round to nearest even, overflow, gradual
underflow, signed zeros).  `np.exp` and `np.log` may be off by a relative 2^-50 and
`np.sum` may add in any order (`SpecFlt.np_contract`); `FltInst.v` shows that
correctly rounded functions meet the contract.  The positive theorems give explicit
ranges and error bounds; what fails outside them is recorded as `_refuted` for whole
ranges of inputs, not for single ones.
C84: the same for PSD matrices of any size, `FltMat.v`.  `np.matmul(l, l.T)` may add the
products in any order, with or without fused multiply-adds, but must fill both triangles
alike (numpy calls the BLAS routine `syrk`); `DemoFltMat.v` has an instance.
C88: the way back, `FltChol.v`.  `np.linalg.cholesky` may subtract the products in any order
or grouping, and divide by the pivot's root or multiply with its reciprocal, but stops at the
first pivot that is not positive; blocked and recursive LAPACK routines are of this form as
long as they solve the triangular systems by substitution.  `DemoFltChol.v` has an instance.
C89 puts the leaves together: `FltPat.v` folds, validates and flattens whole pattern trees in
binary64, and `SpecFltPat.v` compares the result leaf by leaf with that of `Pattern.v`.
C92 folds and flattens free vectors of whole trees (same model), with errors in terms of the
distance to the bounds and the conditioning of the matrices (`SpecFltTrip.v`).
C90 does the same as C89 for the Jacobians and log determinants of trees without PSD matrices
(`FltJac.v`), compared with those of `Jac.v`.
C94 sums arrays by group (`FltSum.v`) and bounds the error of `logsumexp64` for all finite rows.
C95 folds simplex coordinates of any size up to 2^50 (`SpecFltWide.v`) and infinite ones.
C74-C76: end-to-end statements about the model of C01-C45: what minimising a free
objective means for the folded problem, the chain rule through
`FlattenFunctionInput` and `unfreeing_jacobian`, and which folded gradients make the
free gradient vanish.  Differentiability of the objective is the usual
(Fréchet) one; differentiability of `fold` is proved, not assumed.
C77: `Random.v`; the generator is any state machine producing reals.
C78: `Alias.v` runs fold/flatten on a heap of buffers; a simulation proof shows that it
computes what `Pattern.v` computes, and tracks which arrays are windows of older buffers.
C79-C81: `Text.v`, `Access.v`.  `Text.validate_text` repeats `Pattern.validate` with the
messages; C80_empty_iff_valid proves that the two agree on every value.  What a tuple's
text is is defined by reading it.  Texts of finite floats are a parameter, as in C25.
C82, C83: the parser of `Json.v` is proved to accept exactly an inductively defined
grammar (`SpecGrammar.v`), and the pattern readers are characterised on descriptions
that the library did not write: entries in any order, missing, repeated or unknown.
C85: the model's numbers include the IEEE infinities and NaN, so folding and flattening
them is defined; `SpecBound.v` says which infinities stand for something the transforms
can represent, the theorems extend C01-C03 to them and say what the others become.
C86: `RevPsd.v` writes out the backward passes through the two PSD transforms, so that for
these the parameter `ad` of C41-C45 and C76 is replaced by a computation.  The rules for
`exp`, `log`, `matmul`, `diag`, indexing and `cholesky` are autograd's as the author
remembers them (autograd is not in the sandbox); the rule of `_unvectorize_ld_matrix` is
the library's own.  `np.linalg.solve` is a parameter with its contract for triangular
systems; `DemoRev.v` has an instance.
C87: optimality statements on top of C76: `SpecDir.v` defines directions, segments, convex
objectives and minima in terms of `fold` and `flatten` only.
C91: the second-order statements; `SpecSecond.v` defines Hessians by second-order expansions.
C93 carries them to preconditioned coordinates (`SpecWhite.v`). (The docstring of
`set_preconditioner_with_hessian` announces a returned Hessian; the code returns `None`, as modelled.)

No property is currently considered inexpressible.

## 4. Not modelled

Floating point rounding, overflow and underflow outside `Flt.v`, `FltMat.v`, `FltChol.v`,
`FltPat.v`, `FltJac.v` and `FltSum.v` (C70-C73, C84, C88-C90, C92, C94 and C95 cover free folding, validation, flattening,
PSD-free Jacobians and grouped sums; everything else is exact); signed zero
and NaN payloads likewise; complex numbers;
autograd's tracing itself (the derivative rules registered by the library are
modelled and proved right; which rules run, and in which order, is written out for the PSD
transforms only, C86); `__str__` of wrapped functions, the
texts of errors other than those of C80; numpy
integer subtypes other than the float/int distinction for lengths; warnings;
`versioneer.py`, `_version.py`, `setup.py`, docs.

## 5. Trusted base

Coq's kernel; the axioms of the standard library's real numbers as listed by
`Print Assumptions` (`ClassicalDedekindReals.sig_forall_dec`,
`ClassicalDedekindReals.sig_not_dec`,
`FunctionalExtensionality.functional_extensionality_dep`, and `Classical_Prop.classic`
where the library uses it; `AXIOMS.md` lists them theorem by theorem); the reading of the Python source, and the behaviour of
numpy, scipy, autograd and json recorded in the comments of the model files.  The latter
is stated from general knowledge of these packages: neither their sources nor their
documentation were available, and nothing could be run to check it.

`Flt*.v` use the Flocq library (definitions and lemmas only; it adds no axioms:
`Print Assumptions` lists nothing but the standard library's for C70-C73, C84, C88-C90, C92, C94 and C95).
