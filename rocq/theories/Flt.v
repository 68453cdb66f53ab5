(** * The leaf transforms in binary64 arithmetic.

    The rest of the development uses exact reals.  Here the same formulas are
    evaluated as numpy evaluates them on float64 arrays: every operation of
    paragami/numeric_array_patterns.py, simplex_patterns.py and
    psdmatrix_patterns.py is rounded to nearest even, overflows and underflows as
    IEEE 754 says.  Floats and their operations are those of the Flocq library.
    [np.exp], [np.log] and [np.sum] are parameters (SpecFlt.v says what is assumed
    of them).

    Simplifications: all NaNs are one value; bounds are floats (an int bound that
    is not a float, and Python's exact subtraction of two int bounds, are not
    modelled). *)
From Coq Require Import ZArith.
From Flocq Require Import IEEE754.BinarySingleNaN.
From Verif Require Import Base.
Local Open Scope list_scope.

Definition f64 : Set := binary_float 53 1024.
Definition prec64 : FLX.Prec_gt_0 53 := eq_refl.
Definition emax64 : Prec_lt_emax 53 1024 := eq_refl.

Definition fadd : f64 -> f64 -> f64 := @Bplus 53 1024 prec64 emax64 mode_NE.
Definition fsub : f64 -> f64 -> f64 := @Bminus 53 1024 prec64 emax64 mode_NE.
Definition fmul : f64 -> f64 -> f64 := @Bmult 53 1024 prec64 emax64 mode_NE.
Definition fdiv : f64 -> f64 -> f64 := @Bdiv 53 1024 prec64 emax64 mode_NE.
Definition fsqrt : f64 -> f64 := @Bsqrt 53 1024 prec64 emax64 mode_NE.
Definition fabs : f64 -> f64 := @Babs 53 1024.
(** [a < b]; False when one of them is NaN. *)
Definition flt (a b : f64) : bool := @Bltb 53 1024 a b.
Definition feq (a b : f64) : bool := @Beqb 53 1024 a b.

(** The float nearest to [m * 2^e]. *)
Definition flit (m e : Z) : f64 := @binary_normalize 53 1024 prec64 emax64 mode_NE m e false.
Definition fzero : f64 := flit 0 0.
Definition fone : f64 := flit 1 0.
Definition fminus1 : f64 := flit (-1) 0.
Definition finf : f64 := B754_infinity false.
Definition fninf : f64 := B754_infinity true.
Definition fnan : f64 := B754_nan.

Definition is_pinf (x : f64) : bool := match x with B754_infinity false => true | _ => false end.
Definition is_ninf (x : f64) : bool := match x with B754_infinity true => true | _ => false end.

(** The numpy functions that are not IEEE operations. *)
Record np64 : Type := mkNp { np_exp : f64 -> f64; np_log : f64 -> f64; np_sum : list f64 -> f64 }.

(** ** Numeric arrays *)

(** numeric_array_patterns.py:96-111 [_constrain_array] (also 43-58), one entry. *)
Definition constrain64 (np : np64) (lb ub x : f64) : f64 :=
  if is_pinf ub then
    if is_ninf lb then x else fadd (np_exp np x) lb
  else
    if is_ninf lb then fsub ub (np_exp np (fmul fminus1 x))
    else
      let e := np_exp np x in
      fadd (fdiv (fmul (fsub ub lb) e) (fadd fone e)) lb.

(** numeric_array_patterns.py:11-25 [_unconstrain_array], one entry. *)
Definition unconstrain64 (np : np64) (lb ub a : f64) : f64 :=
  if is_pinf ub then
    if is_ninf lb then a else np_log np (fsub a lb)
  else
    if is_ninf lb then fmul fminus1 (np_log np (fsub ub a))
    else fsub (np_log np (fsub a lb)) (np_log np (fsub ub a)).

(** numeric_array_patterns.py:202-207: the value part of [validate_folded]. *)
Definition num64_valid (lb ub : f64) (a : list f64) : bool :=
  negb (existsb (fun v => flt v lb) a) && negb (existsb (fun v => flt ub v) a).

(** numeric_array_patterns.py:225-228: [fold(free=True)] of a flat vector. *)
Definition num64_fold (np : np64) (lb ub : f64) (x : list f64) : list f64 :=
  map (constrain64 np lb ub) x.
(** numeric_array_patterns.py:236-244: [flatten(free=True)] with validation. *)
Definition num64_flatten (np : np64) (lb ub : f64) (a : list f64) : res (list f64) :=
  if num64_valid lb ub a then Ok (map (unconstrain64 np lb ub) a) else Err ValueError.

(** ** One simplex *)

(** [np.max] of a non-empty row without NaN. *)
Definition fmax (a b : f64) : f64 := if flt a b then b else a.
Definition fmaxl (l : list f64) : f64 :=
  match l with [] => fnan | a :: r => fold_left fmax r a end.

(** simplex_patterns.py:21-23: the body of [logsumexp] on one row. *)
Definition logsumexp64 (np : np64) (row : list f64) : f64 :=
  fadd (np_log np (np_sum np (map (fun v => np_exp np (fsub v (fmaxl row))) row))) (fmaxl row).
(** simplex_patterns.py:26-36 [_constrain_simplex_matrix] on one row. *)
Definition simplex64_fold (np : np64) (x : list f64) : list f64 :=
  let aug := fzero :: x in
  map (fun v => np_exp np (fsub v (logsumexp64 np aug))) aug.
(** [1e-12]. *)
Definition tol64 : f64 := flit 4951760157141521 (-92).
(** simplex_patterns.py:153-158: the value part of [validate_folded] on one row. *)
Definition simplex64_valid (np : np64) (a : list f64) : bool :=
  negb (existsb (fun v => flt v fzero) a) &&
  negb (flt tol64 (fabs (fsub (np_sum np a) fone))).
(** simplex_patterns.py:46-48 [_unconstrain_simplex_matrix] on one row, and
    simplex_patterns.py:176-182 [flatten(free=True)] with validation. *)
Definition simplex64_flatten (np : np64) (a : list f64) : res (list f64) :=
  if simplex64_valid np a then
    match a with
    | [] => Err IndexError
    | a0 :: r => Ok (map (fun v => fsub (np_log np v) (np_log np a0)) r)
    end
  else Err ValueError.

(** ** PSD matrices *)

(** psdmatrix_patterns.py:123-129 [_exp_matrix_diagonal], entry [i, j]:
    [mat_exp_diag + mat - mat_diag] with diagonal matrices made by
    [make_diagonal]. *)
Definition exp_diag64 (np : np64) (m : nat -> nat -> f64) (i j : nat) : f64 :=
  fsub (fadd (if Nat.eqb i j then np_exp np (m i i) else fzero) (m i j))
       (if Nat.eqb i j then m i i else fzero).
(** psdmatrix_patterns.py:132-138 [_log_matrix_diagonal]. *)
Definition log_diag64 (np : np64) (m : nat -> nat -> f64) (i j : nat) : f64 :=
  fsub (fadd (if Nat.eqb i j then np_log np (m i i) else fzero) (m i j))
       (if Nat.eqb i j then m i i else fzero).

(** psdmatrix_patterns.py:149-154 [_unpack_posdef_matrix] for a 1 x 1 matrix: the
    product of the factor with its transpose is one multiplication. *)
Definition psd64_fold (np : np64) (diag_lb x : f64) : f64 :=
  let l := exp_diag64 np (fun _ _ => x) 0 0 in
  fadd (fmul l l) diag_lb.
(** psdmatrix_patterns.py:246-289 and 291-297, 141-146 for a 1 x 1 matrix:
    validation ([mat.T == mat] fails for NaN), then Cholesky, which is the square
    root of a positive entry. *)
Definition psd64_flatten (np : np64) (diag_lb a : f64) : res f64 :=
  if flt a diag_lb then Err ValueError
  else if negb (feq a a) then Err ValueError
  else
    let b := fsub a diag_lb in
    if flt fzero b then Ok (log_diag64 np (fun _ _ => fsqrt b) 0 0) else Err LinAlgError.
