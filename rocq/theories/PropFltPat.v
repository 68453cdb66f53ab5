(** * C89: whole patterns in float64. *)
From Coq Require Import Reals ZArith Floats.SpecFloat.
From Verif Require Import Base Num Nd Pattern Spec Flt SpecFlt FltMat SpecFltMat FltChol SpecFltChol FltPat SpecFltPat
  FltPatProps FltPatValid FltInst DemoFlt DemoFltMat DemoFltChol DemoFltPat.
Local Open Scope R_scope.

Theorem C89_fold : forall np, np_contract np -> forall gram, gram_contract gram ->
  forall p x vv, usable p -> modest p -> flat_length p (Some true) = Ok (plint (length x)) -> small64 x ->
  exists v w, pfold64 np gram p x = Ok v /\ fold p (vec (map num64 x)) (Some true) vv = Ok w /\ leafwise fold_err p v w.
Proof. exact pat64_fold. Qed.
Print Assumptions C89_fold.

Example C89_fold_case : np_contract np_inst /\ gram_contract gram_inst /\ usable q64 /\ modest q64 /\ unit_bounds q64 /\
  flat_length q64 (Some true) = Ok (plint (length x64)) /\ small64 x64.
Proof. exact fold64_case. Qed.

Theorem C89_wrong_length : forall np gram p x vv, usable p -> flat_length p (Some true) <> Ok (plint (length x)) ->
  exists e, pfold64 np gram p x = Err e /\ fold p (vec (map num64 x)) (Some true) vv = Err e.
Proof. exact pat64_wrong. Qed.
Print Assumptions C89_wrong_length.

Example C89_wrong_length_case : usable q64 /\ flat_length q64 (Some true) <> Ok (plint (length (fint 9 :: x64))).
Proof. exact wrong64_case. Qed.

(** The case of [C89_fold_case] meets the hypotheses. *)
Theorem C89_valid : forall np, np_contract np -> forall gram, gram_contract gram ->
  forall p x vv, usable p -> modest p -> unit_bounds p -> flat_length p (Some true) = Ok (plint (length x)) -> small64 x ->
  exists v, pfold64 np gram p x = Ok v /\ pvalid64 np p v vv = Ok None.
Proof. exact pat64_valid. Qed.
Print Assumptions C89_valid.

Theorem C89_flatten : forall np, np_contract np -> forall chol, chol_contract chol ->
  forall p v vv y, usable p -> modest p -> roomy p v -> pflatten64 np chol p v (Some true) = Ok y ->
  flat_length p (Some true) = Ok (plint (length y)) /\ Forall fin y /\
  exists w, fold p (vec (map num64 y)) (Some true) vv = Ok w /\ leafwise flat_err p v w.
Proof. exact pat64_flatten. Qed.
Print Assumptions C89_flatten.

Example C89_flatten_case : np_contract np_inst /\ chol_contract chol_inst /\ gram_contract gram_inst /\ usable q64 /\ modest q64 /\
  roomy q64 v64 /\ exists y, pflatten64 np_inst chol_inst q64 v64 (Some true) = Ok y /\ small64 y.
Proof. exact flatten64_case. Qed.

(** The case of [C89_flatten_case] meets the hypotheses. *)
Theorem C89_round : forall np, np_contract np -> forall chol, chol_contract chol -> forall gram, gram_contract gram ->
  forall p v vv y, usable p -> modest p -> roomy p v -> pflatten64 np chol p v (Some true) = Ok y -> small64 y ->
  exists v' w, pfold64 np gram p y = Ok v' /\ fold p (vec (map num64 y)) (Some true) vv = Ok w /\
    leafwise flat_err p v w /\ leafwise fold_err p v' w.
Proof. exact pat64_round. Qed.
Print Assumptions C89_round.

(** Validation in float64 is exact validation when no simplex sum is close to the tolerance,
    and [flatten] raises what it should. *)
Theorem C89_validate : forall np, np_contract np -> forall chol p v vv, exact_bounds p -> clear p v ->
  pvalid64 np p v vv = validate s64 p v vv /\
  (forall m, validate s64 p v vv = Ok (Some m) -> pflatten64 np chol p v vv = Err ValueError) /\
  (forall e, validate s64 p v vv = Err e -> pflatten64 np chol p v vv = Err e).
Proof. exact pat64_validate. Qed.
Print Assumptions C89_validate.

Example C89_validate_case : np_contract np_inst /\ exact_bounds (PArr [2%nat] n01 None) /\ clear (PArr [2%nat] n01 None) w64 /\
  clear (PArr [2%nat] n01 None) h64 /\ validate s64 (PArr [2%nat] n01 None) w64 (Some true) = Ok (Some MsgShape) /\
  validate s64 (PArr [2%nat] n01 None) h64 (Some true) = Ok (Some (MsgAt [1%nat] MsgUpper)).
Proof. exact validate64_case. Qed.

(** Valid values whose matrices are positive definite by a margin can be flattened. *)
Theorem C89_accepts : forall np, np_contract np -> forall chol, chol_contract chol ->
  forall p v, usable p -> exact_bounds p -> roomy p v -> clear p v -> sturdy p v ->
  validate s64 p v (Some true) = Ok None -> exists y, pflatten64 np chol p v (Some true) = Ok y.
Proof. exact pat64_accepts. Qed.
Print Assumptions C89_accepts.

Example C89_accepts_case : np_contract np_inst /\ chol_contract chol_inst /\ usable q64 /\ exact_bounds q64 /\ roomy q64 v64 /\ clear q64 v64 /\
  sturdy q64 v64 /\ validate s64 q64 v64 (Some true) = Ok None.
Proof. exact accepts64_case. Qed.

(** Float bounds and integer bounds up to 2^53 are used exactly. *)
Theorem C89_float_bounds : forall f, SpecFloat.valid_binary 53 1024 f = true -> exact_bound (PyFloat f).
Proof. exact exact_float. Qed.
Print Assumptions C89_float_bounds.

Theorem C89_int_bounds : forall z, (Z.abs z < 2 ^ 53)%Z -> exact_bound (PyInt z).
Proof. exact exact_int. Qed.
Print Assumptions C89_int_bounds.

Example C89_bounds_case : SpecFloat.valid_binary 53 1024 (S754_finite true 4503599627370496 (-53)) = true /\ (Z.abs (-3) < 2 ^ 53)%Z.
Proof. exact bounds64_case. Qed.
