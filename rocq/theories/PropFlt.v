(** * Property theorems C70-C73: the leaf transforms in binary64 arithmetic. *)
From Coq Require Import Reals ZArith List.
From Flocq Require Import IEEE754.BinarySingleNaN.
From Verif Require Import Base Flt SpecFlt FltNum FltNum2 FltNum3 FltSimp2 FltPsd FltInst DemoFlt.
Import ListNotations.
Local Open Scope R_scope.

(** The assumptions on [np.exp], [np.log] and [np.sum] are consistent. *)
Example C70_contract_case : np_contract np_inst.
Proof. exact np_inst_ok. Qed.

(** ** C70: at most one bound *)

(** The folded value holds no NaN and passes its own validation. *)
Theorem C70_open_valid : forall np, np_contract np -> forall lb ub, low_ok lb -> up_ok ub ->
  lb = fninf \/ ub = finf -> forall x, Forall not_nan x ->
  Forall not_nan (num64_fold np lb ub x) /\ num64_valid lb ub (num64_fold np lb ub x) = true.
Proof. exact num64_open. Qed.
Print Assumptions C70_open_valid.

Example C70_open_valid_case : np_contract np_inst /\ low_ok (fint 1) /\ up_ok finf /\ (fint 1 = fninf \/ finf = finf) /\
  Forall not_nan [fint 3; finf; fninf; B754_zero true].
Proof. exact case_open. Qed.

(** Flattening a folded value gives back the free value up to rounding; the loss
    grows with [|lb| / exp x]. *)
Theorem C70_lower_round_trip : forall np, np_contract np -> forall lb, fin lb -> Rabs (val lb) <= pow2 1000 ->
  forall x, fin x -> Rabs (val x) <= 700 -> Rabs (val lb) <= pow2 40 * exp (val x) ->
  exists y, num64_flatten np lb finf (num64_fold np lb finf [x]) = Ok [y] /\ fin y /\
    Rabs (val y - val x) <= pow2 (-49) * (1 + Rabs (val x) + Rabs (val lb) / exp (val x)).
Proof. exact lower_round_trip. Qed.
Print Assumptions C70_lower_round_trip.

Example C70_lower_round_trip_case : fin (fint 5) /\ Rabs (val (fint 5)) <= pow2 1000 /\ fin (fint (-20)) /\
  Rabs (val (fint (-20))) <= 700 /\ Rabs (val (fint 5)) <= pow2 40 * exp (val (fint (-20))).
Proof. exact case_lower. Qed.

Theorem C70_upper_round_trip : forall np, np_contract np -> forall ub, fin ub -> Rabs (val ub) <= pow2 1000 ->
  forall x, fin x -> Rabs (val x) <= 700 -> Rabs (val ub) <= pow2 40 * exp (- val x) ->
  exists y, num64_flatten np fninf ub (num64_fold np fninf ub [x]) = Ok [y] /\ fin y /\
    Rabs (val y - val x) <= pow2 (-49) * (1 + Rabs (val x) + Rabs (val ub) / exp (- val x)).
Proof. exact upper_round_trip. Qed.
Print Assumptions C70_upper_round_trip.

Example C70_upper_round_trip_case : fin (fint (-5)) /\ Rabs (val (fint (-5))) <= pow2 1000 /\ fin (fint (-3)) /\
  Rabs (val (fint (-3))) <= 700 /\ Rabs (val (fint (-5))) <= pow2 40 * exp (- val (fint (-3))).
Proof. exact case_upper. Qed.

Theorem C70_unbounded_exact : forall np x, num64_fold np fninf finf x = x /\
  num64_flatten np fninf finf x = Ok x.
Proof. exact free_round_trip. Qed.
Print Assumptions C70_unbounded_exact.

(** "Flattening a folded value gives back the free value (up to rounding)" fails
    without a relation between [lb] and [x]: everything below -40 is folded to the
    bound itself and comes back as -inf. *)
Theorem C70_round_trip_refuted : forall np, np_contract np -> forall lb, fin lb ->
  1 <= Rabs (val lb) <= pow2 1022 ->
  forall x, fin x -> val x <= -40 ->
  num64_fold np lb finf [x] = [lb] /\ num64_flatten np lb finf [lb] = Ok [fninf].
Proof. exact absorbed_round_trip. Qed.
Print Assumptions C70_round_trip_refuted.

Example C70_round_trip_refuted_case : fin (fint (-2)) /\ 1 <= Rabs (val (fint (-2))) <= pow2 1022 /\
  fin (fint (-50)) /\ val (fint (-50)) <= -40.
Proof. exact case_absorbed. Qed.

(** ** C71: two bounds *)

(** Up to 700 the result is finite, not below the lower bound, and close to the
    exact value. *)
Theorem C71_accurate : forall np, np_contract np -> forall lb ub, fin lb -> fin ub ->
  val lb < val ub -> Rabs (val lb) <= pow2 11 -> Rabs (val ub) <= pow2 11 ->
  forall x, fin x -> val x <= 700 ->
  fin (constrain64 np lb ub x) /\
  val lb <= val (constrain64 np lb ub x) /\
  Rabs (val (constrain64 np lb ub x)
        - ((val ub - val lb) * (exp (val x) / (1 + exp (val x))) + val lb))
    <= pow2 (-49) * (Rabs (val lb) + Rabs (val ub)) + pow2 (-1050).
Proof. exact two_sided_accurate. Qed.
Print Assumptions C71_accurate.

Example C71_accurate_case : fin (fint (-2)) /\ fin (fint 7) /\ val (fint (-2)) < val (fint 7) /\
  Rabs (val (fint (-2))) <= pow2 11 /\ Rabs (val (fint 7)) <= pow2 11 /\
  fin (fint (-1000)) /\ val (fint (-1000)) <= 700.
Proof. exact case_two. Qed.

Theorem C71_unit_interval : forall np, np_contract np -> forall x, fin x -> val x <= 700 ->
  fin (constrain64 np fzero fone x) /\ 0 <= val (constrain64 np fzero fone x) <= 1 /\
  num64_valid fzero fone (num64_fold np fzero fone [x]) = true.
Proof. exact unit_interval. Qed.
Print Assumptions C71_unit_interval.

Example C71_unit_interval_case : fin (fint 100) /\ 39 <= val (fint 100) <= 709.
Proof. exact case_above. Qed.

(** "A finite free vector folds to a vector without NaN" fails from 711 on, for
    every pair of bounds, and validation accepts the NaN. *)
Theorem C71_no_nan_refuted : forall np, np_contract np -> forall lb ub, fin lb -> fin ub -> val lb < val ub ->
  forall x, fin x -> 711 <= val x ->
  num64_fold np lb ub [x] = [fnan] /\ num64_valid lb ub [fnan] = true.
Proof. exact two_sided_overflow. Qed.
Print Assumptions C71_no_nan_refuted.

Example C71_no_nan_refuted_case : fin (fint (-2)) /\ fin (fint 7) /\ val (fint (-2)) < val (fint 7) /\
  fin (fint 800) /\ 711 <= val (fint 800).
Proof. exact case_overflow. Qed.

(** "The folded value is within the bounds" fails for bounds -0.7 and 0.3 and
    every x between 39 and 709; such a value cannot be flattened. *)
Theorem C71_within_bounds_refuted : forall np, np_contract np -> forall x, fin x -> 39 <= val x <= 709 ->
  fin (constrain64 np lbm07 ub03 x) /\ val ub03 < val (constrain64 np lbm07 ub03 x) /\
  num64_valid lbm07 ub03 (num64_fold np lbm07 ub03 [x]) = false /\
  num64_flatten np lbm07 ub03 (num64_fold np lbm07 ub03 [x]) = Err ValueError.
Proof. exact above_ub. Qed.
Print Assumptions C71_within_bounds_refuted.

Example C71_within_bounds_refuted_case : fin (fint 100) /\ 39 <= val (fint 100) <= 709.
Proof. exact case_above. Qed.

(** ** C72: simplexes *)

(** Up to 1000 entries between -100 and 100: the folded value passes its own
    validation, is within 3e-13 of the exact one, and flattens back to within
    1e-12. *)
Theorem C72_valid : forall np, np_contract np -> forall x, moderate x ->
  simplex64_valid np (simplex64_fold np x) = true.
Proof. exact simplex_moderate_valid. Qed.
Print Assumptions C72_valid.

Theorem C72_accurate : forall np, np_contract np -> forall x, moderate x ->
  Forall2 (fun p v => fin p /\
    Rabs (val p - softmax (0 :: map val x) v) <= 3 / 10000000000000 * softmax (0 :: map val x) v)
    (simplex64_fold np x) (0 :: map val x).
Proof. exact simplex_moderate_close. Qed.
Print Assumptions C72_accurate.

Theorem C72_round_trip : forall np, np_contract np -> forall x, moderate x ->
  exists y, simplex64_flatten np (simplex64_fold np x) = Ok y /\
    Forall2 (fun a b => fin a /\ Rabs (val a - val b) <= / 1000000000000) y x.
Proof. exact simplex_moderate_round_trip. Qed.
Print Assumptions C72_round_trip.

Example C72_case : moderate [fint 100; fint (-100); fint 3].
Proof. exact case_moderate. Qed.

(** Larger entries: still no NaN and nothing negative. *)
Theorem C72_tame : forall np, np_contract np -> forall x,
  (length x < Z.to_nat 1048576)%nat -> Forall (fun v => fin v /\ Rabs (val v) <= pow2 1000) x ->
  Forall (fun p => not_nan p /\ flt p fzero = false) (simplex64_fold np x).
Proof. exact simplex_tame. Qed.
Print Assumptions C72_tame.

Example C72_tame_case : (length [flit 1 900; fint 3] < Z.to_nat 1048576)%nat /\
  Forall (fun v => fin v /\ Rabs (val v) <= pow2 1000) [flit 1 900; fint 3].
Proof. exact case_tame. Qed.

(** "The folded value is a valid simplex" fails for larger entries. *)
Theorem C72_valid_refuted : forall np, np_contract np -> forall z, (16384 <= z <= 131071)%Z ->
  simplex64_valid np (simplex64_fold np [flit z 0; flit z 0]) = false.
Proof. exact not_simplex. Qed.
Print Assumptions C72_valid_refuted.

Theorem C72_round_trip_refuted : forall np, np_contract np -> forall z, (16384 <= z <= 131071)%Z ->
  simplex64_flatten np (simplex64_fold np [flit z 0; flit z 0]) = Err ValueError.
Proof. exact not_simplex_flatten. Qed.
Print Assumptions C72_round_trip_refuted.

Example C72_refuted_case : (16384 <= 16384 <= 131071)%Z.
Proof. exact z_range. Qed.

(** ** C73: the diagonal of PSD matrices *)

(** [exp(d) + d - d] and [log(l) + l - l] on the diagonal; the error is relative
    to [exp d + |d|] and [|log l| + l], not to the result.  Off the diagonal both
    maps are exact. *)
Theorem C73_exp_diagonal : forall np, np_contract np -> forall m i, fin (m i i) -> Rabs (val (m i i)) <= 700 ->
  fin (exp_diag64 np m i i) /\
  Rabs (val (exp_diag64 np m i i) - exp (val (m i i)))
    <= pow2 (-49) * (exp (val (m i i)) + Rabs (val (m i i))).
Proof. exact exp_diag_accurate. Qed.
Print Assumptions C73_exp_diagonal.

Theorem C73_log_diagonal : forall np, np_contract np -> forall m i, fin (m i i) ->
  pow2 (-1000) <= val (m i i) <= pow2 1000 ->
  fin (log_diag64 np m i i) /\
  Rabs (val (log_diag64 np m i i) - ln (val (m i i)))
    <= pow2 (-49) * (Rabs (ln (val (m i i))) + val (m i i)).
Proof. exact log_diag_accurate. Qed.
Print Assumptions C73_log_diagonal.

Theorem C73_off_diagonal : forall np m i j, i <> j -> fin (m i j) ->
  (fin (exp_diag64 np m i j) /\ val (exp_diag64 np m i j) = val (m i j)) /\
  (fin (log_diag64 np m i j) /\ val (log_diag64 np m i j) = val (m i j)).
Proof. exact off_diag. Qed.
Print Assumptions C73_off_diagonal.

Example C73_exp_case : fin (dmat 1 1) /\ Rabs (val (dmat 1 1)) <= 700 /\ fin (dmat 1 0) /\ 1%nat <> 0%nat.
Proof. exact case_diag. Qed.

Example C73_log_case : fin (lmat 1 1) /\ pow2 (-1000) <= val (lmat 1 1) <= pow2 1000.
Proof. exact case_log_diag. Qed.

(** "A folded matrix can be flattened" fails for 1 x 1 matrices and free values
    below -40: the factor is 0, the matrix is [diag_lb], and the Cholesky
    decomposition raises. *)
Theorem C73_fold_flatten_refuted : forall np, np_contract np -> forall lb, fin lb -> forall x, fin x -> val x <= -40 ->
  fin (psd64_fold np lb x) /\ val (psd64_fold np lb x) = val lb /\
  psd64_flatten np lb (psd64_fold np lb x) = Err LinAlgError.
Proof. exact psd_underflow. Qed.
Print Assumptions C73_fold_flatten_refuted.

Example C73_fold_flatten_refuted_case : fin (fint 1) /\ fin (fint (-41)) /\ val (fint (-41)) <= -40.
Proof. exact case_psd_low. Qed.

(** "Folding a flattened matrix gives the matrix back" fails for 1 x 1 matrices
    with an entry from 2^128 on: the free value is 0, which folds to 1. *)
Theorem C73_flatten_fold_refuted : forall np, np_contract np -> forall a, fin a -> pow2 128 <= val a ->
  exists y, psd64_flatten np fzero a = Ok y /\ fin y /\ val y = 0 /\
    val (psd64_fold np fzero y) = 1.
Proof. exact psd_overflow. Qed.
Print Assumptions C73_flatten_fold_refuted.

Example C73_flatten_fold_refuted_case : fin (flit 3 200) /\ pow2 128 <= val (flit 3 200).
Proof. exact case_psd_high. Qed.
