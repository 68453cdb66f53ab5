(** * Property theorems C95: free simplex coordinates of any size in float64. *)
From Coq Require Import Reals ZArith List.
From Flocq Require Import IEEE754.BinarySingleNaN.
From Verif Require Import Base Flt SpecFlt SpecFltSum SpecFltWide FltInst DemoFlt FltWide FltGaps DemoFltWide.
Import ListNotations.
Local Open Scope R_scope.

(** The error of every entry grows with the size of the coordinates. *)
Theorem C95_accurate : forall np, np_contract np -> forall x B, wide B x ->
  Forall2 (fun p v => fin p /\ 0 <= val p /\
    Rabs (val p - softmax (0 :: map val x) v) <=
      softmax (0 :: map val x) v * (INR (S (length x)) * pow2 (-43) + B * pow2 (-51)) + pow2 (-48))
    (simplex64_fold np x) (0 :: map val x).
Proof. exact wide_accurate. Qed.
Print Assumptions C95_accurate.

Theorem C95_sum : forall np, np_contract np -> forall x B, wide B x ->
  Rabs (total (simplex64_fold np x) - 1) <= INR (S (length x)) * pow2 (-42) + B * pow2 (-51).
Proof. exact wide_sum. Qed.
Print Assumptions C95_sum.
Example C95_case : np_contract np_inst /\ wide 1000000 [fint 1000000; fint (-1000000); fint 999999].
Proof. exact wide_case. Qed.

(** A coordinate +inf or NaN makes the whole simplex NaN. *)
Theorem C95_infinite : forall np, np_contract np -> forall x, In finf x \/ In fnan x ->
  logsumexp64 np (fzero :: x) = fnan /\ simplex64_fold np x = repeat fnan (S (length x)).
Proof. exact bad_coordinate. Qed.
Print Assumptions C95_infinite.
Example C95_infinite_case : In finf [fint 3; finf; fninf] \/ In fnan [fint 3; finf; fninf].
Proof. exact inf_case. Qed.

(** "Flatten and fold of a valid simplex return it" fails when its first entry is zero. *)
Theorem C95_first_zero_refuted : forall np, np_contract np -> forall a0 r, fin a0 -> val a0 = 0 -> r <> [] ->
  Forall (fun v => fin v /\ 0 <= val v) r -> simplex64_valid np (a0 :: r) = true ->
  exists y, simplex64_flatten np (a0 :: r) = Ok y /\
    Forall2 (fun v c => (val v = 0 -> c = fnan) /\ (0 < val v -> c = finf)) r y /\
    simplex64_fold np y = repeat fnan (S (length r)).
Proof. exact first_zero. Qed.
Print Assumptions C95_first_zero_refuted.
Example C95_first_zero_case : fin fzero /\ val fzero = 0 /\ [fone; fzero] <> [] /\
  Forall (fun v => fin v /\ 0 <= val v) [fone; fzero] /\ simplex64_valid np_inst [fzero; fone; fzero] = true.
Proof. exact zero_case. Qed.

(** Coordinates -inf give entries exactly zero, and the others are as accurate as without them. *)
Theorem C95_gone : forall np, np_contract np -> forall x B, wide_or_gone B x ->
  Forall2 (fun p v => (v = fninf -> p = fzero) /\
    (fin v -> fin p /\ 0 <= val p /\
      Rabs (val p - softmax (0 :: map val (finite x)) (val v)) <=
        softmax (0 :: map val (finite x)) (val v) * (INR (S (length x)) * pow2 (-43) + B * pow2 (-51)) + pow2 (-48)))
    (simplex64_fold np x) (fzero :: x).
Proof. exact gaps_accurate. Qed.
Print Assumptions C95_gone.
Example C95_gone_case : wide_or_gone 1000000 [fint 1000000; fninf; fint (-7)] /\
  finite [fint 1000000; fninf; fint (-7)] = [fint 1000000; fint (-7)].
Proof. exact gone_case. Qed.

Theorem C95_logsumexp_gone : forall np, np_contract np -> forall row w0,
  In w0 row -> fin w0 -> Forall (fun v => fin v \/ v = fninf) row -> (length row <= Z.to_nat 1048576)%nat ->
  fin (logsumexp64 np row) /\
  Rabs (val (logsumexp64 np row) - real_lse (finite row))
    <= INR (length row) * pow2 (-46) + pow2 (-53) * Rabs (real_lse (finite row)).
Proof. exact lse_gaps. Qed.
Print Assumptions C95_logsumexp_gone.
Example C95_logsumexp_gone_case : In (fint 3) [fninf; fint 3; fninf] /\ fin (fint 3) /\
  Forall (fun v => fin v \/ v = fninf) [fninf; fint 3; fninf] /\ (length [fninf; fint 3; fninf] <= Z.to_nat 1048576)%nat.
Proof. exact row_case. Qed.

(** Zero entries other than the first survive flatten and fold. *)
Theorem C95_later_zero : forall np, np_contract np -> forall a0 r, fin a0 -> 0 < val a0 ->
  Forall (fun v => fin v /\ 0 <= val v) r -> (length r < Z.to_nat 1048576)%nat ->
  simplex64_valid np (a0 :: r) = true ->
  exists y, simplex64_flatten np (a0 :: r) = Ok y /\
    Forall2 (fun v c => (val v = 0 -> c = fninf) /\ (0 < val v -> fin c)) r y /\
    Forall2 (fun v p => fin p /\ 0 <= val p /\ (val v = 0 -> p = fzero)) (a0 :: r) (simplex64_fold np y).
Proof. exact later_zero. Qed.
Print Assumptions C95_later_zero.
Example C95_later_zero_case : fin fone /\ 0 < val fone /\ Forall (fun v => fin v /\ 0 <= val v) [fzero] /\
  (length [fzero] < Z.to_nat 1048576)%nat /\ simplex64_valid np_inst [fone; fzero] = true.
Proof. exact later_case. Qed.
