(** * Property theorems C84: PSD matrices of any size in binary64 arithmetic. *)
From Coq Require Import Reals ZArith List.
From Flocq Require Import IEEE754.BinarySingleNaN.
From Verif Require Import Base Flt SpecFlt FltInst FltMat SpecFltMat FltMatProps DemoFlt DemoFltMat.
Import ListNotations.
Local Open Scope R_scope.

(** The assumptions on [np.matmul] are consistent. *)
Example C84_contract_case : gram_contract gram_inst.
Proof. exact gram_inst_ok. Qed.

(** Folding a free vector that does not overflow gives finite entries, mirrored entries that
    are equal and diagonal entries that are not below [diag_lb]. *)
Theorem C84_entries : forall np, np_contract np -> forall gram, gram_contract gram ->
  forall n x, tame n x -> forall lb, fin lb -> Rabs (val lb) <= pow2 1000 ->
  forall i j, (i < n)%nat -> (j < n)%nat ->
  fin (unpack64 np gram n lb x i j) /\ unpack64 np gram n lb x i j = unpack64 np gram n lb x j i /\
  val lb <= val (unpack64 np gram n lb x i i).
Proof. exact unpack64_entries. Qed.
Print Assumptions C84_entries.

Example C84_entries_case : (2 < 3)%nat /\ (1 < 3)%nat /\ tame 3 x3.
Proof. exact mat_entry_case. Qed.

(** So the folded matrix passes its own validation. *)
Theorem C84_valid : forall np, np_contract np -> forall gram, gram_contract gram ->
  forall n x, tame n x -> forall lb, fin lb -> Rabs (val lb) <= pow2 1000 ->
  psd64_valid n lb (unpack64 np gram n lb x) = true.
Proof. exact unpack64_valid. Qed.
Print Assumptions C84_valid.

Example C84_valid_case : np_contract np_inst /\ gram_contract gram_inst /\ tame 3 x3 /\
  fin (fint (-7)) /\ Rabs (val (fint (-7))) <= pow2 1000 /\
  psd64_valid 3 (fint (-7)) (unpack64 np_inst gram_inst 3 (fint (-7)) x3) = true.
Proof. exact mat_case. Qed.

(** And it is close to the matrix the transform stands for; the error is relative to the
    sizes of the free values, not of the factor: a diagonal entry of the factor is computed
    as [exp x + x - x]. *)
Theorem C84_accurate : forall np, np_contract np -> forall gram, gram_contract gram ->
  forall n x, tame n x -> forall lb, fin lb -> Rabs (val lb) <= pow2 1000 ->
  forall i j, (i < n)%nat -> (j < n)%nat ->
  Rabs (val (unpack64 np gram n lb x i j) -
        (sum_to n (fun k => exact_factor x i k * exact_factor x j k) + (if Nat.eqb i j then val lb else 0)))
    <= pow2 (-52) * (INR (n + 18) * sum_to n (fun k => magnitude x i k * magnitude x j k) +
                     (if Nat.eqb i j then Rabs (val lb) else 0)) + INR n * pow2 (-1072).
Proof. exact unpack64_accurate. Qed.
Print Assumptions C84_accurate.

Example C84_accurate_case : (2 < 3)%nat /\ (1 < 3)%nat /\ tame 3 x3.
Proof. exact mat_entry_case. Qed.

(** "Every folded matrix passes its own validation" fails when an exponential overflows above
    a zero: [inf * 0] is NaN. *)
Theorem C84_overflow_refuted : forall np, np_contract np -> forall gram, gram_contract gram ->
  forall n x lb i j, (i < j < n)%nat ->
  forall v, nth_error x (i * (i + 1) / 2 + i) = Some v -> fin v -> 711 <= val v ->
  forall s, nth_error x (j * (j + 1) / 2 + i) = Some (B754_zero s) ->
  unpack64 np gram n lb x i j = fnan /\ psd64_valid n lb (unpack64 np gram n lb x) = false.
Proof. exact unpack64_overflow. Qed.
Print Assumptions C84_overflow_refuted.

Example C84_overflow_refuted_case : (0 < 1 < 2)%nat /\ nth_error x2 (0 * (0 + 1) / 2 + 0) = Some (fint 800) /\
  fin (fint 800) /\ 711 <= val (fint 800) /\ nth_error x2 (1 * (1 + 1) / 2 + 0) = Some (B754_zero false).
Proof. exact overflow_case. Qed.
