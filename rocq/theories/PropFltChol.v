(** * Property theorems C88: flattening PSD matrices of any size in binary64 arithmetic. *)
From Coq Require Import Reals ZArith List.
From Flocq Require Import IEEE754.BinarySingleNaN.
From Verif Require Import Base Flt SpecFlt FltInst FltMat SpecFltMat FltChol SpecFltChol FltCholProps FltCholDef
  FltCholOne DemoFlt DemoFltMat DemoFltChol.
Import ListNotations.
Local Open Scope R_scope.

(** The assumptions on [np.linalg.cholesky] are consistent. *)
Example C88_contract_case : chol_contract chol_inst.
Proof. exact chol_inst_ok. Qed.

(** The matrix a flattened matrix stands for is close to it, whatever the condition number;
    the logarithms on the diagonal are computed as [log l + l - l]. *)
Theorem C88_accurate : forall np, np_contract np -> forall chol, chol_contract chol ->
  forall n lb m, decent n lb m -> (forall i, (i < n)%nat -> val (m i i) - val lb <= pow2 80) ->
  forall x, flatten64 np chol n lb m = Ok x ->
  tame n x /\ length x = (n * (n + 1) / 2)%nat /\
  forall i j, (i < n)%nat -> (j < n)%nat ->
  Rabs (sum_to n (fun k => exact_factor x i k * exact_factor x j k) + (if Nat.eqb i j then val lb else 0) - val (m i j))
    <= pow2 (-50) * (INR (n + 1) + 17 * magnitude x (Nat.min i j) (Nat.min i j)) * scale lb m i j.
Proof. exact flatten64_accurate. Qed.
Print Assumptions C88_accurate.

Example C88_accurate_case : np_contract np_inst /\ chol_contract chol_inst /\ gram_contract gram_inst /\ decent 3 (fint 1) m3 /\
  (forall i, (i < 3)%nat -> val (m3 i i) - val (fint 1) <= pow2 80) /\ Rabs (val (fint 1)) <= pow2 1000 /\
  exists x, flatten64 np_inst chol_inst 3 (fint 1) m3 = Ok x.
Proof. exact flat_case. Qed.

(** So folding in binary64 what was flattened in binary64 gives back the matrix up to
    rounding. *)
Theorem C88_round : forall np, np_contract np -> forall chol, chol_contract chol -> forall gram, gram_contract gram ->
  forall n lb m, decent n lb m -> (forall i, (i < n)%nat -> val (m i i) - val lb <= pow2 80) -> Rabs (val lb) <= pow2 1000 ->
  forall x, flatten64 np chol n lb m = Ok x -> forall i j, (i < n)%nat -> (j < n)%nat ->
  Rabs (val (unpack64 np gram n lb x i j) - val (m i j))
    <= pow2 (-50) * (INR (n + 1) + 17 * magnitude x (Nat.min i j) (Nat.min i j)) * scale lb m i j +
       pow2 (-52) * (INR (n + 18) * sum_to n (fun k => magnitude x i k * magnitude x j k) +
                     (if Nat.eqb i j then Rabs (val lb) else 0)) + INR n * pow2 (-1072).
Proof. exact flatten64_round. Qed.
Print Assumptions C88_round.

Example C88_round_case : np_contract np_inst /\ chol_contract chol_inst /\ gram_contract gram_inst /\ decent 3 (fint 1) m3 /\
  (forall i, (i < 3)%nat -> val (m3 i i) - val (fint 1) <= pow2 80) /\ Rabs (val (fint 1)) <= pow2 1000 /\
  exists x, flatten64 np_inst chol_inst 3 (fint 1) m3 = Ok x.
Proof. exact flat_case. Qed.

(** A matrix that is positive definite by a margin of rounding size is accepted. *)
Theorem C88_accepts : forall np chol, chol_contract chol ->
  forall n lb m, decent n lb m -> psd64_valid n lb m = true ->
  (forall z, pow2 (-49) * INR (n + 1) * (reach n lb m z * reach n lb m z) <= form n (shifted lb m) z) ->
  exists x, flatten64 np chol n lb m = Ok x.
Proof. exact flatten64_accepts. Qed.
Print Assumptions C88_accepts.

Example C88_accepts_case : chol_contract chol_inst /\ decent 2 (fint 0) m2 /\ psd64_valid 2 (fint 0) m2 = true /\
  forall z, pow2 (-49) * INR (2 + 1) * (reach 2 (fint 0) m2 z * reach 2 (fint 0) m2 z) <= form 2 (shifted (fint 0) m2) z.
Proof. exact accept_case. Qed.

(** A matrix with a direction that is negative by such a margin is rejected. *)
Theorem C88_rejects : forall np chol, chol_contract chol ->
  forall n lb m, decent n lb m -> psd64_valid n lb m = true ->
  forall z, form n (shifted lb m) z < - (pow2 (-50) * INR (n + 1) * (reach n lb m z * reach n lb m z)) ->
  flatten64 np chol n lb m = Err LinAlgError.
Proof. exact flatten64_rejects. Qed.
Print Assumptions C88_rejects.

Example C88_rejects_case : chol_contract chol_inst /\ decent 2 (fint 0) m2' /\ psd64_valid 2 (fint 0) m2' = true /\
  form 2 (shifted (fint 0) m2') z2 < - (pow2 (-50) * INR (2 + 1) * (reach 2 (fint 0) m2' z2 * reach 2 (fint 0) m2' z2)).
Proof. exact reject_case. Qed.

(** Without the margin "positive definite matrices can be flattened" fails... *)
Theorem C88_definite_refuted : (forall z, z 0%nat <> 0 \/ z 1%nat <> 0 -> 0 < form 2 (shifted fzero pd) z) /\
  forall np chol, chol_contract chol -> flatten64 np chol 2 fzero pd = Err LinAlgError.
Proof. exact (conj pd_form pd_rejected). Qed.
Print Assumptions C88_definite_refuted.

(** ...and so does "only positive semidefinite matrices can be flattened". *)
Theorem C88_indefinite_refuted :
  form 2 (shifted fzero indef) (fun i => if Nat.eqb i 0 then 7778742049 else -4807526976) < 0 /\
  forall np chol, chol_contract chol -> exists x, flatten64 np chol 2 fzero indef = Ok x.
Proof. exact (conj indef_form indef_accepted). Qed.
Print Assumptions C88_indefinite_refuted.

(** For 1 x 1 matrices this is the transform of C73. *)
Theorem C88_one : forall np chol, chol_contract chol -> forall lb m,
  flatten64 np chol 1 lb m = (x <- psd64_flatten np lb (m 0%nat 0%nat) ;; Ok [x]).
Proof. exact flatten64_one. Qed.
Print Assumptions C88_one.

(** "What flatten returns is never NaN" fails for an infinite first entry. *)
Theorem C88_infinite_refuted : forall np chol, chol_contract chol -> forall n lb m x,
  m 0%nat 0%nat = finf -> fin lb -> flatten64 np chol (S n) lb m = Ok x -> nth_error x 0 = Some fnan.
Proof. exact flatten64_infinite. Qed.
Print Assumptions C88_infinite_refuted.

Example C88_infinite_refuted_case : m_inf 0%nat 0%nat = finf /\ fin (fint 3) /\
  exists x, flatten64 np_inst chol_inst 1 (fint 3) m_inf = Ok x.
Proof. exact infinite_case. Qed.
