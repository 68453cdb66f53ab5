(** * Cases meeting the hypotheses of PropFlt.v. *)
From Coq Require Import Reals ZArith Lra Lia List.
From Flocq Require Import Core IEEE754.BinarySingleNaN.
From Verif Require Import Base Flt SpecFlt FltBase FltExp FltNum FltNum2 FltNum3 FltSimp FltSimp2 FltInst.
Import ListNotations.
Local Open Scope R_scope.

Definition fint (z : Z) : f64 := flit z 0.
Lemma fint_val : forall z, (Z.abs z <= 1000000)%Z -> fin (fint z) /\ val (fint z) = IZR z.
Proof.
  intros z H. assert (R: Rabs (IZR z) <= 1000000) by (rewrite <- abs_IZR; apply IZR_le; lia).
  destruct (flit_val z 0) as [F V]; [lia|lia|change (pow2 0) with 1; rewrite Rmult_1_r; apply small_huge; auto|].
  split; auto. unfold fint. rewrite V. change (pow2 0) with 1. ring.
Qed.
Ltac fint := repeat match goal with
  | |- fin (fint _) => apply fint_val; lia
  | |- context [val (fint ?z)] => rewrite (proj2 (fint_val z ltac:(lia)))
  end.

Lemma big_pow : forall k, (20 <= k)%Z -> 1000000 <= pow2 k.
Proof.
  intros k H. apply Rle_trans with (pow2 20); [|apply pow2_mono; auto].
  rewrite pow2_Z by lia. change (IZR (2 ^ 20)) with 1048576. lra.
Qed.

(** [lb = 1], no upper bound, entries [3, +inf, -inf, -0]. *)
Lemma case_open : np_contract np_inst /\ low_ok (fint 1) /\ up_ok finf /\ (fint 1 = fninf \/ finf = finf) /\
  Forall not_nan [fint 3; finf; fninf; B754_zero true].
Proof.
  split; [apply np_inst_ok|]. split; [left; fint|]. split; [right; auto|]. split; [auto|].
  repeat constructor.
Qed.

Lemma case_lower : fin (fint 5) /\ Rabs (val (fint 5)) <= pow2 1000 /\ fin (fint (-20)) /\
  Rabs (val (fint (-20))) <= 700 /\ Rabs (val (fint 5)) <= pow2 40 * exp (val (fint (-20))).
Proof.
  assert (X: pow2 (-38) <= exp (-20)).
  { replace (-20) with (- (20)) by lra. rewrite exp_inv. change (-38)%Z with (- (38))%Z. rewrite pow2_neg.
    apply Rinv_le_contravar; [apply exp_pos|].
    pose proof (exp_Z_upper 20 29 ltac:(zcheck)) as H. rewrite INR_Z in H.
    eapply Rle_trans; [exact H|]. apply pow2_mono. lia. }
  assert (X2: pow2 (-29) <= exp (-20)).
  { replace (-20) with (- (20)) by lra. rewrite exp_inv. change (-29)%Z with (- (29))%Z. rewrite pow2_neg.
    apply Rinv_le_contravar; [apply exp_pos|].
    pose proof (exp_Z_upper 20 29 ltac:(zcheck)) as H. rewrite INR_Z in H. exact H. }
  repeat split; fint; try (apply Rabs_le_both; lra).
  - pose proof (big_pow 1000 ltac:(lia)). apply Rabs_le_both; lra.
  - apply Rle_trans with (pow2 40 * pow2 (-29)).
    + rewrite <- pow2_add, pow2_Z by lia. change (IZR (2 ^ (40 + -29))) with 2048. apply Rabs_le_both; lra.
    + apply Rmult_le_compat_l; [left; apply pow2_pos|auto].
Qed.

Lemma case_upper : fin (fint (-5)) /\ Rabs (val (fint (-5))) <= pow2 1000 /\ fin (fint (-3)) /\
  Rabs (val (fint (-3))) <= 700 /\ Rabs (val (fint (-5))) <= pow2 40 * exp (- val (fint (-3))).
Proof.
  repeat split; fint; try (apply Rabs_le_both; lra).
  - pose proof (big_pow 1000 ltac:(lia)). apply Rabs_le_both; lra.
  - pose proof (exp_ge_lin (- -3)). pose proof (big_pow 40 ltac:(lia)). rewrite Rabs_left by lra. nra.
Qed.

Lemma case_absorbed : fin (fint (-2)) /\ 1 <= Rabs (val (fint (-2))) <= pow2 1022 /\
  fin (fint (-50)) /\ val (fint (-50)) <= -40.
Proof.
  pose proof (big_pow 1022 ltac:(lia)).
  repeat split; fint; try lra; rewrite Rabs_left by lra; lra.
Qed.

Lemma case_two : fin (fint (-2)) /\ fin (fint 7) /\ val (fint (-2)) < val (fint 7) /\
  Rabs (val (fint (-2))) <= pow2 11 /\ Rabs (val (fint 7)) <= pow2 11 /\
  fin (fint (-1000)) /\ val (fint (-1000)) <= 700.
Proof.
  assert (P: pow2 11 = 2048) by (rewrite pow2_Z by lia; reflexivity).
  repeat split; fint; try lra; rewrite P; apply Rabs_le_both; lra.
Qed.

Lemma case_overflow : fin (fint (-2)) /\ fin (fint 7) /\ val (fint (-2)) < val (fint 7) /\
  fin (fint 800) /\ 711 <= val (fint 800).
Proof. repeat split; fint; lra. Qed.

Lemma case_above : fin (fint 100) /\ 39 <= val (fint 100) <= 709.
Proof. repeat split; fint; lra. Qed.

Lemma case_moderate : moderate [fint 100; fint (-100); fint 3].
Proof.
  split; [cbn [length]; lia|]. repeat (apply Forall_cons; [split; fint; try (apply Rabs_le_both; lra)|]).
  apply Forall_nil.
Qed.

Lemma case_tame : (length [flit 1 900; fint 3] < Z.to_nat 1048576)%nat /\
  Forall (fun v => fin v /\ Rabs (val v) <= pow2 1000) [flit 1 900; fint 3].
Proof.
  split; [cbn [length]; apply Nat2Z.inj_lt; rewrite Z2Nat.id by lia; lia|].
  pose proof (big_pow 1000 ltac:(lia)). apply Forall_cons; [|apply Forall_cons; [|apply Forall_nil]].
  - destruct (flit_val 1 900) as [F V]; [lia|lia| |].
    + rewrite Rmult_1_l, Rabs_pos_eq by (left; apply pow2_pos). apply pow2_mono. lia.
    + split; auto. rewrite V, Rmult_1_l, Rabs_pos_eq by (left; apply pow2_pos). apply pow2_mono. lia.
  - split; fint. apply Rabs_le_both; lra.
Qed.

Lemma case_psd_low : fin (fint 1) /\ fin (fint (-41)) /\ val (fint (-41)) <= -40.
Proof. repeat split; fint; lra. Qed.

Lemma case_psd_high : fin (flit 3 200) /\ pow2 128 <= val (flit 3 200).
Proof.
  destruct (flit_val 3 200) as [F V]; [lia|lia| |].
  - rewrite Rabs_pos_eq by (pose proof (pow2_pos 200); lra).
    apply Rle_trans with (pow2 202); [|apply pow2_mono; lia].
    change 202%Z with (200 + 2)%Z. rewrite pm by lia. change (IZR (2 ^ 2)) with 4. pose proof (pow2_pos 200). lra.
  - split; auto. rewrite V. assert (pow2 128 <= pow2 200) by (apply pow2_mono; lia).
    pose proof (pow2_pos 200). lra.
Qed.

Definition dmat (i j : nat) : f64 := if Nat.eqb i j then fint (-3) else fint 5.
Lemma case_diag : fin (dmat 1 1) /\ Rabs (val (dmat 1 1)) <= 700 /\ fin (dmat 1 0) /\ 1%nat <> 0%nat.
Proof. unfold dmat. cbn [Nat.eqb]. repeat split; fint; try (apply Rabs_le_both; lra). discriminate. Qed.
Definition lmat (i j : nat) : f64 := if Nat.eqb i j then fint 3 else fint 5.
Lemma case_log_diag : fin (lmat 1 1) /\ pow2 (-1000) <= val (lmat 1 1) <= pow2 1000.
Proof.
  unfold lmat. cbn [Nat.eqb]. pose proof (big_pow 1000 ltac:(lia)).
  assert (pow2 (-1000) <= 1) by (change 1 with (pow2 0); apply pow2_mono; lia).
  repeat split; fint; lra.
Qed.

Lemma z_range : (16384 <= 16384 <= 131071)%Z.
Proof. lia. Qed.
