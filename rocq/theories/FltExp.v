(** * Numerical bounds for exp and ln. *)
From Coq Require Import Reals ZArith Lra Lia.
From Flocq Require Import Core.
From Verif Require Import Base Flt SpecFlt.
Local Open Scope R_scope.

(** ** Partial sums of the exponential series *)

Fixpoint eterm (n : nat) (x : R) : R :=
  match n with O => 1 | S k => eterm k x * x / INR (S k) end.
Fixpoint esum (n : nat) (x : R) : R :=
  match n with O => 1 | S k => esum k x + eterm (S k) x end.

Lemma eterm_fact : forall n x, eterm n x = / INR (fact n) * x ^ n.
Proof.
  induction n; intros x.
  - cbn. lra.
  - cbn [eterm]. rewrite IHn, fact_simpl, mult_INR. cbn [pow].
    assert (INR (S n) <> 0) by (apply not_0_INR; lia).
    assert (INR (fact n) <> 0) by (apply not_0_INR, fact_neq_0).
    field. auto.
Qed.
Lemma esum_E1 : forall n x, esum n x = E1 x n.
Proof.
  induction n; intros x.
  - cbn. lra.
  - cbn [esum]. rewrite IHn, eterm_fact. unfold E1. rewrite tech5. reflexivity.
Qed.

Lemma exp_ge_esum : forall n x, 0 <= x -> esum n x <= exp x.
Proof.
  intros n x Hx. rewrite esum_E1. apply (growing_ineq (E1 x)); [|apply E1_cvg].
  intros k. rewrite <- !esum_E1. cbn [esum].
  assert (0 <= eterm (S k) x); [|lra]. rewrite eterm_fact.
  apply Rmult_le_pos; [|apply pow_le; auto].
  left. apply Rinv_0_lt_compat, lt_0_INR, lt_O_fact.
Qed.

Lemma exp_le_esum : forall n x, 0 <= x <= 1 -> exp x <= esum n x + 2 * eterm (S n) x.
Proof.
  intros n x Hx.
  set (V := fun k => esum k x + 2 * eterm (S k) x).
  assert (D: Un_decreasing V).
  { intros k. unfold V. cbn [esum].
    assert (0 <= eterm (S k) x).
    { rewrite eterm_fact. apply Rmult_le_pos; [|apply pow_le; lra].
      left. apply Rinv_0_lt_compat, lt_0_INR, lt_O_fact. }
    assert (2 * eterm (S (S k)) x <= eterm (S k) x); [|lra].
    change (eterm (S (S k)) x) with (eterm (S k) x * x / INR (S (S k))).
    assert (H2: 2 <= INR (S (S k))) by (change 2 with (INR 2); apply le_INR; lia).
    apply Rmult_le_reg_r with (INR (S (S k))); [lra|].
    replace (2 * (eterm (S k) x * x / INR (S (S k))) * INR (S (S k))) with (2 * (eterm (S k) x * x)) by (field; lra).
    nra. }
  assert (L: Un_cv V (exp x)).
  { unfold V. replace (exp x) with (exp x + 2 * 0) by ring.
    apply CV_plus.
    - apply Un_cv_ext with (E1 x); [intros; symmetry; apply esum_E1|apply E1_cvg].
    - apply CV_mult.
      + intros eps He. exists 0%nat. intros. rewrite R_dist_eq. auto.
      + apply Un_cv_ext with (fun k => x ^ (k + 1) / INR (fact (k + 1))).
        { intros k. rewrite Nat.add_1_r, eterm_fact. unfold Rdiv. ring. }
        apply (CV_shift' (fun k => x ^ k / INR (fact k)) 1 0).
        apply cv_speed_pow_fact. }
  apply (decreasing_ineq V _ D L n).
Qed.

(** ** Particular values *)

Lemma pow2_add : forall a b, pow2 (a + b) = pow2 a * pow2 b.
Proof. intros. apply bpow_plus. Qed.
Lemma pow2_nat : forall n, pow2 (Z.of_nat n) = 2 ^ n.
Proof.
  induction n.
  - reflexivity.
  - rewrite Nat2Z.inj_succ, <- Z.add_1_l, pow2_add, IHn. reflexivity.
Qed.
Lemma pow2_neg : forall n, pow2 (- n) = / pow2 n.
Proof. intros. apply bpow_opp. Qed.
Lemma pow2_Z : forall e, (0 <= e)%Z -> pow2 e = IZR (2 ^ e).
Proof. intros e H. unfold pow2. rewrite <- IZR_Zpower by auto. reflexivity. Qed.
Lemma pow2_mono : forall a b, (a <= b)%Z -> pow2 a <= pow2 b.
Proof. intros. apply bpow_le. auto. Qed.

(** 0.6931 <= ln 2 <= 0.6935 *)
Lemma exp_06935 : 2 <= exp (6935 / 10000).
Proof. eapply Rle_trans; [|apply (exp_ge_esum 6); lra]. cbn. lra. Qed.
Lemma exp_06931 : exp (6931 / 10000) <= 2.
Proof. eapply Rle_trans; [apply (exp_le_esum 7); lra|]. cbn. lra. Qed.

Lemma exp_pow : forall n x, exp (INR n * x) = exp x ^ n.
Proof.
  induction n; intros x.
  - cbn. rewrite Rmult_0_l. apply exp_0.
  - rewrite S_INR. cbn [pow]. rewrite <- IHn, <- exp_plus. f_equal. ring.
Qed.
Lemma exp_le : forall x y, x <= y -> exp x <= exp y.
Proof. intros x y [H| ->]; [left; apply exp_increasing; auto|lra]. Qed.

Lemma exp_Z_lower : forall n k, (Z.of_nat k * 6935 <= Z.of_nat n * 10000)%Z ->
  pow2 (Z.of_nat k) <= exp (INR n).
Proof.
  intros n k H. apply IZR_le in H. rewrite !mult_IZR, <- !INR_IZR_INZ in H.
  rewrite pow2_nat. apply Rle_trans with (exp (INR k * (6935 / 10000))).
  - rewrite exp_pow. apply pow_incr. pose proof exp_06935. lra.
  - apply exp_le. lra.
Qed.
Lemma exp_Z_upper : forall n k, (Z.of_nat n * 10000 <= Z.of_nat k * 6931)%Z ->
  exp (INR n) <= pow2 (Z.of_nat k).
Proof.
  intros n k H. apply IZR_le in H. rewrite !mult_IZR, <- !INR_IZR_INZ in H.
  rewrite pow2_nat. apply Rle_trans with (exp (INR k * (6931 / 10000))).
  - apply exp_le. lra.
  - rewrite exp_pow. apply pow_incr. pose proof exp_06931. pose proof (exp_pos (6931 / 10000)). lra.
Qed.

Lemma INR_Z : forall n, INR n = IZR (Z.of_nat n).
Proof. exact INR_IZR_INZ. Qed.

Ltac zcheck := apply Z.leb_le; vm_compute; reflexivity.

Lemma exp_711 : pow2 1025 <= exp 711.
Proof. pose proof (exp_Z_lower 711 1025 ltac:(zcheck)) as H. rewrite INR_Z in H. exact H. Qed.
Lemma exp_700 : exp 700 <= pow2 1010.
Proof. pose proof (exp_Z_upper 700 1010 ltac:(zcheck)) as H. rewrite INR_Z in H. exact H. Qed.
Lemma exp_40 : pow2 57 <= exp 40.
Proof. pose proof (exp_Z_lower 40 57 ltac:(zcheck)) as H. rewrite INR_Z in H. exact H. Qed.
Lemma exp_39 : pow2 56 <= exp 39.
Proof. pose proof (exp_Z_lower 39 56 ltac:(zcheck)) as H. rewrite INR_Z in H. exact H. Qed.

Lemma exp_inv : forall x, exp (- x) = / exp x.
Proof. exact exp_Ropp. Qed.

Lemma exp_m40 : exp (-40) <= pow2 (-57).
Proof.
  replace (-40) with (- (40)) by lra. rewrite exp_inv. change (-57)%Z with (- (57))%Z.
  rewrite pow2_neg. apply Rinv_le_contravar; [apply bpow_gt_0|apply exp_40].
Qed.
Lemma exp_m700 : pow2 (-1010) <= exp (-700).
Proof.
  replace (-700) with (- (700)) by lra. rewrite exp_inv. change (-1010)%Z with (- (1010))%Z.
  rewrite pow2_neg. apply Rinv_le_contravar; [apply exp_pos|apply exp_700].
Qed.

(** The multiple of 2^-36 nearest to [ln 2] is 1.65e-12 away from it. *)
Definition r36 : R := 47632711549 / 68719476736.
Lemma exp_r36 : 2 * (1 - 17 / 10000000000000) <= exp r36 <= 2 * (1 - 16 / 10000000000000).
Proof.
  unfold r36. split.
  - eapply Rle_trans; [|apply (exp_ge_esum 13); lra]. cbn -[Rdiv]. lra.
  - eapply Rle_trans; [apply (exp_le_esum 14); lra|]. cbn. lra.
Qed.
