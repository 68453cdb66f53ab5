(** * Triangular factors of nearby matrices. *)
From Coq Require Import Reals Lra Lia.
From Flocq Require Import Core.Raux.
From Verif Require Import Base Flt SpecFlt SpecFltMat SpecFltChol FltForm FltCholFacts.
Local Open Scope R_scope.

Definition delta (i j : nat) : R := if Nat.eqb i j then 1 else 0.
Lemma delta_same : forall i, delta i i = 1. Proof. intros. unfold delta. rewrite Nat.eqb_refl. reflexivity. Qed.
Lemma delta_off : forall i j, i <> j -> delta i j = 0.
Proof. intros i j H. unfold delta. destruct (Nat.eqb_spec i j); [congruence|reflexivity]. Qed.
Lemma sum_delta : forall n i f, (i < n)%nat -> sum_to n (fun k => delta i k * f k) = f i.
Proof.
  intros n i f H. rewrite (sum_only n i) by (auto; intros k _ Ne; rewrite delta_off by auto; ring).
  rewrite delta_same. ring.
Qed.
Lemma sum_delta_r : forall n i f, (i < n)%nat -> sum_to n (fun k => f k * delta k i) = f i.
Proof.
  intros n i f H. rewrite (sum_only n i) by (auto; intros k _ Ne; rewrite delta_off by auto; ring).
  rewrite delta_same. ring.
Qed.
Lemma sum_abs : forall n f, Rabs (sum_to n f) <= sum_to n (fun k => Rabs (f k)).
Proof.
  induction n as [|n IH]; intros f; [rewrite !sum_0, Rabs_R0; lra|]. rewrite !sum_S.
  eapply Rle_trans; [apply Rabs_triang|]. specialize (IH f). lra.
Qed.
Lemma sum_const : forall n c, sum_to n (fun _ => c) = INR n * c.
Proof. induction n as [|n IH]; intros c; [rewrite sum_0; cbn [INR]; ring|]. rewrite sum_S, IH, S_INR. ring. Qed.
Lemma sum_member : forall n f i, (i < n)%nat -> (forall k, (k < n)%nat -> 0 <= f k) -> f i <= sum_to n f.
Proof.
  induction n as [|n IH]; intros f i H P; [lia|]. rewrite sum_S.
  pose proof (sum_nonneg n f ltac:(intros; apply P; lia)). pose proof (P n ltac:(lia)).
  destruct (Nat.eq_dec i n) as [->|Ne]; [lra|]. pose proof (IH f i ltac:(lia) ltac:(intros; apply P; lia)). lra.
Qed.
Lemma sum_prod : forall n p f g, sum_to n f * sum_to p g = sum_to n (fun i => sum_to p (fun j => f i * g j)).
Proof. intros. rewrite <- sum_mult_r. apply sum_ext. intros i _. rewrite sum_mult. reflexivity. Qed.
(** Products of three sums. *)
Lemma sum_assoc : forall n f g h, sum_to n (fun k => f k * sum_to n (fun q => g k q * h q)) =
  sum_to n (fun q => sum_to n (fun k => f k * g k q) * h q).
Proof.
  intros. transitivity (sum_to n (fun k => sum_to n (fun q => f k * g k q * h q))).
  - apply sum_ext. intros k _. rewrite <- sum_mult. apply sum_ext. intros q _. ring.
  - rewrite sum_swap. apply sum_ext. intros q _. rewrite <- sum_mult_r. reflexivity.
Qed.

Definition lower (T : nat -> nat -> R) : Prop := forall i j, (i < j)%nat -> T i j = 0.

(** ** Near the identity *)
Lemma near_identity : forall n (G F : nat -> nat -> R) f, lower G -> (forall j, (j < n)%nat -> 0 < G j j) ->
  (forall i j, (i < n)%nat -> (j < n)%nat -> sum_to n (fun k => G i k * G j k) = delta i j + F i j) ->
  (forall i j, (i < n)%nat -> (j < n)%nat -> Rabs (F i j) <= f) -> INR n * f <= / 8 ->
  forall j, (j < n)%nat -> forall i, (i < n)%nat -> Rabs (G i j - delta i j) <= 2 * f.
Proof.
  intros n G F f Lo P E B S j. induction j as [j IH] using lt_wf_ind. intros Hj.
  assert (f0 : 0 <= f) by (eapply Rle_trans; [apply Rabs_pos|apply (B j j Hj Hj)]).
  assert (N1 : 1 <= INR n) by (change 1 with (INR 1); apply le_INR; lia).
  assert (f8 : f <= / 8) by nra.
  assert (K : forall i, (j <= i < n)%nat -> Rabs (sum_to j (fun k => G i k * G j k)) <= f / 2).
  { intros i Hi. eapply Rle_trans; [apply sum_abs|]. apply Rle_trans with (sum_to j (fun _ => 4 * f * f)).
    - apply sum_le. intros k Hk. rewrite Rabs_mult.
      pose proof (IH k Hk ltac:(lia) i ltac:(lia)) as A. pose proof (IH k Hk ltac:(lia) j ltac:(lia)) as A'.
      rewrite delta_off, Rminus_0_r in A, A' by lia.
      replace (4 * f * f) with (2 * f * (2 * f)) by ring. apply Rmult_le_compat; auto using Rabs_pos.
    - rewrite sum_const. assert (INR j <= INR n) by (apply le_INR; lia). pose proof (pos_INR j).
      assert (INR j * (4 * f * f) <= INR n * f * (4 * f)) by (replace (INR n * f * (4 * f)) with (INR n * (4 * f * f)) by ring;
        apply Rmult_le_compat_r; nra). nra. }
  assert (Sp : forall i, (i < n)%nat -> sum_to j (fun k => G i k * G j k) + G i j * G j j = delta i j + F i j).
  { intros i Hi. rewrite <- (E i j Hi Hj), <- sum_S. symmetry. apply sum_cut_to; [lia|].
    intros k Hk. rewrite (Lo j k) by lia. ring. }
  pose proof (P j Hj) as Pj. pose proof (Sp j Hj) as Sj. rewrite delta_same in Sj.
  pose proof (K j ltac:(lia)) as Kj. pose proof (B j j Hj Hj) as Bj. apply Rabs_le_inv in Kj. apply Rabs_le_inv in Bj.
  assert (Dg : - (3 / 2 * f) <= G j j - 1 <= 3 / 2 * f) by (split; nra).
  intros i Hi. destruct (Nat.lt_trichotomy i j) as [H|[->|H]].
  - rewrite Lo, delta_off, Rminus_0_r, Rabs_R0 by lia. lra.
  - rewrite delta_same. apply Rabs_le. lra.
  - pose proof (Sp i Hi) as Si. rewrite delta_off in * by lia. rewrite Rminus_0_r. pose proof (K i ltac:(lia)) as Ki.
    pose proof (B i j Hi Hj) as Bi. apply Rabs_le_inv in Ki. apply Rabs_le_inv in Bi.
    assert (- (3 / 2 * f) <= G i j * G j j <= 3 / 2 * f) by lra. apply Rabs_le. split; nra.
Qed.

(** ** Inverses of triangular matrices *)
Definition left_inverse (n : nat) (W L : nat -> nat -> R) : Prop :=
  forall i j, (i < n)%nat -> (j < n)%nat -> sum_to n (fun k => W i k * L k j) = delta i j.

Lemma inverse_lower : forall n W L, lower L -> (forall j, (j < n)%nat -> 0 < L j j) -> left_inverse n W L ->
  forall i j, (i < j)%nat -> (j < n)%nat -> W i j = 0.
Proof.
  intros n W L Lo P I i j Hi Hj.
  assert (A : forall d q, (q + d = n)%nat -> (i < q)%nat -> forall k, (q <= k < n)%nat -> W i k = 0).
  { induction d as [|d IH]; intros q Hq Hiq k Hk; [lia|].
    assert (IH' : forall k, (S q <= k < n)%nat -> W i k = 0) by (apply IH; lia).
    destruct (Nat.eq_dec k q) as [->|Ne]; [|apply IH'; lia].
    pose proof (I i q ltac:(lia) ltac:(lia)) as Eq. rewrite delta_off in Eq by lia.
    rewrite (sum_only n q) in Eq.
    - pose proof (P q ltac:(lia)). apply Rmult_integral in Eq. destruct Eq; [auto|lra].
    - lia.
    - intros r Hr Ne. destruct (Nat.lt_ge_cases r q); [rewrite (Lo r q) by auto; ring|].
      rewrite (IH' r) by lia. ring. }
  apply (A (n - j)%nat j); lia.
Qed.
Lemma inverse_diag : forall n W L, lower L -> (forall j, (j < n)%nat -> 0 < L j j) -> left_inverse n W L ->
  forall i, (i < n)%nat -> W i i * L i i = 1.
Proof.
  intros n W L Lo P I i Hi. pose proof (I i i Hi Hi) as E. rewrite delta_same in E. rewrite <- E. symmetry.
  rewrite (sum_only n i); auto. intros k Hk Ne. destruct (Nat.lt_ge_cases k i).
  - rewrite (Lo k i) by auto. ring.
  - rewrite (inverse_lower n W L Lo P I i k) by lia. ring.
Qed.
Lemma inverse_right : forall n W L, lower L -> (forall j, (j < n)%nat -> 0 < L j j) -> left_inverse n W L ->
  left_inverse n L W.
Proof.
  intros n W L Lo P I i j Hi Hj.
  set (T := fun r k => if Nat.ltb r k then 0 else W r k).
  assert (TW : forall r k, (r < n)%nat -> (k < n)%nat -> T r k = W r k).
  { intros r k Hr Hk. unfold T. destruct (Nat.ltb_spec r k); auto. rewrite (inverse_lower n W L Lo P I r k) by auto. reflexivity. }
  destruct (back_solve n T) with (v := delta i) as (v & Hv).
  { intros k Hk. rewrite TW by auto. pose proof (inverse_diag n W L Lo P I k Hk). intros Z. rewrite Z in *. lra. }
  { intros r k H. unfold T. apply Nat.ltb_lt in H. rewrite H. reflexivity. }
  assert (V : forall k, (k < n)%nat -> sum_to n (fun r => v r * W r k) = delta i k).
  { intros k Hk. rewrite <- (Hv k Hk). apply sum_ext. intros r Hr. rewrite TW by auto. reflexivity. }
  assert (VL : forall k, (k < n)%nat -> v k = L i k).
  { intros k Hk. rewrite <- (sum_delta_r n k v Hk), <- (sum_delta n i (fun q => L q k) Hi).
    rewrite (sum_ext n (fun q => v q * delta q k) (fun q => v q * sum_to n (fun r => W q r * L r k)))
      by (intros q Hq; rewrite I by auto; reflexivity).
    rewrite sum_assoc. apply sum_ext. intros r Hr. rewrite V by auto. reflexivity. }
  rewrite <- (V j Hj). apply sum_ext. intros r Hr. rewrite VL by auto. reflexivity.
Qed.

(** ** The factor of a nearby matrix *)
Section Near.
Variables (n : nat) (L L' W : nat -> nat -> R) (t : nat -> R) (e K : R).
Hypothesis Lo : lower L.
Hypothesis Lo' : lower L'.
Hypothesis P : forall j, (j < n)%nat -> 0 < L j j.
Hypothesis P' : forall j, (j < n)%nat -> 0 < L' j j.
Hypothesis I : left_inverse n W L.
Hypothesis E : forall i j, (i < n)%nat -> (j < n)%nat ->
  Rabs (sum_to n (fun k => L' i k * L' j k) - sum_to n (fun k => L i k * L j k)) <= e * (t i * t j).
Hypothesis t0 : forall i, (i < n)%nat -> 0 <= t i.
Hypothesis e0 : 0 <= e.
Hypothesis HK : forall i, (i < n)%nat -> sum_to n (fun k => Rabs (W i k) * t k) <= K.
Hypothesis Small : INR n * (e * (K * K)) <= / 8.

Let G (i j : nat) : R := if Nat.ltb i j then 0 else sum_to n (fun k => W i k * L' k j).
Let Er (k q : nat) : R := sum_to n (fun r => L' k r * L' q r) - sum_to n (fun r => L k r * L q r).
Let F (i j : nat) : R := sum_to n (fun k => W i k * sum_to n (fun q => Er k q * W j q)).

Lemma G_sum : forall i j, (i < n)%nat -> (j < n)%nat -> G i j = sum_to n (fun k => W i k * L' k j).
Proof.
  intros i j Hi Hj. unfold G. destruct (Nat.ltb_spec i j) as [H|H]; auto. symmetry. apply sum_zero. intros k Hk.
  destruct (Nat.lt_ge_cases k j) as [Q|Q]; [rewrite Lo' by auto; ring|].
  rewrite (inverse_lower n W L Lo P I i k) by lia. ring.
Qed.

(** [W (T T') W' = (W T) (W T)']. *)
Lemma congruence : forall T i j, sum_to n (fun k => W i k * sum_to n (fun q => sum_to n (fun r => T k r * T q r) * W j q)) =
  sum_to n (fun r => sum_to n (fun k => W i k * T k r) * sum_to n (fun q => W j q * T q r)).
Proof.
  intros T i j. transitivity (sum_to n (fun k => W i k * sum_to n (fun r => T k r * sum_to n (fun q => W j q * T q r)))).
  - apply sum_ext. intros k _. f_equal.
    transitivity (sum_to n (fun q => sum_to n (fun r => T k r * (W j q * T q r)))).
    + apply sum_ext. intros q _. rewrite <- sum_mult_r. apply sum_ext. intros r _. ring.
    + rewrite sum_swap. apply sum_ext. intros r _. apply sum_mult.
  - apply sum_assoc.
Qed.

Lemma G_gram : forall i j, (i < n)%nat -> (j < n)%nat -> sum_to n (fun k => G i k * G j k) = delta i j + F i j.
Proof.
  intros i j Hi Hj.
  assert (A : F i j = sum_to n (fun r => sum_to n (fun k => W i k * L' k r) * sum_to n (fun q => W j q * L' q r)) -
                      sum_to n (fun r => sum_to n (fun k => W i k * L k r) * sum_to n (fun q => W j q * L q r))).
  { rewrite <- !congruence. unfold F, Er.
    match goal with |- _ = ?a - ?b => replace (a - b) with (a + -1 * b) by ring end.
    rewrite <- sum_mult. rewrite <- sum_plus. apply sum_ext. intros k _.
    rewrite (sum_ext n _ (fun q => sum_to n (fun r => L' k r * L' q r) * W j q + (-1) * (sum_to n (fun r => L k r * L q r) * W j q)))
      by (intros q _; ring).
    rewrite sum_plus, sum_mult. ring. }
  rewrite A, (sum_ext n (fun k => G i k * G j k) _ (fun k Hk => f_equal2 Rmult (G_sum i k Hi Hk) (G_sum j k Hj Hk))).
  rewrite (sum_ext n (fun r => sum_to n (fun k => W i k * L k r) * _) (fun r => delta i r * delta j r))
    by (intros r Hr; rewrite !I by auto; reflexivity).
  rewrite sum_delta by auto. unfold delta. rewrite (Nat.eqb_sym j i). ring.
Qed.

Lemma F_small : forall i j, (i < n)%nat -> (j < n)%nat -> Rabs (F i j) <= e * (K * K).
Proof.
  intros i j Hi Hj. unfold F. eapply Rle_trans; [apply sum_abs|].
  apply Rle_trans with (sum_to n (fun k => e * (Rabs (W i k) * t k * sum_to n (fun q => Rabs (W j q) * t q)))).
  - apply sum_le. intros k Hk. rewrite Rabs_mult.
    apply Rle_trans with (Rabs (W i k) * sum_to n (fun q => e * t k * (Rabs (W j q) * t q))).
    + apply Rmult_le_compat_l; [apply Rabs_pos|]. eapply Rle_trans; [apply sum_abs|]. apply sum_le. intros q Hq.
      rewrite Rabs_mult. pose proof (E k q Hk Hq) as B. fold (Er k q) in B. pose proof (Rabs_pos (W j q)). nra.
    + rewrite sum_mult. apply Req_le. ring.
  - rewrite sum_mult, sum_mult_r. apply Rmult_le_compat_l; auto.
    pose proof (HK i Hi) as A. pose proof (HK j Hj) as A'.
    assert (Q : forall i, 0 <= sum_to n (fun k => Rabs (W i k) * t k)) by
      (intros i'; apply sum_nonneg; intros k Hk; apply Rmult_le_pos; auto using Rabs_pos).
    apply Rmult_le_compat; auto.
Qed.

Lemma factor_near : forall i j, (i < n)%nat -> (j < n)%nat ->
  Rabs (L' i j - L i j) <= 2 * (e * (K * K)) * sum_to n (fun k => Rabs (L i k)) /\
  exists g, L' j j = L j j * g /\ Rabs (g - 1) <= 2 * (e * (K * K)).
Proof.
  intros i j Hi Hj.
  assert (N : forall j, (j < n)%nat -> forall i, (i < n)%nat -> Rabs (G i j - delta i j) <= 2 * (e * (K * K))).
  { apply (near_identity n G F (e * (K * K))).
    - intros a b H. unfold G. apply Nat.ltb_lt in H. rewrite H. reflexivity.
    - intros q Hq. rewrite G_sum by auto. rewrite (sum_only n q); auto.
      + pose proof (inverse_diag n W L Lo P I q Hq). pose proof (P q Hq). pose proof (P' q Hq).
        apply Rmult_lt_0_compat; auto. nra.
      + intros k Hk Ne. destruct (Nat.lt_ge_cases k q); [rewrite Lo' by auto; ring|].
        rewrite (inverse_lower n W L Lo P I q k) by lia. ring.
    - apply G_gram.
    - apply F_small.
    - exact Small. }
  pose proof (inverse_right n W L Lo P I) as R.
  assert (LG : forall i j, (i < n)%nat -> (j < n)%nat -> L' i j = sum_to n (fun k => L i k * G k j)).
  { intros a b Ha Hb. rewrite (sum_ext n _ (fun k => L a k * sum_to n (fun q => W k q * L' q b)))
      by (intros k Hk; rewrite G_sum by auto; reflexivity).
    rewrite sum_assoc. rewrite (sum_ext n _ (fun q => delta a q * L' q b)) by (intros q Hq; rewrite R by auto; reflexivity).
    rewrite sum_delta by auto. reflexivity. }
  split.
  - replace (L' i j - L i j) with (sum_to n (fun k => L i k * (G k j - delta k j))).
    + eapply Rle_trans; [apply sum_abs|]. rewrite <- sum_mult. apply sum_le. intros k Hk. rewrite Rabs_mult, Rmult_comm.
      apply Rmult_le_compat_r; [apply Rabs_pos|]. apply N; auto.
    + rewrite (sum_ext n _ (fun k => L i k * G k j + -1 * (L i k * delta k j))) by (intros; ring).
      rewrite sum_plus, sum_mult, sum_delta_r, <- LG by auto. ring.
  - exists (G j j). split; [|pose proof (N j Hj j Hj) as Q; rewrite delta_same in Q; exact Q].
    rewrite (LG j j) by auto. apply (sum_only n j (fun k => L j k * G k j)); auto. intros k Hk Ne. destruct (Nat.lt_ge_cases k j).
    + unfold G. apply Nat.ltb_lt in H. rewrite H. ring.
    + rewrite (Lo j k) by lia. ring.
Qed.
End Near.
