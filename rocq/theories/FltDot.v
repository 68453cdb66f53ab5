(** * Sums of products, and PSD matrices of any size, in binary64. *)
From Coq Require Import Reals ZArith Lra Lia List Permutation.
From Flocq Require Import Core Operations Relative Plus_error IEEE754.BinarySingleNaN.
From Verif Require Import Base Flt SpecFlt FltBase FltExp FltNum FltNum2 FltNum3 FltSimp FltSimp2 FltPsd
  FltMat SpecFltMat.
Import ListNotations.
Local Open Scope R_scope.

Lemma ffma_val : forall x y z, fin x -> fin y -> fin z -> Rabs (val x * val y + val z) <= pow2 1023 ->
  fin (ffma x y z) /\ val (ffma x y z) = rnd (val x * val y + val z).
Proof.
  intros x y z Hx Hy Hz H. unfold ffma, fin, val in *.
  pose proof (Bfma_correct 53 1024 prec64 emax64 mode_NE x y z Hx Hy Hz) as C. cbv zeta in C.
  rewrite rnd_eq in C. rewrite Rlt_bool_true in C.
  - tauto.
  - apply lt_max. apply rnd_abs_le; auto. apply fmt_pow2. lia.
Qed.

(** ** The error of a sum of products *)

Definition pv (p : f64 * f64) : R := val (fst p) * val (snd p).
Definition dp (l : list (f64 * f64)) : R := rsum (map pv l).
Definition ap (l : list (f64 * f64)) : R := rsum (map (fun p => Rabs (pv p)) l).
Definition grow (k : nat) : R := (1 + u) ^ k.
Definition eta : R := pow2 (-1074).

Lemma u_pos : 0 < u.
Proof. apply pow2_pos. Qed.
Lemma eta_pos : 0 < eta.
Proof. apply pow2_pos. Qed.
Lemma grow_1 : forall k, 1 <= grow k.
Proof. intros k. apply pow_R1_Rle. pose proof u_pos. lra. Qed.
Lemma grow_S : forall k, grow (S k) = (1 + u) * grow k.
Proof. reflexivity. Qed.
Lemma grow_mono : forall a b, (a <= b)%nat -> grow a <= grow b.
Proof. intros. apply Rle_pow; auto. pose proof u_pos. lra. Qed.
Lemma grow_bound : forall k, (k <= Z.to_nat 1048576)%nat -> grow k - 1 <= 2 * u * INR k.
Proof.
  intros k H. apply le_INR in H. rewrite (INR_Z (Z.to_nat _)), Z2Nat.id in H by lia.
  assert (E: grow k <= exp (INR k * u)).
  { clear H. induction k as [|k IH].
    - unfold grow. cbn [pow INR]. rewrite Rmult_0_l, exp_0. lra.
    - rewrite grow_S, S_INR. replace ((INR k + 1) * u) with (u + INR k * u) by ring. rewrite exp_plus.
      pose proof (exp_ge_lin u). pose proof u_pos. pose proof (grow_1 k).
      apply Rmult_le_compat; lra. }
  pose proof (pos_INR k). pose proof u_pos.
  pose proof (exp_small_up (INR k * u)) as X. rewrite u_val in *. lra.
Qed.

Lemma ap_nonneg : forall l, 0 <= ap l.
Proof.
  intros l. apply rsum_nonneg. rewrite Forall_map. apply Forall_forall. intros. apply Rabs_pos.
Qed.
Lemma dp_le_ap : forall l, Rabs (dp l) <= ap l.
Proof.
  induction l as [|p l IH]; unfold dp, ap, rsum in *; cbn [map fold_right].
  - rewrite Rabs_R0. lra.
  - eapply Rle_trans; [apply Rabs_triang|]. lra.
Qed.

Definition dot_bound (k : nat) (a : R) : R := (grow k - 1) * a + INR k * grow k * eta.

Lemma dot_step : forall k k' A B e, (k < k')%nat -> 0 <= A -> 0 <= B -> e <= dot_bound k A ->
  u * A + u * B + (1 + u) * e + eta / 2 <= (grow k' - 1) * A + u * B + (INR k + 1) * grow k' * eta /\
  u * A + (1 + u) * e <= (grow k' - 1) * A + INR k * grow k' * eta.
Proof.
  intros k k' A B e H HA HB He. unfold dot_bound in He.
  pose proof u_pos. pose proof eta_pos. pose proof (grow_1 k'). pose proof (grow_1 k).
  assert (G: (1 + u) * grow k <= grow k') by (rewrite <- grow_S; apply grow_mono; lia).
  assert (E: (1 + u) * e <= ((1 + u) * grow k - 1 - u) * A + INR k * ((1 + u) * grow k) * eta).
  { apply Rle_trans with ((1 + u) * ((grow k - 1) * A + INR k * grow k * eta)).
    - apply Rmult_le_compat_l; lra.
    - right. ring. }
  pose proof (pos_INR k).
  assert (X: ((1 + u) * grow k - 1 - u) * A <= (grow k' - 1 - u) * A) by (apply Rmult_le_compat_r; lra).
  assert (Y: INR k * ((1 + u) * grow k) * eta <= INR k * grow k' * eta).
  { apply Rmult_le_compat_r; [lra|]. apply Rmult_le_compat_l; lra. }
  assert (Z: eta / 2 <= grow k' * eta) by nra.
  split; nra.
Qed.

Lemma val_bound : forall r d A k, (k <= Z.to_nat 1048576)%nat -> 0 <= A <= pow2 1020 -> Rabs d <= A ->
  Rabs (r - d) <= dot_bound k A -> Rabs r <= pow2 1021.
Proof.
  intros r d A k K HA Hd H. pose proof (grow_bound k K) as G.
  apply le_INR in K. rewrite (INR_Z (Z.to_nat _)), Z2Nat.id in K by lia.
  pose proof (grow_1 k). pose proof (pos_INR k). pose proof eta_pos.
  assert (P: pow2 1021 = 2 * pow2 1020) by (change 1021%Z with (1020 + 1)%Z; rewrite pm by lia; reflexivity).
  assert (Q: eta <= pow2 0) by (apply pow2_mono; lia). change (pow2 0) with 1 in Q.
  assert (Q2: pow2 24 <= pow2 1020) by (apply pow2_mono; lia).
  rewrite (pow2_Z 24) in Q2 by lia. change (IZR (2 ^ 24)) with 16777216 in Q2.
  assert (B: dot_bound k A <= / 2 * A + 2097152).
  { unfold dot_bound. assert (grow k - 1 <= / 2) by (rewrite u_val in G; lra).
    assert (INR k * grow k <= 1048576 * 2) by nra.
    assert (0 <= INR k * grow k) by nra.
    assert ((grow k - 1) * A <= / 2 * A) by (apply Rmult_le_compat_r; lra).
    assert (INR k * grow k * eta <= 1048576 * 2 * 1) by (apply Rmult_le_compat; lra). lra. }
  replace r with ((r - d) + d) by ring. eapply Rle_trans; [apply Rabs_triang|]. lra.
Qed.

Lemma dot_error : forall l r, dot_of l r -> Forall (fun p => fin (fst p) /\ fin (snd p)) l ->
  (length l <= Z.to_nat 1048576)%nat -> ap l <= pow2 1020 ->
  fin r /\ Rabs (val r - dp l) <= dot_bound (length l) (ap l).
Proof.
  assert (P23: pow2 1023 = 8 * pow2 1020) by (change 1023%Z with (1020 + 3)%Z; rewrite pm by lia; reflexivity).
  assert (P21: pow2 1021 = 2 * pow2 1020) by (change 1021%Z with (1020 + 1)%Z; rewrite pm by lia; reflexivity).
  pose proof (pow2_pos 1020) as P20. pose proof u_pos as U. pose proof eta_pos as E0.
  assert (Half: pow2 (-1075) = eta / 2).
  { unfold eta. change (-1074)%Z with (-1075 + 1)%Z. rewrite pm by lia. change (IZR (2 ^ 1)) with 2. lra. }
  induction 1 as [|x y|x y l a H IH|l m a b Hl IHl Hm IHm|l m a P H IH]; intros F N A.
  - split; [reflexivity|]. unfold dp, ap, dot_bound, rsum. cbn [map fold_right length INR].
    rewrite (proj2 fzero_val), Rminus_0_r, Rabs_R0. lra.
  - inversion F as [|? ? [Fx Fy] _]; subst. cbn [fst snd] in *.
    unfold dp, ap, rsum in *. cbn [map fold_right] in *. rewrite Rplus_0_r in *.
    unfold pv in *. cbn [fst snd] in *.
    destruct (fmul_val x y Fx Fy) as [Fr Vr]; [lra|]. split; auto. rewrite Vr.
    eapply Rle_trans; [apply rnd_error|]. unfold dot_bound. cbn [length INR]. rewrite Half.
    assert (G: grow 1 = 1 + u) by (unfold grow; ring). rewrite G.
    pose proof (Rabs_pos (val x * val y)). nra.
  - inversion F as [|? ? [Fx Fy] Fl]; subst. cbn [fst snd length] in *.
    assert (AP: ap ((x, y) :: l) = Rabs (val x * val y) + ap l) by reflexivity.
    assert (DP: dp ((x, y) :: l) = val x * val y + dp l) by reflexivity.
    pose proof (ap_nonneg l) as An. pose proof (Rabs_pos (val x * val y)) as Xn.
    destruct IH as [Fa Ea]; [auto|lia|lra|].
    pose proof (val_bound (val a) (dp l) (ap l) (length l) ltac:(lia) ltac:(lra) (dp_le_ap l) Ea) as Ba.
    destruct (ffma_val x y a Fx Fy Fa) as [Fr Vr].
    { eapply Rle_trans; [apply Rabs_triang|]. lra. }
    split; auto. rewrite Vr, DP.
    replace (rnd (val x * val y + val a) - (val x * val y + dp l))
      with ((rnd (val x * val y + val a) - (val x * val y + val a)) + (val a - dp l)) by ring.
    eapply Rle_trans; [apply Rabs_triang|].
    pose proof (rnd_error (val x * val y + val a)) as R. rewrite Half in R.
    set (e := Rabs (val a - dp l)) in *.
    assert (S: Rabs (val x * val y + val a) <= Rabs (val x * val y) + ap l + e).
    { replace (val x * val y + val a) with ((val x * val y + dp l) + (val a - dp l)) by ring.
      eapply Rle_trans; [apply Rabs_triang|]. pose proof (Rabs_triang (val x * val y) (dp l)).
      pose proof (dp_le_ap l). unfold e. lra. }
    assert (S': u * Rabs (val x * val y + val a) <= u * (Rabs (val x * val y) + ap l + e)) by (apply Rmult_le_compat_l; lra).
    destruct (dot_step (length l) (Datatypes.S (length l)) (ap l) (Rabs (val x * val y)) e) as [D _]; auto.
    unfold dot_bound. cbn [length]. rewrite AP, S_INR.
    pose proof (grow_1 (length l)). rewrite grow_S in *.
    assert (u * Rabs (val x * val y) <= ((1 + u) * grow (length l) - 1) * Rabs (val x * val y)).
    { apply Rmult_le_compat_r; auto. nra. }
    lra.
  - apply Forall_app in F. destruct F as [Fl Fm]. rewrite app_length in *.
    assert (AP: ap (l ++ m) = ap l + ap m) by (unfold ap; rewrite map_app, rsum_app; reflexivity).
    assert (DP: dp (l ++ m) = dp l + dp m) by (unfold dp; rewrite map_app, rsum_app; reflexivity).
    pose proof (ap_nonneg l) as Al. pose proof (ap_nonneg m) as Am.
    destruct IHl as [Fa Ea]; [auto|lia|lra|]. destruct IHm as [Fb Eb]; [auto|lia|lra|].
    pose proof (val_bound (val a) (dp l) (ap l) (length l) ltac:(lia) ltac:(lra) (dp_le_ap l) Ea) as Ba.
    pose proof (val_bound (val b) (dp m) (ap m) (length m) ltac:(lia) ltac:(lra) (dp_le_ap m) Eb) as Bb.
    destruct (fadd_val a b Fa Fb) as [Fr Vr]; [eapply Rle_trans; [apply Rabs_triang|]; lra|].
    split; auto. rewrite Vr, AP, DP.
    assert (Z: forall q c, length q = 0%nat -> Rabs (val c - dp q) <= dot_bound (length q) (ap q) -> val c = 0 /\ dp q = 0 /\ ap q = 0).
    { intros q c Q Hc. destruct q; [|discriminate Q]. unfold dp, ap, dot_bound, rsum, grow in *. cbn in Hc |- *.
      rewrite Rminus_0_r in Hc. pose proof (Rabs_pos (val c)).
      assert (Hz: Rabs (val c) = 0) by lra. repeat split; auto.
      destruct (Req_dec (val c) 0); auto. apply Rabs_no_R0 in H0. lra. }
    destruct (Nat.eq_dec (length l) 0) as [L0|L0].
    { destruct (Z l a L0 Ea) as (Va & D0 & A0). rewrite Va, D0, A0, L0, !Rplus_0_l, rnd_fmt by apply fmt_val.
      exact Eb. }
    destruct (Nat.eq_dec (length m) 0) as [M0|M0].
    { destruct (Z m b M0 Eb) as (Vb & D0 & A0). rewrite Vb, D0, A0, M0, !Rplus_0_r, Nat.add_0_r, rnd_fmt by apply fmt_val.
      exact Ea. }
    clear Z.
    set (ea := Rabs (val a - dp l)) in *. set (eb := Rabs (val b - dp m)) in *.
    pose proof (rnd_add_error (val a) (val b) (fmt_val a) (fmt_val b)) as R.
    assert (S: Rabs (val a + val b) <= ap l + ap m + ea + eb).
    { replace (val a + val b) with ((dp l + dp m) + ((val a - dp l) + (val b - dp m))) by ring.
      eapply Rle_trans; [apply Rabs_triang|]. pose proof (Rabs_triang (dp l) (dp m)).
      pose proof (Rabs_triang (val a - dp l) (val b - dp m)). pose proof (dp_le_ap l). pose proof (dp_le_ap m).
      unfold ea, eb. lra. }
    assert (S': u * Rabs (val a + val b) <= u * (ap l + ap m + ea + eb)) by (apply Rmult_le_compat_l; lra).
    assert (T: Rabs (rnd (val a + val b) - (dp l + dp m)) <= u * (ap l + ap m + ea + eb) + ea + eb).
    { replace (rnd (val a + val b) - (dp l + dp m))
        with ((rnd (val a + val b) - (val a + val b)) + ((val a - dp l) + (val b - dp m))) by ring.
      eapply Rle_trans; [apply Rabs_triang|]. pose proof (Rabs_triang (val a - dp l) (val b - dp m)).
      unfold ea, eb in *. lra. }
    destruct (dot_step (length l) (length l + length m) (ap l) 0 ea) as [_ D1]; auto; [lia|lra|].
    destruct (dot_step (length m) (length l + length m) (ap m) 0 eb) as [_ D2]; auto; [lia|lra|].
    unfold dot_bound. rewrite plus_INR. lra.
  - assert (LP: length l = length m) by (apply Permutation_length; auto).
    assert (AP: ap l = ap m) by (unfold ap; apply rsum_perm, Permutation_map; auto).
    assert (DP: dp l = dp m) by (unfold dp; apply rsum_perm, Permutation_map; auto).
    rewrite <- LP, <- AP, <- DP in *. apply IH; auto.
    eapply Permutation_Forall; [apply Permutation_sym; exact P|auto].
Qed.

(** A sum of squares is not negative. *)
Lemma dot_squares : forall l r, dot_of l r -> Forall (fun p => fin (fst p) /\ fst p = snd p) l ->
  (length l <= Z.to_nat 1048576)%nat -> ap l <= pow2 1020 -> 0 <= val r.
Proof.
  assert (P23: pow2 1023 = 8 * pow2 1020) by (change 1023%Z with (1020 + 3)%Z; rewrite pm by lia; reflexivity).
  assert (P21: pow2 1021 = 2 * pow2 1020) by (change 1021%Z with (1020 + 1)%Z; rewrite pm by lia; reflexivity).
  pose proof (pow2_pos 1020) as P20.
  assert (W: forall l, Forall (fun p : f64 * f64 => fin (fst p) /\ fst p = snd p) l ->
             Forall (fun p => fin (fst p) /\ fin (snd p)) l).
  { intros l. apply Forall_impl. intros [a b]. cbn. intros [Fa <-]. auto. }
  assert (Z0: fmt 0) by (apply generic_format_0).
  induction 1 as [|x y|x y l a H IH|l m a b Hl IHl Hm IHm|l m a P H IH]; intros F N A.
  - rewrite (proj2 fzero_val). lra.
  - inversion F as [|? ? [Fx Exy] _]; subst. cbn [fst snd] in *. subst y.
    unfold ap, rsum in A. cbn [map fold_right] in A. unfold pv in A. cbn [fst snd] in A. rewrite Rplus_0_r in A.
    destruct (fmul_val x x Fx Fx) as [_ ->]; [lra|]. apply rnd_ge; auto. nra.
  - inversion F as [|? ? [Fx Exy] Fl]; subst. cbn [fst snd length] in *. subst y.
    assert (AP: ap ((x, x) :: l) = Rabs (val x * val x) + ap l) by reflexivity.
    pose proof (ap_nonneg l) as An. pose proof (Rabs_pos (val x * val x)) as Xn.
    destruct (dot_error l a H) as [Fa Ea]; [auto|lia|lra|].
    pose proof (val_bound (val a) (dp l) (ap l) (length l) ltac:(lia) ltac:(lra) (dp_le_ap l) Ea) as Ba.
    destruct (ffma_val x x a Fx Fx Fa) as [_ ->]; [eapply Rle_trans; [apply Rabs_triang|]; lra|].
    apply rnd_ge; auto. assert (0 <= val a) by (apply IH; auto; [lia|lra]). nra.
  - apply Forall_app in F. destruct F as [Fl Fm]. rewrite app_length in *.
    assert (AP: ap (l ++ m) = ap l + ap m) by (unfold ap; rewrite map_app, rsum_app; reflexivity).
    pose proof (ap_nonneg l) as Al. pose proof (ap_nonneg m) as Am.
    destruct (dot_error l a Hl) as [Fa Ea]; [auto|lia|lra|]. destruct (dot_error m b Hm) as [Fb Eb]; [auto|lia|lra|].
    pose proof (val_bound (val a) (dp l) (ap l) (length l) ltac:(lia) ltac:(lra) (dp_le_ap l) Ea) as Ba.
    pose proof (val_bound (val b) (dp m) (ap m) (length m) ltac:(lia) ltac:(lra) (dp_le_ap m) Eb) as Bb.
    destruct (fadd_val a b Fa Fb) as [_ ->]; [eapply Rle_trans; [apply Rabs_triang|]; lra|].
    assert (0 <= val a) by (apply IHl; auto; [lia|lra]). assert (0 <= val b) by (apply IHm; auto; [lia|lra]).
    apply rnd_ge; auto. lra.
  - assert (LP: length l = length m) by (apply Permutation_length; auto).
    assert (AP: ap l = ap m) by (unfold ap; apply rsum_perm, Permutation_map; auto).
    rewrite <- LP, <- AP in *. apply IH; auto.
    eapply Permutation_Forall; [apply Permutation_sym; exact P|auto].
Qed.
