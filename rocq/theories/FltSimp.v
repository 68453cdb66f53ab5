(** * One simplex in binary64. *)
From Coq Require Import Reals ZArith Lra Lia List Permutation.
From Flocq Require Import Core Operations Relative Plus_error IEEE754.BinarySingleNaN.
From Verif Require Import Base Flt SpecFlt FltBase FltExp FltNum FltNum2 FltNum3.
Import ListNotations.
Local Open Scope R_scope.

(** ** Closeness on the log scale *)

Definition near (eps a b : R) : Prop := b * exp (- eps) <= a <= b * exp eps.

Lemma near_refl : forall a, near 0 a a.
Proof. intros. unfold near. rewrite Ropp_0, exp_0. lra. Qed.
Lemma near_weak : forall e e' a b, 0 <= b -> e <= e' -> near e a b -> near e' a b.
Proof.
  intros e e' a b Hb He [L U]. split.
  - eapply Rle_trans; [|exact L]. apply Rmult_le_compat_l; auto. apply exp_le. lra.
  - eapply Rle_trans; [exact U|]. apply Rmult_le_compat_l; auto. apply exp_le. lra.
Qed.
Lemma near_trans : forall e e' a b c, near e a b -> near e' b c -> near (e + e') a c.
Proof.
  intros e e' a b c [L1 U1] [L2 U2]. unfold near.
  replace (- (e + e')) with (- e' + - e) by ring. rewrite (Rplus_comm e e'), !exp_plus.
  pose proof (exp_pos e). pose proof (exp_pos (- e)). split.
  - eapply Rle_trans; [|exact L1]. rewrite <- Rmult_assoc. apply Rmult_le_compat_r; lra.
  - eapply Rle_trans; [exact U1|]. rewrite <- Rmult_assoc. apply Rmult_le_compat_r; lra.
Qed.
Lemma near_sum : forall e a b c d, near e a b -> near e c d -> near e (a + c) (b + d).
Proof. intros e a b c d [] []. unfold near. rewrite !Rmult_plus_distr_r. lra. Qed.

Lemma exp_ge_lin : forall x, 1 + x <= exp x.
Proof.
  intros x. destruct (Req_dec x 0) as [->|N]; [rewrite exp_0; lra|]. left. apply exp_ineq1. auto.
Qed.
Lemma near_rel : forall th a b, 0 <= b -> 0 <= th <= / 2 -> Rabs (a - b) <= th * b -> near (2 * th) a b.
Proof.
  intros th a b Hb Ht H. apply Rabs_le_inv in H. unfold near. split.
  - rewrite exp_inv. pose proof (exp_ge_lin (2 * th)).
    assert (/ exp (2 * th) <= / (1 + 2 * th)) by (apply Rinv_le_contravar; lra).
    assert (/ (1 + 2 * th) <= 1 - th).
    { apply Rmult_le_reg_r with (1 + 2 * th); [lra|]. rewrite Rinv_l by lra. nra. }
    nra.
  - pose proof (exp_ge_lin (2 * th)). nra.
Qed.
Lemma near_exp_diff : forall e x y, Rabs (x - y) <= e -> near e (exp x) (exp y).
Proof.
  intros e x y H. apply Rabs_le_inv in H. unfold near. rewrite <- !exp_plus. split; apply exp_le; lra.
Qed.
Lemma near_ln : forall e a b, 0 < b -> near e a b -> 0 < a /\ Rabs (ln a - ln b) <= e.
Proof.
  intros e a b Hb [L U]. pose proof (exp_pos (- e)). pose proof (exp_pos e).
  assert (Ha: 0 < a) by (eapply Rlt_le_trans; [|exact L]; nra). split; auto.
  assert (A: ln (b * exp (- e)) <= ln a).
  { destruct L as [L|L]; [left; apply ln_increasing; auto; nra|rewrite L; lra]. }
  assert (B: ln a <= ln (b * exp e)).
  { destruct U as [U|U]; [left; apply ln_increasing; auto|rewrite U; lra]. }
  rewrite ln_mult, ln_exp in A, B by auto. apply Rabs_le_both; lra.
Qed.

Lemma near_pos : forall e a b, 0 <= b -> near e a b -> 0 <= a.
Proof. intros e a b Hb [L _]. pose proof (exp_pos (- e)). eapply Rle_trans; [|exact L]. nra. Qed.

Lemma exp_small_up : forall e, 0 <= e <= / 2 -> exp e <= 1 + 2 * e.
Proof.
  intros e H. pose proof (exp_ge_lin (- e)) as A. rewrite exp_inv in A.
  pose proof (exp_pos e). assert (exp e * (1 - e) <= 1).
  { apply Rle_trans with (exp e * / exp e); [apply Rmult_le_compat_l; lra|rewrite Rinv_r; lra]. }
  nra.
Qed.

(** ** Sums in any order *)

Lemma rsum_app : forall l m, rsum (l ++ m) = rsum l + rsum m.
Proof. induction l as [|a l IH]; intros m; unfold rsum in *; cbn; [lra|]. rewrite IH. ring. Qed.
Lemma rsum_perm : forall l m, Permutation l m -> rsum l = rsum m.
Proof. induction 1; unfold rsum in *; cbn; lra. Qed.
Lemma rsum_nonneg : forall l, Forall (fun a => 0 <= a) l -> 0 <= rsum l.
Proof. induction 1; unfold rsum in *; cbn; lra. Qed.

Lemma rnd_near : forall a b, fmt a -> fmt b -> 0 <= a + b -> near (2 * u) (rnd (a + b)) (a + b).
Proof.
  intros a b Fa Fb H. apply near_rel; auto.
  - rewrite u_val. lra.
  - pose proof (rnd_add_error a b Fa Fb) as E. rewrite (Rabs_pos_eq (a + b)) in E by auto. exact E.
Qed.

Definition steps (l : list f64) : R := 2 * u * INR (length l).

Lemma steps_small : forall l, (length l <= Z.to_nat 1048576)%nat -> 0 <= steps l <= / 4.
Proof.
  intros l H. unfold steps. apply le_INR in H. rewrite (INR_Z (Z.to_nat _)), Z2Nat.id in H by lia.
  pose proof (pos_INR (length l)). rewrite u_val. lra.
Qed.

Lemma sum_near : forall l s, sum_of l s -> Forall (fun a => fin a /\ 0 <= val a) l ->
  rsum (map val l) <= pow2 1000 -> (length l <= Z.to_nat 1048576)%nat ->
  fin s /\ near (steps l) (val s) (rsum (map val l)).
Proof.
  induction 1 as [|x|l m a b Hl IHl Hm IHm|l m a P H IH]; intros F S N.
  - split; [reflexivity|]. unfold steps, near, rsum. cbn. lra.
  - inversion F as [|? ? [Fx Px] _]; subst. split; auto.
    unfold rsum. cbn [map fold_right]. rewrite Rplus_0_r.
    apply near_weak with 0; auto; [|apply near_refl]. apply steps_small. auto.
  - apply Forall_app in F. destruct F as [Fl Fm]. rewrite map_app, rsum_app in *.
    rewrite app_length in N.
    assert (Sl: 0 <= rsum (map val l)).
    { apply rsum_nonneg. rewrite Forall_map. eapply Forall_impl; [|exact Fl]. cbn. tauto. }
    assert (Sm: 0 <= rsum (map val m)).
    { apply rsum_nonneg. rewrite Forall_map. eapply Forall_impl; [|exact Fm]. cbn. tauto. }
    destruct IHl as [Fa Na]; [auto|lra|lia|]. destruct IHm as [Fb Nb]; [auto|lra|lia|].
    set (A := rsum (map val l)) in *. set (B := rsum (map val m)) in *.
    pose proof (near_pos _ _ _ Sl Na) as Pa. pose proof (near_pos _ _ _ Sm Nb) as Pb.
    assert (Hl2: 0 <= steps l <= / 4) by (apply steps_small; lia).
    assert (Hm2: 0 <= steps m <= / 4) by (apply steps_small; lia).
    assert (Ua: val a <= 2 * A).
    { destruct Na as [_ U]. eapply Rle_trans; [exact U|]. pose proof (exp_small_up (steps l)). nra. }
    assert (Ub: val b <= 2 * B).
    { destruct Nb as [_ U]. eapply Rle_trans; [exact U|]. pose proof (exp_small_up (steps m)). nra. }
    destruct (fadd_val a b Fa Fb) as [Fs Vs].
    { rewrite Rabs_pos_eq by lra. apply Rle_trans with (2 * pow2 1000); [lra|].
      change 2 with (pow2 1). rewrite <- pow2_add. apply pow2_mono. lia. }
    split; auto. rewrite Vs.
    destruct (Nat.eq_dec (length l) 0) as [L0|L0].
    { destruct l; [|discriminate L0].
      assert (A0: A = 0) by reflexivity. assert (Va: val a = 0).
      { destruct Na as [L U]. rewrite A0, Rmult_0_l in L, U. lra. }
      rewrite A0, Va, !Rplus_0_l, rnd_fmt by apply fmt_val. exact Nb. }
    destruct (Nat.eq_dec (length m) 0) as [M0|M0].
    { destruct m; [|discriminate M0].
      assert (B0: B = 0) by reflexivity. assert (Vb: val b = 0).
      { destruct Nb as [L U]. rewrite B0, Rmult_0_l in L, U. lra. }
      rewrite B0, Vb, !Rplus_0_r, rnd_fmt by apply fmt_val. rewrite app_nil_r. exact Na. }
    assert (Mx: near (Rmax (steps l) (steps m)) (val a + val b) (A + B)).
    { apply near_sum; eapply near_weak; eauto; [apply Rmax_l|apply Rmax_r]. }
    pose proof (rnd_near (val a) (val b) (fmt_val _) (fmt_val _) ltac:(lra)) as Rn.
    eapply near_weak; [|  |exact (near_trans _ _ _ _ _ Rn Mx)]; [lra|].
    unfold steps. rewrite app_length, plus_INR.
    assert (1 <= INR (length l)) by (change 1 with (INR 1); apply le_INR; lia).
    assert (1 <= INR (length m)) by (change 1 with (INR 1); apply le_INR; lia).
    assert (0 < u) by apply pow2_pos.
    unfold Rmax. destruct (Rle_dec _ _); nra.
  - destruct IH as [Fs Ns].
    + eapply Permutation_Forall; [apply Permutation_sym; exact P|auto].
    + rewrite (rsum_perm _ (map val m)); auto. apply Permutation_map. auto.
    + rewrite (Permutation_length P). auto.
    + split; auto. unfold steps in *. rewrite (Permutation_length P) in Ns.
      rewrite (rsum_perm _ (map val m)) in Ns; auto. apply Permutation_map. auto.
Qed.

(** ** The maximum *)

Lemma fmax_fin : forall a b, fin a -> fin b ->
  (fmax a b = a \/ fmax a b = b) /\ val a <= val (fmax a b) /\ val b <= val (fmax a b).
Proof.
  intros a b Fa Fb. unfold fmax. destruct (Rlt_or_le (val a) (val b)) as [H|H].
  - rewrite flt_true by auto. split; auto. lra.
  - rewrite flt_false by auto. split; auto. lra.
Qed.
Lemma fmaxl_fin : forall l, l <> [] -> Forall fin l ->
  In (fmaxl l) l /\ Forall (fun v => val v <= val (fmaxl l)) l.
Proof.
  assert (G: forall r a, fin a -> Forall fin r ->
    In (fold_left fmax r a) (a :: r) /\
    val a <= val (fold_left fmax r a) /\ Forall (fun v => val v <= val (fold_left fmax r a)) r).
  { induction r as [|b r IH]; intros a Fa Fr; cbn [fold_left].
    - split; [left; auto|]. split; [lra|constructor].
    - inversion Fr as [|? ? Fb Fr']; subst.
      destruct (fmax_fin a b Fa Fb) as (D & L1 & L2).
      assert (Fm: fin (fmax a b)) by (destruct D as [->| ->]; auto).
      destruct (IH (fmax a b) Fm Fr') as (I & M & K).
      split; [|split; [lra|constructor; [lra|auto]]].
      destruct I as [I|I]; [|right; right; auto]. rewrite <- I.
      destruct D as [->| ->]; [left|right; left]; auto. }
  intros [|a r] N F; [congruence|]. inversion F; subst. cbn [fmaxl].
  destruct (G r a) as (I & M & K); auto.
Qed.

(** ** Exponentials of moderate arguments *)

Lemma exp_near_rel : forall np, np_contract np -> forall x, fin x -> Rabs (val x) <= 700 ->
  fin (np_exp np x) /\ near (17 * u) (val (np_exp np x)) (exp (val x)).
Proof.
  intros np C x Fx Hx. destruct (exp_mid _ Hx) as [L _].
  destruct (exp_small np C x Fx) as (F & _ & E); [apply Rabs_le_inv in Hx; lra|].
  split; auto. pose proof (exp_pos (val x)).
  apply near_weak with (2 * (85 / 10 * u)); [lra| |].
  - assert (0 < u) by apply pow2_pos. lra.
  - apply near_rel; [lra|rewrite u_val; lra|].
    assert (T: pow2 (-1074) <= / 1000 * u * pow2 (-1010)).
    { change (-1010)%Z with (-1074 + 64)%Z. rewrite pm by lia. pose proof (pow2_pos (-1074)).
      change (IZR (2 ^ 64)) with 18446744073709551616. rewrite u_val. lra. }
    assert (U: u = / 9007199254740992) by apply u_val. rewrite U in *. lra.
Qed.

Lemma sub_near : forall a b, fin a -> fin b -> Rabs (val a - val b) <= pow2 1023 ->
  fin (fsub a b) /\ Rabs (val (fsub a b) - (val a - val b)) <= u * Rabs (val a - val b).
Proof.
  intros a b Fa Fb H. destruct (fsub_val a b Fa Fb H) as [F V]. split; auto. rewrite V.
  apply rnd_sub_error; apply fmt_val.
Qed.
Lemma add_near : forall a b, fin a -> fin b -> Rabs (val a + val b) <= pow2 1023 ->
  fin (fadd a b) /\ Rabs (val (fadd a b) - (val a + val b)) <= u * Rabs (val a + val b).
Proof.
  intros a b Fa Fb H. destruct (fadd_val a b Fa Fb H) as [F V]. split; auto. rewrite V.
  apply rnd_add_error; apply fmt_val.
Qed.

Lemma small_huge : forall x, x <= 1000000 -> x <= pow2 1023.
Proof.
  intros x H. apply Rle_trans with (pow2 20); [|apply pow2_mono; lia].
  rewrite pow2_Z by lia. change (IZR (2 ^ 20)) with 1048576. lra.
Qed.

Lemma near_rsum : forall e (A : Type) (f g : A -> R) l, (forall a, In a l -> near e (f a) (g a)) ->
  near e (rsum (map f l)) (rsum (map g l)).
Proof.
  intros e A f g l. induction l as [|a l IH]; intros H; unfold rsum in *; cbn.
  - unfold near. lra.
  - apply near_sum; [apply H; left; auto|apply IH; intros; apply H; right; auto].
Qed.

(** ** The transform for moderate inputs *)

Section Moderate.
  Variables (np : np64) (C : np_contract np).
  Variable row : list f64.
  Hypothesis row_ne : row <> [].
  Hypothesis row_fin : Forall (fun v => fin v /\ Rabs (val v) <= 100) row.
  Hypothesis row_len : (length row <= 1001)%nat.

  Let M := fmaxl row.
  Let S := rsum (map (fun v => exp (val v - val M)) row).
  Let ex (v : f64) := np_exp np (fsub v M).
  Let lse := logsumexp64 np row.

  Let U : u = / 9007199254740992.
  Proof. apply u_val. Qed.
  Let len_big : (length row <= Z.to_nat 1048576)%nat.
  Proof. eapply Nat.le_trans; [exact row_len|]. apply Nat2Z.inj_le. rewrite Z2Nat.id by lia. lia. Qed.

  Lemma M_spec : fin M /\ Rabs (val M) <= 100 /\ In M row /\ Forall (fun v => val v <= val M) row.
  Proof.
    destruct (fmaxl_fin row row_ne) as [I F].
    { eapply Forall_impl; [|exact row_fin]. cbn. tauto. }
    pose proof (proj1 (Forall_forall _ _) row_fin _ I) as [A B]. auto.
  Qed.

  Lemma v_spec : forall v, In v row -> fin v /\ Rabs (val v) <= 100 /\ -200 <= val v - val M <= 0.
  Proof.
    intros v Hv. destruct M_spec as (_ & B & _ & F).
    pose proof (proj1 (Forall_forall _ _) row_fin _ Hv) as [A D].
    pose proof (proj1 (Forall_forall _ _) F _ Hv). apply Rabs_le_inv in B.
    pose proof (Rabs_le_inv _ _ D). repeat split; auto; lra.
  Qed.

  Lemma ex_spec : forall v, In v row ->
    fin (ex v) /\ near (217 * u) (val (ex v)) (exp (val v - val M)).
  Proof.
    intros v Hv. destruct (v_spec v Hv) as (Fv & _ & D). destruct M_spec as (FM & _).
    destruct (sub_near v M Fv FM) as [Fd Ed].
    { apply small_huge. apply Rabs_le_both; lra. }
    assert (Ad: Rabs (val v - val M) <= 200) by (apply Rabs_le_both; lra).
    assert (E2: Rabs (val (fsub v M) - (val v - val M)) <= 200 * u) by (rewrite U in *; lra).
    destruct (exp_near_rel np C (fsub v M) Fd) as [Fe Ne].
    { apply Rabs_le_inv in E2. rewrite U in E2. apply Rabs_le_both; lra. }
    split; auto. pose proof (near_trans _ _ _ _ _ Ne (near_exp_diff _ _ _ E2)) as N.
    replace (217 * u) with (17 * u + 200 * u) by ring. exact N.
  Qed.

  Lemma S_bounds : 1 <= S <= 1001.
  Proof.
    unfold S. destruct M_spec as (_ & _ & I & F). split.
    - clear row_len len_big row_fin.
      assert (forall l, In M l -> 1 <= rsum (map (fun v => exp (val v - val M)) l)).
      { induction l as [|a l IH]; [intros []|]. intros [->|J]; unfold rsum in *; cbn.
        - rewrite Rminus_diag_eq, exp_0 by auto.
          assert (0 <= rsum (map (fun v => exp (val v - val M)) l)).
          { apply rsum_nonneg. rewrite Forall_map. apply Forall_forall. intros. left. apply exp_pos. }
          unfold rsum in *. lra.
        - specialize (IH J). pose proof (exp_pos (val a - val M)). lra. }
      auto.
    - apply Rle_trans with (INR (length row)).
      + assert (G: forall l, Forall (fun v => val v <= val M) l ->
          rsum (map (fun v => exp (val v - val M)) l) <= INR (length l)).
        { induction 1 as [|a l Ha F' IH]; [cbn; lra|].
          cbn [map length]. rewrite S_INR. unfold rsum in *. cbn [fold_right].
          assert (exp (val a - val M) <= 1) by (rewrite <- exp_0; apply exp_le; lra). lra. }
        apply G. exact F.
      + apply le_INR in row_len. rewrite (INR_Z 1001) in row_len. exact row_len.
  Qed.

  Lemma sum_spec : fin (np_sum np (map ex row)) /\ near (2219 * u) (val (np_sum np (map ex row))) S.
  Proof.
    assert (P: Forall (fun a => fin a /\ 0 <= val a) (map ex row)).
    { rewrite Forall_map. apply Forall_forall. intros v Hv. destruct (ex_spec v Hv) as [F N].
      split; auto. eapply near_pos; [|exact N]. left; apply exp_pos. }
    assert (N: near (217 * u) (rsum (map val (map ex row))) S).
    { unfold S. rewrite map_map. apply near_rsum. intros v Hv. apply ex_spec. auto. }
    pose proof S_bounds as SB.
    destruct (sum_near _ _ (np_sum_ok _ C (map ex row)) P) as [F Ns].
    { destruct N as [_ N]. eapply Rle_trans; [exact N|].
      pose proof (exp_small_up (217 * u)) as E. 
      assert (0 <= 217 * u <= / 2) by (rewrite U; lra).
      apply Rle_trans with (1001 * 2).
      - specialize (E H). apply Rmult_le_compat; try lra. left; apply exp_pos.
      - apply Rle_trans with (pow2 20); [|apply pow2_mono; lia].
        rewrite pow2_Z by lia. change (IZR (2 ^ 20)) with 1048576. lra. }
    { rewrite map_length. exact len_big. }
    split; auto. pose proof (near_trans _ _ _ _ _ Ns N) as T.
    apply near_weak with (3 := T); [lra|]. unfold steps. rewrite map_length.
    apply le_INR in row_len. rewrite (INR_Z 1001) in row_len.
    change (Z.of_nat 1001) with 1001%Z in row_len. rewrite U. lra.
  Qed.

  Lemma lnS : 0 <= ln S <= 7.
  Proof.
    pose proof S_bounds as [A B]. split.
    - destruct A as [A|A]; [left; rewrite <- ln_1; apply ln_increasing; lra|rewrite <- A, ln_1; lra].
    - rewrite <- (ln_exp 7). left. apply ln_increasing; [lra|].
      pose proof (exp_Z_lower 7 10 ltac:(zcheck)) as H. rewrite INR_Z in H.
      change (Z.of_nat 10) with 10%Z in H. rewrite pow2_Z in H by lia.
      change (IZR (2 ^ 10)) with 1024 in H. change (IZR (Z.of_nat 7)) with 7 in H. lra.
  Qed.

  Lemma lse_spec : fin lse /\ Rabs (val lse - (ln S + val M)) <= 2385 * u.
  Proof.
    destruct sum_spec as [Fs Ns]. destruct M_spec as (FM & BM & _ & _).
    pose proof S_bounds as SB. pose proof lnS as LS.
    change lse with (fadd (np_log np (np_sum np (map ex row))) M).
    set (s := np_sum np (map ex row)) in *.
    assert (S0: 0 < S) by lra. destruct (near_ln _ _ _ S0 Ns) as [Ps Es].
    destruct (log_near _ (np_log_ok _ C) s Fs Ps) as [Fl El]. rewrite p50 in El.
    set (L := np_log np s) in *.
    assert (As: Rabs (ln (val s)) <= 71 / 10).
    { apply Rabs_le_inv in Es. rewrite U in Es. apply Rabs_le_both; lra. }
    assert (E2: Rabs (val L - ln S) <= 2276 * u).
    { apply Rabs_le_inv in Es. assert (E3: Rabs (val L - ln (val s)) <= 57 * u) by (rewrite U in *; lra).
      apply Rabs_le_inv in E3. apply Rabs_le_both; lra. }
    assert (BM' := Rabs_le_inv _ _ BM). assert (E2' := Rabs_le_inv _ _ E2).
    assert (Ab: Rabs (val L + val M) <= 108) by (rewrite U in E2'; apply Rabs_le_both; lra).
    destruct (add_near L M Fl FM) as [Fr Er].
    { apply small_huge. lra. }
    split; auto. assert (E4: Rabs (val (fadd L M) - (val L + val M)) <= 108 * u) by (rewrite U in *; lra).
    apply Rabs_le_inv in E4. assert (0 < u) by apply pow2_pos. apply Rabs_le_both; lra.
  Qed.

  (** The exact share. *)
  Let share (v : f64) := exp (val v - val M) / S.

  Lemma share_ln : forall v, ln (share v) = val v - (ln S + val M).
  Proof.
    intros v. unfold share, Rdiv. pose proof S_bounds.
    rewrite ln_mult, ln_Rinv, ln_exp; try lra; [apply exp_pos|apply Rinv_0_lt_compat; lra].
  Qed.
  Lemma share_pos : forall v, 0 < share v.
  Proof.
    intros v. unfold share. pose proof S_bounds. apply Rmult_lt_0_compat; [apply exp_pos|].
    apply Rinv_0_lt_compat. lra.
  Qed.
  Lemma share_exp : forall v, share v = exp (val v - (ln S + val M)).
  Proof. intros v. rewrite <- share_ln, exp_ln; auto. apply share_pos. Qed.

  Lemma share_sum : rsum (map share row) = 1.
  Proof.
    assert (E: forall l, rsum (map share l) = rsum (map (fun v => exp (val v - val M)) l) / S).
    { induction l as [|a l IH]; unfold rsum, share in *; cbn; [unfold Rdiv; ring|]. rewrite IH.
      unfold Rdiv. ring. }
    rewrite E. fold S. pose proof S_bounds. field. lra.
  Qed.

  Let pr (v : f64) := np_exp np (fsub v lse).

  Lemma pr_spec : forall v, In v row -> fin (pr v) /\ near (2612 * u) (val (pr v)) (share v).
  Proof.
    intros v Hv. destruct (v_spec v Hv) as (Fv & Bv & D). destruct lse_spec as [Fl El].
    pose proof lnS as LS. destruct M_spec as (_ & BM & _).
    assert (Bv' := Rabs_le_inv _ _ Bv). assert (BM' := Rabs_le_inv _ _ BM).
    assert (El' := Rabs_le_inv _ _ El).
    assert (Ad: Rabs (val v - val lse) <= 209) by (rewrite U in El'; apply Rabs_le_both; lra).
    destruct (sub_near v lse Fv Fl) as [Fd Ed]; [apply small_huge; lra|].
    assert (E1: Rabs (val (fsub v lse) - (val v - val lse)) <= 209 * u) by (rewrite U in *; lra).
    assert (E1' := Rabs_le_inv _ _ E1).
    assert (E2: Rabs (val (fsub v lse) - (val v - (ln S + val M))) <= 2594 * u).
    { assert (0 < u) by apply pow2_pos. apply Rabs_le_both; lra. }
    destruct (exp_near_rel np C (fsub v lse) Fd) as [Fe Ne].
    { assert (Ad' := Rabs_le_inv _ _ Ad). rewrite U in E1'. apply Rabs_le_both; lra. }
    split; auto. rewrite share_exp.
    pose proof (near_trans _ _ _ _ _ Ne (near_exp_diff _ _ _ E2)) as N.
    apply near_weak with (3 := N); [left; apply exp_pos|]. assert (0 < u) by apply pow2_pos. lra.
  Qed.

  Lemma total_spec : fin (np_sum np (map pr row)) /\ Rabs (val (np_sum np (map pr row)) - 1) <= 4700 * u.
  Proof.
    assert (P: Forall (fun a => fin a /\ 0 <= val a) (map pr row)).
    { rewrite Forall_map. apply Forall_forall. intros v Hv. destruct (pr_spec v Hv) as [F N].
      split; auto. eapply near_pos; [|exact N]. left; apply share_pos. }
    assert (N: near (2612 * u) (rsum (map val (map pr row))) 1).
    { rewrite <- share_sum. rewrite map_map. apply near_rsum. intros v Hv. apply pr_spec. auto. }
    destruct (sum_near _ _ (np_sum_ok _ C (map pr row)) P) as [F Ns].
    { destruct N as [_ N]. eapply Rle_trans; [exact N|].
      pose proof (exp_small_up (2612 * u)) as E. rewrite Rmult_1_l.
      assert (0 <= 2612 * u <= / 2) by (rewrite U; lra).
      apply Rle_trans with 2; [lra|]. change 2 with (pow2 1). apply pow2_mono. lia. }
    { rewrite map_length. exact len_big. }
    split; auto. pose proof (near_trans _ _ _ _ _ Ns N) as T.
    assert (T': near (4616 * u) (val (np_sum np (map pr row))) 1).
    { apply near_weak with (3 := T); [lra|]. unfold steps. rewrite map_length.
      apply le_INR in row_len. rewrite (INR_Z 1001) in row_len.
      change (Z.of_nat 1001) with 1001%Z in row_len. rewrite U. lra. }
    destruct T' as [TL TU]. rewrite Rmult_1_l in TL, TU.
    assert (HL: 1 - 4616 * u <= exp (- (4616 * u))) by (pose proof (exp_ge_lin (- (4616 * u))); lra).
    assert (HU: exp (4616 * u) <= 1 + 4700 * u).
    { pose proof (exp_ge_lin (- (4616 * u))) as A. rewrite exp_inv in A.
      pose proof (exp_pos (4616 * u)). set (E := exp (4616 * u)) in *.
      assert (E * (1 - 4616 * u) <= 1).
      { apply Rle_trans with (E * / E); [apply Rmult_le_compat_l; lra|rewrite Rinv_r; lra]. }
      assert (1 <= (1 + 4700 * u) * (1 - 4616 * u)) by (rewrite U; lra).
      apply Rmult_le_reg_r with (1 - 4616 * u); [rewrite U; lra|lra]. }
    assert (0 < u) by apply pow2_pos. apply Rabs_le_both; lra.
  Qed.

  Lemma moderate_valid : simplex64_valid np (map pr row) = true.
  Proof.
    unfold simplex64_valid. apply andb_true_intro. split.
    - apply Bool.negb_true_iff. destruct (existsb (fun v => flt v fzero) (map pr row)) eqn:E; auto.
      exfalso. apply existsb_exists in E. destruct E as (p & Hp & L).
      apply in_map_iff in Hp. destruct Hp as (v & <- & Hv). destruct (pr_spec v Hv) as [F N].
      rewrite flt_false in L; [discriminate|auto|reflexivity|].
      rewrite (proj2 fzero_val). eapply near_pos; [|exact N]. left; apply share_pos.
    - apply Bool.negb_true_iff. destruct total_spec as [F E].
      set (s := np_sum np (map pr row)) in *.
      destruct (sub_near s fone F (proj1 fone_val)) as [Fd Ed].
      { rewrite (proj2 fone_val). apply small_huge. rewrite U in E. lra. }
      rewrite (proj2 fone_val) in Ed.
      assert (A: Rabs (val (fsub s fone)) <= 4800 * u).
      { replace (val (fsub s fone)) with ((val (fsub s fone) - (val s - 1)) + (val s - 1)) by ring.
        eapply Rle_trans; [apply Rabs_triang|]. rewrite U in *. lra. }
      destruct (val_sf tol64 false 4951760157141521 (-92)) as [Ft Vt]; [vm_compute; reflexivity|].
      apply flt_false; auto.
      + unfold fabs, fin. rewrite is_finite_Babs. exact Fd.
      + unfold fabs. unfold val at 1. rewrite B2R_Babs. fold (val (fsub s fone)).
        eapply Rle_trans; [exact A|]. rewrite Vt. unfold u. change (-53)%Z with (-92 + 39)%Z.
        rewrite pm by lia. rewrite <- Rmult_assoc. apply Rmult_le_compat_r; [left; apply pow2_pos|].
        rewrite <- mult_IZR. apply IZR_le. zcheck.
  Qed.

  Lemma pr_log : forall v, In v row -> fin (np_log np (pr v)) /\
    Rabs (val (np_log np (pr v)) - (val v - (ln S + val M))) <= 4277 * u /\
    Rabs (val (np_log np (pr v))) <= 209.
  Proof.
    intros v Hv. destruct (pr_spec v Hv) as [F N].
    destruct (near_ln _ _ _ (share_pos v) N) as [P E]. rewrite share_ln in E.
    destruct (log_near _ (np_log_ok _ C) (pr v) F P) as [Fl El]. rewrite p50 in El.
    destruct (v_spec v Hv) as (Fv & Bv & D). pose proof lnS as LS.
    assert (E' := Rabs_le_inv _ _ E).
    assert (A: Rabs (ln (val (pr v))) <= 208) by (rewrite U in E'; apply Rabs_le_both; lra).
    assert (E2: Rabs (val (np_log np (pr v)) - ln (val (pr v))) <= 1664 * u) by (rewrite U in *; lra).
    assert (E2' := Rabs_le_inv _ _ E2). assert (0 < u) by apply pow2_pos.
    split; auto. split; [apply Rabs_le_both; lra|].
    rewrite U in E', E2'. apply Rabs_le_both; lra.
  Qed.

  Lemma diff_log : forall v w, In v row -> In w row ->
    fin (fsub (np_log np (pr v)) (np_log np (pr w))) /\
    Rabs (val (fsub (np_log np (pr v)) (np_log np (pr w))) - (val v - val w)) <= 9000 * u.
  Proof.
    intros v w Hv Hw. destruct (pr_log v Hv) as (Fv & Ev & Bv). destruct (pr_log w Hw) as (Fw & Ew & Bw).
    assert (Ev' := Rabs_le_inv _ _ Ev). assert (Ew' := Rabs_le_inv _ _ Ew).
    assert (Bv' := Rabs_le_inv _ _ Bv). assert (Bw' := Rabs_le_inv _ _ Bw).
    destruct (v_spec v Hv) as (_ & V & _). destruct (v_spec w Hw) as (_ & W & _).
    apply Rabs_le_inv in V. apply Rabs_le_inv in W.
    assert (A: Rabs (val (np_log np (pr v)) - val (np_log np (pr w))) <= 201).
    { rewrite U in Ev', Ew'. apply Rabs_le_both; lra. }
    destruct (sub_near _ _ Fv Fw) as [F E]; [apply small_huge; lra|]. split; auto.
    assert (E2: Rabs (val (fsub (np_log np (pr v)) (np_log np (pr w))) -
      (val (np_log np (pr v)) - val (np_log np (pr w)))) <= 201 * u) by (rewrite U in *; lra).
    apply Rabs_le_inv in E2. assert (0 < u) by apply pow2_pos. apply Rabs_le_both; lra.
  Qed.

  Lemma share_softmax : forall v, share v = softmax (map val row) (val v).
  Proof.
    intros v. unfold softmax, share, S. rewrite map_map.
    assert (E: forall l, rsum (map (fun w => exp (val w - val M)) l) =
                         rsum (map (fun w => exp (val w)) l) * exp (- val M)).
    { induction l as [|a l IH]; unfold rsum in *; cbn; [ring|]. rewrite IH. unfold Rminus. rewrite exp_plus. ring. }
    rewrite E. unfold Rminus. rewrite exp_plus.
    assert (P: 0 < rsum (map (fun w => exp (val w)) row)).
    { pose proof S_bounds as [B _]. unfold S in B. rewrite E in B. pose proof (exp_pos (- val M)).
      destruct (Rlt_or_le 0 (rsum (map (fun w => exp (val w)) row))); auto. nra. }
    pose proof (exp_pos (- val M)). field. lra.
  Qed.
End Moderate.
