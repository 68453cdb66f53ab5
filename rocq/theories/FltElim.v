(** * Subtracting sums of products in binary64. *)
From Coq Require Import Reals ZArith Lra Lia List Permutation.
From Flocq Require Import Core Operations Relative Plus_error IEEE754.BinarySingleNaN.
From Verif Require Import Base Flt SpecFlt FltBase FltExp FltNum FltNum2 FltNum3 FltSimp FltSimp2 FltPsd
  FltMat SpecFltMat FltDot FltChol SpecFltChol.
Import ListNotations.
Local Open Scope R_scope.

Lemma fneg_val : forall x, val (fneg x) = - val x.
Proof. intros. apply B2R_Bopp. Qed.
Lemma fneg_fin : forall x, fin x -> fin (fneg x).
Proof. intros x H. unfold fin, fneg. rewrite is_finite_Bopp. exact H. Qed.

(** ** Sums of squares that may overflow *)

Definition square (p : f64 * f64) : Prop := fst p = snd p.

Lemma add_nonneg : forall a b, fin a -> fin b -> 0 <= val a -> 0 <= val b ->
  fadd a b = finf \/ (fin (fadd a b) /\ val (fadd a b) = rnd (val a + val b)).
Proof.
  intros a b Fa Fb Pa Pb.
  pose proof (Bplus_correct 53 1024 prec64 emax64 mode_NE a b Fa Fb) as C.
  rewrite rnd_eq in C. change (B2R a) with (val a) in C. change (B2R b) with (val b) in C.
  destruct (Rlt_bool_spec (Rabs (rnd (val a + val b))) (bpow radix2 1024)) as [H|H].
  - right. destruct C as (C1 & C2 & _). split; [exact C2|exact C1].
  - left. destruct C as (C1 & C2).
    assert (P: 0 < val a).
    { destruct Pa as [P|P]; auto. exfalso. rewrite <- P, Rplus_0_l, rnd_fmt in H by apply fmt_val.
      pose proof (val_max b). lra. }
    rewrite (nonneg_sign a Fa P) in C1. apply B2SF_inj. exact C1.
Qed.

Lemma mul_square : forall x, fin x -> fmul x x = finf \/ (fin (fmul x x) /\ val (fmul x x) = rnd (val x * val x)).
Proof.
  intros x Fx. pose proof (Bmult_correct 53 1024 prec64 emax64 mode_NE x x) as C.
  rewrite rnd_eq in C. change (B2R x) with (val x) in C.
  destruct (Rlt_bool_spec (Rabs (rnd (val x * val x))) (bpow radix2 1024)) as [H|H].
  - right. destruct C as (C1 & C2 & _). split; [|exact C1]. unfold fin, fmul. rewrite C2, Fx. reflexivity.
  - left. rewrite Bool.xorb_nilpotent in C. apply B2SF_inj. exact C.
Qed.

Lemma fma_square : forall x a, fin x -> fin a -> 0 <= val a ->
  ffma x x a = finf \/ (fin (ffma x x a) /\ val (ffma x x a) = rnd (val x * val x + val a)).
Proof.
  intros x a Fx Fa Pa. pose proof (Bfma_correct 53 1024 prec64 emax64 mode_NE x x a Fx Fx Fa) as C. cbv zeta in C.
  rewrite rnd_eq in C. change (B2R x) with (val x) in C. change (B2R a) with (val a) in C.
  destruct (Rlt_bool_spec (Rabs (rnd (val x * val x + val a))) (bpow radix2 1024)) as [H|H].
  - right. destruct C as (C1 & C2 & _). split; [exact C2|exact C1].
  - left. rewrite Rlt_bool_false in C by nra. apply B2SF_inj. exact C.
Qed.

Definition sums (l : list (f64 * f64)) (d : f64) : Prop :=
  d = fnan \/ d = finf \/ (fin d /\ 0 <= val d /\ Forall (fun p => fin (fst p) /\ rnd (pv p) <= val d) l).

Lemma rnd_nonneg : forall x, 0 <= x -> 0 <= rnd x.
Proof. intros. apply rnd_ge; auto. apply generic_format_0. Qed.

Lemma sums_squares : forall l d, dot_of l d -> Forall square l -> sums l d.
Proof.
  induction 1 as [|x y|x y l a H IH|l m a b Hl IHl Hm IHm|l m a P H IH]; intros F.
  - right; right. split; [reflexivity|]. rewrite (proj2 fzero_val). split; [lra|constructor].
  - inversion F as [|? ? E _]; subst. unfold square in E. cbn [fst snd] in E. subst y.
    destruct (is_finite x) eqn:Fx.
    + destruct (mul_square x Fx) as [->|[Fm Vm]]; [right; left; auto|]. right; right. split; auto. rewrite Vm.
      split; [apply rnd_nonneg; nra|]. constructor; [|constructor]. cbn [fst]. split; [exact Fx|]. unfold pv. cbn. lra.
    + destruct x as [s|s| |s m e B]; try discriminate Fx; [right; left; destruct s; reflexivity|left; reflexivity].
  - inversion F as [|? ? E F']; subst. unfold square in E. cbn [fst snd] in E. subst y. specialize (IH F').
    destruct (is_finite x) eqn:Fx.
    + destruct IH as [->|[->|(Fa & Pa & A)]].
      * left. destruct x; try discriminate Fx; reflexivity.
      * right; left. destruct x; try discriminate Fx; reflexivity.
      * destruct (fma_square x a Fx Fa Pa) as [->|[Fm Vm]]; [right; left; auto|]. right; right. split; auto. rewrite Vm.
        split; [apply rnd_nonneg; nra|]. constructor.
        -- cbn [fst]. split; [exact Fx|]. unfold pv. cbn [fst snd]. apply rnd_mono. lra.
        -- eapply Forall_impl; [|exact A]. cbn. intros p (? & ?). split; auto. apply Rle_trans with (val a); auto.
           apply rnd_ge; [apply fmt_val|nra].
    + destruct x as [s|s| |s m e B]; try discriminate Fx.
      * destruct IH as [->|[->|(Fa & Pa & A)]]; [left; reflexivity|right; left; destruct s; reflexivity|].
        right; left. destruct a as [t|t| |t ma ea Ba]; try discriminate Fa; destruct s; reflexivity.
      * left. reflexivity.
  - apply Forall_app in F. destruct F as (Fl & Fm). specialize (IHl Fl). specialize (IHm Fm).
    destruct IHl as [->|[->|(Fa & Pa & A)]].
    + left. reflexivity.
    + destruct IHm as [->|[->|(Fb & Pb & B)]]; [left; reflexivity|right; left; reflexivity|].
      right; left. destruct b; try discriminate Fb; reflexivity.
    + destruct IHm as [->|[->|(Fb & Pb & B)]].
      * left. destruct a; reflexivity.
      * right; left. destruct a; try discriminate Fa; reflexivity.
      * destruct (add_nonneg a b Fa Fb Pa Pb) as [->|[Fs Vs]]; [right; left; auto|]. right; right. split; auto.
        rewrite Vs. split; [apply rnd_nonneg; lra|]. apply Forall_app. split.
        -- eapply Forall_impl; [|exact A]. cbn. intros p (? & ?). split; auto. apply Rle_trans with (val a); auto.
           apply rnd_ge; [apply fmt_val|lra].
        -- eapply Forall_impl; [|exact B]. cbn. intros p (? & ?). split; auto. apply Rle_trans with (val b); auto.
           apply rnd_ge; [apply fmt_val|lra].
  - assert (Forall square l) as Fl by (eapply Permutation_Forall; [apply Permutation_sym; exact P|auto]).
    destruct (IH Fl) as [->|[->|(Fa & Pa & A)]]; [left; auto|right; left; auto|right; right].
    split; auto. split; auto. eapply Permutation_Forall; eauto.
Qed.

(** ** A pivot that comes out positive *)

Lemma fma_down : forall x r, fin x -> fin r ->
  ffma (fneg x) x r = fninf \/ (fin (ffma (fneg x) x r) /\ val (ffma (fneg x) x r) = rnd (val r - val x * val x)).
Proof.
  intros x r Fx Fr. pose proof (fneg_fin x Fx) as Fn.
  pose proof (Bfma_correct 53 1024 prec64 emax64 mode_NE (fneg x) x r Fn Fx Fr) as C. cbv zeta in C.
  rewrite rnd_eq in C. change (B2R (fneg x)) with (val (fneg x)) in C. change (B2R x) with (val x) in C.
  change (B2R r) with (val r) in C. rewrite fneg_val in C.
  replace (- val x * val x + val r) with (val r - val x * val x) in C by ring.
  destruct (Rlt_bool_spec (Rabs (rnd (val r - val x * val x))) (bpow radix2 1024)) as [H|H].
  - right. destruct C as (C1 & C2 & _). split; [exact C2|exact C1].
  - left. assert (N: val r - val x * val x < 0).
    { destruct (Rlt_le_dec (val r - val x * val x) 0) as [|N]; auto. exfalso.
      rewrite Rabs_pos_eq in H by (apply rnd_nonneg; auto). assert (rnd (val r - val x * val x) <= val r).
      { apply rnd_le; [apply fmt_val|]. nra. }
      pose proof (val_max r). pose proof (Rle_abs (val r)). lra. }
    rewrite Rlt_bool_true in C by auto. apply B2SF_inj. exact C.
Qed.

Definition remains (a : f64) (l : list (f64 * f64)) (r : f64) : Prop :=
  r = fnan \/ r = fninf \/
  (fin r /\ val r <= val a /\ Forall (fun p => fin (fst p)) l /\
   (0 < val r -> Forall (fun p => rnd (pv p) <= val a) l)).

Lemma left_over : forall a l r, less_of a l r -> fin a -> Forall square l -> remains a l r.
Proof.
  intros a l r L Fa. induction L as [|l m r d L IH D|x y l r L IH|l m r P L IH]; intros F.
  - right; right. split; auto. split; [lra|]. split; constructor.
  - apply Forall_app in F. destruct F as (Fm & Fl). specialize (IH Fl). pose proof (sums_squares m d D Fm) as S.
    destruct IH as [->|[->|(Fr & Lr & A & B)]].
    + left. reflexivity.
    + destruct S as [->|[->|(Fd & Pd & E)]]; [left; reflexivity|right; left; reflexivity|].
      right; left. destruct d; try discriminate Fd; reflexivity.
    + destruct S as [->|S]; [left; destruct r; reflexivity|].
      destruct (fsub_down d r) as [->|(Fs & Vs)]; auto.
      { destruct S as [->|(Fd & Pd & E)]; auto. }
      * right; left. reflexivity.
      * destruct S as [->|(Fd & Pd & E)]; [right; left; destruct r; try discriminate Fr; reflexivity|].
        right; right. split; auto. split; [lra|]. split.
        { apply Forall_app. split; auto. eapply Forall_impl; [|exact E]. cbn; intros p (? & _); auto. }
        intros Pos. specialize (B ltac:(lra)). apply Forall_app. split; auto.
        assert (val d <= val r).
        { destruct (Rle_lt_dec (val d) (val r)) as [|N]; auto. exfalso.
          pose proof (Bminus_correct 53 1024 prec64 emax64 mode_NE r d Fr Fd) as C.
          rewrite rnd_eq in C. change (B2R d) with (val d) in C. change (B2R r) with (val r) in C.
          destruct (Rlt_bool_spec (Rabs (rnd (val r - val d))) (bpow radix2 1024)) as [H|H].
          - destruct C as (C1 & _). change (val (fsub r d) = rnd (val r - val d)) in C1.
            assert (rnd (val r - val d) <= 0) by (apply rnd_le; [apply generic_format_0|lra]). lra.
          - destruct C as (C1 & _). unfold fin, fsub in Fs. rewrite <- is_finite_SF_B2SF, C1 in Fs. discriminate Fs. }
        eapply Forall_impl; [|exact E]. cbn. intros p (_ & ?). lra.
  - inversion F as [|? ? E F']; subst. unfold square in E. cbn [fst snd] in E. subst y. specialize (IH F').
    destruct IH as [->|[->|(Fr & Lr & A & B)]].
    + left. destruct x as [s|s| |s m e Be]; try reflexivity.
    + destruct x as [s|s| |s m e Be]; [right; left; reflexivity|right; left; destruct s; reflexivity|left; reflexivity|].
      right; left. reflexivity.
    + destruct (is_finite x) eqn:Fx.
      * destruct (fma_down x r Fx Fr) as [->|(Fs & Vs)]; [right; left; auto|]. right; right. split; auto.
        assert (val (ffma (fneg x) x r) <= val r) by (rewrite Vs; apply rnd_le; [apply fmt_val|nra]).
        split; [lra|]. split; [constructor; auto|]. intros Pos. specialize (B ltac:(lra)). constructor; auto.
        unfold pv. cbn [fst snd]. apply Rle_trans with (rnd (val r)).
        -- apply rnd_mono. destruct (Rle_lt_dec (val x * val x) (val r)) as [|N]; auto. exfalso.
           assert (rnd (val r - val x * val x) <= 0) by (apply rnd_le; [apply generic_format_0|lra]). lra.
        -- rewrite rnd_fmt by apply fmt_val. auto.
      * destruct x as [s|s| |s m e Be]; try discriminate Fx; [|left; reflexivity].
        right; left. destruct r as [t|t| |t mr er Br]; try discriminate Fr; destruct s; reflexivity.
  - assert (Forall square l) as Fl by (eapply Permutation_Forall; [apply Permutation_sym; exact P|auto]).
    destruct (IH Fl) as [->|[->|(Fr & Lr & A & B)]]; [left; auto|right; left; auto|right; right].
    split; auto. split; auto. split; [eapply Permutation_Forall; eauto|]. intros Pos.
    eapply Permutation_Forall; eauto.
Qed.

Lemma flt_fin : forall x, fin x -> flt fzero x = true -> 0 < val x.
Proof.
  intros x F H. destruct (Rlt_le_dec 0 (val x)) as [|N]; auto. rewrite flt_false in H; [discriminate|apply fzero_val|auto|]. rewrite (proj2 fzero_val). auto.
Qed.

Lemma positive_pivot : forall a l s, less_of a l s -> fin a -> Forall square l -> flt fzero s = true ->
  fin s /\ 0 < val s <= val a /\ Forall (fun p => fin (fst p) /\ rnd (pv p) <= val a) l.
Proof.
  intros a l s L Fa F H. destruct (left_over a l s L Fa F) as [->|[->|(Fs & Ls & A & B)]]; try discriminate H.
  pose proof (flt_fin s Fs H) as P. split; auto. split; auto. specialize (B P).
  rewrite Forall_forall in *. auto.
Qed.

(** ** The error *)

Lemma dot_bound_mono : forall k k' a a', (k <= k')%nat -> 0 <= a <= a' -> dot_bound k a <= dot_bound k' a'.
Proof.
  intros k k' a a' H Ha. unfold dot_bound. pose proof (grow_mono k k' H). pose proof (grow_1 k). pose proof eta_pos.
  apply le_INR in H. pose proof (pos_INR k). apply Rplus_le_compat.
  - apply Rmult_le_compat; lra.
  - apply Rmult_le_compat_r; [lra|]. apply Rmult_le_compat; lra.
Qed.

Lemma less_error : forall a l r, less_of a l r -> fin a -> Forall (fun p => fin (fst p) /\ fin (snd p)) l ->
  (length l < Z.to_nat 1048576)%nat -> Rabs (val a) + ap l <= pow2 1020 ->
  fin r /\ Rabs (val r - (val a - dp l)) <= dot_bound (length l + 1) (Rabs (val a) + ap l).
Proof.
  assert (P23: pow2 1023 = 8 * pow2 1020) by (change 1023%Z with (1020 + 3)%Z; rewrite pm by lia; reflexivity).
  assert (P21: pow2 1021 = 2 * pow2 1020) by (change 1021%Z with (1020 + 1)%Z; rewrite pm by lia; reflexivity).
  pose proof (pow2_pos 1020) as P20. pose proof u_pos as U. pose proof eta_pos as E0.
  assert (Half: pow2 (-1075) = eta / 2).
  { unfold eta. change (-1074)%Z with (-1075 + 1)%Z. rewrite pm by lia. change (IZR (2 ^ 1)) with 2. lra. }
  intros a l r L Fa. induction L as [|l m r d L IH D|x y l r L IH|l m r P L IH]; intros F N A.
  - split; auto. unfold dp, ap, rsum. cbn [map fold_right]. rewrite !Rminus_0_r, Rminus_eq_0, Rabs_R0.
    unfold dot_bound. cbn [length Nat.add INR]. pose proof (grow_1 1). pose proof (Rabs_pos (val a)). nra.
  - apply Forall_app in F. destruct F as [Fm Fl]. rewrite app_length in *.
    assert (AP: ap (m ++ l) = ap m + ap l) by (unfold ap; rewrite map_app, rsum_app; reflexivity).
    assert (DP: dp (m ++ l) = dp m + dp l) by (unfold dp; rewrite map_app, rsum_app; reflexivity).
    pose proof (ap_nonneg l) as Al. pose proof (ap_nonneg m) as Am. pose proof (Rabs_pos (val a)) as Aa.
    destruct IH as [Fr Er]; [auto|lia|lra|]. destruct (dot_error m d D) as [Fd Ed]; [auto|lia|lra|].
    assert (Dr: Rabs (val a - dp l) <= Rabs (val a) + ap l).
    { eapply Rle_trans; [apply Rabs_minus|]. pose proof (dp_le_ap l). lra. }
    pose proof (val_bound (val r) (val a - dp l) (Rabs (val a) + ap l) (length l + 1) ltac:(lia) ltac:(lra) Dr Er) as Br.
    pose proof (val_bound (val d) (dp m) (ap m) (length m) ltac:(lia) ltac:(lra) (dp_le_ap m) Ed) as Bd.
    destruct (fsub_val r d Fr Fd) as [Fs Vs]; [eapply Rle_trans; [apply Rabs_minus|]; lra|].
    split; auto. rewrite Vs, AP, DP.
    destruct (Nat.eq_dec (length m) 0) as [M0|M0].
    { destruct m; [|discriminate M0]. unfold dp, ap, dot_bound, rsum, grow in Ed. cbn in Ed.
      rewrite Rminus_0_r in Ed. assert (Z: val d = 0).
      { destruct (Req_dec (val d) 0); auto. pose proof (Rabs_pos_lt _ H). lra. }
      rewrite Z, Rminus_0_r, rnd_fmt by apply fmt_val.
      unfold dp at 1, ap at 1, rsum. cbn [map fold_right length Nat.add]. rewrite !Rplus_0_l. exact Er. }
    set (er := Rabs (val r - (val a - dp l))) in *. set (ed := Rabs (val d - dp m)) in *.
    pose proof (rnd_sub_error (val r) (val d) (fmt_val r) (fmt_val d)) as R.
    assert (S: Rabs (val r - val d) <= Rabs (val a) + ap l + ap m + er + ed).
    { replace (val r - val d) with ((val a - dp l - dp m) + ((val r - (val a - dp l)) - (val d - dp m))) by ring.
      eapply Rle_trans; [apply Rabs_triang|]. pose proof (Rabs_minus (val a - dp l) (dp m)).
      pose proof (Rabs_minus (val r - (val a - dp l)) (val d - dp m)). pose proof (dp_le_ap m).
      unfold er, ed. lra. }
    assert (S': u * Rabs (val r - val d) <= u * (Rabs (val a) + ap l + ap m + er + ed)) by (apply Rmult_le_compat_l; lra).
    assert (T: Rabs (rnd (val r - val d) - (val a - (dp m + dp l)))
               <= u * (Rabs (val a) + ap l + ap m + er + ed) + er + ed).
    { replace (rnd (val r - val d) - (val a - (dp m + dp l)))
        with ((rnd (val r - val d) - (val r - val d)) + ((val r - (val a - dp l)) - (val d - dp m))) by ring.
      eapply Rle_trans; [apply Rabs_triang|]. pose proof (Rabs_minus (val r - (val a - dp l)) (val d - dp m)).
      unfold er, ed in *. lra. }
    destruct (dot_step (length l + 1) (length m + length l + 1) (Rabs (val a) + ap l) 0 er) as [_ D1]; auto; [lia|lra|lra|].
    destruct (dot_step (length m) (length m + length l + 1) (ap m) 0 ed) as [_ D2]; auto; [lia|lra|].
    unfold dot_bound. rewrite !plus_INR in *. cbn [INR] in *. lra.
  - inversion F as [|? ? [Fx Fy] Fl]; subst. cbn [fst snd length] in *.
    assert (AP: ap ((x, y) :: l) = Rabs (val x * val y) + ap l) by reflexivity.
    assert (DP: dp ((x, y) :: l) = val x * val y + dp l) by reflexivity.
    pose proof (ap_nonneg l) as An. pose proof (Rabs_pos (val x * val y)) as Xn. pose proof (Rabs_pos (val a)) as Aa.
    destruct IH as [Fr Er]; [auto|lia|lra|].
    assert (Dr: Rabs (val a - dp l) <= Rabs (val a) + ap l).
    { eapply Rle_trans; [apply Rabs_minus|]. pose proof (dp_le_ap l). lra. }
    pose proof (val_bound (val r) (val a - dp l) (Rabs (val a) + ap l) (length l + 1) ltac:(lia) ltac:(lra) Dr Er) as Br.
    destruct (ffma_val (fneg x) y r (fneg_fin x Fx) Fy Fr) as [Fs Vs].
    { rewrite fneg_val, Ropp_mult_distr_l_reverse. eapply Rle_trans; [apply Rabs_triang|]. rewrite Rabs_Ropp. lra. }
    split; auto. rewrite Vs, DP, fneg_val, Ropp_mult_distr_l_reverse.
    set (e := Rabs (val r - (val a - dp l))) in *. set (q := val x * val y) in *.
    replace (rnd (- q + val r) - (val a - (q + dp l)))
      with ((rnd (- q + val r) - (- q + val r)) + (val r - (val a - dp l))) by ring.
    eapply Rle_trans; [apply Rabs_triang|].
    pose proof (rnd_error (- q + val r)) as R. rewrite Half in R.
    assert (S: Rabs (- q + val r) <= Rabs q + (Rabs (val a) + ap l) + e).
    { replace (- q + val r) with ((val a - dp l) - q + (val r - (val a - dp l))) by ring.
      eapply Rle_trans; [apply Rabs_triang|]. pose proof (Rabs_minus (val a - dp l) q). unfold e. lra. }
    assert (S': u * Rabs (- q + val r) <= u * (Rabs q + (Rabs (val a) + ap l) + e)) by (apply Rmult_le_compat_l; lra).
    destruct (dot_step (length l + 1) (length l + 1 + 1) (Rabs (val a) + ap l) (Rabs q) e) as [D _]; auto; [lia|lra|].
    unfold dot_bound. rewrite AP. replace (Datatypes.S (length l) + 1)%nat with (length l + 1 + 1)%nat by lia.
    rewrite !plus_INR in *. cbn [INR] in *.
    pose proof (grow_1 (length l + 1)) as G1. replace (length l + 1 + 1)%nat with (Datatypes.S (length l + 1)) in * by lia.
    rewrite grow_S in *.
    assert (u * Rabs q <= ((1 + u) * grow (length l + 1) - 1) * Rabs q).
    { apply Rmult_le_compat_r; auto. nra. }
    fold e. lra.
  - assert (LP: length l = length m) by (apply Permutation_length; auto).
    assert (AP: ap l = ap m) by (unfold ap; apply rsum_perm, Permutation_map; auto).
    assert (DP: dp l = dp m) by (unfold dp; apply rsum_perm, Permutation_map; auto).
    rewrite <- LP, <- AP, <- DP in *. apply IH; auto.
    eapply Permutation_Forall; [apply Permutation_sym; exact P|auto].
Qed.
