(** * Numeric arrays in binary64. *)
From Coq Require Import Reals ZArith Lra Lia List Permutation.
From Flocq Require Import Core Operations Relative Plus_error IEEE754.BinarySingleNaN.
From Verif Require Import Base Flt SpecFlt FltBase FltExp.
Import ListNotations.
Local Open Scope R_scope.

(** ** Overflow *)

Lemma nonneg_sign : forall x, fin x -> 0 < val x -> @Bsign 53 1024 x = false.
Proof.
  intros [s|s| |[|] m e B] H P; cbn in *; try discriminate; auto; exfalso.
  - lra.
  - assert (F2R (Float radix2 (Zneg m) e) < 0) by (apply F2R_lt_0; reflexivity). lra.
Qed.

Lemma val_max : forall x, Rabs (val x) < bpow radix2 1024.
Proof. intros. apply (abs_B2R_lt_emax 53 1024). Qed.

Lemma fadd_up : forall e lb, e = finf \/ (fin e /\ 0 <= val e) -> fin lb ->
  fadd e lb = finf \/ (fin (fadd e lb) /\ val lb <= val (fadd e lb)).
Proof.
  intros e lb [->|[He Pe]] Hl.
  - left. destruct lb; try discriminate Hl; reflexivity.
  - pose proof (Bplus_correct 53 1024 prec64 emax64 mode_NE e lb He Hl) as C.
    rewrite rnd_eq in C. change (B2R e) with (val e) in C. change (B2R lb) with (val lb) in C.
    destruct (Rlt_bool_spec (Rabs (rnd (val e + val lb))) (bpow radix2 1024)) as [H|H].
    + right. destruct C as (C1 & C2 & _). split; [exact C2|].
      change (val (fadd e lb) = rnd (val e + val lb)) in C1. rewrite C1.
      apply rnd_ge; [apply fmt_val|lra].
    + left. destruct C as (C1 & C2).
      assert (P: 0 < val e).
      { destruct Pe as [P|P]; auto. exfalso. rewrite <- P, Rplus_0_l, rnd_fmt in H by apply fmt_val.
        pose proof (val_max lb). lra. }
      rewrite (nonneg_sign e He P) in C1.
      apply B2SF_inj. exact C1.
Qed.

Lemma fsub_down : forall e ub, e = finf \/ (fin e /\ 0 <= val e) -> fin ub ->
  fsub ub e = fninf \/ (fin (fsub ub e) /\ val (fsub ub e) <= val ub).
Proof.
  intros e ub [->|[He Pe]] Hl.
  - left. destruct ub; try discriminate Hl; reflexivity.
  - pose proof (Bminus_correct 53 1024 prec64 emax64 mode_NE ub e Hl He) as C.
    rewrite rnd_eq in C. change (B2R e) with (val e) in C. change (B2R ub) with (val ub) in C.
    destruct (Rlt_bool_spec (Rabs (rnd (val ub - val e))) (bpow radix2 1024)) as [H|H].
    + right. destruct C as (C1 & C2 & _). split; [exact C2|].
      change (val (fsub ub e) = rnd (val ub - val e)) in C1. rewrite C1.
      apply rnd_le; [apply fmt_val|lra].
    + left. destruct C as (C1 & C2).
      assert (P: 0 < val e).
      { destruct Pe as [P|P]; auto. exfalso. rewrite <- P, Rminus_0_r, rnd_fmt in H by apply fmt_val.
        pose proof (val_max ub). lra. }
      rewrite (nonneg_sign e He P) in C2. cbn in C2. rewrite C2 in C1.
      apply B2SF_inj. exact C1.
Qed.

Lemma exp_any : forall f, exp_contract f -> forall x, not_nan x ->
  f x = finf \/ (fin (f x) /\ 0 <= val (f x)).
Proof.
  intros f C [s|[|]| |s m e B] H; try discriminate H.
  - apply (exp_sign f C). reflexivity.
  - right. change (B754_infinity true) with fninf. rewrite (exp_ninf f C). split; [reflexivity|]. cbn. lra.
  - left. apply (exp_pinf f C).
  - apply (exp_sign f C). reflexivity.
Qed.

Lemma neg_not_nan : forall x, not_nan x -> not_nan (fmul fminus1 x).
Proof.
  intros x H. destruct x as [s|s| |s m e B] eqn:E; try discriminate H; try (destruct s; reflexivity).
  apply fin_not_nan.
  assert (Hf: fin x) by (rewrite E; reflexivity). rewrite <- E.
  unfold fin, fmul in *.
  pose proof (Bmult_correct 53 1024 prec64 emax64 mode_NE fminus1 x) as C.
  rewrite rnd_eq in C. rewrite Rlt_bool_true in C.
  - rewrite Hf in C. tauto.
  - assert (V: val fminus1 = -1).
    { unfold val, fminus1, flit. cbn. unfold F2R, Fnum, Fexp.
      change (bpow radix2 (-52)) with (/ IZR (2 ^ 52)). cbn. lra. }
    change (B2R fminus1) with (val fminus1). rewrite V. change (B2R x) with (val x).
    replace (-1 * val x) with (- val x) by ring.
    rewrite rnd_fmt by (apply fmt_opp, fmt_val). rewrite Rabs_Ropp. apply val_max.
Qed.

Lemma flt_ninf : forall x, flt x fninf = false.
Proof. intros [[|]|[|]| |[|] m e B]; reflexivity. Qed.
Lemma flt_pinf : forall x, flt finf x = false.
Proof. intros [[|]|[|]| |[|] m e B]; reflexivity. Qed.

Lemma is_ninf_fin : forall x, fin x -> is_ninf x = false.
Proof. intros [| | |] H; try discriminate H; reflexivity. Qed.
Lemma is_pinf_fin : forall x, fin x -> is_pinf x = false.
Proof. intros [| | |] H; try discriminate H; reflexivity. Qed.

(** One-sided bounds: never NaN, never outside. *)
Lemma constrain64_open : forall np, np_contract np -> forall lb ub, low_ok lb -> up_ok ub ->
  lb = fninf \/ ub = finf -> forall x, not_nan x ->
  not_nan (constrain64 np lb ub x) /\ flt (constrain64 np lb ub x) lb = false /\
  flt ub (constrain64 np lb ub x) = false.
Proof.
  intros np C lb ub Hl Hu Ho x Hx. unfold constrain64.
  destruct Hl as [Hl| ->].
  - destruct Ho as [->| ->]; [discriminate Hl|]. cbn [is_pinf finf].
    rewrite (is_ninf_fin _ Hl).
    destruct (fadd_up _ lb (exp_any _ (np_exp_ok _ C) x Hx) Hl) as [E|[F L]].
    + rewrite E. split; [reflexivity|]. split; apply flt_pinf.
    + split; [apply fin_not_nan; auto|]. split; [apply flt_false; auto|apply flt_pinf].
  - change (is_ninf fninf) with true. destruct Hu as [Hu| ->].
    + rewrite (is_pinf_fin _ Hu).
      destruct (fsub_down _ ub (exp_any _ (np_exp_ok _ C) _ (neg_not_nan x Hx)) Hu) as [E|[F L]].
      * rewrite E. split; [reflexivity|]. split; apply flt_ninf.
      * split; [apply fin_not_nan; auto|]. split; [apply flt_ninf|apply flt_false; auto].
    + cbn [is_pinf finf]. split; auto. split; [apply flt_ninf|apply flt_pinf].
Qed.

Lemma num64_valid_iff : forall lb ub a, num64_valid lb ub a = true <->
  Forall (fun v => flt v lb = false /\ flt ub v = false) a.
Proof.
  intros lb ub a. unfold num64_valid. induction a as [|v a IH]; cbn.
  - split; auto.
  - rewrite !Bool.negb_orb, Forall_cons_iff, <- IH.
    destruct (flt v lb), (flt ub v); cbn; rewrite ?Bool.andb_false_r; intuition discriminate.
Qed.

Lemma num64_open : forall np, np_contract np -> forall lb ub, low_ok lb -> up_ok ub ->
  lb = fninf \/ ub = finf -> forall x, Forall not_nan x ->
  Forall not_nan (num64_fold np lb ub x) /\ num64_valid lb ub (num64_fold np lb ub x) = true.
Proof.
  intros np C lb ub Hl Hu Ho x Hx. rewrite num64_valid_iff. unfold num64_fold.
  rewrite !Forall_map. split; apply Forall_forall; intros v Hv; rewrite Forall_forall in Hx;
    destruct (constrain64_open np C lb ub Hl Hu Ho v (Hx v Hv)) as (A & B & D); auto.
Qed.

(** ** Two bounds: NaN beyond the overflow threshold *)

Lemma constrain64_two : forall np lb ub x, fin lb -> fin ub ->
  constrain64 np lb ub x =
  fadd (fdiv (fmul (fsub ub lb) (np_exp np x)) (fadd fone (np_exp np x))) lb.
Proof. intros. unfold constrain64. rewrite is_pinf_fin, is_ninf_fin by auto. reflexivity. Qed.

Lemma sub_gap : forall lb ub, fin lb -> fin ub -> val lb < val ub ->
  fsub ub lb = finf \/ (fin (fsub ub lb) /\ 0 < val (fsub ub lb) /\ val (fsub ub lb) = rnd (val ub - val lb)).
Proof.
  intros lb ub Hl Hu H.
  pose proof (Bminus_correct 53 1024 prec64 emax64 mode_NE ub lb Hu Hl) as C.
  rewrite rnd_eq in C. change (B2R lb) with (val lb) in C. change (B2R ub) with (val ub) in C.
  destruct (Rlt_bool_spec (Rabs (rnd (val ub - val lb))) (bpow radix2 1024)) as [O|O].
  - right. destruct C as (C1 & C2 & _). split; [exact C2|].
    change (val (fsub ub lb) = rnd (val ub - val lb)) in C1.
    split; [|exact C1]. rewrite C1.
    assert (E: 0 <= rnd (val ub - val lb)) by (apply rnd_ge; [apply (fmt_IZR 0); reflexivity|lra]).
    destruct E as [E|E]; auto. exfalso.
    symmetry in E. unfold rnd in E. unfold Rminus in E.
    apply round_plus_eq_0 in E; auto with typeclass_instances; [lra|apply fmt_val|apply fmt_opp, fmt_val].
  - left. destruct C as (C1 & C2). apply B2SF_inj. unfold fsub. rewrite C1.
    destruct (Bsign ub) eqn:S; [|reflexivity]. exfalso.
    assert (val ub <= 0).
    { destruct (Rle_or_lt (val ub) 0) as [Q|Q]; auto. apply (nonneg_sign _ Hu) in Q. rewrite Q in S. discriminate. }
    assert (L: 0 < val ub - val lb) by lra.
    assert (M: rnd (val ub - val lb) <= - val lb).
    { apply rnd_le; [apply fmt_opp, fmt_val|lra]. }
    assert (N: 0 <= rnd (val ub - val lb)) by (apply rnd_ge; [apply (fmt_IZR 0); reflexivity|lra]).
    rewrite Rabs_pos_eq in O by auto. pose proof (val_max lb) as V. apply Rabs_lt_inv in V. lra.
Qed.

Lemma mul_inf : forall w, w = finf \/ (fin w /\ 0 < val w) -> fmul w finf = finf.
Proof.
  intros w [->|[F P]]; [reflexivity|]. pose proof (nonneg_sign _ F P) as S.
  destruct w as [s|s| |s m e B]; try discriminate F; cbn in *.
  - lra.
  - subst s. reflexivity.
Qed.

Lemma two_sided_nan : forall np, np_contract np -> forall lb ub, fin lb -> fin ub -> val lb < val ub ->
  forall x, np_exp np x = finf -> constrain64 np lb ub x = fnan.
Proof.
  intros np C lb ub Hl Hu Hb x E. rewrite constrain64_two by auto. rewrite E.
  rewrite mul_inf by (destruct (sub_gap lb ub Hl Hu Hb) as [?|(? & ? & _)]; auto).
  change (fadd fone finf) with finf. change (fdiv finf finf) with fnan.
  destruct lb; reflexivity.
Qed.

Lemma exp_overflow : forall np, np_contract np -> forall x, fin x -> 711 <= val x -> np_exp np x = finf.
Proof.
  intros np C x Hx H. apply (exp_over _ (np_exp_ok _ C)); auto.
  eapply Rle_trans; [apply exp_711|]. apply exp_le. auto.
Qed.

Lemma two_sided_overflow : forall np, np_contract np -> forall lb ub, fin lb -> fin ub -> val lb < val ub ->
  forall x, fin x -> 711 <= val x ->
  num64_fold np lb ub [x] = [fnan] /\ num64_valid lb ub [fnan] = true.
Proof.
  intros np C lb ub Hl Hu Hb x Hx H. split.
  - cbn [num64_fold map]. f_equal. apply two_sided_nan; auto. apply exp_overflow; auto.
  - apply num64_valid_iff. constructor; auto.
    split; [reflexivity|]. destruct ub as [s|[|]| |[|] m e B]; reflexivity.
Qed.

(** ** Absorption at a lower bound *)

Lemma near_exp : forall np, np_contract np -> forall x, fin x -> exp (val x) <= pow2 1023 ->
  fin (np_exp np x) /\ 0 <= val (np_exp np x) /\
  Rabs (val (np_exp np x) - exp (val x)) <= pow2 (-50) * exp (val x) + pow2 (-1074).
Proof.
  intros np C x Hx H. destruct (exp_near _ (np_exp_ok _ C) x Hx H) as [F E].
  split; auto. split; auto.
  destruct (exp_sign _ (np_exp_ok _ C) x Hx) as [I|[_ P]]; auto. rewrite I in F. discriminate F.
Qed.

Lemma strict_inj : forall x y, fin x -> fin y -> val x = val y -> val x <> 0 -> x = y.
Proof.
  intros x y Hx Hy E N. apply (B2R_inj 53 1024); [| |exact E].
  - destruct x; try discriminate Hx; cbn in *; [lra|reflexivity].
  - rewrite E in N. destruct y; try discriminate Hy; cbn in *; [lra|reflexivity].
Qed.

Lemma fsub_self : forall x, fin x -> exists s, fsub x x = B754_zero s.
Proof.
  intros x Hx. assert (V: fin (fsub x x) /\ val (fsub x x) = 0).
  { destruct (fsub_val x x Hx Hx) as [F E].
    - rewrite Rminus_diag_eq, Rabs_R0 by auto. left; apply pow2_pos.
    - split; auto. rewrite E, Rminus_diag_eq by auto. apply rnd_fmt. apply (fmt_IZR 0). reflexivity. }
  destruct V as [F V]. destruct (fsub x x) as [s|s| |s m e B]; try discriminate F.
  - exists s. reflexivity.
  - exfalso. unfold val in V. cbn in V. unfold F2R in V. cbn in V.
    apply Rmult_integral in V. destruct V as [V|V].
    + apply eq_IZR in V. destruct s; discriminate V.
    + pose proof (bpow_gt_0 radix2 e). lra.
Qed.

Lemma absorbed : forall np, np_contract np -> forall lb, fin lb -> pow2 (-900) <= Rabs (val lb) ->
  Rabs (val lb) <= pow2 1022 ->
  forall x, fin x -> exp (val x) <= pow2 (-57) * Rabs (val lb) ->
  constrain64 np lb finf x = lb.
Proof.
  intros np C lb Hl H1 H2 x Hx Hs. unfold constrain64. cbn [is_pinf finf]. rewrite is_ninf_fin by auto.
  assert (Q: pow2 (-57) * Rabs (val lb) <= pow2 965).
  { replace (pow2 965) with (pow2 (-57) * pow2 1022) by (rewrite <- pow2_add; reflexivity).
    apply Rmult_le_compat_l; auto. left; apply pow2_pos. }
  destruct (near_exp np C x Hx) as (F & P & E).
  { eapply Rle_trans; [exact Hs|]. eapply Rle_trans; [exact Q|]. apply pow2_mono. lia. }
  set (e := np_exp np x) in *.
  assert (B: Rabs (val e) < pow2 (-55) * Rabs (val lb)).
  { rewrite Rabs_pos_eq by auto. apply Rabs_le_inv in E.
    assert (T: pow2 (-1074) <= pow2 (-174) * Rabs (val lb)).
    { replace (pow2 (-1074)) with (pow2 (-174) * pow2 (-900)) by (rewrite <- pow2_add; reflexivity).
      apply Rmult_le_compat_l; auto. left; apply pow2_pos. }
    assert (T2: pow2 (-174) <= pow2 (-57)) by (apply pow2_mono; lia).
    assert (T3: pow2 (-55) = 4 * pow2 (-57)).
    { change (-55)%Z with (2 + -57)%Z. rewrite pow2_add. reflexivity. }
    assert (T4: pow2 (-50) <= 1) by (change 1 with (pow2 0); apply pow2_mono; lia).
    assert (0 < Rabs (val lb)) by (pose proof (pow2_pos (-900)); lra).
    pose proof (pow2_pos (-57)). pose proof (exp_pos (val x)). pose proof (pow2_pos (-50)).
    assert (pow2 (-50) * exp (val x) <= exp (val x)) by nra.
    assert (pow2 (-174) * Rabs (val lb) <= pow2 (-57) * Rabs (val lb)) by (apply Rmult_le_compat_r; lra).
    rewrite T3. nra. }
  assert (S: rnd (val e + val lb) = val lb).
  { rewrite Rplus_comm. apply rnd_absorb; auto; [apply fmt_val|].
    eapply Rle_trans; [|exact H1]. apply pow2_mono; lia. }
  destruct (fadd_val e lb F Hl) as [A V].
  { eapply Rle_trans; [apply Rabs_triang|].
    replace (pow2 1023) with (pow2 1022 + pow2 1022)
      by (change 1023%Z with (1 + 1022)%Z; rewrite pow2_add; change (pow2 1) with 2; ring).
    assert (pow2 (-55) * Rabs (val lb) <= Rabs (val lb)).
    { assert (pow2 (-55) <= 1) by (change 1 with (pow2 0); apply pow2_mono; lia).
      pose proof (Rabs_pos (val lb)). nra. }
    lra. }
  rewrite S in V. apply strict_inj; auto. rewrite V.
  intros Z. rewrite Z, Rabs_R0 in H1. pose proof (pow2_pos (-900)). lra.
Qed.

Lemma absorbed_flatten : forall np, np_contract np -> forall lb, fin lb ->
  num64_flatten np lb finf [lb] = Ok [fninf].
Proof.
  intros np C lb Hl. unfold num64_flatten.
  replace (num64_valid lb finf [lb]) with true.
  - cbn [map]. unfold unconstrain64. cbn [is_pinf finf]. rewrite is_ninf_fin by auto.
    destruct (fsub_self lb Hl) as [s ->]. rewrite (log_zero _ (np_log_ok _ C)). reflexivity.
  - symmetry. apply num64_valid_iff. constructor; auto. split; [|apply flt_pinf].
    apply flt_false; auto. lra.
Qed.

Lemma absorbed_round_trip : forall np, np_contract np -> forall lb, fin lb ->
  1 <= Rabs (val lb) <= pow2 1022 ->
  forall x, fin x -> val x <= -40 ->
  num64_fold np lb finf [x] = [lb] /\ num64_flatten np lb finf [lb] = Ok [fninf].
Proof.
  intros np C lb Hl [H1 H2] x Hx H. split; [|apply absorbed_flatten; auto].
  cbn [num64_fold map]. f_equal. apply absorbed; auto.
  - eapply Rle_trans; [|exact H1]. change 1 with (pow2 0). apply pow2_mono. lia.
  - eapply Rle_trans; [apply exp_le; exact H|]. eapply Rle_trans; [apply exp_m40|].
    pose proof (pow2_pos (-57)). nra.
Qed.
