(** * Entries of float64 Jacobians. *)
From Coq Require Import Reals Lra Lia ZArith Psatz.
From Flocq Require Import Core IEEE754.BinarySingleNaN.
From Verif Require Import Base Num Nd ListFacts Pattern Spec NumFacts Numeric Simplex Jac JacBase Flt SpecFlt FltMat SpecFltMat
  FltPat SpecFltPat FltJac SpecFltJac FltBase FltExp FltNum FltNum2 FltNum3 FltSimp FltLeaf FltFlatLeaf.
Local Open Scope R_scope.

Definition mid (x : R) : Prop := pow2 (-400) <= x <= pow2 400.

Lemma mid_pos : forall x, mid x -> 0 < x.
Proof. intros x [L _]. eapply Rlt_le_trans; [apply pow2_pos|exact L]. Qed.
Lemma near_size : forall e a b, 0 <= b -> 0 <= e <= / 2 -> near e a b -> b / 2 <= a <= 2 * b.
Proof.
  intros e a b Hb He [L U]. pose proof (exp_small_up e He). pose proof (exp_ge_lin (- e)).
  split; nra.
Qed.
Lemma pow2_double : forall k, 2 * pow2 k = pow2 (k + 1).
Proof. intros. rewrite pow2_add. replace (pow2 1) with 2 by (rewrite pow2_Z by lia; reflexivity). ring. Qed.
Lemma pow2_half : forall k, pow2 k / 2 = pow2 (k - 1).
Proof. intros. replace k with (k - 1 + 1)%Z at 1 by lia. rewrite <- pow2_double. field. Qed.
Lemma rnd_pos : forall x, pow2 (-1000) <= x -> near (2 * u) (rnd x) x.
Proof.
  intros x H. assert (0 < x) by (eapply Rlt_le_trans; [apply pow2_pos|exact H]).
  apply near_rel; [lra|rewrite u_val; lra|].
  rewrite <- (Rabs_pos_eq x) at 3 by lra. apply rnd_normal. rewrite Rabs_pos_eq by lra.
  eapply Rle_trans; [|exact H]. apply pow2_mono. lia.
Qed.
Lemma near_mult : forall e e' a b c d, 0 <= b -> 0 <= d -> near e a b -> near e' c d -> near (e + e') (a * c) (b * d).
Proof.
  intros e e' a b c d Hb Hd [L1 U1] [L2 U2].
  pose proof (exp_pos e). pose proof (exp_pos e'). pose proof (exp_pos (- e)). pose proof (exp_pos (- e')).
  assert (0 <= a) by nra. assert (0 <= c) by nra.
  unfold near. rewrite Ropp_plus_distr, !exp_plus. split.
  - replace (b * d * (exp (- e) * exp (- e'))) with ((b * exp (- e)) * (d * exp (- e'))) by ring.
    apply Rmult_le_compat; auto; nra.
  - replace (b * d * (exp e * exp e')) with ((b * exp e) * (d * exp e')) by ring.
    apply Rmult_le_compat; auto.
Qed.

Lemma div_near : forall x y X Y e e', fin x -> mid X -> mid Y -> 0 <= e <= / 4 -> 0 <= e' <= / 4 ->
  near e (val x) X -> near e' (val y) Y -> fin (fdiv x y) /\ near (e + e' + 2 * u) (val (fdiv x y)) (X / Y).
Proof.
  intros x y X Y e e' Fx MX MY He He' Nx Ny. pose proof (mid_pos _ MX). pose proof (mid_pos _ MY).
  destruct (near_size e' _ _ (Rlt_le _ _ H0) ltac:(lra) Ny) as [L U].
  assert (N : near (e + e') (val x / val y) (X / Y)) by (apply near_div; auto; lra).
  assert (PQ : 0 < X / Y) by (apply Rdiv_lt_0_compat; auto).
  assert (B : pow2 (-800) <= X / Y <= pow2 800).
  { destruct MX as [X1 X2], MY as [Y1 Y2]. split.
    - apply Rmult_le_reg_r with Y; auto. unfold Rdiv. rewrite Rmult_assoc, Rinv_l, Rmult_1_r by lra.
      apply Rle_trans with (pow2 (-800) * pow2 400); [apply Rmult_le_compat_l; auto; left; apply pow2_pos|].
      rewrite <- pow2_add. auto.
    - apply Rmult_le_reg_r with Y; auto. unfold Rdiv. rewrite Rmult_assoc, Rinv_l, Rmult_1_r by lra.
      apply Rle_trans with (pow2 800 * pow2 (-400)); [rewrite <- pow2_add; auto|].
      apply Rmult_le_compat_l; auto; left; apply pow2_pos. }
  destruct (near_size (e + e') _ _ (Rlt_le _ _ PQ) ltac:(lra) N) as [L2 U2].
  destruct (fdiv_val x y Fx) as [F V].
  - apply Rgt_not_eq. lra.
  - rewrite Rabs_pos_eq by lra. eapply Rle_trans; [exact U2|]. apply Rle_trans with (2 * pow2 800); [lra|].
    rewrite pow2_double. apply pow2_mono. lia.
  - split; auto. rewrite V. replace (e + e' + 2 * u) with (2 * u + (e + e')) by ring. eapply near_trans; [|exact N]. apply rnd_pos.
    eapply Rle_trans; [|exact L2]. apply Rle_trans with (pow2 (-800) / 2); [rewrite pow2_half; apply pow2_mono; lia|lra].
Qed.
Lemma mul_near : forall x y X Y e e', fin x -> fin y -> mid X -> mid Y -> 0 <= e <= / 4 -> 0 <= e' <= / 4 ->
  near e (val x) X -> near e' (val y) Y -> fin (fmul x y) /\ near (e + e' + 2 * u) (val (fmul x y)) (X * Y).
Proof.
  intros x y X Y e e' Fx Fy MX MY He He' Nx Ny. pose proof (mid_pos _ MX). pose proof (mid_pos _ MY).
  assert (N : near (e + e') (val x * val y) (X * Y)) by (apply near_mult; auto; lra).
  assert (PQ : 0 < X * Y) by (apply Rmult_lt_0_compat; auto).
  assert (B : pow2 (-800) <= X * Y <= pow2 800).
  { destruct MX as [X1 X2], MY as [Y1 Y2]. split.
    - change (-800)%Z with (-400 + -400)%Z. rewrite pow2_add. apply Rmult_le_compat; auto; left; apply pow2_pos.
    - change 800%Z with (400 + 400)%Z. rewrite pow2_add. apply Rmult_le_compat; auto; lra. }
  destruct (near_size (e + e') _ _ (Rlt_le _ _ PQ) ltac:(lra) N) as [L2 U2].
  destruct (fmul_val x y Fx Fy) as [F V].
  - rewrite Rabs_pos_eq by lra. eapply Rle_trans; [exact U2|]. apply Rle_trans with (2 * pow2 800); [lra|].
    rewrite pow2_double. apply pow2_mono. lia.
  - split; auto. rewrite V. replace (e + e' + 2 * u) with (2 * u + (e + e')) by ring. eapply near_trans; [|exact N]. apply rnd_pos.
    eapply Rle_trans; [|exact L2]. apply Rle_trans with (pow2 (-800) / 2); [rewrite pow2_half; apply pow2_mono; lia|lra].
Qed.
Lemma plus_near : forall x y X Y e, fin x -> fin y -> mid X -> mid Y -> 0 <= e <= / 4 ->
  near e (val x) X -> near e (val y) Y -> fin (fadd x y) /\ near (e + 2 * u) (val (fadd x y)) (X + Y).
Proof.
  intros x y X Y e Fx Fy MX MY He Nx Ny. pose proof (mid_pos _ MX). pose proof (mid_pos _ MY).
  assert (N : near e (val x + val y) (X + Y)) by (apply near_sum; auto).
  destruct (near_size e (val x + val y) (X + Y) ltac:(lra) ltac:(lra) N) as [L2 U2].
  destruct MX as [X1 X2], MY as [Y1 Y2].
  destruct (fadd_val x y Fx Fy) as [F V].
  - rewrite Rabs_pos_eq by lra. eapply Rle_trans; [exact U2|]. apply Rle_trans with (2 * (2 * pow2 400)); [lra|].
    rewrite !pow2_double. apply pow2_mono. lia.
  - split; auto. rewrite V. replace (e + 2 * u) with (2 * u + e) by ring.
    eapply near_trans; [|exact N]. apply rnd_near; try apply fmt_val. lra.
Qed.

Lemma sub_pos : forall a b, fin a -> fin b -> pow2 (-100) <= val a - val b <= pow2 101 ->
  fin (fsub a b) /\ near (2 * u) (val (fsub a b)) (val a - val b) /\ mid (val a - val b).
Proof.
  intros a b Fa Fb H. assert (0 < val a - val b) by (eapply Rlt_le_trans; [apply pow2_pos|apply H]).
  destruct (sub_near a b Fa Fb) as [F E].
  { rewrite Rabs_pos_eq by lra. eapply Rle_trans; [apply H|]. apply pow2_mono. lia. }
  rewrite (Rabs_pos_eq (val a - val b)) in E by lra. split; auto. split.
  - apply near_rel; auto; [lra|]. rewrite u_val. lra.
  - split; [apply Rle_trans with (pow2 (-100))|apply Rle_trans with (pow2 101)]; try apply H; apply pow2_mono; lia.
Qed.
Lemma mid_one : mid 1.
Proof. replace 1 with (pow2 0) by reflexivity. split; apply pow2_mono; lia. Qed.
Lemma near_one : near 0 (val fone) 1.
Proof. rewrite (proj2 fone_val). apply near_refl. Qed.

Lemma inv_sub : forall a b, fin a -> fin b -> pow2 (-100) <= val a - val b <= pow2 100 ->
  fin (fdiv fone (fsub a b)) /\ near (4 * u) (val (fdiv fone (fsub a b))) (1 / (val a - val b)) /\ mid (1 / (val a - val b)).
Proof.
  intros a b Fa Fb H. assert (U := u_val).
  assert (H' : pow2 (-100) <= val a - val b <= pow2 101).
  { split; [apply H|]. eapply Rle_trans; [apply H|]. apply pow2_mono. lia. }
  destruct (sub_pos a b Fa Fb H') as (F & N & M).
  destruct (div_near fone (fsub a b) 1 (val a - val b) 0 (2 * u) (proj1 fone_val) mid_one M ltac:(lra) ltac:(rewrite U; lra) near_one N) as [F2 N2].
  split; auto. split; [replace (4 * u) with (0 + 2 * u + 2 * u) by ring; exact N2|].
  assert (P : 0 < val a - val b) by (apply mid_pos; auto).
  assert (I : pow2 (-100) = / pow2 100) by (apply (pow2_neg 100)). rewrite I in H. unfold Rdiv. rewrite Rmult_1_l. split.
  - apply Rle_trans with (pow2 (-100)); [apply pow2_mono; lia|]. rewrite I. apply Rinv_le_contravar; auto. apply H.
  - apply Rle_trans with (pow2 100); [|apply pow2_mono; lia]. rewrite <- (Rinv_inv (pow2 100)).
    apply Rinv_le_contravar; [apply Rinv_0_lt_compat, pow2_pos|apply H].
Qed.

Lemma two_sided_width : forall lb ub a : R, pow2 (-100) <= a - lb <= pow2 100 -> pow2 (-100) <= ub - a <= pow2 100 ->
  pow2 (-100) <= ub - lb <= pow2 101.
Proof. intros lb ub a H1 H2. change 101%Z with (100 + 1)%Z. rewrite <- pow2_double. pose proof (pow2_pos (-100)). lra. Qed.

Section Leaf.
Variable np : np64.
Hypothesis C : np_contract np.

(** The entry of the freeing Jacobian. *)
Lemma free_entry : forall lb ub a, exact_bound lb -> exact_bound ub -> nlt (pyval lb) (pyval ub) ->
  fin a -> between (bound64 lb) (val a - val (bound64 lb)) -> between (bound64 ub) (val (bound64 ub) - val a) ->
  fin (unconstrain64_jac (bound64 lb) (bound64 ub) a) /\
  exists d, 0 < d /\ unconstrain1_jac (pyval lb) (pyval ub) (Fin (val a)) = Fin d /\ pow2 (-100) <= d <= pow2 101 /\
    near (6 * u) (val (unconstrain64_jac (bound64 lb) (bound64 ub) a)) d.
Proof.
  intros lb ub a El Eu O Fa Hl Hu. assert (U := u_val). assert (PU : 0 < u) by (rewrite U; lra).
  assert (P1 : forall c, pow2 (-100) <= c <= pow2 100 -> 0 < c /\ pow2 (-100) <= 1 / c <= pow2 100).
  { intros c Hc. assert (0 < c) by (eapply Rlt_le_trans; [apply pow2_pos|apply Hc]). split; auto. unfold Rdiv. rewrite Rmult_1_l. split.
    - change (pow2 (-100)) with (pow2 (- (100))). rewrite pow2_neg. apply Rinv_le_contravar; tauto.
    - replace (pow2 100) with (/ pow2 (-100)) by (change (pow2 (-100)) with (pow2 (- (100))); rewrite pow2_neg, Rinv_inv; reflexivity). apply Rinv_le_contravar; [apply pow2_pos|tauto]. }
  assert (P2 : pow2 100 <= pow2 101) by (apply pow2_mono; lia).
  unfold unconstrain64_jac, unconstrain1_jac.
  destruct (pyval ub) as [b| | |] eqn:Ub; destruct (pyval lb) as [l| | |] eqn:Lb; try contradiction.
  - destruct (exact_fin lb l El Lb) as [Fl Vl]. destruct (exact_fin ub b Eu Ub) as [Fu Vu].
    rewrite (is_pinf_fin _ Fu), (is_ninf_fin _ Fl). cbn [neqb].
    destruct (inv_sub a (bound64 lb) Fa Fl (Hl Fl)) as (F1 & N1 & M1).
    destruct (inv_sub (bound64 ub) a Fu Fa (Hu Fu)) as (F2 & N2 & M2).
    destruct (P1 _ (Hl Fl)) as [Q1 R1]. destruct (P1 _ (Hu Fu)) as [Q2 R2].
    destruct (plus_near _ _ _ _ (4 * u) F1 F2 M1 M2 ltac:(rewrite U; lra) N1 N2) as [F N]. split; auto.
    exists (1 / (val a - val (bound64 lb)) + 1 / (val (bound64 ub) - val a)).
    split; [pose proof (pow2_pos (-100)); lra|]. split.
    { cbn [nsub nneg nadd]. rewrite !ndiv_fin by lra. rewrite Vl, Vu. reflexivity. }
    split. { pose proof (pow2_pos (-100)). change 101%Z with (100 + 1)%Z. rewrite <- pow2_double. lra. }
    replace (6 * u) with (4 * u + 2 * u) by ring. exact N.
  - destruct (exact_fin ub b Eu Ub) as [Fu Vu]. rewrite (exact_ninf lb El Lb).
    rewrite (is_pinf_fin _ Fu). cbn [neqb is_ninf fninf].
    destruct (inv_sub (bound64 ub) a Fu Fa (Hu Fu)) as (F2 & N2 & M2). destruct (P1 _ (Hu Fu)) as [Q2 R2]. split; auto.
    exists (1 / (val (bound64 ub) - val a)). split; [apply mid_pos; auto|]. split.
    { cbn [nsub nneg nadd]. rewrite !ndiv_fin by lra. rewrite Vu. reflexivity. }
    split; [lra|]. eapply near_weak; [|  |exact N2]; [left; apply mid_pos; auto|lra].
  - destruct (exact_fin lb l El Lb) as [Fl Vl]. rewrite (exact_pinf ub Eu Ub).
    rewrite (is_ninf_fin _ Fl). cbn [neqb is_pinf finf].
    destruct (inv_sub a (bound64 lb) Fa Fl (Hl Fl)) as (F2 & N2 & M2). destruct (P1 _ (Hl Fl)) as [Q2 R2]. split; auto.
    exists (1 / (val a - val (bound64 lb))). split; [apply mid_pos; auto|]. split.
    { cbn [nsub nneg nadd]. rewrite !ndiv_fin by lra. rewrite Vl. reflexivity. }
    split; [lra|]. eapply near_weak; [|  |exact N2]; [left; apply mid_pos; auto|lra].
  - rewrite (exact_pinf ub Eu Ub), (exact_ninf lb El Lb). cbn [is_pinf is_ninf finf fninf neqb].
    split; [apply fone_val|]. exists 1. split; [lra|]. split; auto. split.
    + replace 1 with (pow2 0) by reflexivity. split; apply pow2_mono; lia.
    + eapply near_weak; [lra| |exact near_one]. lra.
Qed.

(** The logit of an entry between two bounds. *)
Lemma logit_near : forall lb ub a, fin lb -> fin ub -> fin a ->
  pow2 (-100) <= val a - val lb <= pow2 100 -> pow2 (-100) <= val ub - val a <= pow2 100 ->
  let y := fsub (np_log np (fsub a lb)) (np_log np (fsub ub a)) in
  fin y /\ Rabs (val y) <= 700 /\ Rabs (val y - (ln (val a - val lb) - ln (val ub - val a))) <= 2010 * u.
Proof.
  intros lb ub a Fl Fu Fa H1 H2 y. assert (U := u_val).
  destruct (log_sub np C a lb Fa Fl H1) as (Pa & Ba & F1 & E1).
  destruct (log_sub np C ub a Fu Fa H2) as (Pb & Bb & F2 & E2).
  set (al := val a - val lb) in *. set (be := val ub - val a) in *.
  set (p := np_log np (fsub a lb)) in *. set (q := np_log np (fsub ub a)) in *.
  assert (E : Rabs (val p - val q - (ln al - ln be)) <= 1606 * u).
  { replace (val p - val q - (ln al - ln be)) with ((val p - ln al) + - (val q - ln be)) by ring.
    eapply Rle_trans; [apply Rabs_triang|]. rewrite Rabs_Ropp. rewrite U in *. lra. }
  assert (Ed : Rabs (val p - val q) <= 201).
  { replace (val p - val q) with ((ln al + - ln be) + (val p - val q - (ln al - ln be))) by ring.
    eapply Rle_trans; [apply Rabs_triang|]. pose proof (Rabs_triang (ln al) (- ln be)) as T. rewrite Rabs_Ropp in T. rewrite U in *. lra. }
  destruct (sub_near p q F1 F2) as [F E3]. { apply small_huge. lra. }
  fold y in F, E3. split; auto. 
  assert (Ey : Rabs (val y - (ln al - ln be)) <= 2010 * u).
  { replace (val y - (ln al - ln be)) with ((val y - (val p - val q)) + (val p - val q - (ln al - ln be))) by ring.
    eapply Rle_trans; [apply Rabs_triang|].
    assert (u * Rabs (val p - val q) <= u * 201) by (apply Rmult_le_compat_l; [rewrite U; lra|auto]). rewrite U in *. lra. }
  split; auto.
  replace (val y) with ((val y - (val p - val q)) + (val p - val q)) by ring. eapply Rle_trans; [apply Rabs_triang|].
  assert (u * Rabs (val p - val q) <= u * 201) by (apply Rmult_le_compat_l; [rewrite U; lra|auto]). rewrite U in *. lra.
Qed.

(** The exponential of a logarithm. *)
Lemma exp_log : forall t c, fin t -> pow2 (-100) <= c <= pow2 100 -> Rabs (val t - ln c) <= 803 * u ->
  fin (np_exp np t) /\ Rabs (val (np_exp np t) - c) <= pow2 (-38) * c.
Proof.
  intros t c Ft Hc E. assert (U := u_val). assert (Pc : 0 < c) by (eapply Rlt_le_trans; [apply pow2_pos|apply Hc]).
  pose proof (ln_size c 100 ltac:(lia) Hc) as B.
  assert (Bt : Rabs (val t) <= 700).
  { replace (val t) with ((val t - ln c) + ln c) by ring. eapply Rle_trans; [apply Rabs_triang|]. rewrite U in *. lra. }
  destruct (exp_near_rel np C t Ft Bt) as [F N]. split; auto.
  assert (N2 : near (803 * u) (exp (val t)) (exp (ln c))) by (apply near_exp_diff; auto).
  rewrite exp_ln in N2 by auto.
  pose proof (near_rel_back (17 * u + 803 * u) _ _ (Rlt_le _ _ Pc) ltac:(rewrite U; lra) (near_trans _ _ _ _ _ N N2)) as K.
  eapply Rle_trans; [exact K|]. apply Rmult_le_compat_r; [lra|].
  replace (pow2 (-38)) with (32768 * u) by (unfold u; change (-38)%Z with (-53 + 15)%Z; rewrite pm by lia; reflexivity). rewrite U. lra.
Qed.

(** The entry of the unfreeing Jacobian. *)
Lemma unfree_entry : forall lb ub a, exact_bound lb -> exact_bound ub -> nlt (pyval lb) (pyval ub) ->
  fin a -> between (bound64 lb) (val a - val (bound64 lb)) -> between (bound64 ub) (val (bound64 ub) - val a) ->
  both (entry_near false (gap (bound64 lb) (bound64 ub) a))
    (constrain64_jac np (bound64 lb) (bound64 ub) (unconstrain64 np (bound64 lb) (bound64 ub) a))
    (constrain1_jac (pyval lb) (pyval ub) (unconstrain1 (pyval lb) (pyval ub) (Fin (val a)))).
Proof.
  intros lb ub a El Eu O Fa Hl Hu. assert (U := u_val). assert (PU : 0 < u) by (rewrite U; lra).
  assert (P38 : pow2 (-38) = 32768 * u) by (unfold u; change (-38)%Z with (-53 + 15)%Z; rewrite pm by lia; reflexivity).
  assert (XI : exists d, 0 < d /\ unconstrain1_jac (pyval lb) (pyval ub) (Fin (val a)) = Fin d /\
    constrain1_jac (pyval lb) (pyval ub) (unconstrain1 (pyval lb) (pyval ub) (Fin (val a))) = Fin (/ d)).
  { apply jac1_inverse.
    - destruct (pyval lb) as [l| | |] eqn:Lb; try exact I.
      + destruct (exact_fin lb l El Lb) as [Fl Vl]. pose proof (Hl Fl) as [L _]. rewrite Vl in L. pose proof (pow2_pos (-100)). cbn. lra.
      + destruct (pyval ub); contradiction.
      + destruct (pyval ub); contradiction.
    - destruct (pyval ub) as [l| | |] eqn:Ub; try exact I.
      + destruct (exact_fin ub l Eu Ub) as [Fl Vl]. pose proof (Hu Fl) as [L _]. rewrite Vl in L. pose proof (pow2_pos (-100)). cbn. lra.
      + destruct (pyval lb); contradiction.
      + destruct (pyval lb); contradiction. }
  destruct XI as (d & Pd & Ed & Ec). rewrite Ec. clear Ec. unfold both. revert Ed.
  unfold unconstrain1_jac, constrain64_jac, unconstrain64, gap.
  destruct (pyval ub) as [b| | |] eqn:Ub; destruct (pyval lb) as [l| | |] eqn:Lb; try contradiction.
  - destruct (exact_fin lb l El Lb) as [Fl Vl]. destruct (exact_fin ub b Eu Ub) as [Fu Vu].
    rewrite (is_pinf_fin _ Fu), (is_ninf_fin _ Fl). cbn [neqb]. rewrite <- Vl, <- Vu.
    specialize (Hl Fl). specialize (Hu Fu).
    destruct (logit_near _ _ a Fl Fu Fa Hl Hu) as (Fy & By & Ey). cbv zeta in Fy, By, Ey.
    set (y := fsub _ _) in *. pose proof (two_sided_width _ _ _ Hl Hu) as HW.
    destruct (sub_pos _ _ Fu Fl HW) as (Fw & Nw & Mw).
    set (al := val a - val (bound64 lb)) in *. set (be := val (bound64 ub) - val a) in *.
    assert (Pa : 0 < al) by (eapply Rlt_le_trans; [apply pow2_pos|apply Hl]).
    assert (Pb : 0 < be) by (eapply Rlt_le_trans; [apply pow2_pos|apply Hu]).
    set (W := val (bound64 ub) - val (bound64 lb)) in *. assert (EW : W = al + be) by (unfold W, al, be; ring).
    intros Ed. cbn [nsub nneg nadd] in Ed. rewrite !ndiv_fin in Ed by (unfold al, be in *; lra). 
    assert (Ed' : / d = al * be / W).
    { assert (d = 1 / al + 1 / be) as ->.
      { assert (Fin (1 / al + 1 / be) = Fin d) by exact Ed. congruence. }
      rewrite EW. field. lra. }
    clear Ed. destruct (exp_near_rel np C y Fy By) as [Fe Ne]. set (e := np_exp np y) in *.
    assert (Ne2 : near (2027 * u) (val e) (al / be)).
    { replace (al / be) with (exp (ln al - ln be)) by (unfold Rminus; rewrite exp_plus, exp_Ropp, !exp_ln by auto; reflexivity).
      replace (2027 * u) with (17 * u + 2010 * u) by ring. eapply near_trans; [exact Ne|]. apply near_exp_diff. exact Ey. }
    assert (Mq : pow2 (-200) <= al / be <= pow2 200).
    { split; apply Rmult_le_reg_r with be; auto; unfold Rdiv; rewrite Rmult_assoc, Rinv_l, Rmult_1_r by lra.
      - apply Rle_trans with (pow2 (-200) * pow2 100); [apply Rmult_le_compat_l; [left; apply pow2_pos|tauto]|]. rewrite <- pow2_add. tauto.
      - apply Rle_trans with (pow2 200 * pow2 (-100)); [rewrite <- pow2_add; tauto|]. apply Rmult_le_compat_l; [left; apply pow2_pos|tauto]. }
    assert (Mq' : mid (al / be)) by (split; [apply Rle_trans with (pow2 (-200))|apply Rle_trans with (pow2 200)]; try tauto; apply pow2_mono; lia).
    destruct (plus_near fone e 1 (al / be) (2027 * u) (proj1 fone_val) Fe mid_one Mq' ltac:(rewrite U; lra)) as [Fs Ns]; auto.
    { eapply near_weak; [lra| |exact near_one]. lra. }
    assert (Ms : mid (1 + al / be)).
    { destruct Mq. assert (1 = pow2 0) by reflexivity. split.
      - apply Rle_trans with (pow2 0); [apply pow2_mono; lia|]. pose proof (pow2_pos (-200)). lra.
      - apply Rle_trans with (pow2 201); [|apply pow2_mono; lia]. change 201%Z with (200 + 1)%Z. rewrite <- pow2_double.
        assert (pow2 0 <= pow2 200) by (apply pow2_mono; lia). lra. }
    destruct (div_near e (fadd fone e) (al / be) (1 + al / be) (2027 * u) (2027 * u + 2 * u) Fe Mq' Ms ltac:(rewrite U; lra) ltac:(rewrite U; lra) Ne2 Ns) as [Fr Nr].
    set (r := fdiv e (fadd fone e)) in *.
    replace (al / be / (1 + al / be)) with (al / W) in Nr by (rewrite EW; field; lra).
    replace (2027 * u + (2027 * u + 2 * u) + 2 * u) with (4058 * u) in Nr by ring.
    assert (PW : 0 < W) by lra. assert (Pq : 0 < al / W) by (apply Rdiv_lt_0_compat; auto).
    assert (Q1 : al / W + be / W = 1) by (rewrite EW; field; lra). assert (Pq' : 0 < be / W) by (apply Rdiv_lt_0_compat; auto).
    assert (Mr : mid (al / W)).
    { split.
      - apply Rmult_le_reg_r with W; auto. unfold Rdiv. rewrite Rmult_assoc, Rinv_l, Rmult_1_r by lra.
        apply Rle_trans with (pow2 (-400) * pow2 101); [apply Rmult_le_compat_l; [left; apply pow2_pos|tauto]|].
        rewrite <- pow2_add. apply Rle_trans with (pow2 (-100)); [apply pow2_mono; lia|tauto].
      - apply Rle_trans with (pow2 0); [change (pow2 0) with 1; lra|apply pow2_mono; lia]. }
    destruct (mul_near _ r W (al / W) (2 * u) (4058 * u) Fw Fr Mw Mr ltac:(rewrite U; lra) ltac:(rewrite U; lra) Nw Nr) as [Fp Np].
    set (P := fmul _ r) in *.
    replace (W * (al / W)) with al in Np by (field; lra). replace (2 * u + 4058 * u + 2 * u) with (4062 * u) in Np by ring.
    pose proof (near_rel_back (4058 * u) _ _ (Rlt_le _ _ Pq) ltac:(rewrite U; lra) Nr) as Kr.
    pose proof (near_rel_back (4062 * u) _ _ (Rlt_le _ _ Pa) ltac:(rewrite U; lra) Np) as Kp.
    assert (Kr' : Rabs (val r - al / W) <= 8116 * u).
    { eapply Rle_trans; [exact Kr|]. replace (8116 * u) with (2 * (4058 * u) * 1) by ring. apply Rmult_le_compat_l; lra. }
    clear Kr. destruct (sub_near fone r (proj1 fone_val) Fr) as [Fq Eq].
    { rewrite (proj2 fone_val). apply small_huge. apply Rabs_le_inv in Kr'. apply Rabs_le_both; rewrite U in *; lra. }
    rewrite (proj2 fone_val) in Eq. set (q := fsub fone r) in *.
    assert (B1 : Rabs (1 - val r) <= 1001 / 1000). { apply Rabs_le_inv in Kr'. apply Rabs_le_both; rewrite U in *; lra. }
    assert (Kq : Rabs (val q - be / W) <= 8118 * u).
    { replace (val q - be / W) with ((val q - (1 - val r)) + - (val r - al / W)) by lra.
      eapply Rle_trans; [apply Rabs_triang|]. rewrite Rabs_Ropp.
      assert (u * Rabs (1 - val r) <= u * (1001 / 1000)) by (apply Rmult_le_compat_l; lra). lra. }
    assert (Bq : Rabs (val q) <= 1001 / 1000).
    { replace (val q) with ((val q - be / W) + be / W) by ring. eapply Rle_trans; [apply Rabs_triang|].
      rewrite (Rabs_pos_eq (be / W)) by lra. rewrite U in *. lra. }
    assert (T : Rabs (val P * val q - al * be / W) <= 16260 * u * al).
    { replace (val P * val q - al * be / W) with ((val P - al) * val q + al * (val q - be / W)) by (field; lra).
      eapply Rle_trans; [apply Rabs_triang|]. rewrite !Rabs_mult, (Rabs_pos_eq al) by lra.
      assert (Rabs (val P - al) * Rabs (val q) <= (2 * (4062 * u) * al) * (1001 / 1000)) by (apply Rmult_le_compat; auto; apply Rabs_pos).
      assert (al * Rabs (val q - be / W) <= al * (8118 * u)) by (apply Rmult_le_compat_l; lra).
      assert (0 < u * al) by (apply Rmult_lt_0_compat; auto). lra. }
    assert (Bp : Rabs (val P * val q) <= 2 * al).
    { replace (val P * val q) with ((val P * val q - al * be / W) + al * (be / W)) by (field; lra).
      eapply Rle_trans; [apply Rabs_triang|]. assert (0 <= al * (be / W) <= al * 1) by nra. rewrite (Rabs_pos_eq (al * (be / W))) by lra.
      assert (16260 * u * al <= 1 * al) by (apply Rmult_le_compat_r; [lra|rewrite U; lra]). lra. }
    destruct (fmul_val P q Fp Fq) as [Fz Vz].
    { eapply Rle_trans; [exact Bp|]. apply Rle_trans with (2 * pow2 100); [lra|]. rewrite pow2_double. apply pow2_mono. lia. }
    split; auto. exists (/ d). split; auto. unfold entry_near. rewrite Ed', Vz, P38.
    pose proof (rnd_error (val P * val q)) as Er.
    assert (S : pow2 (-1075) <= u * al).
    { apply Rle_trans with (u * pow2 (-100)); [|apply Rmult_le_compat_l; lra]. unfold u. rewrite <- pow2_add. apply pow2_mono. lia. }
    replace (rnd (val P * val q) - al * be / W) with ((rnd (val P * val q) - val P * val q) + (val P * val q - al * be / W)) by ring.
    eapply Rle_trans; [apply Rabs_triang|].
    assert (u * Rabs (val P * val q) <= u * (2 * al)) by (apply Rmult_le_compat_l; lra).
    assert (0 < u * al) by (apply Rmult_lt_0_compat; auto). lra.
  - destruct (exact_fin ub b Eu Ub) as [Fu Vu]. rewrite (exact_ninf lb El Lb).
    rewrite (is_pinf_fin _ Fu). cbn [neqb is_ninf fninf]. specialize (Hu Fu).
    destruct (log_sub np C (bound64 ub) a Fu Fa Hu) as (Pb & Bb & F2 & E2).
    set (be := val (bound64 ub) - val a) in *. set (q := np_log np (fsub (bound64 ub) a)) in *.
    destruct (neg_val q F2) as [Fn Vn]. destruct (neg_val _ Fn) as [Fm Vm]. rewrite Vn in Vm.
    intros Ed. cbn [nsub nneg nadd] in Ed. rewrite <- Vu in Ed. rewrite !ndiv_fin in Ed by (unfold be in *; lra).
    assert (Ed' : / d = be). { assert (Fin (1 / be) = Fin d) by exact Ed. assert (d = 1 / be) as -> by congruence. field. lra. }
    destruct (exp_log _ be Fm Hu) as [Fz Ez]. { rewrite Vm, Ropp_involutive. rewrite U in *. lra. }
    split; auto. exists (/ d). split; auto. unfold entry_near. rewrite Ed'. exact Ez.
  - destruct (exact_fin lb l El Lb) as [Fl Vl]. rewrite (exact_pinf ub Eu Ub).
    rewrite (is_ninf_fin _ Fl). cbn [neqb is_pinf finf]. specialize (Hl Fl).
    destruct (log_sub np C a (bound64 lb) Fa Fl Hl) as (Pb & Bb & F2 & E2).
    set (be := val a - val (bound64 lb)) in *. set (q := np_log np (fsub a (bound64 lb))) in *.
    intros Ed. cbn [nsub nneg nadd] in Ed. rewrite <- Vl in Ed. rewrite !ndiv_fin in Ed by (unfold be in *; lra).
    assert (Ed' : / d = be). { assert (Fin (1 / be) = Fin d) by exact Ed. assert (d = 1 / be) as -> by congruence. field. lra. }
    destruct (exp_log q be F2 Hl) as [Fz Ez]. { rewrite U in *. lra. }
    split; auto. exists (/ d). split; auto. unfold entry_near. rewrite Ed'. exact Ez.
  - rewrite (exact_pinf ub Eu Ub), (exact_ninf lb El Lb). cbn [is_pinf is_ninf finf fninf neqb].
    intros Ed. assert (d = 1) as -> by congruence. split; [apply fone_val|]. exists (/ 1). split; auto.
    unfold entry_near. rewrite (proj2 fone_val), Rinv_1, Rminus_diag_eq, Rabs_R0 by auto. pose proof (pow2_pos (-38)). lra.
Qed.
End Leaf.
