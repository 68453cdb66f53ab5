(** * Unfreeing Jacobians next to an upper bound. *)
From Coq Require Import Reals Lra Lia ZArith Psatz Permutation.
From Flocq Require Import Core IEEE754.BinarySingleNaN.
From Verif Require Import Base Num Nd ListFacts Pattern Spec PatFacts NumFacts Numeric Simplex Jac SpecJac JacBase
  Flt SpecFlt FltMat SpecFltMat FltPat SpecFltPat FltJac SpecFltJac FltBase FltExp FltNum FltNum2 FltNum3 FltSimp FltLeaf FltTree
  FltFlatLeaf FltJacLeaf FltJacTree FltJacDet.
Local Open Scope R_scope.

Section Lost.
Variable np : np64.
Hypothesis C : np_contract np.

Lemma lost_entry : forall lb ub a, fin lb -> fin ub -> fin a ->
  pow2 (-100) <= val a - val lb <= pow2 100 -> pow2 (-100) <= val ub - val a <= pow2 100 ->
  pow2 57 * (val ub - val a) <= val a - val lb ->
  exists s, constrain64_jac np lb ub (unconstrain64 np lb ub a) = B754_zero s.
Proof.
  intros lb ub a Fl Fu Fa Hl Hu Big. assert (U := u_val). unfold constrain64_jac, unconstrain64.
  rewrite (is_pinf_fin _ Fu), (is_ninf_fin _ Fl).
  destruct (logit_near np C _ _ a Fl Fu Fa Hl Hu) as (Fy & By & Ey). cbv zeta in Fy, By, Ey. set (y := fsub _ _) in *.
  pose proof (two_sided_width _ _ _ Hl Hu) as HW. destruct (sub_pos _ _ Fu Fl HW) as (Fw & Nw & Mw).
  set (al := val a - val lb) in *. set (be := val ub - val a) in *.
  assert (Pa : 0 < al) by (eapply Rlt_le_trans; [apply pow2_pos|apply Hl]).
  assert (Pb : 0 < be) by (eapply Rlt_le_trans; [apply pow2_pos|apply Hu]).
  destruct (exp_near_rel np C y Fy By) as [Fe Ne]. set (e := np_exp np y) in *.
  assert (Ne2 : near (2027 * u) (val e) (al / be)).
  { replace (al / be) with (exp (ln al - ln be)) by (unfold Rminus; rewrite exp_plus, exp_Ropp, !exp_ln by auto; reflexivity).
    replace (2027 * u) with (17 * u + 2010 * u) by ring. eapply near_trans; [exact Ne|]. apply near_exp_diff. exact Ey. }
  assert (Q : pow2 57 <= al / be).
  { apply Rmult_le_reg_r with be; auto. unfold Rdiv. rewrite Rmult_assoc, Rinv_l, Rmult_1_r by lra. auto. }
  assert (Qu : al / be <= pow2 200).
  { apply Rmult_le_reg_r with be; auto. unfold Rdiv. rewrite Rmult_assoc, Rinv_l, Rmult_1_r by lra.
    apply Rle_trans with (pow2 200 * pow2 (-100)); [rewrite <- pow2_add; tauto|]. apply Rmult_le_compat_l; [left; apply pow2_pos|tauto]. }
  pose proof (pow2_pos 57) as P57.
  destruct (near_size (2027 * u) (val e) (al / be) ltac:(lra) ltac:(rewrite U; lra) Ne2) as [L B].
  assert (L56 : pow2 56 <= val e) by (change 57%Z with (56 + 1)%Z in Q; rewrite <- pow2_double in Q; lra).
  assert (B201 : val e <= pow2 201) by (change 201%Z with (200 + 1)%Z; rewrite <- pow2_double; lra).
  assert (P56 : pow2 56 = 72057594037927936) by (rewrite pow2_Z by lia; reflexivity).
  assert (P201 : 1 <= pow2 201) by (change 1 with (pow2 0); apply pow2_mono; lia).
  destruct (fadd_val fone e (proj1 fone_val) Fe) as [Fs Vs].
  { rewrite (proj2 fone_val), Rabs_pos_eq by lra. apply Rle_trans with (2 * pow2 201); [lra|]. rewrite pow2_double. apply pow2_mono. lia. }
  assert (Vs' : val (fadd fone e) = val e).
  { rewrite Vs, (proj2 fone_val), Rplus_comm. apply rnd_absorb; [apply fmt_val| |].
    - rewrite Rabs_pos_eq by lra. apply Rle_trans with (pow2 56); [apply pow2_mono; lia|auto].
    - rewrite Rabs_R1, Rabs_pos_eq by lra. apply Rlt_le_trans with (pow2 (-55) * pow2 56).
      + rewrite <- pow2_add. change (-55 + 56)%Z with 1%Z. rewrite (pow2_Z 1) by lia. change (IZR (2 ^ 1)) with 2. lra.
      + apply Rmult_le_compat_l; [left; apply pow2_pos|auto]. }
  destruct (fdiv_val e (fadd fone e) Fe) as [Fr Vr].
  { rewrite Vs'. apply Rgt_not_eq. lra. }
  { rewrite Vs'. replace (val e / val e) with 1 by (field; lra). rewrite Rabs_R1. apply small_huge. lra. }
  set (r := fdiv e (fadd fone e)) in *.
  assert (R1 : r = fone).
  { apply strict_inj; auto; [apply fone_val| |].
    - rewrite Vr, Vs', (proj2 fone_val). replace (val e / val e) with 1 by (field; lra). apply rnd_fmt. apply (fmt_IZR 1). reflexivity.
    - rewrite Vr, Vs'. replace (val e / val e) with 1 by (field; lra). rewrite rnd_fmt by (apply (fmt_IZR 1); reflexivity). lra. }
  cbv zeta. fold r. rewrite R1.
  destruct (fsub_self fone (proj1 fone_val)) as (s & ->).
  assert (Fp : fin (fmul (fsub ub lb) fone)).
  { destruct (mul_near (fsub ub lb) fone _ 1 (2 * u) 0 Fw (proj1 fone_val) Mw mid_one ltac:(rewrite U; lra) ltac:(lra) Nw near_one) as [F _]. exact F. }
  destruct (fmul (fsub ub lb) fone) as [s'|s'| |s' m' e' B']; try discriminate Fp; eexists; reflexivity.
Qed.

Lemma fadd_ninf_l : forall x, x = fninf \/ fin x -> fadd fninf x = fninf.
Proof. intros [s|s| |s m e B] [H|H]; try discriminate H; try reflexivity. inversion H; subst. reflexivity. Qed.
Lemma fadd_ninf_r : forall x, x = fninf \/ fin x -> fadd x fninf = fninf.
Proof. intros [s|s| |s m e B] [H|H]; try discriminate H; try reflexivity. inversion H; subst. reflexivity. Qed.

Definition log_like (x : f64) : Prop := x = fninf \/ fin x /\ Rabs (val x) <= 2000.
Lemma fninf_dec : forall x, log_like x -> x = fninf \/ (x <> fninf /\ fin x /\ Rabs (val x) <= 2000).
Proof. intros x [->|[F B]]; [left; auto|right]. split; auto. intros ->. discriminate F. Qed.
Lemma sum_lost : forall l s, sum_of l s -> (length l <= Z.to_nat 1048576)%nat -> Forall log_like l ->
  (In fninf l -> s = fninf) /\ (~ In fninf l -> fin s).
Proof.
  induction 1 as [|x|l m a b Hl IHl Hm IHm|l m a P H IH]; intros N F.
  - split; [intros []|reflexivity].
  - inversion F as [|? ? Lx _]; subst. split; [intros [->|[]]; auto|]. intros Nx. destruct Lx as [->|[Fx _]]; auto. exfalso. apply Nx. left; auto.
  - rewrite app_length in N. pose proof F as F'. apply Forall_app in F'. destruct F' as [Fl Fm].
    destruct (IHl ltac:(lia) Fl) as [A1 A2]. destruct (IHm ltac:(lia) Fm) as [B1 B2].
    assert (Dl : In fninf l \/ ~ In fninf l).
    { clear -Fl. induction Fl as [|x l Lx Fl IH]; [right; intros []|]. destruct (fninf_dec x Lx) as [->|[Nx _]]; [left; left; auto|].
      destruct IH as [I|I]; [left; right; auto|right]. intros [E|E]; [apply Nx; auto|auto]. }
    assert (Dm : In fninf m \/ ~ In fninf m).
    { clear -Fm. induction Fm as [|x l Lx Fl IH]; [right; intros []|]. destruct (fninf_dec x Lx) as [->|[Nx _]]; [left; left; auto|].
      destruct IH as [I|I]; [left; right; auto|right]. intros [E|E]; [apply Nx; auto|auto]. }
    split.
    + intros _H. destruct Dl as [Dl|Dl]; destruct Dm as [Dm|Dm].
      * rewrite (A1 Dl), (B1 Dm). reflexivity.
      * rewrite (A1 Dl). apply fadd_ninf_l. right. auto.
      * rewrite (B1 Dm). apply fadd_ninf_r. right. auto.
      * exfalso. apply in_app_or in _H. tauto.
    + intros Nlm. assert (few (l ++ m)).
      { split; [rewrite app_length; lia|]. eapply Forall_forall. intros x Hx. rewrite Forall_forall in F. destruct (F x Hx) as [->|K]; auto. contradiction. }
      apply (sum_summed (l ++ m) (fadd a b)); auto. constructor; auto.
  - destruct IH as [A1 A2].
    + rewrite (Permutation_length P). auto.
    + eapply Permutation_Forall; [apply Permutation_sym; exact P|auto].
    + split; intros I; [apply A1; eapply Permutation_in; [apply Permutation_sym; exact P|auto]|].
      apply A2. intros J. apply I. eapply Permutation_in; [exact P|auto].
Qed.

Lemma log_abs_like : forall x, fin x -> Rabs (val x) <= pow2 200 -> log_like (np_log np (fabs x)).
Proof.
  intros x F B. destruct (Req_dec (val x) 0) as [E|E].
  - left. destruct x as [s|s| |s m e Bd]; try discriminate F.
    + cbn. apply (log_zero _ (np_log_ok _ C)).
    + exfalso. pose proof (abs_B2R_ge_emin 53 1024 (B754_finite s m e Bd) eq_refl) as K. unfold val in E.
      rewrite E, Rabs_R0 in K. pose proof (bpow_gt_0 radix2 (SpecFloat.emin 53 1024)). lra.
  - right. assert (P : 0 < Rabs (val x)) by (apply Rabs_pos_lt; auto).
    assert (FA : fin (fabs x)) by (unfold fabs, fin; rewrite is_finite_Babs; exact F).
    assert (VA : val (fabs x) = Rabs (val x)) by (unfold fabs, val; apply B2R_Babs).
    destruct (log_near _ (np_log_ok _ C) (fabs x) FA ltac:(lra)) as [Fl El]. split; auto. rewrite VA in El.
    assert (Lo : pow2 (-1074) <= Rabs (val x)).
    { destruct x as [s|s| |s m e Bd]; try discriminate F; [exfalso; apply E; reflexivity|].
      exact (abs_B2R_ge_emin 53 1024 (B754_finite s m e Bd) eq_refl). }
    pose proof (ln_size (Rabs (val x)) 1074 ltac:(lia)) as K. rewrite p50, u_val in El.
    assert (K' : Rabs (ln (Rabs (val x))) <= 1074). { apply K. split; auto. eapply Rle_trans; [exact B|]. apply pow2_mono. lia. }
    replace (val (np_log np (fabs x))) with ((val (np_log np (fabs x)) - ln (Rabs (val x))) + ln (Rabs (val x))) by ring.
    eapply Rle_trans; [apply Rabs_triang|]. lra.
Qed.

Theorem det_lost : forall k s lb ub dv fd a, let p := PNum k s lb ub dv fd in
  usable p -> exact_bounds p -> roomy p (FArr a) -> fin (bound64 lb) -> fin (bound64 ub) -> (prod s <= Z.to_nat 1048576)%nat ->
  (exists x, In x (dat a) /\ pow2 57 * (val (bound64 ub) - val x) <= val x - val (bound64 lb)) ->
  plog_det64 np false p (FArr a) = Ok fninf.
Proof.
  intros k s lb ub dv fd a p (Hs & O) (El & Eu) (Sa & Oa & R) Fl Fu N (x & Hx & Big).
  cbn [p plog_det64]. f_equal. unfold num64_log_det.
  set (l := map (fun z => np_log np (fabs z)) (num64_jac np false (bound64 lb) (bound64 ub) (dat a))).
  assert (P0 := pow2_pos (-100)).
  apply (sum_lost l _ (np_sum_ok _ C l)).
  - unfold l, num64_jac. rewrite !map_length. unfold nd_ok in Oa. rewrite Oa, Sa. auto.
  - unfold l, num64_jac. rewrite map_map, Forall_map. eapply Forall_impl; [|exact R]. cbn. intros z (Fz & B1 & B2).
    destruct (unfree_entry np C lb ub z El Eu O Fz B1 B2) as (F & r & Er & Nr). apply log_abs_like; auto.
    assert (Pz := B1 Fl). assert (Pz2 := B2 Fu).
    assert (Hr : 0 <= r <= pow2 100).
    { destruct (jac1_inverse (pyval lb) (pyval ub) (val z)) as (d & Pd & E1 & E2).
      - destruct (pyval lb) as [c| | |] eqn:Lb; try exact I; try (destruct (pyval ub); contradiction).
        destruct (exact_fin lb c El Lb) as [_ Vl]. rewrite Vl in Pz. cbn. lra.
      - destruct (pyval ub) as [c| | |] eqn:Ub; try exact I; try (destruct (pyval lb); contradiction).
        destruct (exact_fin ub c Eu Ub) as [_ Vl]. rewrite Vl in Pz2. cbn. lra.
      - rewrite E2 in Er. inversion Er; subst r. destruct (free_entry lb ub z El Eu O Fz B1 B2) as (_ & d' & _ & E3 & B3 & _).
        rewrite E1 in E3. inversion E3; subst d'. split; [left; apply Rinv_0_lt_compat; auto|].
        replace (pow2 100) with (/ pow2 (-100)) by (change (pow2 (-100)) with (pow2 (- (100))); rewrite pow2_neg, Rinv_inv; reflexivity).
        apply Rinv_le_contravar; [apply pow2_pos|tauto]. }
    unfold entry_near, gap in Nr. rewrite (is_ninf_fin _ Fl) in Nr.
    assert (Q : pow2 (-38) * (val z - val (bound64 lb)) <= pow2 100).
    { apply Rle_trans with (pow2 (-38) * pow2 100); [apply Rmult_le_compat_l; [left; apply pow2_pos|lra]|]. rewrite <- pow2_add. apply pow2_mono. lia. }
    replace (val _) with ((val (constrain64_jac np (bound64 lb) (bound64 ub) (unconstrain64 np (bound64 lb) (bound64 ub) z)) - r) + r) by ring.
    eapply Rle_trans; [apply Rabs_triang|]. rewrite (Rabs_pos_eq r) by lra. apply Rle_trans with (2 * pow2 100); [lra|].
    rewrite pow2_double. apply pow2_mono. lia.
  - unfold l, num64_jac. rewrite map_map. apply in_map_iff. exists x. split; auto.
    rewrite Forall_forall in R. destruct (R x Hx) as (Fx & B1 & B2).
    destruct (lost_entry _ _ x Fl Fu Fx (B1 Fl) (B2 Fu) Big) as (sg & ->). cbn. apply (log_zero _ (np_log_ok _ C)).
Qed.

(** The Jacobian itself is singular there. *)
Theorem jac_lost : forall k s lb ub dv fd a i, let p := PNum k s lb ub dv fd in
  usable p -> exact_bounds p -> roomy p (FArr a) -> fin (bound64 lb) -> fin (bound64 ub) -> (i < length (dat a))%nat ->
  pow2 57 * (val (bound64 ub) - val (nth i (dat a) fnan)) <= val (nth i (dat a) fnan) - val (bound64 lb) ->
  exists m, pjac64 np false p (FArr a) = Ok m /\ forall j, (j < c64 m)%nat -> fin (at64 m i j) /\ val (at64 m i j) = 0.
Proof.
  intros k s lb ub dv fd a i p (Hs & O) (El & Eu) (Sa & Oa & R) Fl Fu Hi Big. eexists. split; [reflexivity|].
  cbn [diags64 at64 c64]. intros j Hj. destruct (i =? j)%nat; [|apply fzero_val].
  unfold num64_jac. rewrite (nth_indep _ fnan (constrain64_jac np (bound64 lb) (bound64 ub) (unconstrain64 np (bound64 lb) (bound64 ub) fnan))) by (rewrite map_length; auto).
  rewrite (map_nth (fun z => constrain64_jac np (bound64 lb) (bound64 ub) (unconstrain64 np (bound64 lb) (bound64 ub) z))).
  rewrite Forall_forall in R. destruct (R _ (nth_In (dat a) fnan Hi)) as (Fx & B1 & B2).
  destruct (lost_entry _ _ _ Fl Fu Fx (B1 Fl) (B2 Fu) Big) as (sg & ->). split; reflexivity.
Qed.
End Lost.
