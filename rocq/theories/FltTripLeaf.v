(** * Numeric entries folded and flattened in float64. *)
From Coq Require Import Reals Lra Lia ZArith Psatz.
From Flocq Require Import Core IEEE754.BinarySingleNaN.
From Verif Require Import Base Num Nd ListFacts Pattern Spec NumFacts Numeric Flt SpecFlt FltMat SpecFltMat
  FltChol SpecFltChol FltPat SpecFltPat SpecFltTrip FltBase FltExp FltNum FltNum2 FltNum3 FltSimp FltSimp2 FltLeaf FltFlatLeaf.
Local Open Scope R_scope.

Lemma ln_sigma : forall v, Rabs (ln (exp v / (1 + exp v))) <= 1 + Rabs v.
Proof.
  intros v. pose proof (exp_pos v) as P. pose proof (exp_pos (- v)) as P'.
  assert (E : exp v / (1 + exp v) = / (1 + exp (- v))).
  { rewrite exp_Ropp. field. lra. }
  rewrite E, ln_Rinv by lra. rewrite Rabs_Ropp.
  assert (L0 : 0 <= ln (1 + exp (- v))). { rewrite <- ln_1. apply ln_mono; lra. }
  rewrite Rabs_pos_eq by auto.
  pose proof (Rabs_pos v) as Pv. pose proof (exp_ineq1_le 1) as X1.
  assert (X : 1 + exp (- v) <= exp (1 + Rabs v)).
  { rewrite exp_plus. assert (exp (- v) <= exp (Rabs v)).
    { apply exp_le. pose proof (Rle_abs (- v)). rewrite Rabs_Ropp in H. lra. }
    assert (1 <= exp (Rabs v)) by (rewrite <- exp_0; apply exp_le; lra). nra. }
  rewrite <- (ln_exp (1 + Rabs v)). apply ln_mono; lra.
Qed.
Lemma ln_sigma' : forall v, Rabs (ln (1 - exp v / (1 + exp v))) <= 1 + Rabs v.
Proof.
  intros v. pose proof (exp_pos v) as P. rewrite <- Rabs_Ropp with (x := v).
  replace (1 - exp v / (1 + exp v)) with (exp (- v) / (1 + exp (- v))); [apply ln_sigma|].
  rewrite exp_Ropp. field. lra.
Qed.

Section Two.
Variable np : np64.
Hypothesis C : np_contract np.
Variables lb ub x : f64.
Hypothesis Fl : fin lb.
Hypothesis Fu : fin ub.
Hypothesis Hb : val lb < val ub.
Hypothesis Bl : Rabs (val lb) <= pow2 11.
Hypothesis Bu : Rabs (val ub) <= pow2 11.
Hypothesis Fx : fin x.
Hypothesis Bx : Rabs (val x) <= 100.
Let w := val ub - val lb.
Let d := w * room (val x).
Let B := Rabs (val lb) + Rabs (val ub).
Hypothesis Hd : pow2 (-95) <= d.
Hypothesis HB : B <= pow2 40 * d.

Lemma two_sided_round_trip :
  exists y, num64_flatten np lb ub (num64_fold np lb ub [x]) = Ok [y] /\ fin y /\
    Rabs (val y - val x) <= pow2 (-45) * (1 + Rabs (val x) + Rabs (ln w) + B / d).
Proof.
  assert (U : u = / 9007199254740992) by apply u_val.
  assert (P8 : pow2 (-8) = / 256) by (change (-8)%Z with (- (8))%Z; rewrite pow2_neg, pow2_Z by lia; reflexivity).
  assert (P45 : pow2 (-45) = 256 * u) by (unfold u; change (-45)%Z with (-53 + 8)%Z; rewrite pm by lia; reflexivity).
  assert (P48 : pow2 (-48) = 32 * u) by (unfold u; change (-48)%Z with (-53 + 5)%Z; rewrite pm by lia; reflexivity).
  assert (P49 : pow2 (-49) = 16 * u) by (unfold u; change (-49)%Z with (-53 + 4)%Z; rewrite pm by lia; reflexivity).
  assert (Pw : 0 < w) by (unfold w; lra).
  assert (WB : w <= B).
  { unfold w, B. pose proof (Rle_abs (val ub)). pose proof (Rle_abs (- val lb)). rewrite Rabs_Ropp in H0. lra. }
  assert (Pd : 0 < d) by (eapply Rlt_le_trans; [apply pow2_pos|exact Hd]).
  pose proof (exp_pos (val x)) as Pe. set (s := exp (val x) / (1 + exp (val x))).
  assert (Hs : 0 < s < 1).
  { unfold s. split; [apply Rdiv_lt_0_compat; lra|]. apply Rmult_lt_reg_r with (1 + exp (val x)); [lra|].
    unfold Rdiv. rewrite Rmult_assoc, Rinv_l; lra. }
  assert (Ed : d = w * (s * (1 - s))). { unfold d, room, s. field. lra. }
  set (al0 := w * s). set (be0 := w * (1 - s)).
  assert (A0 : d <= al0). { rewrite Ed. unfold al0. apply Rmult_le_compat_l; [lra|]. nra. }
  assert (B0 : d <= be0). { rewrite Ed. unfold be0. apply Rmult_le_compat_l; [lra|]. nra. }
  assert (D1 : d <= w). { unfold al0 in A0. nra. }
  set (a := constrain64 np lb ub x).
  destruct (two_sided_accurate np C lb ub Fl Fu Hb Bl Bu x Fx ltac:(apply Rabs_le_inv in Bx; lra)) as (Fa & _ & Ea).
  fold a w B s in Ea. fold a in Fa.
  set (eta := 32 * u * (B / d)).
  assert (BD : 0 <= B / d <= pow2 40).
  { split; [apply Rmult_le_pos; [unfold B; pose proof (Rabs_pos (val lb)); pose proof (Rabs_pos (val ub)); lra|left; apply Rinv_0_lt_compat; auto]|]. apply Rmult_le_reg_r with d; auto. unfold Rdiv. rewrite Rmult_assoc, Rinv_l; lra. }
  assert (Het : 0 <= eta <= / 256).
  { unfold eta. split; [apply Rmult_le_pos; [rewrite U; lra|apply BD]|].
    apply Rle_trans with (32 * u * pow2 40); [apply Rmult_le_compat_l; [rewrite U; lra|apply BD]|].
    rewrite <- P48, <- P8. unfold pow2. rewrite <- bpow_plus. apply bpow_le. lia. }
  assert (Tiny : pow2 (-1050) <= 16 * u * B).
  { assert (pow2 (-1050) <= 16 * u * pow2 (-95)).
    { rewrite <- P49, <- pow2_add. apply pow2_mono. lia. }
    assert (16 * u * pow2 (-95) <= 16 * u * B) by (apply Rmult_le_compat_l; [rewrite U|]; lra). lra. }
  assert (Ed' : eta * d = 32 * u * B) by (unfold eta; field; lra).
  assert (Er : Rabs (val a - (w * s + val lb)) <= eta * d) by (rewrite P49 in Ea; lra). clear Ea.
  set (al := val a - val lb). set (be := val ub - val a).
  assert (Ea1 : Rabs (al - al0) <= eta * al0).
  { replace (al - al0) with (val a - (w * s + val lb)) by (unfold al, al0; ring). eapply Rle_trans; [exact Er|].
    apply Rmult_le_compat_l; lra. }
  assert (Eb1 : Rabs (be - be0) <= eta * be0).
  { replace (be - be0) with (- (val a - (w * s + val lb))) by (unfold be, be0, w; ring). rewrite Rabs_Ropp.
    eapply Rle_trans; [exact Er|]. apply Rmult_le_compat_l; lra. }
  destruct (near_ln (2 * eta) al al0 ltac:(lra) (near_rel eta al al0 ltac:(lra) ltac:(lra) Ea1)) as [Pal La].
  destruct (near_ln (2 * eta) be be0 ltac:(lra) (near_rel eta be be0 ltac:(lra) ltac:(lra) Eb1)) as [Pbe Lb].
  assert (Wb : w <= pow2 12).
  { change 12%Z with (11 + 1)%Z. rewrite pm by lia. change (IZR (2 ^ 1)) with 2. unfold B in WB. lra. }
  assert (P96 : pow2 (-95) = 32 * pow2 (-100)) by (change (-95)%Z with (-100 + 5)%Z; rewrite pm by lia; reflexivity).
  assert (P13 : 2 * pow2 12 <= pow2 100).
  { apply Rle_trans with (pow2 13); [|apply pow2_mono; lia]. change 13%Z with (12 + 1)%Z. rewrite pm by lia.
    change (IZR (2 ^ 1)) with 2. lra. }
  pose proof (pow2_pos (-100)) as P100.
  assert (Ra : pow2 (-100) <= val a - val lb <= pow2 100).
  { fold al. apply Rabs_le_inv in Ea1. assert (al0 <= w) by (unfold al0; nra).
    assert (eta * al0 <= / 256 * al0) by (apply Rmult_le_compat_r; lra). lra. }
  assert (Rb : pow2 (-100) <= val ub - val a <= pow2 100).
  { fold be. apply Rabs_le_inv in Eb1. assert (be0 <= w) by (unfold be0; nra).
    assert (eta * be0 <= / 256 * be0) by (apply Rmult_le_compat_r; lra). lra. }
  exists (unconstrain64 np lb ub a). split.
  { unfold num64_flatten. replace (num64_valid lb ub (num64_fold np lb ub [x])) with true; [reflexivity|].
    symmetry. apply num64_valid_iff. constructor; [|constructor]. fold a.
    split; apply flt_false; auto; unfold al, be in *; lra. }
  unfold unconstrain64. rewrite (is_pinf_fin _ Fu), (is_ninf_fin _ Fl).
  destruct (log_sub np C a lb Fa Fl Ra) as (_ & Ba & F1 & E1).
  destruct (log_sub np C ub a Fu Fa Rb) as (_ & Bb & F2 & E2). fold al in Ba, E1. fold be in Bb, E2.
  set (p := np_log np (fsub a lb)) in *. set (q := np_log np (fsub ub a)) in *.
  assert (E : Rabs (val p - val q - (ln al - ln be)) <= 8 * u * (Rabs (ln al) + Rabs (ln be)) + 6 * u).
  { replace (val p - val q - (ln al - ln be)) with ((val p - ln al) + - (val q - ln be)) by ring.
    eapply Rle_trans; [apply Rabs_triang|]. rewrite Rabs_Ropp. lra. }
  assert (Ed2 : Rabs (val p - val q) <= Rabs (ln al) + Rabs (ln be) + (8 * u * (Rabs (ln al) + Rabs (ln be)) + 6 * u)).
  { replace (val p - val q) with ((ln al + - ln be) + (val p - val q - (ln al - ln be))) by ring.
    eapply Rle_trans; [apply Rabs_triang|]. apply Rplus_le_compat; [|lra].
    eapply Rle_trans; [apply Rabs_triang|]. rewrite Rabs_Ropp. lra. }
  destruct (sub_near p q F1 F2) as [F E3]. { apply small_huge. rewrite U in Ed2. lra. }
  split; auto. set (y := val (fsub p q)) in *.
  pose proof (Rabs_pos (ln al)) as Q1. pose proof (Rabs_pos (ln be)) as Q2.
  assert (Ey : Rabs (y - (ln al - ln be)) <= 10 * u * (1 + Rabs (ln al) + Rabs (ln be))).
  { replace (y - (ln al - ln be)) with ((y - (val p - val q)) + (val p - val q - (ln al - ln be))) by ring.
    eapply Rle_trans; [apply Rabs_triang|].
    assert (u * Rabs (val p - val q) <= u * (2 + 101 / 100 * (Rabs (ln al) + Rabs (ln be)))).
    { apply Rmult_le_compat_l; [rewrite U; lra|]. rewrite U in Ed2. lra. }
    rewrite U in *. lra. }
  assert (Lx : ln al0 - ln be0 = val x).
  { unfold al0, be0. rewrite !ln_mult by lra. replace (ln w + ln s - (ln w + ln (1 - s))) with (ln s - ln (1 - s)) by ring.
    assert (Hr : 1 - s = / (1 + exp (val x))) by (unfold s; field; lra).
    rewrite Hr, ln_Rinv by lra. unfold s, Rdiv. rewrite ln_mult, ln_Rinv, ln_exp by (try apply Rinv_0_lt_compat; lra). ring. }
  assert (Za : Rabs (ln al) <= Rabs (ln w) + 2 + Rabs (val x)).
  { replace (ln al) with (ln w + ln s + (ln al - ln al0)) by (unfold al0; rewrite ln_mult by lra; ring).
    eapply Rle_trans; [apply Rabs_triang|]. pose proof (Rabs_triang (ln w) (ln s)). pose proof (ln_sigma (val x)) as Z. fold s in Z. lra. }
  assert (Zb : Rabs (ln be) <= Rabs (ln w) + 2 + Rabs (val x)).
  { replace (ln be) with (ln w + ln (1 - s) + (ln be - ln be0)) by (unfold be0; rewrite ln_mult by lra; ring).
    eapply Rle_trans; [apply Rabs_triang|]. pose proof (Rabs_triang (ln w) (ln (1 - s))). pose proof (ln_sigma' (val x)) as Z. fold s in Z. lra. }
  replace (y - val x) with ((y - (ln al - ln be)) + ((ln al - ln al0) - (ln be - ln be0))) by (rewrite <- Lx; ring).
  eapply Rle_trans; [apply Rabs_triang|].
  pose proof (Rabs_triang (ln al - ln al0) (- (ln be - ln be0))) as Tr. rewrite Rabs_Ropp in Tr.
  replace (ln al - ln al0 + - (ln be - ln be0)) with (ln al - ln al0 - (ln be - ln be0)) in Tr by ring.
  pose proof (Rabs_pos (ln w)). pose proof (Rabs_pos (val x)). unfold eta in *. rewrite P45. rewrite U in *. lra.
Qed.
End Two.

Lemma num_trip : forall np, np_contract np -> forall lb ub x e, exact_bound lb -> exact_bound ub ->
  nlt (pyval lb) (pyval ub) -> Rabs (val (bound64 lb)) <= pow2 11 -> Rabs (val (bound64 ub)) <= pow2 11 ->
  fin x -> Rabs (val x) <= 100 -> num_allows (bound64 lb) (bound64 ub) (val x) e ->
  let a := constrain64 np (bound64 lb) (bound64 ub) x in
  let y := unconstrain64 np (bound64 lb) (bound64 ub) a in
  flt a (bound64 lb) = false /\ flt (bound64 ub) a = false /\ fin y /\ Rabs (val y - val x) <= e.
Proof.
  intros np C lb ub x e El Eu O Bl Bu Fx Bx H.
  assert (P : pow2 11 <= pow2 1000) by (apply pow2_mono; lia).
  assert (Q : exists y, num64_flatten np (bound64 lb) (bound64 ub) (num64_fold np (bound64 lb) (bound64 ub) [x]) = Ok [y] /\ fin y /\
    Rabs (val y - val x) <= e).
  { unfold num_allows in H.
    destruct (pyval ub) as [b| | |] eqn:Ub; destruct (pyval lb) as [l| | |] eqn:Lb; try contradiction.
    - destruct (exact_fin lb l El Lb) as [Fl Vl]. destruct (exact_fin ub b Eu Ub) as [Fu Vu].
      rewrite (is_pinf_fin _ Fu), (is_ninf_fin _ Fl) in H. destruct H as (H1 & H2 & H3). cbn [nlt] in O.
      destruct (two_sided_round_trip np C (bound64 lb) (bound64 ub) x Fl Fu ltac:(lra) Bl Bu Fx Bx H1 H2) as (y & E1 & E2 & E3).
      exists y. repeat split; auto. lra.
    - destruct (exact_fin ub b Eu Ub) as [Fu Vu]. rewrite (exact_ninf lb El Lb) in *. rewrite (is_pinf_fin _ Fu) in H.
      cbn [is_ninf fninf] in H. destruct H as (H1 & H2).
      destruct (upper_round_trip np C (bound64 ub) Fu ltac:(lra) x Fx ltac:(lra) H1) as (y & E1 & E2 & E3).
      exists y. repeat split; auto. lra.
    - destruct (exact_fin lb l El Lb) as [Fl Vl]. rewrite (exact_pinf ub Eu Ub) in *. rewrite (is_ninf_fin _ Fl) in H.
      cbn [is_pinf finf] in H. destruct H as (H1 & H2).
      destruct (lower_round_trip np C (bound64 lb) Fl ltac:(lra) x Fx ltac:(lra) H1) as (y & E1 & E2 & E3).
      exists y. repeat split; auto. lra.
    - rewrite (exact_pinf ub Eu Ub), (exact_ninf lb El Lb) in *. cbn [is_pinf is_ninf finf fninf] in H.
      exists x. rewrite (proj1 (free_round_trip np [x])), (proj2 (free_round_trip np [x])). split; auto. split; auto.
      rewrite Rminus_diag_eq, Rabs_R0 by auto. auto. }
  destruct Q as (y & E & Fy & Ey). unfold num64_flatten in E.
  destruct (num64_valid (bound64 lb) (bound64 ub) (num64_fold np (bound64 lb) (bound64 ub) [x])) eqn:V; [|discriminate E].
  cbn [num64_fold map] in E. inversion E; subst y. apply num64_valid_iff in V. unfold num64_fold in V. cbn [map] in V. inversion V; subst. cbv zeta.
  destruct H2 as [V1 V2]. auto.
Qed.
