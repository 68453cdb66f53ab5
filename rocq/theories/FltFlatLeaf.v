(** * The leaves of patterns: what a float64 free vector stands for. *)
From Coq Require Import Reals Lra Lia ZArith Psatz Permutation.
From Flocq Require Import Core IEEE754.BinarySingleNaN.
From Verif Require Import Base Num Nd ListFacts Pattern Spec NumFacts Numeric Simplex Flt SpecFlt FltMat SpecFltMat
  FltChol SpecFltChol FltPat SpecFltPat FltBase FltExp FltNum FltNum2 FltNum3 FltSimp FltSimp2 FltLeaf FltCholProps.
Local Open Scope R_scope.

Lemma ln_mono : forall a b, 0 < a -> a <= b -> ln a <= ln b.
Proof. intros a b P [L| ->]; [left; apply ln_increasing; auto|lra]. Qed.
Lemma ln_size : forall x k, (0 <= k)%Z -> pow2 (- k) <= x <= pow2 k -> Rabs (ln x) <= IZR k.
Proof.
  intros x k Hk [L U]. assert (0 < x) by (eapply Rlt_le_trans; [apply pow2_pos|exact L]).
  assert (E : forall z, ln (pow2 z) = IZR z * ln 2).
  { intros z. unfold pow2. rewrite bpow_exp, ln_exp. reflexivity. }
  pose proof (ln_mono _ _ (pow2_pos (- k)) L) as A. pose proof (ln_mono _ _ H U) as B. rewrite E in A, B.
  assert (0 < ln 2 < 1).
  { split; [rewrite <- ln_1; apply ln_increasing; lra|]. rewrite <- (ln_exp 1). apply ln_increasing; [lra|].
    pose proof (exp_ineq1 1). lra. }
  apply IZR_le in Hk. rewrite opp_IZR in A. apply Rabs_le_both; nra.
Qed.

Section Leaf.
Variable np : np64.
Hypothesis C : np_contract np.

Lemma log_any : forall A al, fin A -> 0 < al -> Rabs (ln al) <= 1000 -> near (2 * u) (val A) al ->
  fin (np_log np A) /\ Rabs (val (np_log np A) - ln al) <= 8 * u * Rabs (ln al) + 3 * u.
Proof.
  intros A al FA Pa Ba N. destruct (near_ln _ _ _ Pa N) as [PA E].
  destruct (log_near _ (np_log_ok _ C) A FA PA) as [Fl El]. split; auto.
  replace (pow2 (-50)) with (8 * u) in El by (unfold u; change (-50)%Z with (-53 + 3)%Z; rewrite pm by lia; reflexivity).
  assert (U : 0 < u < / 1000000) by (rewrite u_val; lra).
  assert (Rabs (ln (val A)) <= Rabs (ln al) + 2 * u).
  { replace (ln (val A)) with (ln al + (ln (val A) - ln al)) by ring. eapply Rle_trans; [apply Rabs_triang|]. lra. }
  replace (val (np_log np A) - ln al) with ((val (np_log np A) - ln (val A)) + (ln (val A) - ln al)) by ring.
  eapply Rle_trans; [apply Rabs_triang|].
  assert (8 * u * Rabs (ln (val A)) <= 8 * u * (Rabs (ln al) + 2 * u)) by (apply Rmult_le_compat_l; lra). nra.
Qed.

Lemma log_sub : forall a b, fin a -> fin b -> pow2 (-100) <= val a - val b <= pow2 100 ->
  let al := val a - val b in
  0 < al /\ Rabs (ln al) <= 100 /\ fin (np_log np (fsub a b)) /\
  Rabs (val (np_log np (fsub a b)) - ln al) <= 8 * u * Rabs (ln al) + 3 * u.
Proof.
  intros a b Fa Fb H al. pose proof (ln_size (val a - val b) 100 ltac:(lia) H) as B. fold al in H, B.
  assert (Pa : 0 < al) by (eapply Rlt_le_trans; [apply pow2_pos|apply H]). split; auto. split; auto.
  destruct (sub_near a b Fa Fb) as [F E].
  { fold al. rewrite Rabs_pos_eq by lra. eapply Rle_trans; [apply H|]. apply pow2_mono. lia. }
  fold al in E. rewrite (Rabs_pos_eq al) in E by lra.
  apply log_any; auto; [lra|]. apply near_rel; auto; [lra|]. rewrite u_val. lra.
Qed.

Lemma exp_off : forall t l, 0 < l -> Rabs (t - ln l) <= / 4 -> Rabs (exp t - l) <= 2 * Rabs (t - ln l) * l.
Proof.
  intros t l Pl H. replace (exp t - l) with ((exp (t - ln l) - 1) * l).
  2:{ replace t with (ln l + (t - ln l)) at 2 by ring. rewrite exp_plus, exp_ln by auto. ring. }
  rewrite Rabs_mult, (Rabs_pos_eq l) by lra. apply Rmult_le_compat_r; [lra|]. apply exp_near. lra.
Qed.

(** The logistic curve at a perturbed logit. *)
Lemma logit_off : forall al be t, 0 < al -> 0 < be -> Rabs (t - (ln al - ln be)) <= / 4 ->
  Rabs ((al + be) * exp t / (1 + exp t) - al) <= 4 * Rabs (t - (ln al - ln be)) * Rmin al be.
Proof.
  intros al be t Pa Pb H. set (d := t - (ln al - ln be)) in *.
  assert (E : exp t = al / be * exp d).
  { replace t with (ln al + (- ln be) + d) by (unfold d; ring). rewrite !exp_plus, exp_Ropp, !exp_ln by auto. reflexivity. }
  assert (Pd : 0 < exp d) by apply exp_pos. rewrite E.
  assert (Q : 0 < be + al * exp d) by nra.
  replace ((al + be) * (al / be * exp d) / (1 + al / be * exp d) - al) with (al * be * (exp d - 1) / (be + al * exp d)).
  2:{ field. split; [lra|]. replace (be + al * exp d) with (be + al * exp d) by ring. lra. }
  pose proof (exp_near d ltac:(lra)) as X.
  assert (Xd : / 2 <= exp d). { apply Rabs_le_inv in X. lra. }
  unfold Rdiv. rewrite Rabs_mult, Rabs_inv, !Rabs_mult, (Rabs_pos_eq al), (Rabs_pos_eq be), (Rabs_pos_eq (be + _)) by lra.
  apply Rmult_le_reg_r with (be + al * exp d); [auto|]. rewrite Rmult_assoc, Rinv_l, Rmult_1_r by lra.
  pose proof (Rabs_pos d) as Pd'. set (e := Rabs d) in *.
  assert (al * be * Rabs (exp d - 1) <= al * be * (2 * e)) by (apply Rmult_le_compat_l; nra).
  eapply Rle_trans; [exact H0|].
  assert (K : al * be <= 2 * (Rmin al be * (be + al * exp d))).
  { assert (0 < al * be) by (apply Rmult_lt_0_compat; auto). assert (0 < al * al) by (apply Rmult_lt_0_compat; auto).
    assert (0 < be * be) by (apply Rmult_lt_0_compat; auto).
    assert (/ 2 * (al * be) <= al * be * exp d) by (rewrite (Rmult_comm (/ 2)); apply Rmult_le_compat_l; lra).
    assert (0 < al * al * exp d) by (apply Rmult_lt_0_compat; auto).
    unfold Rmin. destruct (Rle_dec al be).
    - replace (al * (be + al * exp d)) with (al * be + al * al * exp d) by ring. lra.
    - replace (be * (be + al * exp d)) with (be * be + al * be * exp d) by ring. lra. }
  replace (4 * e * Rmin al be * (be + al * exp d)) with (2 * e * (2 * (Rmin al be * (be + al * exp d)))) by ring.
  replace (al * be * (2 * e)) with (2 * e * (al * be)) by ring. apply Rmult_le_compat_l; lra.
Qed.

Lemma num_flat : forall lb ub a, exact_bound lb -> exact_bound ub -> nlt (pyval lb) (pyval ub) ->
  fin a -> between (bound64 lb) (val a - val (bound64 lb)) -> between (bound64 ub) (val (bound64 ub) - val a) ->
  let y := unconstrain64 np (bound64 lb) (bound64 ub) a in
  fin y /\ both (on_num flat_err (bound64 lb) (bound64 ub)) a (constrain1 (pyval lb) (pyval ub) (Fin (val y))).
Proof.
  intros lb ub a El Eu O Fa Hl Hu y.
  assert (U : u = / 9007199254740992) by apply u_val.
  assert (P47 : pow2 (-47) = 64 * u) by (unfold u; change (-47)%Z with (-53 + 6)%Z; rewrite pm by lia; reflexivity).
  unfold y, both, constrain1, unconstrain64. clear y.
  destruct (pyval ub) as [b| | |] eqn:Ub; destruct (pyval lb) as [l| | |] eqn:Lb; try contradiction.
  - destruct (exact_fin lb l El Lb) as [Fl Vl]. destruct (exact_fin ub b Eu Ub) as [Fu Vu].
    rewrite (is_pinf_fin _ Fu), (is_ninf_fin _ Fl). cbn [neqb].
    destruct (log_sub a (bound64 lb) Fa Fl (Hl Fl)) as (Pa & Ba & F1 & E1).
    destruct (log_sub (bound64 ub) a Fu Fa (Hu Fu)) as (Pb & Bb & F2 & E2).
    set (al := val a - val (bound64 lb)) in *. set (be := val (bound64 ub) - val a) in *.
    set (p := np_log np (fsub a (bound64 lb))) in *. set (q := np_log np (fsub (bound64 ub) a)) in *.
    assert (E : Rabs (val p - val q - (ln al - ln be)) <= 8 * u * (Rabs (ln al) + Rabs (ln be)) + 6 * u).
    { replace (val p - val q - (ln al - ln be)) with ((val p - ln al) + - (val q - ln be)) by ring.
      eapply Rle_trans; [apply Rabs_triang|]. rewrite Rabs_Ropp. lra. }
    assert (Ed : Rabs (val p - val q) <= Rabs (ln al) + Rabs (ln be) + (8 * u * (Rabs (ln al) + Rabs (ln be)) + 6 * u)).
    { replace (val p - val q) with ((ln al + - ln be) + (val p - val q - (ln al - ln be))) by ring.
      eapply Rle_trans; [apply Rabs_triang|]. apply Rplus_le_compat; [|lra].
      eapply Rle_trans; [apply Rabs_triang|]. rewrite Rabs_Ropp. lra. }
    destruct (sub_near p q F1 F2) as [F E3]. { apply small_huge. rewrite U in Ed. lra. }
    split; auto. split; auto. set (y := val (fsub p q)) in *.
    assert (Ey : Rabs (y - (ln al - ln be)) <= 10 * u * (1 + Rabs (ln al) + Rabs (ln be))).
    { replace (y - (ln al - ln be)) with ((y - (val p - val q)) + (val p - val q - (ln al - ln be))) by ring.
      eapply Rle_trans; [apply Rabs_triang|].
      assert (u * Rabs (val p - val q) <= u * (2 + 101 / 100 * (Rabs (ln al) + Rabs (ln be)))).
      { apply Rmult_le_compat_l; [rewrite U; lra|]. pose proof (Rabs_pos (ln al)). pose proof (Rabs_pos (ln be)). rewrite U in Ed. lra. }
      pose proof (Rabs_pos (ln al)). pose proof (Rabs_pos (ln be)). rewrite U in *. lra. }
    cbn [nsub nexp nmul nadd nneg].
    assert (0 < 1 + exp y) by (pose proof (exp_pos y); lra).
    assert (D : forall q, ndiv (Fin q) (Fin (1 + exp y)) = Fin (q / (1 + exp y))).
    { intros q'. unfold ndiv, Reqb. destruct (Req_EM_T (1 + exp y) 0); [lra|reflexivity]. }
    rewrite D. cbn [nadd]. eexists. split; [reflexivity|]. cbn [on_num flat_err].
    rewrite (is_pinf_fin _ Fu), (is_ninf_fin _ Fl). fold al be.
    assert (K := logit_off al be y Pa Pb ltac:(rewrite U in Ey; pose proof (Rabs_pos (ln al)); lra)).
    replace ((b + - l) * exp y / (1 + exp y) + l - val a) with ((al + be) * exp y / (1 + exp y) - al)
      by (unfold al, be; rewrite Vl, Vu; field; lra).
    eapply Rle_trans; [exact K|]. apply Rmult_le_compat_r.
    { unfold Rmin; destruct (Rle_dec al be); lra. }
    rewrite P47. rewrite U in *. pose proof (Rabs_pos (ln al)). pose proof (Rabs_pos (ln be)). lra.
  - destruct (exact_fin ub b Eu Ub) as [Fu Vu]. rewrite (exact_ninf lb El Lb).
    rewrite (is_pinf_fin _ Fu). cbn [neqb is_ninf fninf].
    destruct (log_sub (bound64 ub) a Fu Fa (Hu Fu)) as (Pb & Bb & F2 & E2).
    set (be := val (bound64 ub) - val a) in *. set (q := np_log np (fsub (bound64 ub) a)) in *.
    destruct (neg_val q F2) as [Fn Vn]. split; auto. split; auto. rewrite Vn.
    cbn [nmul nexp nsub nneg nadd]. replace (-1 * - val q) with (val q) by ring.
    eexists. split; [reflexivity|]. cbn [on_num flat_err]. rewrite (is_pinf_fin _ Fu). cbn [is_ninf fninf]. fold be.
    pose proof (Rabs_pos (ln be)).
    pose proof (exp_off (val q) be Pb ltac:(rewrite U in E2; lra)) as K.
    replace (b + - exp (val q) - val a) with (- (exp (val q) - be)) by (unfold be; rewrite Vu; ring).
    rewrite Rabs_Ropp. eapply Rle_trans; [exact K|]. apply Rmult_le_compat_r; [lra|].
    rewrite P47. rewrite U in *. lra.
  - destruct (exact_fin lb l El Lb) as [Fl Vl]. rewrite (exact_pinf ub Eu Ub).
    rewrite (is_ninf_fin _ Fl). cbn [neqb is_pinf finf].
    destruct (log_sub a (bound64 lb) Fa Fl (Hl Fl)) as (Pa & Ba & F1 & E1).
    set (al := val a - val (bound64 lb)) in *. set (p := np_log np (fsub a (bound64 lb))) in *.
    split; auto. split; auto. cbn [nexp nadd]. eexists. split; [reflexivity|]. cbn [on_num flat_err].
    rewrite (is_ninf_fin _ Fl). cbn [is_pinf finf]. fold al. pose proof (Rabs_pos (ln al)).
    pose proof (exp_off (val p) al Pa ltac:(rewrite U in E1; lra)) as K.
    replace (exp (val p) + l - val a) with (exp (val p) - al) by (unfold al; rewrite Vl; ring).
    eapply Rle_trans; [exact K|]. apply Rmult_le_compat_r; [lra|]. rewrite P47. rewrite U in *. lra.
  - rewrite (exact_pinf ub Eu Ub), (exact_ninf lb El Lb). cbn [is_pinf is_ninf finf fninf neqb].
    split; auto. split; auto. exists (val a). split; auto. cbn [on_num flat_err is_pinf is_ninf finf fninf]. reflexivity.
Qed.

Lemma near_sym : forall e a b, near e a b -> near e b a.
Proof.
  intros e a b [L U]. pose proof (exp_pos e). pose proof (exp_pos (- e)).
  assert (E : exp e * exp (- e) = 1) by (rewrite <- exp_plus, Rplus_opp_r; apply exp_0).
  split.
  - apply Rle_trans with (b * exp e * exp (- e)); [apply Rmult_le_compat_r; lra|]. rewrite Rmult_assoc, E. lra.
  - apply Rle_trans with (b * exp (- e) * exp e); [|apply Rmult_le_compat_r; lra]. rewrite Rmult_assoc, (Rmult_comm (exp (- e))), E. lra.
Qed.
Lemma near_div : forall e e' a b c d, 0 <= b -> 0 < d -> near e a b -> near e' c d -> near (e + e') (a / c) (b / d).
Proof.
  intros e e' a b c d Hb Hd [L1 U1] N2. destruct (near_ln _ _ _ Hd N2) as [Hc _]. destruct N2 as [L2 U2].
  pose proof (exp_pos e). pose proof (exp_pos e'). pose proof (exp_pos (- e)). pose proof (exp_pos (- e')).
  assert (E' : exp e' * exp (- e') = 1) by (rewrite <- exp_plus, Rplus_opp_r; apply exp_0).
  assert (Ic : / d * exp (- e') <= / c).
  { apply Rmult_le_reg_r with c; auto. rewrite Rinv_l by lra. apply Rle_trans with (/ d * exp (- e') * (d * exp e')).
    - apply Rmult_le_compat_l; auto. left. apply Rmult_lt_0_compat; auto. apply Rinv_0_lt_compat; auto.
    - right. replace (/ d * exp (- e') * (d * exp e')) with ((/ d * d) * (exp e' * exp (- e'))) by ring. rewrite E', Rinv_l; lra. }
  assert (Id : / c <= / d * exp e').
  { apply Rmult_le_reg_r with c; auto. rewrite Rinv_l by lra. apply Rle_trans with (/ d * exp e' * (d * exp (- e'))).
    - right. replace (/ d * exp e' * (d * exp (- e'))) with ((/ d * d) * (exp e' * exp (- e'))) by ring. rewrite E', Rinv_l; lra.
    - apply Rmult_le_compat_l; auto. left. apply Rmult_lt_0_compat; auto. apply Rinv_0_lt_compat; auto. }
  assert (0 < / d) by (apply Rinv_0_lt_compat; auto). assert (0 < / c) by (apply Rinv_0_lt_compat; auto).
  unfold near, Rdiv. rewrite Ropp_plus_distr, !exp_plus. split.
  - replace (b * / d * (exp (- e) * exp (- e'))) with ((b * exp (- e)) * (/ d * exp (- e'))) by ring.
    apply Rmult_le_compat; auto; [nra|nra].
  - replace (b * / d * (exp e * exp e')) with ((b * exp e) * (/ d * exp e')) by ring.
    apply Rmult_le_compat; auto; [nra|lra].
Qed.
Lemma near_rel_back : forall e a b, 0 <= b -> 0 <= e <= / 2 -> near e a b -> Rabs (a - b) <= 2 * e * b.
Proof.
  intros e a b Hb He [L U]. pose proof (exp_small_up e He). pose proof (exp_ge_lin (- e)). apply Rabs_le_both; nra.
Qed.

Lemma tol_small : forall s, fin s -> Rabs (val s - 1) <= 10000 -> flt tol64 (fabs (fsub s fone)) = false ->
  Rabs (val s - 1) <= 11 / 10000000000000.
Proof.
  intros s F B V. assert (U : u = / 9007199254740992) by apply u_val.
  destruct (sub_near s fone F (proj1 fone_val)) as [Fd Ed].
  { rewrite (proj2 fone_val). apply small_huge. lra. }
  rewrite (proj2 fone_val) in Ed.
  destruct (val_sf tol64 false 4951760157141521 (-92)) as [Ft Vt]; [vm_compute; reflexivity|].
  assert (D : Rabs (val (fsub s fone)) <= val tol64).
  { destruct (Rle_or_lt (Rabs (val (fsub s fone))) (val tol64)) as [G|G]; auto. exfalso.
    assert (flt tol64 (fabs (fsub s fone)) = true); [|congruence]. apply flt_true; auto.
    - unfold fabs, fin. rewrite is_finite_Babs. exact Fd.
    - unfold fabs. unfold val at 2. rewrite B2R_Babs. exact G. }
  assert (Tv : val tol64 <= 10001 / 10000000000000000).
  { rewrite Vt. unfold pow2. cbn [bpow Z.opp]. 
    match goal with |- _ * / IZR ?z <= _ => assert (0 < IZR z) by (apply IZR_lt; reflexivity); apply Rmult_le_reg_r with (IZR z); auto; rewrite Rmult_assoc, Rinv_l by lra end.
    vm_compute Z.pow_pos. lra. }
  assert (Rabs (val s - 1) <= Rabs (val (fsub s fone)) + u * Rabs (val s - 1)).
  { replace (val s - 1) with (val (fsub s fone) + - (val (fsub s fone) - (val s - 1))) at 1 by ring.
    eapply Rle_trans; [apply Rabs_triang|]. rewrite Rabs_Ropp. lra. }
  rewrite U in *. lra.
Qed.

Lemma simplex_flat : forall a, (2 <= length a <= 1001)%nat -> Forall (fun x => fin x /\ pow2 (-100) <= val x <= 2) a ->
  flt tol64 (fabs (fsub (np_sum np a) fone)) = false ->
  let y := simplex64_row np a in
  Forall fin y /\ length y = (length a - 1)%nat /\
  Forall2 (both (on_simplex flat_err)) a (constrain_row (map Fin (map val y))).
Proof.
  intros a La H V y. assert (U : u = / 9007199254740992) by apply u_val.
  assert (P100 : 0 < pow2 (-100)) by apply pow2_pos.
  assert (Sb : 0 <= rsum (map val a) <= 2 * INR (length a)).
  { clear -H P100. induction H as [|x a [Fx Bx] H IH]; unfold rsum in *; cbn [map fold_right length]; [cbn; lra|]. rewrite S_INR. lra. }
  assert (Ln : INR (length a) <= 1001) by (replace 1001 with (INR 1001) by (rewrite INR_Z; reflexivity); apply le_INR; lia).
  destruct (sum_near a (np_sum np a) (np_sum_ok _ C a)) as [Fs Ns].
  { eapply Forall_impl; [|exact H]. intros x [Fx Bx]. split; auto. lra. }
  { apply Rle_trans with (pow2 11); [|apply pow2_mono; lia]. rewrite pow2_Z by lia. change (IZR (2 ^ 11)) with 2048. lra. }
  { lia. }
  set (s := np_sum np a) in *. set (Sa := rsum (map val a)) in *.
  assert (St : 0 <= steps a <= 2002 * u). { unfold steps. pose proof (pos_INR (length a)). rewrite U. nra. }
  assert (Es : Rabs (val s - 1) <= 11 / 10000000000000).
  { apply tol_small; auto. pose proof (near_rel_back (steps a) (val s) Sa (proj1 Sb) ltac:(rewrite U in St; lra) Ns) as B.
    apply Rabs_le_inv in B. assert (2 * steps a * Sa <= 1 * Sa) by (apply Rmult_le_compat_r; [lra|rewrite U in St; lra]).
    apply Rabs_le_both; lra. }
  assert (N1 : near (22 / 10000000000000) (val s) 1).
  { replace (22 / 10000000000000) with (2 * (11 / 10000000000000)) by lra. apply near_rel; lra. }
  assert (NS : near (25 / 10000000000000) Sa 1).
  { eapply near_weak; [lra| |eapply near_trans; [apply near_sym, Ns|exact N1]]. rewrite U in St. lra. }
  destruct a as [|a0 r]; [cbn in La; lia|]. inversion H as [|? ? [F0 B0] Hr]; subst.
  assert (L0 : Rabs (ln (val a0)) <= 100).
  { apply (ln_size _ 100); [lia|]. split; [apply B0|]. apply Rle_trans with (pow2 1); [|apply pow2_mono; lia]. rewrite pow2_Z by lia. change (IZR (2 ^ 1)) with 2. lra. }
  destruct (log_any a0 (val a0) F0 ltac:(lra) ltac:(lra)) as [Fl0 El0]. { eapply near_weak; [lra| |apply near_refl]. rewrite U. lra. }
  set (g := fun v => fsub (np_log np v) (np_log np a0)) in *.
  assert (G : forall v, In v r -> fin v /\ 0 < val v /\ fin (g v) /\ near (2000 * u) (exp (val (g v))) (val v / val a0)).
  { intros v Hv. rewrite Forall_forall in Hr. destruct (Hr v Hv) as [Fv Bv]. split; auto. split; [lra|].
    assert (Lv : Rabs (ln (val v)) <= 100).
    { apply (ln_size _ 100); [lia|]. split; [apply Bv|]. apply Rle_trans with (pow2 1); [|apply pow2_mono; lia]. rewrite pow2_Z by lia. change (IZR (2 ^ 1)) with 2. lra. }
    destruct (log_any v (val v) Fv ltac:(lra) ltac:(lra)) as [Flv Elv]. { eapply near_weak; [lra| |apply near_refl]. rewrite U. lra. }
    set (p := val (np_log np v)) in *. set (q := val (np_log np a0)) in *.
    assert (E : Rabs (p - q - (ln (val v) - ln (val a0))) <= 1606 * u).
    { replace (p - q - (ln (val v) - ln (val a0))) with ((p - ln (val v)) + - (q - ln (val a0))) by ring.
      eapply Rle_trans; [apply Rabs_triang|]. rewrite Rabs_Ropp. rewrite U in *. lra. }
    assert (B : Rabs (p - q) <= 201).
    { replace (p - q) with ((p - q - (ln (val v) - ln (val a0))) + (ln (val v) + - ln (val a0))) by ring.
      eapply Rle_trans; [apply Rabs_triang|]. pose proof (Rabs_triang (ln (val v)) (- ln (val a0))) as Tr. rewrite Rabs_Ropp in Tr. rewrite U in *. lra. }
    destruct (sub_near (np_log np v) (np_log np a0) Flv Fl0) as [Fg Eg]. { apply small_huge. fold p q. lra. }
    fold (g v) in Fg, Eg. fold p q in Eg. split; auto.
    replace (val v / val a0) with (exp (ln (val v) - ln (val a0))).
    2:{ unfold Rminus. rewrite exp_plus, exp_Ropp, !exp_ln by lra. reflexivity. }
    apply near_exp_diff. replace (val (g v) - (ln (val v) - ln (val a0))) with ((val (g v) - (p - q)) + (p - q - (ln (val v) - ln (val a0)))) by ring.
    eapply Rle_trans; [apply Rabs_triang|]. assert (u * Rabs (p - q) <= u * 201) by (apply Rmult_le_compat_l; [rewrite U; lra|auto]). rewrite U in *. lra. }
  change y with (map g r). clear y. split; [|split].
  - apply Forall_forall. intros z Hz. apply in_map_iff in Hz. destruct Hz as (v & <- & Hv). apply (G v Hv).
  - rewrite map_length. cbn [length]. lia.
  - rewrite constrain_row_fin. unfold NumFacts.softmax.
    set (S := Rlsum (map exp (0 :: map val (map g r)))).
    assert (U0 : 0 < 2000 * u) by (rewrite U; lra).
    assert (NE : near (2000 * u) S (Sa / val a0)).
    { unfold S, Sa. change (Rlsum (map exp (0 :: map val (map g r)))) with (exp 0 + rsum (map exp (map val (map g r)))).
      change (rsum (map val (a0 :: r))) with (val a0 + rsum (map val r)).
      replace ((val a0 + rsum (map val r)) / val a0) with (1 + rsum (map (fun v => val v / val a0) r)).
      - apply near_sum.
        + rewrite exp_0. eapply near_weak; [lra| |apply near_refl]. lra.
        + rewrite !map_map. apply (near_rsum _ _ (fun v => exp (val (g v)))). intros v Hv. apply (G v Hv).
      - assert (Ra : rsum (map (fun v => val v / val a0) r) = rsum (map val r) / val a0).
        { clear. induction r as [|v r IH]; unfold rsum in *; cbn [map fold_right]; [unfold Rdiv; ring|]. rewrite IH. unfold Rdiv. ring. }
        rewrite Ra. field. lra. }
    assert (PS : 0 < Sa). { destruct (near_ln _ _ _ Rlt_0_1 NS) as [P _]. exact P. }
    assert (Ia : 0 < / val a0) by (apply Rinv_0_lt_compat; lra).
    assert (Fin1 : forall v e, 0 < val v -> near (2000 * u) e (val v / val a0) -> Rabs (e / S - val v) <= / 100000000000 * val v).
    { intros v e Pv Ne. assert (K : near (2000 * u + 2000 * u) (e / S) (val v / val a0 / (Sa / val a0))).
      { apply near_div; auto; [unfold Rdiv; nra|]. unfold Rdiv. apply Rmult_lt_0_compat; auto. }
      replace (val v / val a0 / (Sa / val a0)) with (val v / Sa) in K by (field; lra).
      assert (K2 : near (0 + 25 / 10000000000000) (val v / Sa) (val v / 1)) by (apply near_div; try lra; [apply near_refl|exact NS]).
      replace (val v / 1) with (val v) in K2 by field.
      pose proof (near_trans _ _ _ _ _ K K2) as K3.
      eapply Rle_trans; [apply (near_rel_back (2000 * u + 2000 * u + (0 + 25 / 10000000000000)) _ _ (Rlt_le _ _ Pv)); [|exact K3]|]; rewrite U in *; [lra|].
      apply Rmult_le_compat_r; lra. }
    cbn [map]. constructor.
    + split; auto. eexists. split; [reflexivity|]. apply Fin1; [lra|]. rewrite exp_0.
      replace (val a0 / val a0) with 1 by (field; lra). eapply near_weak; [lra| |apply near_refl]. lra.
    + rewrite !map_map. clearbody S. clear -G Fin1. induction r as [|v r IH]; cbn [map]; constructor.
      * destruct (G v (or_introl eq_refl)) as (Fv & Pv & _ & N). split; auto. eexists. split; [reflexivity|]. apply Fin1; auto.
      * apply IH. intros w Hw. apply G. right. auto.
Qed.
End Leaf.
