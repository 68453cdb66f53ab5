(** * Log determinants in float64. *)
From Coq Require Import Reals Lra Lia ZArith Psatz Permutation.
From Flocq Require Import Core IEEE754.BinarySingleNaN.
From Verif Require Import Base Num Nd ListFacts Pattern Spec PatFacts NumFacts Numeric Simplex Jac SpecJac JacBase
  Flt SpecFlt FltMat SpecFltMat FltPat SpecFltPat FltJac SpecFltJac FltBase FltExp FltNum FltNum2 FltNum3 FltSimp FltLeaf FltTree
  FltFlatLeaf FltJacLeaf FltJacTree.
Local Open Scope R_scope.

Definition growth (n : nat) : R := (1 + u) ^ n.
Definition asum (l : list f64) : R := rsum (map (fun x => Rabs (val x)) l).
(** [s] is the sum of [l] up to one rounding per term. *)
Definition summed (l : list f64) (s : f64) : Prop :=
  fin s /\ Rabs (val s - rsum (map val l)) <= (growth (length l) - 1) * asum l.
Definition few (l : list f64) : Prop := (length l <= Z.to_nat 1048576)%nat /\ Forall (fun x => fin x /\ Rabs (val x) <= 2000) l.

Lemma u_pos : 0 < u. Proof. apply pow2_pos. Qed.
Lemma growth_1 : forall n, 1 <= growth n.
Proof. intros n. apply pow_R1_Rle. pose proof u_pos. lra. Qed.
Lemma growth_mono : forall n m, (n <= m)%nat -> growth n <= growth m.
Proof. intros. apply Rle_pow; auto. pose proof u_pos. lra. Qed.
Lemma growth_le : forall n, (n <= Z.to_nat 1048576)%nat -> growth n <= 1 + 2 * u * INR n.
Proof.
  intros n H. apply le_INR in H. rewrite (INR_Z (Z.to_nat _)), Z2Nat.id in H by lia.
  apply Rle_trans with (exp u ^ n).
  - apply pow_incr. pose proof u_pos. pose proof (exp_ge_lin u). lra.
  - rewrite <- exp_pow. pose proof (pos_INR n). pose proof (exp_small_up (INR n * u)) as K. rewrite u_val in *. lra.
Qed.
Lemma asum_nonneg : forall l, 0 <= asum l.
Proof. intros l. apply rsum_nonneg. rewrite Forall_map. apply Forall_forall. intros. apply Rabs_pos. Qed.
Lemma asum_app : forall l m, asum (l ++ m) = asum l + asum m.
Proof. intros. unfold asum. rewrite map_app. apply rsum_app. Qed.
Lemma asum_bound : forall B l, Forall (fun x => fin x /\ Rabs (val x) <= B) l -> asum l <= B * INR (length l).
Proof.
  intros B l H. unfold asum, rsum. induction H as [|x l [_ Bx] H IH]; cbn [map fold_right length]; [cbn; lra|]. rewrite S_INR. lra.
Qed.
Lemma rsum_abs : forall l, Rabs (rsum (map val l)) <= asum l.
Proof.
  induction l as [|x l IH]; unfold asum, rsum in *; cbn [map fold_right]; [rewrite Rabs_R0; lra|].
  eapply Rle_trans; [apply Rabs_triang|]. lra.
Qed.
Lemma few_app : forall l m, few (l ++ m) -> few l /\ few m.
Proof. intros l m [L F]. rewrite app_length in L. apply Forall_app in F. destruct F. repeat split; auto; lia. Qed.
Lemma few_asum : forall l, few l -> asum l <= pow2 40.
Proof.
  intros l [L F]. eapply Rle_trans; [apply asum_bound; exact F|]. apply le_INR in L. rewrite (INR_Z (Z.to_nat _)), Z2Nat.id in L by lia.
  rewrite pow2_Z by lia. change (IZR (2 ^ 40)) with 1099511627776. lra.
Qed.
Lemma summed_size : forall l s, few l -> summed l s -> Rabs (val s) <= growth (length l) * asum l.
Proof.
  intros l s Fw [F E]. replace (val s) with ((val s - rsum (map val l)) + rsum (map val l)) by ring.
  eapply Rle_trans; [apply Rabs_triang|]. pose proof (rsum_abs l). lra.
Qed.
Lemma growth_2 : forall l, few l -> growth (length l) <= 2.
Proof.
  intros l [L _]. eapply Rle_trans; [apply growth_le; auto|]. apply le_INR in L. rewrite (INR_Z (Z.to_nat _)), Z2Nat.id in L by lia.
  rewrite u_val. lra.
Qed.

Lemma summed_add : forall l m a b, few (l ++ m) -> summed l a -> summed m b -> summed (l ++ m) (fadd a b).
Proof.
  intros l m a b Fw Sa Sb. destruct (few_app _ _ Fw) as [Fl Fm].
  pose proof (summed_size l a Fl Sa) as Za. pose proof (summed_size m b Fm Sb) as Zb.
  pose proof (growth_2 l Fl) as Gl. pose proof (growth_2 m Fm) as Gm. pose proof (growth_1 (length l)) as Gl1. pose proof (growth_1 (length m)) as Gm1.
  pose proof (asum_nonneg l) as Al. pose proof (asum_nonneg m) as Am.
  pose proof (few_asum l Fl) as Bl. pose proof (few_asum m Fm) as Bm.
  destruct Sa as [Fa Ea]. destruct Sb as [Fb Eb].
  assert (Big : Rabs (val a + val b) <= pow2 1023).
  { eapply Rle_trans; [apply Rabs_triang|]. apply Rle_trans with (2 * (2 * pow2 40)).
    - assert (growth (length l) * asum l <= 2 * pow2 40) by (apply Rmult_le_compat; lra).
      assert (growth (length m) * asum m <= 2 * pow2 40) by (apply Rmult_le_compat; lra). lra.
    - rewrite !pow2_double. apply pow2_mono. lia. }
  destruct (add_near a b Fa Fb Big) as [F E]. split; auto. rewrite map_app, rsum_app, asum_app, app_length.
  destruct (Nat.eq_dec (length l) 0) as [L0|L0].
  { destruct l; [|discriminate L0]. cbn [map length rsum fold_right asum growth pow] in *. unfold asum, rsum in Ea, Al. cbn [map fold_right] in Ea.
    replace ((1 - 1) * 0) with 0 in Ea by ring. assert (Va : val a = 0). { pose proof (Rabs_pos (val a - 0)). destruct (Req_dec (val a) 0); auto. pose proof (Rabs_pos_lt (val a - 0) ltac:(lra)). lra. }
    destruct (fadd_val a b Fa Fb Big) as [_ V]. rewrite V, Va, Rplus_0_l, rnd_fmt by apply fmt_val.
    unfold rsum at 1. unfold asum at 1. unfold rsum at 1. cbn [map fold_right Nat.add]. rewrite !Rplus_0_l. exact Eb. }
  destruct (Nat.eq_dec (length m) 0) as [M0|M0].
  { destruct m; [|discriminate M0]. cbn [map length] in *. unfold asum, rsum in Eb. cbn [map fold_right] in Eb.
    rewrite Rmult_0_r in Eb. assert (Vb : val b = 0). { destruct (Req_dec (val b) 0); auto. pose proof (Rabs_pos_lt (val b - 0) ltac:(lra)). lra. }
    destruct (fadd_val a b Fa Fb Big) as [_ V]. rewrite V, Vb, Rplus_0_r, rnd_fmt by apply fmt_val.
    unfold rsum at 2. unfold asum at 2. unfold rsum at 2. cbn [map fold_right]. rewrite Nat.add_0_r, !Rplus_0_r. exact Ea. }
  set (g := growth (length l + length m)). pose proof u_pos as PU.
  assert (G1 : (1 + u) * growth (length l) <= g).
  { unfold g. change ((1 + u) * growth (length l)) with (growth (S (length l))). apply growth_mono. lia. }
  assert (G2 : (1 + u) * growth (length m) <= g).
  { unfold g. change ((1 + u) * growth (length m)) with (growth (S (length m))). apply growth_mono. lia. }
  set (A := rsum (map val l)) in *. set (B := rsum (map val m)) in *.
  replace (val (fadd a b) - (A + B)) with ((val (fadd a b) - (val a + val b)) + ((val a - A) + (val b - B))) by ring.
  eapply Rle_trans; [apply Rabs_triang|].
  pose proof (Rabs_triang (val a - A) (val b - B)). pose proof (Rabs_triang (val a) (val b)).
  assert (u * Rabs (val a + val b) <= u * (growth (length l) * asum l + growth (length m) * asum m)) by (apply Rmult_le_compat_l; lra).
  assert (((1 + u) * growth (length l) - 1) * asum l <= (g - 1) * asum l) by (apply Rmult_le_compat_r; lra).
  assert (((1 + u) * growth (length m) - 1) * asum m <= (g - 1) * asum m) by (apply Rmult_le_compat_r; lra).
  lra.
Qed.

Lemma perm_asum : forall l m, Permutation l m -> asum l = asum m.
Proof. intros. apply rsum_perm, Permutation_map. auto. Qed.
Lemma sum_summed : forall l s, sum_of l s -> few l -> summed l s.
Proof.
  induction 1 as [|x|l m a b Hl IHl Hm IHm|l m a P H IH]; intros Fw.
  - split; [reflexivity|]. unfold asum, rsum. cbn [map fold_right]. rewrite (proj2 fzero_val), Rminus_diag_eq, Rabs_R0, Rmult_0_r by auto. lra.
  - destruct Fw as [_ F]. inversion F as [|? ? [Fx _] _]; subst. split; auto. unfold rsum. cbn [map fold_right]. rewrite Rplus_0_r, Rminus_diag_eq, Rabs_R0 by auto.
    apply Rmult_le_pos; [pose proof (growth_1 (length [x])); lra|apply asum_nonneg].
  - destruct (few_app _ _ Fw). apply summed_add; auto.
  - destruct IH as [Fs Es].
    + destruct Fw as [L F]. split; [rewrite (Permutation_length P); auto|]. eapply Permutation_Forall; [apply Permutation_sym; exact P|auto].
    + split; auto. rewrite <- (perm_asum _ _ P), <- (Permutation_length P), <- (rsum_perm (map val l)); auto. apply Permutation_map. auto.
Qed.

Section Det.
Variables (np : np64) (fr : bool).
Hypothesis C : np_contract np.

Definition slack : R := if fr then pow2 (-43) else pow2 (-26).
Definition log_near' (l : f64) (x : R) : Prop := fin l /\ Rabs (val l) <= 102 /\ Rabs (val l - x) <= slack.

(** The log of an entry known to a relative error. *)
Lemma log_entry : forall J d th, fin J -> pow2 (-101) <= d <= pow2 101 -> 0 <= th <= / 100 -> near th (val J) d ->
  fin (np_log np (fabs J)) /\ Rabs (val (np_log np (fabs J))) <= 102 /\ Rabs (val (np_log np (fabs J)) - ln d) <= 815 * u + 2 * th.
Proof.
  intros J d th FJ Hd Ht N. assert (U := u_val). assert (Pd : 0 < d) by (eapply Rlt_le_trans; [apply pow2_pos|apply Hd]).
  destruct (near_ln _ _ _ Pd N) as [PJ E]. pose proof (ln_size d 101 ltac:(lia) Hd) as B.
  assert (FA : fin (fabs J)) by (unfold fabs, fin; rewrite is_finite_Babs; exact FJ).
  assert (VA : val (fabs J) = val J) by (unfold fabs, val; rewrite B2R_Babs; apply Rabs_pos_eq; unfold val in PJ; lra).
  destruct (log_near _ (np_log_ok _ C) (fabs J) FA ltac:(lra)) as [Fl El]. rewrite VA, p50 in El. split; auto.
  set (L := val (np_log np (fabs J))) in *.
  assert (BJ : Rabs (ln (val J)) <= 101 + th).
  { replace (ln (val J)) with ((ln (val J) - ln d) + ln d) by ring. eapply Rle_trans; [apply Rabs_triang|]. lra. }
  assert (8 * u * Rabs (ln (val J)) <= 8 * u * (101 + th)) by (apply Rmult_le_compat_l; [rewrite U; lra|auto]).
  assert (K : Rabs (L - ln d) <= 815 * u + 2 * th).
  { replace (L - ln d) with ((L - ln (val J)) + (ln (val J) - ln d)) by ring. eapply Rle_trans; [apply Rabs_triang|]. rewrite U in *. lra. }
  split; auto. replace L with ((L - ln (val J)) + ln (val J)) by ring. eapply Rle_trans; [apply Rabs_triang|]. rewrite U in *. lra.
Qed.

Lemma det_entry : forall lb ub a, exact_bound lb -> exact_bound ub -> nlt (pyval lb) (pyval ub) ->
  fin a -> between (bound64 lb) (val a - val (bound64 lb)) -> between (bound64 ub) (val (bound64 ub) - val a) ->
  (fr = false -> fin (bound64 lb) -> fin (bound64 ub) -> val a - val (bound64 lb) <= 1000 * (val (bound64 ub) - val a)) ->
  exists x, (if fr then unconstrain1_jac (pyval lb) (pyval ub) (Fin (val a))
             else constrain1_jac (pyval lb) (pyval ub) (unconstrain1 (pyval lb) (pyval ub) (Fin (val a)))) = Fin (exp x) /\
    log_near' (np_log np (fabs (if fr then unconstrain64_jac (bound64 lb) (bound64 ub) a
                                else constrain64_jac np (bound64 lb) (bound64 ub) (unconstrain64 np (bound64 lb) (bound64 ub) a)))) x.
Proof.
  intros lb ub a El Eu O Fa Hl Hu Bal. assert (U := u_val).
  destruct (free_entry lb ub a El Eu O Fa Hl Hu) as (F & d & Pd & Ed & Bd & N).
  assert (Rd : pow2 (-101) <= d <= pow2 101) by (split; [apply Rle_trans with (pow2 (-100)); [apply pow2_mono; lia|tauto]|tauto]).
  unfold log_near', slack. destruct fr.
  - exists (ln d). rewrite exp_ln by auto. split; auto.
    destruct (log_entry _ d (6 * u) F Rd ltac:(rewrite U; lra) N) as (F1 & B1 & E1). split; auto. split; auto.
    eapply Rle_trans; [exact E1|]. replace (pow2 (-43)) with (1024 * u) by (unfold u; change (-43)%Z with (-53 + 10)%Z; rewrite pm by lia; reflexivity).
    rewrite U. lra.
  - destruct (unfree_entry np C lb ub a El Eu O Fa Hl Hu) as (F2 & r & Er & Nr). unfold entry_near in Nr.
    assert (K : r = / d /\ gap (bound64 lb) (bound64 ub) a * d <= 1001).
    { assert (P0 := pow2_pos (-100)). split.
      - destruct (jac1_inverse (pyval lb) (pyval ub) (val a)) as (d' & _ & E1 & E2).
        + destruct (pyval lb) as [l| | |] eqn:Lb; try exact I; try (destruct (pyval ub); contradiction).
          destruct (exact_fin lb l El Lb) as [Fl Vl]. pose proof (Hl Fl) as [L _]. rewrite Vl in L. cbn. lra.
        + destruct (pyval ub) as [l| | |] eqn:Ub; try exact I; try (destruct (pyval lb); contradiction).
          destruct (exact_fin ub l Eu Ub) as [Fl Vl]. pose proof (Hu Fl) as [L _]. rewrite Vl in L. cbn. lra.
        + congruence.
      - clear Er Nr F2 N F. revert Ed. unfold gap, unconstrain1_jac. specialize (Bal eq_refl).
        destruct (pyval ub) as [b| | |] eqn:Ub; destruct (pyval lb) as [l| | |] eqn:Lb; try contradiction.
        + destruct (exact_fin lb l El Lb) as [Fl Vl]. destruct (exact_fin ub b Eu Ub) as [Fu Vu]. rewrite (is_ninf_fin _ Fl). cbn [neqb].
          specialize (Bal Fl Fu). pose proof (Hl Fl). pose proof (Hu Fu). rewrite Vl, Vu in *. cbn [nsub nneg nadd]. rewrite !ndiv_fin by lra. cbn [nadd].
          intros Ed. assert (d = 1 / (val a + - l) + 1 / (b + - val a)) as -> by congruence.
          replace ((val a - l) * (1 / (val a + - l) + 1 / (b + - val a))) with (1 + (val a - l) / (b - val a)) by (field; lra).
          assert ((val a - l) / (b - val a) <= 1000); [|lra]. apply Rmult_le_reg_r with (b - val a); [lra|]. unfold Rdiv. rewrite Rmult_assoc, Rinv_l by lra. lra.
        + destruct (exact_fin ub b Eu Ub) as [Fu Vu]. rewrite (exact_ninf lb El Lb), (is_pinf_fin _ Fu). cbn [neqb is_ninf fninf].
          pose proof (Hu Fu). rewrite Vu in *. cbn [nsub nneg nadd]. rewrite !ndiv_fin by lra. intros Ed.
          assert (d = 1 / (b + - val a)) as -> by congruence. replace ((b - val a) * (1 / (b + - val a))) with 1 by (field; lra). lra.
        + destruct (exact_fin lb l El Lb) as [Fl Vl]. rewrite (is_ninf_fin _ Fl). cbn [neqb].
          pose proof (Hl Fl). rewrite Vl in *. cbn [nsub nneg nadd]. rewrite !ndiv_fin by lra. intros Ed.
          assert (d = 1 / (val a + - l)) as -> by congruence. replace ((val a - l) * (1 / (val a + - l))) with 1 by (field; lra). lra.
        + rewrite (exact_pinf ub Eu Ub), (exact_ninf lb El Lb). cbn. intros Ed. assert (d = 1) as -> by congruence. lra. }
    destruct K as [-> K]. assert (Pi : 0 < / d) by (apply Rinv_0_lt_compat; auto).
    exists (ln (/ d)). rewrite exp_ln by auto. split; auto.
    assert (P38 : pow2 (-38) = 32768 * u) by (unfold u; change (-38)%Z with (-53 + 15)%Z; rewrite pm by lia; reflexivity).
    assert (G : gap (bound64 lb) (bound64 ub) a <= 1001 * / d).
    { apply Rmult_le_reg_r with d; auto. rewrite Rmult_assoc, Rinv_l by lra. lra. }
    assert (Nn : near (2 * (pow2 (-38) * 1001)) (val (constrain64_jac np (bound64 lb) (bound64 ub) (unconstrain64 np (bound64 lb) (bound64 ub) a))) (/ d)).
    { apply near_rel; [lra|rewrite P38, U; lra|]. eapply Rle_trans; [exact Nr|]. rewrite Rmult_assoc. apply Rmult_le_compat_l; [left; apply pow2_pos|auto]. }
    assert (Ri : pow2 (-101) <= / d <= pow2 101).
    { split.
      - change (pow2 (-101)) with (pow2 (- (101))). rewrite pow2_neg. apply Rinv_le_contravar; tauto.
      - replace (pow2 101) with (/ pow2 (-101)) by (change (pow2 (-101)) with (pow2 (- (101))); rewrite pow2_neg, Rinv_inv; reflexivity).
        apply Rinv_le_contravar; [apply pow2_pos|tauto]. }
    destruct (log_entry _ (/ d) (2 * (pow2 (-38) * 1001)) F2 Ri ltac:(rewrite P38, U; lra) Nn) as (F1 & B1 & E1). split; auto. split; auto.
    eapply Rle_trans; [exact E1|].
    replace (pow2 (-26)) with (134217728 * u) by (unfold u; change (-26)%Z with (-53 + 27)%Z; rewrite pm by lia; reflexivity).
    rewrite P38. rewrite U. lra.
Qed.

Definition det_near (p : pat) : Prop := forall v, usable p -> exact_bounds p -> numeric_only p -> roomy p v -> (fr = false -> balanced p v) ->
  exists ls xs, log_abs_det fr p (exact_value v) = Ok (Fin (Rlsum xs)) /\
    Forall2 log_near' ls xs /\ length ls = pl_n (flat_len p false) /\
    exists s, plog_det64 np fr p v = Ok s /\ (few ls -> summed ls s).

Lemma det_num : forall k s lb ub dv fd, det_near (PNum k s lb ub dv fd).
Proof.
  intros k s lb ub dv fd [a|d] (Hs & O) (El & Eu) _ R Bal; [|destruct R]. destruct R as (Sa & Oa & R).
  cbn [balanced] in Bal.
  assert (Bal' : forall x, In x (dat a) -> fr = false -> fin (bound64 lb) -> fin (bound64 ub) -> val x - val (bound64 lb) <= 1000 * (val (bound64 ub) - val x)).
  { intros x Hx Ef F1 F2. specialize (Bal Ef F1 F2). rewrite Forall_forall in Bal. auto. }
  set (ls := map (fun x => np_log np (fabs x)) (num64_jac np fr (bound64 lb) (bound64 ub) (dat a))).
  assert (Q : exists xs, map (fun x => nlog (nabs x)) (num_jac_array fr (pyval lb) (pyval ub) (mkNd (shp a) (map num64 (dat a)))) = map Fin xs /\ Forall2 log_near' ls xs).
  { unfold ls, num64_jac, num_jac_array. cbn [dat]. clear Bal ls Sa Oa. 
    induction (dat a) as [|x l IH].
    - exists []. destruct fr; cbn; auto.
    - inversion R as [|? ? (Fx & B1 & B2) Rl]; subst. destruct (IH Rl) as (xs & E & L); [intros; apply Bal'; auto; right; auto|].
      destruct (det_entry lb ub x El Eu O Fx B1 B2 (Bal' x (or_introl eq_refl))) as (y & Ey & Ly).
      exists (y :: xs). destruct fr; cbn [map] in *; rewrite (num64_fin x Fx), Ey, E.
      + split; [|constructor; auto]. f_equal. cbn [nabs]. rewrite Rabs_pos_eq by (left; apply exp_pos). rewrite nlog_pos by apply exp_pos. rewrite ln_exp. reflexivity.
      + split; [|constructor; auto]. f_equal. cbn [nabs]. rewrite Rabs_pos_eq by (left; apply exp_pos). rewrite nlog_pos by apply exp_pos. rewrite ln_exp. reflexivity. }
  destruct Q as (xs & Ex & L). exists ls, xs. split.
  { cbn [exact_value log_abs_det]. unfold num_log_det. rewrite Ex, nsum_fin. reflexivity. }
  split; auto. split.
  { unfold ls, num64_jac. unfold nd_ok in Oa. destruct fr; rewrite !map_length, Oa, Sa; reflexivity. }
  eexists. split; [reflexivity|]. intros Fw. unfold num64_log_det. fold ls. apply sum_summed; auto. apply (np_sum_ok _ C).
Qed.

Lemma Rlsum_app' : forall l m, Rlsum (l ++ m) = Rlsum l + Rlsum m.
Proof. intros. apply rsum_app. Qed.

Lemma det_dict : forall d its, Forall (fun kq => det_near (snd kq)) its ->
  all_items (fun _ q => usable q) its -> all_items (fun _ q => exact_bounds q) its -> all_items (fun _ q => numeric_only q) its ->
  all_items (fun k q => exists v', dict_get d k = Some v' /\ roomy q v') its ->
  (fr = false -> all_items (fun k q => forall w, dict_get d k = Some w -> balanced q w) its) ->
  exists ls xs, 
    (forall acc, log_det_items (log_abs_det fr) (map (fun kw => (fst kw, exact_value (snd kw))) d) its (Fin acc) = Ok (Fin (acc + Rlsum xs))) /\
    Forall2 log_near' ls xs /\ length ls = lsum (map (fun kq => pl_n (flat_len (snd kq) false)) its) /\
    forall pre acc, exists s, log_det64_items (plog_det64 np fr) d its acc = Ok s /\ (few (pre ++ ls) -> summed pre acc -> summed (pre ++ ls) s).
Proof.
  intros d its F. induction F as [|[k q] its Hq F IHi]; intros U M Np R Bal.
  - exists [], []. cbn [log_det_items log_det64_items]. split; [intros; cbn; rewrite Rplus_0_r; auto|]. split; auto. split; auto.
    intros pre acc. exists acc. split; auto. rewrite app_nil_r. auto.
  - destruct U as [Uq U]. destruct M as [Mq M]. destruct Np as [Nq Np]. destruct R as [(v & Ev & Rv) R].
    destruct (IHi U M Np R (fun e => proj2 (Bal e))) as (ls & xs & E1 & L & Ln & S). cbn [snd] in Hq.
    destruct (Hq v Uq Mq Nq Rv (fun e => proj1 (Bal e) v Ev)) as (l0 & x0 & E0 & L0 & N0 & s0 & P0 & S0).
    exists (l0 ++ ls)%list, (x0 ++ xs)%list. cbn [log_det_items log_det64_items map snd]. rewrite exact_get, Ev. cbn [option_map]. rewrite E0, P0. cbn [bind nadd].
    split; [intros acc; rewrite E1, Rlsum_app'; do 2 f_equal; ring|]. split; [apply Forall2_app; auto|].
    split; [rewrite app_length, N0, Ln; reflexivity|].
    intros pre acc. destruct (S (pre ++ l0)%list (fadd acc s0)) as (s & Es & K). exists s. split; auto. rewrite app_assoc. intros Fw Sa.
    apply K; auto. apply few_app in Fw as Fw'. destruct Fw' as [Fw1 _]. apply summed_add; auto. apply S0. apply few_app in Fw1. tauto.
Qed.

Theorem det_near_all : forall p, det_near p.
Proof.
  apply (pat_ind' det_near).
  - apply det_num.
  - intros n s dv fd v _ _ [].
  - intros sz fl dlb dv fd v _ _ [].
  - intros s b fd IH v _ _ [].
  - intros items l fl fd lk IH [a|d] Hu M Np R Bal; [destruct R|]. pose proof Hu as (Ni & ND & Hl & Hfl & U).
    cbn [exact_bounds numeric_only roomy balanced] in M, Np, R, Bal.
    destruct (det_dict d items IH U M Np R Bal) as (ls & xs & E & L & Ln & S).
    exists ls, xs. split. { rewrite exact_dict. cbn [log_abs_det]. rewrite E, Rplus_0_l. reflexivity. }
    split; auto. split. { subst l. cbn [flat_len plint pl_n]. auto. }
    destruct (S [] fzero) as (s & Es & K). exists s. split; [exact Es|]. intros Fw. apply K; auto.
    split; [reflexivity|]. unfold asum, rsum. cbn [map fold_right]. rewrite (proj2 fzero_val), Rminus_diag_eq, Rabs_R0, Rmult_0_r by auto. lra.
Qed.

Theorem log_det_accurate : forall p v n, usable p -> exact_bounds p -> numeric_only p -> roomy p v -> (fr = false -> balanced p v) ->
  flat_length p (Some false) = Ok (plint n) -> (n <= Z.to_nat 1048576)%nat ->
  exists s r, plog_det64 np fr p v = Ok s /\ log_abs_det fr p (exact_value v) = Ok (Fin r) /\ fin s /\
    Rabs (val s - r) <= slack * INR n + pow2 (-45) * INR n * INR n.
Proof.
  intros p v n Hu M Np R Bal Hn Ln. destruct (det_near_all p v Hu M Np R Bal) as (ls & xs & E & L & Nl & s & Es & S).
  assert (Lp : length ls = n). { rewrite Nl. cbn in Hn. inversion Hn as [Hn']. rewrite Hn'. reflexivity. }
  assert (Q : Forall (fun x => fin x /\ Rabs (val x) <= 102) ls) by (clear -L; induction L as [|x y l m (F & B & _) L IH]; constructor; auto).
  assert (Fw : few ls). { split; [lia|]. eapply Forall_impl; [|exact Q]. cbn. intros x [F B]. split; auto. lra. }
  destruct (S Fw) as [Fs Bs]. exists s, (Rlsum xs). split; auto. split; auto. split; auto.
  assert (D : Rabs (rsum (map val ls) - Rlsum xs) <= slack * INR n).
  { rewrite <- Lp. clear -L. induction L as [|x y l m (F & B & D) L IH]; unfold rsum, Rlsum in *; cbn [map fold_right length].
    - rewrite Rminus_diag_eq, Rabs_R0 by auto. cbn. lra.
    - rewrite S_INR. match goal with |- Rabs (?a + ?b - (?c + ?e)) <= _ => replace (a + b - (c + e)) with ((a - c) + (b - e)) by ring end.
      eapply Rle_trans; [apply Rabs_triang|]. lra. }
  pose proof (growth_le n Ln) as G. rewrite Lp in Bs. pose proof (asum_bound 102 ls Q) as As. rewrite Lp in As.
  pose proof (asum_nonneg ls). pose proof (growth_1 n). pose proof (pos_INR n) as Pn.
  assert ((growth n - 1) * asum ls <= (2 * u * INR n) * (102 * INR n)) by (apply Rmult_le_compat; lra).
  replace (val s - Rlsum xs) with ((val s - rsum (map val ls)) + (rsum (map val ls) - Rlsum xs)) by ring.
  eapply Rle_trans; [apply Rabs_triang|].
  replace (pow2 (-45)) with (256 * u) by (unfold u; change (-45)%Z with (-53 + 8)%Z; rewrite pm by lia; reflexivity).
  assert (0 <= INR n * INR n) by nra. pose proof u_pos. nra.
Qed.
End Det.
