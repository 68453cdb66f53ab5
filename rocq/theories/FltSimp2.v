(** * One simplex in binary64: the results. *)
From Coq Require Import Reals ZArith Lra Lia List Permutation.
From Flocq Require Import Core Operations Relative Plus_error IEEE754.BinarySingleNaN.
From Verif Require Import Base Flt SpecFlt FltBase FltExp FltNum FltNum2 FltNum3 FltSimp.
Import ListNotations.
Local Open Scope R_scope.

Lemma aug_ok : forall x, moderate x ->
  (fzero :: x) <> [] /\ Forall (fun v => fin v /\ Rabs (val v) <= 100) (fzero :: x) /\
  (length (fzero :: x) <= 1001)%nat.
Proof.
  intros x [L F]. split; [discriminate|]. split; [|cbn; lia].
  constructor; auto. split; [reflexivity|]. rewrite (proj2 fzero_val), Rabs_R0. lra.
Qed.

Lemma simplex_moderate_valid : forall np, np_contract np -> forall x, moderate x ->
  simplex64_valid np (simplex64_fold np x) = true.
Proof.
  intros np C x H. destruct (aug_ok x H) as (N & F & L).
  exact (moderate_valid np C (fzero :: x) N F L).
Qed.

Lemma near_to_rel : forall e a b, 0 < b -> 0 <= e <= 2612 * u -> near e a b ->
  Rabs (a - b) <= 3 / 10000000000000 * b.
Proof.
  intros e a b Hb He [L U']. assert (U: u = / 9007199254740992) by apply u_val.
  assert (HL: 1 - e <= exp (- e)) by (pose proof (exp_ge_lin (- e)); lra).
  assert (HU: exp e <= 1 + 3 / 10000000000000).
  { rewrite exp_inv in HL. pose proof (exp_pos e). set (E := exp e) in *.
    assert (E * (1 - e) <= 1).
    { apply Rle_trans with (E * / E); [apply Rmult_le_compat_l; lra|rewrite Rinv_r; lra]. }
    assert (1 <= (1 + 3 / 10000000000000) * (1 - e)) by (rewrite U in He; lra).
    apply Rmult_le_reg_r with (1 - e); [rewrite U in He; lra|lra]. }
  rewrite U in He. apply Rabs_le_both; nra.
Qed.

Lemma simplex_moderate_close : forall np, np_contract np -> forall x, moderate x ->
  Forall2 (fun p v => fin p /\
    Rabs (val p - softmax (0 :: map val x) v) <= 3 / 10000000000000 * softmax (0 :: map val x) v)
    (simplex64_fold np x) (0 :: map val x).
Proof.
  intros np C x H. destruct (aug_ok x H) as (N & F & L).
  unfold simplex64_fold. cbv zeta.
  assert (E: 0 :: map val x = map val (fzero :: x)) by (cbn [map]; rewrite (proj2 fzero_val); auto).
  rewrite E. set (row := fzero :: x) in *.
  assert (G: forall l, incl l row ->
    Forall2 (fun p v => fin p /\ Rabs (val p - softmax (map val row) v) <= 3 / 10000000000000 * softmax (map val row) v)
      (map (fun v => np_exp np (fsub v (logsumexp64 np row))) l) (map val l)).
  { induction l as [|a l IH]; intros I; [constructor|]. cbn [map]. constructor.
    - destruct (pr_spec np C row N F L a) as [Fp Np]; [apply I; left; auto|].
      rewrite (share_softmax np row N F L) in Np. split; auto. eapply near_to_rel; [| |exact Np].
      + rewrite <- (share_softmax np row N F L). apply (share_pos np row N F L).
      + assert (0 < u) by apply pow2_pos. lra.
    - apply IH. intros v Hv. apply I. right; auto. }
  apply G. apply incl_refl.
Qed.

Lemma simplex_moderate_round_trip : forall np, np_contract np -> forall x, moderate x ->
  exists y, simplex64_flatten np (simplex64_fold np x) = Ok y /\
    Forall2 (fun a b => fin a /\ Rabs (val a - val b) <= / 1000000000000) y x.
Proof.
  intros np C x H. unfold simplex64_flatten. rewrite simplex_moderate_valid by auto.
  destruct (aug_ok x H) as (N & F & L). unfold simplex64_fold. cbv zeta. cbn [map].
  eexists. split; [reflexivity|]. set (row := fzero :: x) in *.
  assert (G: forall l, incl l row -> Forall2 (fun a b => fin a /\ Rabs (val a - val b) <= / 1000000000000)
    (map (fun v => fsub (np_log np v) (np_log np (np_exp np (fsub fzero (logsumexp64 np row)))))
         (map (fun v => np_exp np (fsub v (logsumexp64 np row))) l)) l).
  { induction l as [|a l IH]; intros I; [constructor|]. cbn [map]. constructor.
    - destruct (diff_log np C row N F L a fzero) as [Fp Np]; [apply I; left; auto|left; auto|].
      rewrite (proj2 fzero_val), Rminus_0_r in Np. split; auto.
      eapply Rle_trans; [exact Np|]. rewrite u_val. lra.
    - apply IH. intros v Hv. apply I. right; auto. }
  apply G. intros v Hv. right. auto.
Qed.

(** ** Not a simplex any more *)

Lemma rnd_absorb_at : forall k z d, (-900 <= k)%Z -> fmt z -> pow2 k < z -> Rabs d < pow2 (k - 53) -> rnd (z + d) = z.
Proof.
  intros k x d Hk Hf Hx Hd. assert (0 < x) by (pose proof (pow2_pos k); lra).
  set (e := mag radix2 x).
  assert (Hex: bpow radix2 (e - 1) <= x < bpow radix2 e).
  { destruct e as [e He]. cbn. specialize (He ltac:(lra)). rewrite Rabs_pos_eq in He by lra. exact He. }
  assert (He: (k < e)%Z).
  { apply (lt_bpow radix2). eapply Rlt_trans; [exact Hx|]. apply Hex. }
  assert (Hulp: ulp radix2 fx64 x = bpow radix2 (e - 53)).
  { rewrite ulp_neq_0 by lra. unfold cexp. fold e. unfold FLT_exp. f_equal. lia. }
  assert (Hsucc: succ radix2 fx64 x = x + bpow radix2 (e - 53)).
  { rewrite succ_eq_pos by lra. rewrite Hulp. reflexivity. }
  assert (HG: bpow radix2 (k - 52) <= bpow radix2 (e - 53)) by (apply bpow_le; lia).
  assert (Hpred: pred radix2 fx64 x <= x - bpow radix2 (k - 52)).
  { rewrite pred_eq_pos by lra. unfold pred_pos. fold e. case Req_bool_spec; intros Hb.
    - assert (K: (k < e - 1)%Z).
      { apply (lt_bpow radix2). rewrite <- Hb. exact Hx. }
      unfold FLT_exp. replace (Z.max (e - 1 - 53) (-1074)) with (e - 54)%Z by lia.
      assert (bpow radix2 (k - 52) <= bpow radix2 (e - 54)) by (apply bpow_le; lia). lra.
    - rewrite Hulp. lra. }
  assert (Hb1: bpow radix2 (k - 52) = 2 * pow2 (k - 53)).
  { replace (k - 52)%Z with (1 + (k - 53))%Z by lia. rewrite bpow_plus. reflexivity. }
  apply Rabs_lt_inv in Hd. pose proof (pow2_pos (k - 53)).
  apply Rle_antisym.
  - apply round_N_le_midp; auto with typeclass_instances. rewrite Hsucc. lra.
  - apply round_N_ge_midp; auto with typeclass_instances. lra.
Qed.

Lemma ln2_r36 : 16 / 10000000000000 <= ln 2 - r36 <= 171 / 100000000000000.
Proof.
  pose proof exp_r36 as [L H]. set (E := exp r36) in *.
  assert (P: 0 < E) by apply exp_pos.
  assert (R: r36 = ln E) by (unfold E; rewrite ln_exp; auto).
  set (z := E / 2). assert (Z: E = z * 2) by (unfold z; field).
  assert (Pz: 0 < z) by lra.
  assert (Q: ln E = ln z + ln 2) by (rewrite Z; apply ln_mult; lra).
  rewrite R, Q. pose proof (ln_upper z Pz). pose proof (ln_lower z Pz).
  assert (/ z <= 1 + 171 / 100000000000000).
  { apply Rmult_le_reg_r with z; auto. rewrite Rinv_l by lra. lra. }
  lra.
Qed.

Lemma zero_val : forall x, fin x -> val x = 0 -> exists s, x = B754_zero s.
Proof.
  intros x F V. destruct x as [s|s| |s m e B]; try discriminate F.
  - exists s. reflexivity.
  - exfalso. unfold val in V. cbn in V. unfold F2R in V. cbn in V.
    apply Rmult_integral in V. destruct V as [V|V].
    + apply eq_IZR in V. destruct s; discriminate V.
    + pose proof (bpow_gt_0 radix2 e). lra.
Qed.

Lemma tiny_exp : forall np, np_contract np -> forall x, fin x -> val x <= -40 ->
  fin (np_exp np x) /\ 0 <= val (np_exp np x) <= u.
Proof.
  intros np C x Fx Hx. assert (U: u = / 9007199254740992) by apply u_val.
  destruct (exp_small np C x Fx) as (F & P & E); [lra|]. split; auto. split; [lra|].
  assert (A: exp (val x) <= pow2 (-57)).
  { eapply Rle_trans; [apply exp_le; exact Hx|]. apply exp_m40. }
  assert (B: u = 16 * pow2 (-57)).
  { unfold u. change (-53)%Z with (-57 + 4)%Z. rewrite pm by lia. reflexivity. }
  assert (D: pow2 (-1074) <= pow2 (-57)) by (apply pow2_mono; lia).
  apply Rabs_le_inv in E. pose proof (pow2_pos (-57)).
  assert (8 * u * exp (val x) <= pow2 (-57)).
  { rewrite U. pose proof (exp_pos (val x)). lra. }
  lra.
Qed.

Lemma sum3 : forall np, np_contract np -> forall a b c,
  fin a -> fin b -> fin c -> 0 <= val a <= 2 -> 0 <= val b <= 2 -> 0 <= val c <= 2 ->
  fin (np_sum np [a; b; c]) /\
  Rabs (val (np_sum np [a; b; c]) - (val a + val b + val c)) <= 100 * u.
Proof.
  intros np C a b c Fa Fb Fc Ha Hb Hc. assert (U: u = / 9007199254740992) by apply u_val.
  destruct (sum_near _ _ (np_sum_ok _ C [a; b; c])) as [F N].
  - do 3 (apply Forall_cons; [split; [assumption|lra]|]). apply Forall_nil.
  - unfold rsum. cbn [map fold_right]. apply Rle_trans with (pow2 3); [change (pow2 3) with 8; lra|apply pow2_mono; lia].
  - cbn [length]. apply Nat2Z.inj_le. rewrite Z2Nat.id by lia. lia.
  - split; auto. unfold steps, rsum in N. cbn [length map fold_right] in N.
    rewrite Rplus_0_r in N. rewrite (INR_Z 3) in N. change (IZR (Z.of_nat 3)) with 3 in N.
    destruct N as [L H]. set (s := val a + (val b + val c)) in *.
    assert (S: 0 <= s <= 6) by (unfold s; lra).
    replace (2 * u * 3) with (6 * u) in * by ring.
    pose proof (exp_ge_lin (- (6 * u))). pose proof (exp_small_up (6 * u) ltac:(rewrite U; lra)).
    replace (val a + val b + val c) with s by (unfold s; ring).
    apply Rabs_le_both; rewrite U in *; nra.
Qed.

Lemma not_simplex : forall np, np_contract np -> forall z, (16384 <= z <= 131071)%Z ->
  simplex64_valid np (simplex64_fold np [flit z 0; flit z 0]) = false.
Proof.
  intros np C z Hz. assert (U: u = / 9007199254740992) by apply u_val.
  assert (Zr: 16384 <= IZR z <= 131071) by (split; apply IZR_le; lia).
  destruct (flit_val z 0) as [Ft Vt]; [lia|lia| |].
  { change (pow2 0) with 1. rewrite Rmult_1_r. apply small_huge. rewrite Rabs_pos_eq; lra. }
  change (pow2 0) with 1 in Vt. rewrite Rmult_1_r in Vt. set (t := flit z 0) in *.
  destruct fzero_val as [F0 V0].
  set (row := [fzero; t; t]).
  assert (Fr: Forall fin row) by (repeat constructor; auto).
  destruct (fmaxl_fin row) as [IM MM]; [discriminate|auto|].
  set (M := fmaxl row) in *.
  assert (FM: fin M) by (apply (proj1 (Forall_forall _ _) Fr); auto).
  assert (VM: val M = IZR z).
  { inversion MM as [|? ? _ M2]; subst. inversion M2 as [|? ? M3 _]; subst.
    destruct IM as [E|[E|[E|[]]]]; rewrite <- E in *; lra. }
  (* the three exponentials *)
  destruct (fsub_val fzero M F0 FM) as [Fd0 Vd0].
  { rewrite V0, VM. apply small_huge. apply Rabs_le_both; lra. }
  rewrite V0, VM, rnd_fmt in Vd0.
  2:{ rewrite Rminus_0_l. apply fmt_opp, fmt_IZR. lia. }
  destruct (tiny_exp np C (fsub fzero M) Fd0) as [Fe0 Ve0]; [rewrite Vd0; lra|].
  assert (E1: np_exp np (fsub t M) = fone).
  { destruct (fsub_val t M Ft FM) as [Fd1 Vd1].
    { rewrite Vt, VM. apply small_huge. apply Rabs_le_both; lra. }
    rewrite Vt, VM, Rminus_diag_eq, rnd_fmt in Vd1 by (auto; apply (fmt_IZR 0); reflexivity).
    destruct (zero_val _ Fd1 Vd1) as [s ->]. apply (exp_zero _ (np_exp_ok _ C)). }
  destruct fone_val as [F1 V1].
  destruct (sum3 np C (np_exp np (fsub fzero M)) fone fone) as [Fs Es]; auto; try (rewrite V1; lra).
  { rewrite U in Ve0. lra. }
  rewrite V1 in Es.
  assert (LS: logsumexp64 np row = fadd (np_log np (np_sum np [np_exp np (fsub fzero M); fone; fone])) M).
  { unfold logsumexp64. fold M. unfold row. cbn [map]. rewrite E1. reflexivity. }
  set (s := np_sum np [np_exp np (fsub fzero M); fone; fone]) in *.
  apply Rabs_le_inv in Es.
  destruct (ln_near 2 (val s) (51 * u)) as [Ps Ls]; [lra|apply Rabs_le_both; lra|rewrite U; lra|].
  destruct (log_near _ (np_log_ok _ C) s Fs Ps) as [FL EL]. rewrite p50 in EL.
  set (lg := np_log np s) in *.
  assert (Ls' := Rabs_le_inv _ _ Ls). pose proof ln2_r36 as LR.
  assert (R36: 69 / 100 <= r36 <= 70 / 100) by (unfold r36; lra).
  assert (Al: Rabs (ln (val s)) <= 1) by (rewrite U in Ls'; apply Rabs_le_both; lra).
  assert (Dl: Rabs (val lg - r36) < pow2 (14 - 53)).
  { assert (Q: Rabs (val lg - ln (val s)) <= 8 * u) by (rewrite U in *; lra).
    apply Rabs_le_inv in Q. rewrite U in *. unfold pow2. cbn. apply Rabs_def1; lra. }
  assert (FR: fmt (IZR z + r36)).
  { replace (IZR z + r36) with (IZR (z * 68719476736 + 47632711549) * pow2 (-36)).
    - apply fmt_F2R; lia.
    - rewrite plus_IZR, mult_IZR. unfold r36. change (-36)%Z with (- (36))%Z.
      rewrite pow2_neg, pow2_Z by lia. change (IZR (2 ^ 36)) with 68719476736. field. }
  destruct (fadd_val lg M FL FM) as [Flse Vlse].
  { rewrite VM. apply small_huge. apply Rabs_def2 in Dl. unfold pow2 in Dl. cbn in Dl.
    apply Rabs_le_both; lra. }
  rewrite VM in Vlse. replace (val lg + IZR z) with ((IZR z + r36) + (val lg - r36)) in Vlse by ring.
  rewrite (rnd_absorb_at 14) in Vlse; auto; try lia.
  2:{ change (pow2 14) with 16384. lra. }
  rewrite <- LS in Flse, Vlse. set (lse := logsumexp64 np row) in *.
  (* the folded values *)
  destruct (fsub_val fzero lse F0 Flse) as [Fw0 Vw0].
  { rewrite V0, Vlse. apply small_huge. apply Rabs_le_both; lra. }
  rewrite V0, Vlse, rnd_fmt in Vw0.
  2:{ rewrite Rminus_0_l. apply fmt_opp. auto. }
  destruct (tiny_exp np C (fsub fzero lse) Fw0) as [Fp0 Vp0]; [rewrite Vw0; lra|].
  destruct (fsub_val t lse Ft Flse) as [Fw1 Vw1].
  { rewrite Vt, Vlse. apply small_huge. apply Rabs_le_both; lra. }
  rewrite Vt, Vlse in Vw1. replace (IZR z - (IZR z + r36)) with (- r36) in Vw1 by ring.
  rewrite rnd_fmt in Vw1.
  2:{ apply fmt_opp. replace r36 with (IZR 47632711549 * pow2 (-36)).
      - apply fmt_F2R; lia.
      - unfold r36. change (-36)%Z with (- (36))%Z.
        rewrite pow2_neg, pow2_Z by lia. change (IZR (2 ^ 36)) with 68719476736. field. }
  destruct (exp_small np C (fsub t lse) Fw1) as (Fp1 & Pp1 & Ep1); [lra|].
  rewrite Vw1 in Ep1. set (p0 := np_exp np (fsub fzero lse)) in *. set (p1 := np_exp np (fsub t lse)) in *.
  assert (X: 5 / 10 * (1 + 16 / 10000000000000) <= exp (- r36) <= 6 / 10).
  { rewrite exp_inv. pose proof exp_r36 as [A B]. pose proof (exp_pos r36). split.
    - apply Rmult_le_reg_r with (exp r36); auto. rewrite Rinv_l by lra. lra.
    - apply Rmult_le_reg_r with (exp r36); auto. rewrite Rinv_l by lra. lra. }
  assert (TT: pow2 (-1074) <= u) by (apply pow2_mono; lia).
  apply Rabs_le_inv in Ep1.
  assert (B1: 5 / 10 + 79 / 100000000000000 <= val p1 <= 1) by (rewrite U in *; lra).
  destruct (sum3 np C p0 p1 p1) as [Fq Eq]; auto; try lra.
  apply Rabs_le_inv in Eq.
  change (simplex64_fold np [t; t]) with [p0; p1; p1]. unfold simplex64_valid.
  set (q := np_sum np [p0; p1; p1]) in *.
  assert (Bq: 1 + 15 / 10000000000000 <= val q <= 3) by (rewrite U in *; lra).
  destruct (sub_near q fone Fq F1) as [Fd Ed].
  { rewrite V1. apply small_huge. apply Rabs_le_both; lra. }
  rewrite V1 in Ed. rewrite (Rabs_pos_eq (val q - 1)) in Ed by lra. apply Rabs_le_inv in Ed.
  destruct (val_sf tol64 false 4951760157141521 (-92)) as [Ftol Vtol]; [vm_compute; reflexivity|].
  replace (flt tol64 (fabs (fsub q fone))) with true; [apply Bool.andb_false_r|].
  symmetry. apply flt_true; auto.
  - unfold fabs, fin. rewrite is_finite_Babs. exact Fd.
  - unfold fabs. unfold val at 2. rewrite B2R_Babs. fold (val (fsub q fone)).
    apply Rlt_le_trans with (14 / 10000000000000).
    + rewrite Vtol. change (-92)%Z with (- (92))%Z. rewrite pow2_neg, pow2_Z by lia.
      change (IZR (2 ^ 92)) with 4951760157141521099596496896. lra.
    + eapply Rle_trans; [|apply Rle_abs]. rewrite U in *. lra.
Qed.

Lemma not_simplex_flatten : forall np, np_contract np -> forall z, (16384 <= z <= 131071)%Z ->
  simplex64_flatten np (simplex64_fold np [flit z 0; flit z 0]) = Err ValueError.
Proof. intros np C z Hz. unfold simplex64_flatten. rewrite not_simplex by auto. reflexivity. Qed.
