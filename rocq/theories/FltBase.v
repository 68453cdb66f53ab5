(** * Rounding lemmas for binary64. *)
From Coq Require Import Reals ZArith Lra Lia Permutation.
From Flocq Require Import Core Operations Relative Plus_error IEEE754.BinarySingleNaN.
From Verif Require Import Base Flt SpecFlt.
Local Open Scope R_scope.

Notation fx64 := (FLT_exp (-1074) 53).
Definition rnd (x : R) : R := round radix2 fx64 ZnearestE x.
Definition fmt (x : R) : Prop := generic_format radix2 fx64 x.
Global Instance prec_pos : Prec_gt_0 53 := eq_refl.
Global Instance valid64 : Valid_exp fx64 := FLT_exp_valid (-1074) 53.
Global Instance monot64 : Monotone_exp fx64 := FLT_exp_monotone (-1074) 53.

Lemma rnd_eq : forall x, round radix2 (SpecFloat.fexp 53 1024) (round_mode mode_NE) x = rnd x.
Proof. reflexivity. Qed.

Lemma fmt_val : forall x, fmt (val x).
Proof. intros x. apply (generic_format_B2R 53 1024 x). Qed.

Lemma rnd_fmt : forall x, fmt x -> rnd x = x.
Proof. intros x H. apply round_generic; auto. apply valid_rnd_N. Qed.

Lemma rnd_mono : forall x y, x <= y -> rnd x <= rnd y.
Proof. intros. apply round_le; auto with typeclass_instances. Qed.

Lemma rnd_ge : forall x y, fmt y -> y <= x -> y <= rnd x.
Proof. intros x y F H. rewrite <- (rnd_fmt y F). apply rnd_mono; auto. Qed.
Lemma rnd_le : forall x y, fmt y -> x <= y -> rnd x <= y.
Proof. intros x y F H. rewrite <- (rnd_fmt y F). apply rnd_mono; auto. Qed.

Lemma rnd_abs_le : forall x y, fmt y -> Rabs x <= y -> Rabs (rnd x) <= y.
Proof. intros. apply abs_round_le_generic; auto with typeclass_instances. Qed.

Lemma fmt_pow2 : forall e, (-1074 <= e)%Z -> fmt (pow2 e).
Proof. intros e H. apply generic_format_FLT_bpow; auto with typeclass_instances. Qed.

Lemma fmt_F2R : forall m e, (Z.abs m < 2 ^ 53)%Z -> (-1074 <= e)%Z -> fmt (IZR m * pow2 e).
Proof.
  intros m e Hm He. apply generic_format_FLT.
  apply (FLT_spec radix2 (-1074) 53 (IZR m * pow2 e) (Float radix2 m e)); auto.
Qed.

Lemma fmt_IZR : forall m, (Z.abs m < 2 ^ 53)%Z -> fmt (IZR m).
Proof. intros m H. replace (IZR m) with (IZR m * pow2 0) by (unfold pow2; simpl; lra). apply fmt_F2R; auto; lia. Qed.

Lemma pow2_pos : forall e, 0 < pow2 e.
Proof. intros. apply bpow_gt_0. Qed.

Lemma lt_max : forall x, Rabs x <= pow2 1023 -> Rabs x < bpow radix2 1024.
Proof. intros x H. eapply Rle_lt_trans; [exact H|]. apply bpow_lt. lia. Qed.

(** ** Operations without overflow *)

Lemma fadd_val : forall x y, fin x -> fin y -> Rabs (val x + val y) <= pow2 1023 ->
  fin (fadd x y) /\ val (fadd x y) = rnd (val x + val y).
Proof.
  intros x y Hx Hy H. unfold fadd, fin, val in *.
  pose proof (Bplus_correct 53 1024 prec64 emax64 mode_NE x y Hx Hy) as C.
  rewrite rnd_eq in C. rewrite Rlt_bool_true in C.
  - tauto.
  - apply lt_max. apply rnd_abs_le; auto. apply fmt_pow2. lia.
Qed.

Lemma fsub_val : forall x y, fin x -> fin y -> Rabs (val x - val y) <= pow2 1023 ->
  fin (fsub x y) /\ val (fsub x y) = rnd (val x - val y).
Proof.
  intros x y Hx Hy H. unfold fsub, fin, val in *.
  pose proof (Bminus_correct 53 1024 prec64 emax64 mode_NE x y Hx Hy) as C.
  rewrite rnd_eq in C. rewrite Rlt_bool_true in C.
  - tauto.
  - apply lt_max. apply rnd_abs_le; auto. apply fmt_pow2. lia.
Qed.

Lemma fmul_val : forall x y, fin x -> fin y -> Rabs (val x * val y) <= pow2 1023 ->
  fin (fmul x y) /\ val (fmul x y) = rnd (val x * val y).
Proof.
  intros x y Hx Hy H. unfold fmul, fin, val in *.
  pose proof (Bmult_correct 53 1024 prec64 emax64 mode_NE x y) as C.
  rewrite rnd_eq in C. rewrite Rlt_bool_true in C.
  - rewrite Hx, Hy in C. tauto.
  - apply lt_max. apply rnd_abs_le; auto. apply fmt_pow2. lia.
Qed.

Lemma fdiv_val : forall x y, fin x -> val y <> 0 -> Rabs (val x / val y) <= pow2 1023 ->
  fin (fdiv x y) /\ val (fdiv x y) = rnd (val x / val y).
Proof.
  intros x y Hx Hy H. unfold fdiv, fin, val in *.
  pose proof (Bdiv_correct 53 1024 prec64 emax64 mode_NE x y Hy) as C.
  rewrite rnd_eq in C. rewrite Rlt_bool_true in C.
  - rewrite Hx in C. tauto.
  - apply lt_max. apply rnd_abs_le; auto. apply fmt_pow2. lia.
Qed.

Lemma fsqrt_val : forall x, val (fsqrt x) = rnd (sqrt (val x)).
Proof. intros x. apply (Bsqrt_correct 53 1024 prec64 emax64 mode_NE x). Qed.
Lemma fsqrt_fin : forall x, fin x -> 0 <= val x -> fin (fsqrt x).
Proof.
  intros x Hx H. unfold fsqrt, fin, val in *.
  destruct (Bsqrt_correct 53 1024 prec64 emax64 mode_NE x) as (_ & C & _). rewrite C.
  destruct x as [s|s| |[|] m e B]; cbn in *; try discriminate; auto.
  exfalso. assert (F2R (Float radix2 (Zneg m) e) < 0) by (apply F2R_lt_0; reflexivity).
  change (Z.neg m) with (cond_Zopp true (Z.pos m)) in H0. cbn in H0. lra.
Qed.

Lemma flit_val : forall m e, (Z.abs m < 2 ^ 53)%Z -> (-1074 <= e)%Z ->
  Rabs (IZR m * pow2 e) <= pow2 1023 -> fin (flit m e) /\ val (flit m e) = IZR m * pow2 e.
Proof.
  intros m e Hm He H. unfold flit, fin, val.
  pose proof (binary_normalize_correct 53 1024 prec64 emax64 mode_NE m e false) as C.
  cbv zeta in C. rewrite rnd_eq in C.
  change (F2R (Float radix2 m e)) with (IZR m * pow2 e) in C.
  rewrite (rnd_fmt (IZR m * pow2 e)) in C by (apply fmt_F2R; auto).
  rewrite Rlt_bool_true in C by (apply lt_max; auto). tauto.
Qed.

Lemma fzero_val : fin fzero /\ val fzero = 0.
Proof. split; reflexivity. Qed.
Lemma fone_val : fin fone /\ val fone = 1.
Proof.
  split; [reflexivity|]. unfold val, fone, flit. cbn. unfold F2R, Fnum, Fexp.
  change (bpow radix2 (-52)) with (/ IZR (2 ^ 52)). rewrite <- Rinv_r_sym; [reflexivity|].
  apply IZR_neq. discriminate.
Qed.

(** Comparison of finite floats. *)
Lemma flt_true : forall x y, fin x -> fin y -> val x < val y -> flt x y = true.
Proof.
  intros x y Hx Hy H. unfold flt. rewrite (Bltb_correct 53 1024 x y Hx Hy).
  apply Rlt_bool_true. exact H.
Qed.
Lemma flt_false : forall x y, fin x -> fin y -> val y <= val x -> flt x y = false.
Proof.
  intros x y Hx Hy H. unfold flt. rewrite (Bltb_correct 53 1024 x y Hx Hy).
  apply Rlt_bool_false. exact H.
Qed.

Lemma fin_not_nan : forall x, fin x -> not_nan x.
Proof. intros [| | |] H; cbn in *; try discriminate; reflexivity. Qed.

(** ** Error of one rounding *)

Definition u : R := pow2 (-53).

Lemma u_val : u = / 9007199254740992.
Proof. unfold u, pow2. cbn. reflexivity. Qed.

Lemma rnd_error : forall x, Rabs (rnd x - x) <= u * Rabs x + pow2 (-1075).
Proof.
  intros x. destruct (error_N_FLT radix2 (-1074) 53 eq_refl (fun n => negb (Z.even n)) x)
    as (eps & eta & He & Hn & _ & E).
  change (round radix2 fx64 ZnearestE x = x * (1 + eps) + eta) in E.
  change (rnd x = x * (1 + eps) + eta) in E. rewrite E.
  replace (x * (1 + eps) + eta - x) with (x * eps + eta) by ring.
  eapply Rle_trans; [apply Rabs_triang|]. rewrite Rabs_mult.
  assert (H1: / 2 * bpow radix2 (- (53) + 1) = u).
  { unfold u, pow2. cbn. lra. }
  assert (H2: / 2 * bpow radix2 (-1074) = pow2 (-1075)).
  { unfold pow2. replace (-1074)%Z with (-1075 + 1)%Z by lia. rewrite bpow_plus.
    change (bpow radix2 1) with 2. lra. }
  rewrite H1 in He. rewrite H2 in Hn.
  pose proof (Rabs_pos x). apply Rplus_le_compat; auto. nra.
Qed.

(** Sums and differences of floats do not underflow. *)
Lemma rnd_add_error : forall x y, fmt x -> fmt y -> Rabs (rnd (x + y) - (x + y)) <= u * Rabs (x + y).
Proof.
  intros x y Hx Hy.
  destruct (FLT_plus_error_N_ex radix2 (-1074) 53 (fun n => negb (Z.even n)) x y Hx Hy) as (eps & He & E).
  change (rnd (x + y) = (x + y) * (1 + eps)) in E. rewrite E.
  replace ((x + y) * (1 + eps) - (x + y)) with ((x + y) * eps) by ring.
  rewrite Rabs_mult, Rmult_comm. apply Rmult_le_compat_r; [apply Rabs_pos|].
  eapply Rle_trans; [exact He|].
  unfold u_ro. change (- (53) + 1)%Z with (-52)%Z.
  assert (H1: / 2 * bpow radix2 (-52) = u) by (unfold u, pow2; cbn; lra).
  rewrite H1. assert (0 < u) by apply pow2_pos.
  apply Rmult_le_reg_r with (1 + u); [lra|]. unfold Rdiv. rewrite Rmult_assoc, Rinv_l by lra. nra.
Qed.

Lemma fmt_opp : forall x, fmt x -> fmt (- x).
Proof. intros. apply generic_format_opp; auto. Qed.

Lemma rnd_sub_error : forall x y, fmt x -> fmt y -> Rabs (rnd (x - y) - (x - y)) <= u * Rabs (x - y).
Proof. intros. unfold Rminus at 2 3 4. apply rnd_add_error; auto. apply fmt_opp; auto. Qed.

(** A normal result. *)
Lemma rnd_normal : forall x, pow2 (-1022) <= Rabs x -> Rabs (rnd x - x) <= u * Rabs x.
Proof.
  intros x H. pose proof (relative_error_N_FLT radix2 (-1074) 53 eq_refl (fun n => negb (Z.even n)) x) as E.
  change (-1074 + 53 - 1)%Z with (-1022)%Z in E. specialize (E H).
  change (Rabs (rnd x - x) <= / 2 * bpow radix2 (- (53) + 1) * Rabs x) in E.
  assert (H1: / 2 * bpow radix2 (- (53) + 1) = u) by (unfold u, pow2; cbn; lra).
  rewrite H1 in E. exact E.
Qed.

(** A small perturbation of a float rounds back to it. *)
Lemma rnd_absorb : forall x d, fmt x -> pow2 (-1000) <= Rabs x -> Rabs d < pow2 (-55) * Rabs x ->
  rnd (x + d) = x.
Proof.
  assert (P: forall x d, fmt x -> pow2 (-1000) <= x -> Rabs d < pow2 (-55) * x -> rnd (x + d) = x).
  { intros x d Hf Hx Hd. assert (0 < x) by (pose proof (pow2_pos (-1000)); lra).
    set (e := mag radix2 x).
    assert (Hex: bpow radix2 (e - 1) <= x < bpow radix2 e).
    { destruct e as [e He]. cbn. specialize (He ltac:(lra)). rewrite Rabs_pos_eq in He by lra. exact He. }
    assert (He: (-1000 < e)%Z).
    { apply (lt_bpow radix2). eapply Rle_lt_trans; [exact Hx|]. apply Hex. }
    assert (Hulp: ulp radix2 fx64 x = bpow radix2 (e - 53)).
    { rewrite ulp_neq_0 by lra. unfold cexp. fold e. unfold FLT_exp. f_equal. lia. }
    assert (Hsucc: succ radix2 fx64 x = x + bpow radix2 (e - 53)).
    { rewrite succ_eq_pos by lra. rewrite Hulp. reflexivity. }
    assert (Hpred: pred radix2 fx64 x <= x - bpow radix2 (e - 54)).
    { rewrite pred_eq_pos by lra. unfold pred_pos. fold e. case Req_bool_spec; intros Hb.
      - unfold FLT_exp. replace (Z.max (e - 1 - 53) (-1074)) with (e - 54)%Z by lia. lra.
      - rewrite Hulp. assert (bpow radix2 (e - 54) <= bpow radix2 (e - 53)) by (apply bpow_le; lia). lra. }
    assert (Hd': Rabs d < bpow radix2 (e - 55)).
    { eapply Rlt_le_trans; [exact Hd|]. replace (e - 55)%Z with (-55 + e)%Z by lia.
      rewrite bpow_plus. apply Rmult_le_compat_l; [apply bpow_ge_0|lra]. }
    assert (Hb1: bpow radix2 (e - 54) = 2 * bpow radix2 (e - 55)).
    { replace (e - 54)%Z with (1 + (e - 55))%Z by lia. rewrite bpow_plus. reflexivity. }
    assert (Hb2: bpow radix2 (e - 53) = 4 * bpow radix2 (e - 55)).
    { replace (e - 53)%Z with (2 + (e - 55))%Z by lia. rewrite bpow_plus. reflexivity. }
    apply Rabs_lt_inv in Hd'. pose proof (bpow_gt_0 radix2 (e - 55)).
    apply Rle_antisym.
    - apply round_N_le_midp; auto with typeclass_instances. rewrite Hsucc. lra.
    - apply round_N_ge_midp; auto with typeclass_instances. lra. }
  intros x d Hf Hx Hd. destruct (Rle_or_lt 0 x) as [H|H].
  - rewrite (Rabs_pos_eq x) in Hx, Hd by auto. apply P; auto.
  - rewrite (Rabs_left x) in Hx, Hd by auto.
    assert (E: rnd (- x + - d) = - x).
    { apply P; [apply fmt_opp; auto|auto|rewrite Rabs_Ropp; auto]. }
    unfold rnd in *. replace (- x + - d) with (- (x + d)) in E by ring.
    rewrite round_NE_opp in E. lra.
Qed.
