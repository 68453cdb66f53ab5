(** * The assumptions on [np.exp], [np.log] and [np.sum] can be met. *)
From Coq Require Import Reals ZArith Lra Lia List Permutation.
From Flocq Require Import Core Operations Relative Plus_error IEEE754.BinarySingleNaN.
From Verif Require Import Base Flt SpecFlt FltBase FltExp FltNum FltNum2 FltNum3.
Import ListNotations.
Local Open Scope R_scope.

(** The float nearest to a real. *)
Definition of_R (r : R) : f64 :=
  flit (ZnearestE (scaled_mantissa radix2 fx64 r)) (cexp radix2 fx64 r).

Definition exp_inst (x : f64) : f64 :=
  match x with
  | B754_nan => fnan
  | B754_infinity false => finf
  | B754_infinity true => fzero
  | B754_zero _ => fone
  | _ => of_R (exp (val x))
  end.
Definition log_inst (x : f64) : f64 :=
  match x with
  | B754_nan => fnan
  | B754_infinity false => finf
  | B754_infinity true => fnan
  | B754_zero _ => fninf
  | B754_finite true _ _ _ => fnan
  | _ => of_R (ln (val x))
  end.
Definition sum_inst (l : list f64) : f64 := fold_right fadd fzero l.
Definition np_inst : np64 := mkNp exp_inst log_inst sum_inst.

Lemma of_R_val : forall r, Rabs (rnd r) < bpow radix2 1024 -> fin (of_R r) /\ val (of_R r) = rnd r.
Proof.
  intros r H. unfold of_R, flit, fin, val.
  pose proof (binary_normalize_correct 53 1024 prec64 emax64 mode_NE
    (ZnearestE (scaled_mantissa radix2 fx64 r)) (cexp radix2 fx64 r) false) as C.
  cbv zeta in C. rewrite rnd_eq in C.
  change (F2R (Float radix2 (ZnearestE (scaled_mantissa radix2 fx64 r)) (cexp radix2 fx64 r))) with (rnd r) in C.
  rewrite (rnd_fmt (rnd r)) in C by (apply generic_format_round; auto with typeclass_instances).
  rewrite Rlt_bool_true in C by exact H. tauto.
Qed.
Lemma of_R_over : forall r, 0 < r -> bpow radix2 1024 <= rnd r -> of_R r = finf.
Proof.
  intros r P H. unfold of_R, flit.
  pose proof (binary_normalize_correct 53 1024 prec64 emax64 mode_NE
    (ZnearestE (scaled_mantissa radix2 fx64 r)) (cexp radix2 fx64 r) false) as C.
  cbv zeta in C. rewrite rnd_eq in C.
  change (F2R (Float radix2 (ZnearestE (scaled_mantissa radix2 fx64 r)) (cexp radix2 fx64 r))) with (rnd r) in C.
  rewrite (rnd_fmt (rnd r)) in C by (apply generic_format_round; auto with typeclass_instances).
  pose proof (bpow_gt_0 radix2 1024).
  rewrite Rlt_bool_false in C by (rewrite Rabs_pos_eq; lra).
  rewrite Rlt_bool_false in C by lra. apply B2SF_inj. exact C.
Qed.

Lemma fmt_0 : fmt 0.
Proof. apply (fmt_IZR 0). reflexivity. Qed.

Lemma exp_inst_val : forall x, fin x -> val x = 0 /\ exp_inst x = fone \/ exp_inst x = of_R (exp (val x)).
Proof. intros [s|s| |s m e B] H; try discriminate H; [left|right]; auto. Qed.

Lemma exp_inst_ok : exp_contract exp_inst.
Proof.
  split; try reflexivity.
  - intros x Fx. destruct (exp_inst_val x Fx) as [[V ->]| ->].
    + right. destruct fone_val as [F ->]. split; auto. lra.
    + pose proof (exp_pos (val x)) as P. set (r := exp (val x)) in *.
      assert (N: 0 <= rnd r) by (apply rnd_ge; [apply fmt_0|lra]).
      destruct (Rlt_or_le (rnd r) (bpow radix2 1024)) as [H|H].
      * right. destruct (of_R_val r) as [F V]; [rewrite Rabs_pos_eq; auto|]. rewrite V. auto.
      * left. apply of_R_over; auto.
  - intros x Fx H. destruct (exp_inst_val x Fx) as [[V ->]| ->].
    + destruct fone_val as [F ->]. split; auto. rewrite V, exp_0, Rminus_diag_eq, Rabs_R0 by auto.
      pose proof (pow2_pos (-50)). pose proof (pow2_pos (-1074)). lra.
    + pose proof (exp_pos (val x)) as P. set (r := exp (val x)) in *.
      assert (N: 0 <= rnd r) by (apply rnd_ge; [apply fmt_0|lra]).
      assert (B: rnd r <= pow2 1023) by (apply rnd_le; auto; apply fmt_pow2; lia).
      destruct (of_R_val r) as [F V].
      { rewrite Rabs_pos_eq by auto. eapply Rle_lt_trans; [exact B|]. apply bpow_lt. lia. }
      rewrite V. split; auto. eapply Rle_trans; [apply rnd_error|].
      rewrite (Rabs_pos_eq r) by lra. rewrite p50.
      assert (pow2 (-1075) <= pow2 (-1074)) by (apply pow2_mono; lia).
      assert (0 < u) by apply pow2_pos. nra.
  - intros x Fx H. destruct (exp_inst_val x Fx) as [[V ->]| ->].
    + exfalso. rewrite V, exp_0 in H. assert (pow2 1 <= pow2 1025) by (apply pow2_mono; lia).
      change (pow2 1) with 2 in *. lra.
    + apply of_R_over; [apply exp_pos|].
      apply Rle_trans with (pow2 1025); [apply bpow_le; lia|].
      apply rnd_ge; auto. apply fmt_pow2. lia.
Qed.

Lemma near_one : forall x, fmt x -> x = 1 \/ pow2 (-55) <= Rabs (x - 1).
Proof.
  intros x F. destruct (Rle_or_lt (pow2 (-55)) (Rabs (x - 1))) as [H|H]; auto. left.
  assert (E: rnd (1 + (x - 1)) = 1).
  { apply rnd_absorb.
    - apply (fmt_IZR 1). reflexivity.
    - rewrite Rabs_R1. change 1 with (pow2 0). apply pow2_mono. lia.
    - rewrite Rabs_R1, Rmult_1_r. exact H. }
  replace (1 + (x - 1)) with x in E by ring. rewrite rnd_fmt in E; auto.
Qed.

Lemma ln_away : forall x, fmt x -> 0 < x -> x = 1 \/ pow2 (-60) <= Rabs (ln x).
Proof.
  intros x F P. destruct (near_one x F) as [E|E]; auto. right.
  assert (P60: pow2 (-55) = 32 * pow2 (-60)) by (change (-55)%Z with (-60 + 5)%Z; rewrite pm by lia; reflexivity).
  assert (Q: pow2 (-60) <= / 4) by (replace (/ 4) with (pow2 (-2)) by (unfold pow2; cbn; lra); apply pow2_mono; lia).
  pose proof (pow2_pos (-60)).
  destruct (Rlt_or_le x 1) as [L|L].
  - rewrite Rabs_left in E by lra. pose proof (ln_upper x P). rewrite Rabs_left by lra. lra.
  - rewrite Rabs_pos_eq in E by lra. pose proof (ln_lower x P) as W.
    eapply Rle_trans; [|apply Rle_abs]. eapply Rle_trans; [|exact W].
    apply Rmult_le_reg_r with x; auto. rewrite Rmult_minus_distr_r, Rinv_l, Rmult_1_l by lra.
    destruct (Rlt_or_le x 2); nra.
Qed.

Lemma ln_float : forall x, fin x -> 0 < val x -> Rabs (ln (val x)) <= 1100.
Proof.
  intros x F P. pose proof (val_max x) as M. rewrite Rabs_pos_eq in M by lra.
  pose proof (exp_Z_lower 1100 1100 ltac:(zcheck)) as E. rewrite INR_Z in E.
  change (Z.of_nat 1100) with 1100%Z in E.
  apply Rabs_le_both.
  - assert (L: pow2 (-1074) <= val x).
    { destruct (Rle_or_lt (pow2 (-1074)) (val x)) as [H|H]; auto. exfalso.
      pose proof (generic_format_ge_bpow radix2 fx64 (-1074)) as G.
      assert (A: pow2 (-1074) <= val x).
      { apply G; auto; [|apply fmt_val]. intros e. unfold FLT_exp. lia. }
      lra. }
    rewrite <- (ln_exp (- (1100))). assert (A: exp (- (1100)) <= val x).
    { eapply Rle_trans; [|exact L]. rewrite exp_inv. change (-1074)%Z with (- (1074))%Z. rewrite pow2_neg.
      apply Rinv_le_contravar; [apply pow2_pos|]. eapply Rle_trans; [|exact E]. apply pow2_mono; lia. }
    destruct A as [A| <-]; [left; apply ln_increasing; auto; apply exp_pos|lra].
  - rewrite <- (ln_exp 1100). assert (A: val x < exp 1100).
    { eapply Rlt_le_trans; [exact M|]. eapply Rle_trans; [|exact E]. apply bpow_le. lia. }
    left. apply ln_increasing; auto.
Qed.

Lemma log_inst_ok : log_contract log_inst.
Proof.
  split; try reflexivity. intros x Fx P.
  assert (E: log_inst x = of_R (ln (val x))).
  { destruct x as [s|s| |[|] m e B]; try discriminate Fx; try reflexivity; exfalso.
    - cbn in P. lra.
    - assert (F2R (Float radix2 (Zneg m) e) < 0) by (apply F2R_lt_0; reflexivity).
      unfold val in P. cbn in *. lra. }
  rewrite E. pose proof (ln_float x Fx P) as B. set (r := ln (val x)) in *.
  destruct (of_R_val r) as [F V].
  { apply lt_max. apply rnd_abs_le; [apply fmt_pow2; lia|].
    eapply Rle_trans; [exact B|]. apply Rle_trans with (pow2 11); [|apply pow2_mono; lia].
    rewrite pow2_Z by lia. change (IZR (2 ^ 11)) with 2048. lra. }
  rewrite V. split; auto. pose proof (Rabs_pos r).
  destruct (ln_away (val x) (fmt_val x) P) as [Z|Z].
  - unfold r in *. rewrite Z, ln_1 in *. rewrite rnd_fmt by apply fmt_0. rewrite Rminus_diag_eq, Rabs_R0 by auto. lra.
  - eapply Rle_trans; [apply rnd_normal|].
    + eapply Rle_trans; [|exact Z]. apply pow2_mono. lia.
    + rewrite p50. assert (0 < u) by apply pow2_pos. nra.
Qed.

Lemma sum_inst_ok : forall l, sum_of l (sum_inst l).
Proof.
  induction l as [|a l IH]; cbn [sum_inst fold_right]; [constructor|].
  change (a :: l) with ([a] ++ l). apply sum_add; auto. constructor.
Qed.

Lemma np_inst_ok : np_contract np_inst.
Proof. split; [apply exp_inst_ok|apply log_inst_ok|apply sum_inst_ok]. Qed.
