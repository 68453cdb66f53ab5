(** * Numeric arrays in binary64: two bounds and round trips. *)
From Coq Require Import Reals ZArith Lra Lia List Permutation.
From Flocq Require Import Core Operations Relative Plus_error IEEE754.BinarySingleNaN.
From Verif Require Import Base Flt SpecFlt FltBase FltExp FltNum.
Import ListNotations.
Local Open Scope R_scope.

Lemma val_sf : forall x s m e, @B2SF 53 1024 x = SpecFloat.S754_finite s m e ->
  fin x /\ val x = IZR (if s then Zneg m else Zpos m) * pow2 e.
Proof.
  intros [a|a| |a n k B] s m e H; try discriminate H. injection H as -> -> ->.
  split; [reflexivity|]. unfold val. cbn. unfold F2R. cbn. destruct s; reflexivity.
Qed.

Lemma exp_709 : exp 709 <= pow2 1023.
Proof. pose proof (exp_Z_upper 709 1023 ltac:(zcheck)) as H. rewrite INR_Z in H. exact H. Qed.

Lemma p50 : pow2 (-50) = 8 * u.
Proof. unfold u. change (-50)%Z with (3 + -53)%Z. rewrite pow2_add. change (pow2 3) with 8. ring. Qed.
Lemma p49 : pow2 (-49) = 16 * u.
Proof. unfold u. change (-49)%Z with (4 + -53)%Z. rewrite pow2_add. change (pow2 4) with 16. ring. Qed.
Lemma pm : forall k n, (0 <= n)%Z -> pow2 (k + n) = IZR (2 ^ n) * pow2 k.
Proof. intros k n H. rewrite Z.add_comm, pow2_add, (pow2_Z n H). reflexivity. Qed.

(** ** Above the upper bound *)

Lemma lbm07_val : fin lbm07 /\ val lbm07 = IZR (-6305039478318694) * pow2 (-53).
Proof. apply (val_sf lbm07 true 6305039478318694 (-53)). vm_compute. reflexivity. Qed.
Lemma ub03_val : fin ub03 /\ val ub03 = IZR 5404319552844595 * pow2 (-54).
Proof. apply (val_sf ub03 false 5404319552844595 (-54)). vm_compute. reflexivity. Qed.
Lemma gap_val : fin (fsub ub03 lbm07) /\ val (fsub ub03 lbm07) = 1.
Proof.
  destruct (val_sf (fsub ub03 lbm07) false 4503599627370496 (-52)) as [F V].
  - vm_compute. reflexivity.
  - split; auto. rewrite V. change (-52)%Z with (- (52))%Z. rewrite pow2_neg, pow2_Z by lia.
    rewrite Rinv_r; auto. apply IZR_neq. discriminate.
Qed.

Lemma big_exp : forall np, np_contract np -> forall x, fin x -> 39 <= val x <= 709 ->
  fin (np_exp np x) /\ 2 * pow2 54 < val (np_exp np x) <= pow2 1023 + pow2 1023 / 4.
Proof.
  intros np C x Hx [H1 H2].
  assert (B: exp (val x) <= pow2 1023) by (eapply Rle_trans; [apply exp_le; exact H2|apply exp_709]).
  assert (A: pow2 56 <= exp (val x)) by (eapply Rle_trans; [apply exp_39|apply exp_le; exact H1]).
  destruct (near_exp np C x Hx B) as (F & P & E). split; auto.
  apply Rabs_le_inv in E. rewrite p50, u_val in E.
  assert (pow2 (-1074) <= 1) by (change 1 with (pow2 0); apply pow2_mono; lia).
  assert (pow2 56 = 4 * pow2 54) by (change 56%Z with (54 + 2)%Z; rewrite pm by lia; reflexivity).
  assert (4 <= pow2 54) by (change 4 with (pow2 2); apply pow2_mono; lia).
  assert (pow2 54 <= pow2 1023) by (apply pow2_mono; lia).
  split; lra.
Qed.

Lemma above_value : forall np, np_contract np -> forall x, fin x -> 39 <= val x <= 709 ->
  fin (constrain64 np lbm07 ub03 x) /\
  val (constrain64 np lbm07 ub03 x) = IZR 5404319552844596 * pow2 (-54).
Proof.
  intros np C x Hx H. destruct (big_exp np C x Hx H) as (F & L & U).
  rewrite constrain64_two by (apply lbm07_val || apply ub03_val).
  set (e := np_exp np x) in *. set (w := fsub ub03 lbm07).
  destruct gap_val as [Fw Vw]. fold w in Fw, Vw.
  assert (P: 0 < val e) by (pose proof (pow2_pos 54); lra).
  assert (M: fin (fmul w e) /\ val (fmul w e) = val e).
  { unfold fin, val in *.
    pose proof (Bmult_correct 53 1024 prec64 emax64 mode_NE w e) as D.
    rewrite rnd_eq in D. change (@B2R 53 1024 w) with (val w) in D.
    change (@B2R 53 1024 e) with (val e) in D. change (val w = 1) in Vw.
    rewrite Vw, Rmult_1_l in D. rewrite rnd_fmt in D by apply fmt_val.
    rewrite Rlt_bool_true in D by apply val_max. rewrite Fw, F in D. tauto. }
  destruct M as [Fm Vm].
  assert (A: fin (fadd fone e) /\ val (fadd fone e) = val e).
  { assert (R1: rnd (1 + val e) = val e).
    { rewrite Rplus_comm. apply rnd_absorb; [apply fmt_val| |].
      - rewrite Rabs_pos_eq by lra. apply Rle_trans with (pow2 54); [apply pow2_mono; lia|].
        pose proof (pow2_pos 54). lra.
      - rewrite Rabs_R1, Rabs_pos_eq by lra.
        replace 1 with (pow2 (-55) * (2 * pow2 54)).
        + apply Rmult_lt_compat_l; [apply pow2_pos|auto].
        + change 2 with (pow2 1). rewrite <- !pow2_add. reflexivity. }
    pose proof (Bplus_correct 53 1024 prec64 emax64 mode_NE fone e (proj1 fone_val) F) as D.
    rewrite rnd_eq in D. change (B2R fone) with (val fone) in D. change (B2R e) with (val e) in D.
    rewrite (proj2 fone_val), R1 in D. rewrite Rlt_bool_true in D by apply val_max.
    unfold fin, val, fadd in *. tauto. }
  destruct A as [Fa Va].
  assert (Q: fin (fdiv (fmul w e) (fadd fone e)) /\ val (fdiv (fmul w e) (fadd fone e)) = 1).
  { destruct (fdiv_val (fmul w e) (fadd fone e)) as [Fq Vq]; auto.
    - rewrite Va. lra.
    - rewrite Vm, Va. unfold Rdiv. rewrite Rinv_r, Rabs_R1 by lra.
      change 1 with (pow2 0). apply pow2_mono. lia.
    - split; auto. rewrite Vq, Vm, Va. unfold Rdiv. rewrite Rinv_r by lra.
      apply rnd_fmt. apply (fmt_IZR 1). reflexivity. }
  destruct Q as [Fq Vq]. destruct lbm07_val as [Fl Vl].
  assert (Z: 1 + val lbm07 = IZR 5404319552844596 * pow2 (-54)).
  { rewrite Vl. change (-53)%Z with (- (53))%Z. change (-54)%Z with (- (54))%Z.
    rewrite !pow2_neg, !pow2_Z by lia. change (IZR (2 ^ 54)) with 18014398509481984.
    change (IZR (2 ^ 53)) with 9007199254740992. lra. }
  destruct (fadd_val (fdiv (fmul w e) (fadd fone e)) lbm07 Fq Fl) as [Fr Vr].
  - rewrite Vq, Z. apply Rle_trans with 1; [|change 1 with (pow2 0); apply pow2_mono; lia].
    change (-54)%Z with (- (54))%Z. rewrite pow2_neg, pow2_Z by lia.
    change (IZR (2 ^ 54)) with 18014398509481984. rewrite Rabs_pos_eq; lra.
  - split; auto. rewrite Vr, Vq, Z. apply rnd_fmt. apply fmt_F2R; [reflexivity|lia].
Qed.

Lemma above_ub : forall np, np_contract np -> forall x, fin x -> 39 <= val x <= 709 ->
  fin (constrain64 np lbm07 ub03 x) /\ val ub03 < val (constrain64 np lbm07 ub03 x) /\
  num64_valid lbm07 ub03 (num64_fold np lbm07 ub03 [x]) = false /\
  num64_flatten np lbm07 ub03 (num64_fold np lbm07 ub03 [x]) = Err ValueError.
Proof.
  intros np C x Hx H. destruct (above_value np C x Hx H) as [F V].
  assert (L: val ub03 < val (constrain64 np lbm07 ub03 x)).
  { rewrite V, (proj2 ub03_val). apply Rmult_lt_compat_r; [apply pow2_pos|apply IZR_lt; reflexivity]. }
  assert (N: num64_valid lbm07 ub03 (num64_fold np lbm07 ub03 [x]) = false).
  { destruct (num64_valid lbm07 ub03 (num64_fold np lbm07 ub03 [x])) eqn:E; auto.
    apply num64_valid_iff in E. inversion E as [|? ? [_ B] _]; subst.
    rewrite flt_true in B; [discriminate|apply ub03_val|exact F|exact L]. }
  repeat split; auto. unfold num64_flatten. rewrite N. reflexivity.
Qed.

(** ** Accuracy with two bounds *)

(** [exp] of anything up to 700. *)
Lemma exp_small : forall np, np_contract np -> forall x, fin x -> val x <= 700 ->
  fin (np_exp np x) /\ 0 <= val (np_exp np x) <= pow2 1011 /\
  Rabs (val (np_exp np x) - exp (val x)) <= 8 * u * exp (val x) + pow2 (-1074).
Proof.
  intros np C x Hx H.
  assert (B: exp (val x) <= pow2 1010) by (eapply Rle_trans; [apply exp_le; exact H|apply exp_700]).
  destruct (near_exp np C x Hx) as (F & P & E).
  { eapply Rle_trans; [exact B|]. apply pow2_mono. lia. }
  rewrite p50 in E. repeat split; auto.
  apply Rabs_le_inv in E. rewrite u_val in E.
  assert (pow2 (-1074) <= 1) by (change 1 with (pow2 0); apply pow2_mono; lia).
  assert (pow2 1011 = 2 * pow2 1010) by (change 1011%Z with (1010 + 1)%Z; rewrite pm by lia; reflexivity).
  assert (4 <= pow2 1010) by (change 4 with (pow2 2); apply pow2_mono; lia).
  lra.
Qed.

Lemma Rabs_le_both : forall x a, - a <= x -> x <= a -> Rabs x <= a.
Proof. intros. apply Rabs_le. auto. Qed.

(** One chain [(w * e) / (1 + e)] in floats. *)
Lemma logistic_chain : forall w e, fin w -> fin e -> 0 <= val w <= pow2 12 -> 0 <= val e <= pow2 1011 ->
  fin (fdiv (fmul w e) (fadd fone e)) /\
  0 <= val (fdiv (fmul w e) (fadd fone e)) /\
  Rabs (val (fdiv (fmul w e) (fadd fone e)) - val w * (val e / (1 + val e)))
    <= 4 * u * val w + 4 * pow2 (-1075).
Proof.
  intros w e Fw Fe [W0 W1] [E0 E1].
  assert (Z0: fmt 0) by (apply (fmt_IZR 0); reflexivity).
  assert (Z1: fmt 1) by (apply (fmt_IZR 1); reflexivity).
  assert (B23: pow2 12 * pow2 1011 = pow2 1023) by (rewrite <- pow2_add; reflexivity).
  assert (P12: pow2 12 = 4096) by (rewrite pow2_Z by lia; reflexivity).
  pose proof (pow2_pos 1011) as P11. pose proof (pow2_pos (-1075)) as Pt.
  set (t := pow2 (-1075)) in *.
  assert (T: t <= u) by (apply pow2_mono; lia).
  assert (U: u = / 9007199254740992) by apply u_val.
  destruct (fmul_val w e Fw Fe) as [Fm Vm].
  { rewrite Rabs_pos_eq by (apply Rmult_le_pos; auto). rewrite <- B23. apply Rmult_le_compat; auto. }
  destruct (fadd_val fone e (proj1 fone_val) Fe) as [Fa Va].
  { rewrite (proj2 fone_val). rewrite Rabs_pos_eq by lra. rewrite <- B23, P12.
    assert (1 <= pow2 1011) by (change 1 with (pow2 0); apply pow2_mono; lia). lra. }
  rewrite (proj2 fone_val) in Va.
  set (p := val (fmul w e)) in *. set (E := val (fadd fone e)) in *.
  assert (E_1: 1 <= E) by (rewrite Va; apply rnd_ge; auto; lra).
  assert (p_0: 0 <= p) by (rewrite Vm; apply rnd_ge; auto; apply Rmult_le_pos; auto).
  assert (Ea: Rabs (E - (1 + val e)) <= u * (1 + val e)).
  { rewrite Va. pose proof (rnd_add_error 1 (val e) Z1 (fmt_val e)) as H.
    rewrite (Rabs_pos_eq (1 + val e)) in H by lra. exact H. }
  assert (Ep: Rabs (p - val w * val e) <= u * (val w * val e) + t).
  { rewrite Vm. pose proof (rnd_error (val w * val e)) as H.
    rewrite (Rabs_pos_eq (val w * val e)) in H by (apply Rmult_le_pos; auto). exact H. }
  apply Rabs_le_inv in Ea. apply Rabs_le_inv in Ep.
  set (s := val e / (1 + val e)) in *.
  assert (S: val e = s * (1 + val e)) by (unfold s; field; lra).
  assert (S0: 0 <= s) by (unfold s; apply Rmult_le_pos; [auto|left; apply Rinv_0_lt_compat; lra]).
  assert (S1: s <= 1).
  { apply Rmult_le_reg_r with (1 + val e); [lra|]. rewrite <- S. lra. }
  assert (WS0: 0 <= val w * s) by (apply Rmult_le_pos; auto).
  assert (WS1: val w * s <= val w) by nra.
  (* p / E against w * s *)
  assert (D: Rabs (p / E - val w * s) <= 21 / 10 * u * val w + t).
  { set (N := 1 + val e) in *. assert (N1: 1 <= N) by (unfold N; lra).
    assert (V: val w * val e = val w * s * N) by (rewrite S at 1; ring). rewrite V in Ep.
    set (k := val w * s) in *.
    assert (kN: 0 <= k * N) by (apply Rmult_le_pos; lra).
    apply Rabs_le_both; apply Rmult_le_reg_r with E; try lra;
      replace ((p / E - k) * E) with (p - k * E) by (field; lra).
    - (* lower *)
      assert (k * E <= k * N + u * (k * N)) by nra.
      assert ((1 - u) * (k * N) - t <= p) by lra.
      assert (k * N * (1 - u) <= k * E) by nra.
      assert (u * (k * N) * 2 <= 21 / 10 * u * val w * E).
      { assert (k * N * (1 - u) <= val w * E) by nra.
        rewrite U in *. lra. }
      assert (t <= t * E) by nra. lra.
    - assert (k * N - u * (k * N) <= k * E) by nra.
      assert (p <= (1 + u) * (k * N) + t) by lra.
      assert (u * (k * N) * 2 <= 21 / 10 * u * val w * E).
      { assert (k * N * (1 - u) <= val w * E) by nra. rewrite U in *. lra. }
      assert (t <= t * E) by nra. lra. }
  assert (q0: 0 <= p / E) by (apply Rmult_le_pos; [auto|left; apply Rinv_0_lt_compat; lra]).
  assert (q1: p / E <= pow2 1023).
  { apply Rabs_le_inv in D. assert (1 * 10000 <= pow2 1023).
    { apply Rle_trans with (pow2 14); [rewrite pow2_Z by lia; cbn; lra|apply pow2_mono; lia]. }
    rewrite U in *. lra. }
  destruct (fdiv_val (fmul w e) (fadd fone e) Fm) as [Fq Vq].
  { fold E. lra. }
  { fold p E. rewrite Rabs_pos_eq; auto. }
  fold p E in Vq. split; [exact Fq|]. rewrite Vq. split; [apply rnd_ge; auto|].
  pose proof (rnd_error (p / E)) as R1. fold t in R1.
  rewrite (Rabs_pos_eq (p / E)) in R1 by auto.
  apply Rabs_le_inv in D. apply Rabs_le_inv in R1. rewrite U in *. apply Rabs_le_both; lra.
Qed.

Lemma two_sided_accurate : forall np, np_contract np -> forall lb ub, fin lb -> fin ub ->
  val lb < val ub -> Rabs (val lb) <= pow2 11 -> Rabs (val ub) <= pow2 11 ->
  forall x, fin x -> val x <= 700 ->
  fin (constrain64 np lb ub x) /\
  val lb <= val (constrain64 np lb ub x) /\
  Rabs (val (constrain64 np lb ub x)
        - ((val ub - val lb) * (exp (val x) / (1 + exp (val x))) + val lb))
    <= pow2 (-49) * (Rabs (val lb) + Rabs (val ub)) + pow2 (-1050).
Proof.
  intros np C lb ub Fl Fu Hb Bl Bu x Fx Hx.
  rewrite constrain64_two by auto.
  destruct (exp_small np C x Fx Hx) as (Fe & E0 & Ee).
  set (e := np_exp np x) in *.
  assert (P12: pow2 12 = 4096) by (rewrite pow2_Z by lia; reflexivity).
  assert (P11: pow2 11 = 2048) by (rewrite pow2_Z by lia; reflexivity).
  assert (U: u = / 9007199254740992) by apply u_val.
  assert (Huge: 1000000 <= pow2 1023).
  { apply Rle_trans with (pow2 20); [rewrite pow2_Z by lia; cbn; lra|apply pow2_mono; lia]. }
  rewrite P11 in Bl, Bu.
  assert (BL := Rabs_le_inv _ _ Bl). assert (BU := Rabs_le_inv _ _ Bu).
  destruct (fsub_val ub lb Fu Fl) as [Fw Vw]; [apply Rabs_le_both; lra|].
  set (w := fsub ub lb) in *.
  assert (W: 0 <= val w <= pow2 12).
  { rewrite Vw. split; [apply rnd_ge; [apply (fmt_IZR 0); reflexivity|lra]|].
    apply rnd_le; [apply fmt_pow2; lia|rewrite P12; lra]. }
  destruct (logistic_chain w e Fw Fe W E0) as (Fq & Q0 & Dq).
  set (q := fdiv (fmul w e) (fadd fone e)) in *.
  set (D := val ub - val lb) in *.
  assert (Ew: Rabs (val w - D) <= u * D).
  { rewrite Vw. unfold D. pose proof (rnd_sub_error (val ub) (val lb) (fmt_val _) (fmt_val _)) as H.
    rewrite (Rabs_pos_eq (val ub - val lb)) in H by lra. exact H. }
  assert (D0: 0 < D <= 4096) by (unfold D; lra).
  set (T := pow2 (-1075)) in *.
  assert (T74: pow2 (-1074) = 2 * T) by (change (-1074)%Z with (-1075 + 1)%Z; rewrite pm by lia; reflexivity).
  assert (T50: pow2 (-1050) = 33554432 * T) by (change (-1050)%Z with (-1075 + 25)%Z; rewrite pm by lia; reflexivity).
  rewrite T74 in Ee. rewrite p49, T50.
  assert (PT: 0 < T) by apply pow2_pos.
  assert (PU: 33554432 * T <= u) by (rewrite <- T50; apply pow2_mono; lia).
  pose proof (exp_pos (val x)) as Px. set (X := exp (val x)) in *.
  set (s := X / (1 + X)). set (s' := val e / (1 + val e)) in *.
  assert (S0: 0 <= s <= 1).
  { unfold s. split; [apply Rmult_le_pos; [lra|left; apply Rinv_0_lt_compat; lra]|].
    apply Rmult_le_reg_r with (1 + X); [lra|]. unfold Rdiv. rewrite Rmult_assoc, Rinv_l by lra. lra. }
  assert (S'0: 0 <= s' <= 1).
  { unfold s'. split; [apply Rmult_le_pos; [lra|left; apply Rinv_0_lt_compat; lra]|].
    apply Rmult_le_reg_r with (1 + val e); [lra|]. unfold Rdiv. rewrite Rmult_assoc, Rinv_l by lra. lra. }
  assert (Ss: Rabs (s' - s) <= 8 * u + 2 * T).
  { assert (Q: s' - s = (val e - X) / ((1 + val e) * (1 + X))) by (unfold s, s'; field; lra).
    assert (G: Rabs (s' - s) * (1 + X) <= Rabs (val e - X)).
    { rewrite Q. unfold Rdiv. rewrite Rabs_mult, Rabs_inv, (Rabs_pos_eq ((1 + val e) * (1 + X))) by nra.
      rewrite Rmult_assoc. rewrite <- (Rmult_1_r (Rabs (val e - X))) at 2.
      apply Rmult_le_compat_l; [apply Rabs_pos|].
      apply Rmult_le_reg_l with (1 + val e); [lra|]. rewrite Rmult_1_r.
      replace ((1 + val e) * (/ ((1 + val e) * (1 + X)) * (1 + X))) with 1 by (field; lra). lra. }
    apply Rmult_le_reg_r with (1 + X); [lra|].
    eapply Rle_trans; [exact G|]. eapply Rle_trans; [exact Ee|].
    assert (0 < u) by apply pow2_pos. nra. }
  assert (Qq: Rabs (val q - D * s) <= 131 / 10 * u * D + 9000 * T).
  { assert (A1: Rabs (val w * s' - D * s') <= u * D).
    { rewrite <- Rmult_minus_distr_r, Rabs_mult, (Rabs_pos_eq s') by lra.
      pose proof (Rabs_pos (val w - D)). nra. }
    assert (A2: Rabs (D * s' - D * s) <= (8 * u + 2 * T) * D).
    { rewrite <- Rmult_minus_distr_l, Rabs_mult, (Rabs_pos_eq D) by lra. nra. }
    apply Rabs_le_inv in Dq, A1, A2, Ew. assert (T * D <= 4096 * T) by nra.
    rewrite U in *. apply Rabs_le_both; lra. }
  assert (Qb: 0 <= val q <= 4200).
  { split; auto. apply Rabs_le_inv in Qq. assert (D * s <= D) by nra. rewrite U in *. lra. }
  destruct (fadd_val q lb Fq Fl) as [Fr Vr]; [apply Rabs_le_both; lra|].
  split; [exact Fr|]. rewrite Vr. split; [apply rnd_ge; [apply fmt_val|lra]|].
  pose proof (rnd_add_error (val q) (val lb) (fmt_val _) (fmt_val _)) as R1.
  assert (DS: 0 <= D * s <= D) by nra.
  pose proof (Rle_abs (val ub)). pose proof (Rle_abs (- val lb)) as HL. rewrite Rabs_Ropp in HL.
  pose proof (Rle_abs (val lb)). pose proof (Rle_abs (- val ub)) as HU. rewrite Rabs_Ropp in HU.
  set (al := Rabs (val lb)) in *. set (au := Rabs (val ub)) in *.
  assert (Rq: Rabs (val q + val lb) <= al + au + (131 / 10 * u * D + 9000 * T)).
  { apply Rabs_le_inv in Qq. unfold D in *. apply Rabs_le_both; lra. }
  assert (DD: D <= al + au) by (unfold D; lra).
  apply Rabs_le_inv in Qq.
  assert (R2: Rabs (rnd (val q + val lb) - (val q + val lb)) <= u * (al + au + (131 / 10 * u * D + 9000 * T))).
  { eapply Rle_trans; [exact R1|]. apply Rmult_le_compat_l; [left; apply pow2_pos|auto]. }
  apply Rabs_le_inv in R2.
  assert (u * (131 / 10 * u * D + 9000 * T) <= u * D + T).
  { rewrite U in *. lra. }
  apply Rabs_le_both; rewrite ?U in *; lra.
Qed.

(** The unit interval is never left. *)
Lemma unit_interval : forall np, np_contract np -> forall x, fin x -> val x <= 700 ->
  fin (constrain64 np fzero fone x) /\ 0 <= val (constrain64 np fzero fone x) <= 1 /\
  num64_valid fzero fone (num64_fold np fzero fone [x]) = true.
Proof.
  intros np C x Fx Hx.
  assert (Z0: fmt 0) by (apply (fmt_IZR 0); reflexivity).
  assert (Z1: fmt 1) by (apply (fmt_IZR 1); reflexivity).
  destruct fzero_val as [F0 V0]. destruct fone_val as [F1 V1].
  assert (G: fin (constrain64 np fzero fone x) /\ 0 <= val (constrain64 np fzero fone x) <= 1).
  { rewrite constrain64_two by auto.
    destruct (exp_small np C x Fx Hx) as (Fe & E0 & _).
    set (e := np_exp np x) in *.
    assert (Big: pow2 1011 + 1 <= pow2 1023).
    { change 1023%Z with (1011 + 12)%Z. rewrite pm by lia. change (IZR (2 ^ 12)) with 4096.
      assert (1 <= pow2 1011) by (change 1 with (pow2 0); apply pow2_mono; lia). lra. }
    pose proof (pow2_pos 1011).
    destruct (fsub_val fone fzero F1 F0) as [Fw Vw].
    { rewrite V0, V1. rewrite Rabs_pos_eq by lra. lra. }
    rewrite V0, V1, Rminus_0_r, rnd_fmt in Vw by auto.
    set (w := fsub fone fzero) in *.
    destruct (fmul_val w e Fw Fe) as [Fm Vm]; [rewrite Vw, Rmult_1_l, Rabs_pos_eq by lra; lra|].
    rewrite Vw, Rmult_1_l, rnd_fmt in Vm by apply fmt_val.
    destruct (fadd_val fone e F1 Fe) as [Fa Va]; [rewrite V1, Rabs_pos_eq by lra; lra|].
    rewrite V1 in Va.
    assert (A1: 1 <= val (fadd fone e)) by (rewrite Va; apply rnd_ge; auto; lra).
    assert (A2: val e <= val (fadd fone e)) by (rewrite Va; apply rnd_ge; [apply fmt_val|lra]).
    set (E := val (fadd fone e)) in *.
    assert (Q: 0 <= val (fmul w e) / E <= 1).
    { rewrite Vm. split; [apply Rmult_le_pos; [lra|left; apply Rinv_0_lt_compat; lra]|].
      apply Rmult_le_reg_r with E; [lra|]. unfold Rdiv. rewrite Rmult_assoc, Rinv_l by lra. lra. }
    destruct (fdiv_val (fmul w e) (fadd fone e) Fm) as [Fq Vq].
    { fold E. lra. }
    { fold E. rewrite Rabs_pos_eq by lra. lra. }
    fold E in Vq.
    assert (B: 0 <= val (fdiv (fmul w e) (fadd fone e)) <= 1).
    { rewrite Vq. split; [apply rnd_ge|apply rnd_le]; auto; lra. }
    set (q := fdiv (fmul w e) (fadd fone e)) in *.
    destruct (fadd_val q fzero Fq F0) as [Fr Vr]; [rewrite V0, Rplus_0_r, Rabs_pos_eq by lra; lra|].
    rewrite V0, Rplus_0_r, rnd_fmt in Vr by apply fmt_val.
    split; auto. rewrite Vr. exact B. }
  destruct G as [G1 G2]. split; auto. split; auto.
  apply num64_valid_iff. constructor; auto.
  split; apply flt_false; auto; rewrite ?V0, ?V1; tauto.
Qed.
