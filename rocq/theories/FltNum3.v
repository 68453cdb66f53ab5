(** * Numeric arrays in binary64: accuracy of the round trip. *)
From Coq Require Import Reals ZArith Lra Lia List Permutation.
From Flocq Require Import Core Operations Relative Plus_error IEEE754.BinarySingleNaN.
From Verif Require Import Base Flt SpecFlt FltBase FltExp FltNum FltNum2.
Import ListNotations.
Local Open Scope R_scope.

Lemma ln_upper : forall z, 0 < z -> ln z <= z - 1.
Proof.
  intros z H. replace z with (1 + (z - 1)) at 1 by ring.
  destruct (Req_dec (z - 1) 0) as [E|E].
  - rewrite E, Rplus_0_r, ln_1. lra.
  - apply Rle_trans with (ln (exp (z - 1))); [|rewrite ln_exp; lra].
    left. apply ln_increasing; [lra|]. apply exp_ineq1. auto.
Qed.
Lemma ln_lower : forall z, 0 < z -> 1 - / z <= ln z.
Proof.
  intros z H. pose proof (ln_upper (/ z) (Rinv_0_lt_compat _ H)) as L.
  rewrite ln_Rinv in L by auto. lra.
Qed.

Lemma ln_near : forall X d th, 0 < X -> Rabs (d - X) <= th * X -> 0 <= th <= / 100 ->
  0 < d /\ Rabs (ln d - ln X) <= 102 / 100 * th.
Proof.
  intros X d th HX H Ht. apply Rabs_le_inv in H.
  assert (Hd: 0 < d) by nra. split; auto.
  set (z := d / X). assert (Hz: d = z * X) by (unfold z; field; lra).
  assert (Z: 1 - th <= z <= 1 + th).
  { split; apply Rmult_le_reg_r with X; auto; rewrite <- Hz; lra. }
  assert (Pz: 0 < z) by lra.
  rewrite Hz, ln_mult by auto. replace (ln z + ln X - ln X) with (ln z) by ring.
  pose proof (ln_upper z Pz). pose proof (ln_lower z Pz).
  assert (/ z <= 1 + 102 / 100 * th).
  { apply Rmult_le_reg_r with z; auto. rewrite Rinv_l by lra. nra. }
  apply Rabs_le_both; lra.
Qed.

(** Adding [b] and taking it away again. *)
Lemma add_back : forall E b a d, 0 < E -> Rabs (a - (E + b)) <= u * Rabs (E + b) ->
  Rabs (d - (a - b)) <= u * Rabs (a - b) -> Rabs (d - E) <= 21 / 10 * u * (E + Rabs b).
Proof.
  intros E b a d HE Ha Hd. assert (U: u = / 9007199254740992) by apply u_val.
  assert (S: Rabs (E + b) <= E + Rabs b).
  { eapply Rle_trans; [apply Rabs_triang|]. rewrite (Rabs_pos_eq E); lra. }
  pose proof (Rabs_pos b) as Pb. set (ab := Rabs b) in *.
  assert (A: Rabs (a - b - E) <= u * (E + ab)).
  { replace (a - b - E) with (a - (E + b)) by ring. rewrite U in *. lra. }
  assert (B: Rabs (a - b) <= E + u * (E + ab)).
  { apply Rabs_le_inv in A. apply Rabs_le_both; rewrite U in *; lra. }
  apply Rabs_le_inv in A.
  assert (D: Rabs (d - (a - b)) <= u * (E + u * (E + ab))).
  { eapply Rle_trans; [exact Hd|]. apply Rmult_le_compat_l; [left; apply pow2_pos|auto]. }
  apply Rabs_le_inv in D.
  assert (u * (u * (E + ab)) <= / 100 * u * (E + ab)) by (rewrite U; nra).
  apply Rabs_le_both; rewrite ?U in *; lra.
Qed.

Lemma div_mul : forall a b, b <> 0 -> a / b * b = a.
Proof. intros. field. auto. Qed.

Lemma recover_log : forall X E b d ly, 0 < X -> 
  Rabs (E - X) <= 8 * u * X + pow2 (-1074) -> pow2 (-1010) <= X ->
  Rabs (d - E) <= 21 / 10 * u * (E + Rabs b) -> Rabs b <= pow2 40 * X ->
  0 < d /\
  (Rabs (ly - ln d) <= pow2 (-50) * Rabs (ln d) ->
   Rabs (ly - ln X) <= pow2 (-49) * (1 + Rabs (ln X) + Rabs b / X)).
Proof.
  intros X E b d ly HX HE HT Hd Hb.
  assert (U: u = / 9007199254740992) by apply u_val.
  assert (T: pow2 (-1074) <= / 1000 * u * X).
  { replace (pow2 (-1074)) with (pow2 (-64) * pow2 (-1010)) by (rewrite <- pow2_add; reflexivity).
    apply Rle_trans with (pow2 (-64) * X); [apply Rmult_le_compat_l; auto; left; apply pow2_pos|].
    apply Rmult_le_compat_r; [lra|]. unfold u. change (-53)%Z with (-64 + 11)%Z. rewrite pm by lia.
    change (IZR (2 ^ 11)) with 2048. pose proof (pow2_pos (-64)). lra. }
  assert (P40: pow2 40 = 1099511627776) by (rewrite pow2_Z by lia; reflexivity).
  rewrite P40 in Hb. pose proof (Rabs_pos b) as Pb.
  set (rho := Rabs b / X). assert (Hr: Rabs b = rho * X) by (unfold rho; rewrite div_mul; lra).
  assert (R0: 0 <= rho) by (apply Rmult_le_pos; [auto|left; apply Rinv_0_lt_compat; auto]).
  assert (R1: rho <= 1099511627776) by (apply Rmult_le_reg_r with X; auto; rewrite <- Hr; auto).
  rewrite Hr in Hd.
  set (th := u * (103 / 10 + 21 / 10 * rho)).
  assert (Ht: 0 <= th <= / 100) by (unfold th; rewrite U; lra).
  assert (Rx: 0 <= rho * X) by nra.
  assert (D: Rabs (d - X) <= th * X).
  { unfold th. replace (u * (103 / 10 + 21 / 10 * rho) * X) with (u * (103 / 10 * X + 21 / 10 * (rho * X))) by ring.
    apply Rabs_le_inv in HE. apply Rabs_le_inv in Hd.
    apply Rabs_le_both; rewrite U in *; lra. }
  destruct (ln_near X d th HX D Ht) as [Pd L]. split; auto. intros Hl.
  rewrite p50 in Hl. rewrite p49.
  assert (Q: Rabs (ln d) <= Rabs (ln X) + 102 / 100 * th).
  { replace (ln d) with ((ln d - ln X) + ln X) by ring.
    eapply Rle_trans; [apply Rabs_triang|]. lra. }
  replace (ly - ln X) with ((ly - ln d) + (ln d - ln X)) by ring.
  eapply Rle_trans; [apply Rabs_triang|].
  pose proof (Rabs_pos (ln X)). unfold th in *. rewrite U in *. lra.
Qed.

Lemma low_flatten : forall np lb a, fin lb -> flt a lb = false ->
  num64_flatten np lb finf [a] = Ok [np_log np (fsub a lb)].
Proof.
  intros np lb a F H. unfold num64_flatten.
  replace (num64_valid lb finf [a]) with true.
  - cbn [map]. unfold unconstrain64. cbn [is_pinf finf]. rewrite is_ninf_fin by auto. reflexivity.
  - symmetry. apply num64_valid_iff. constructor; auto. split; auto. apply flt_pinf.
Qed.
Lemma up_flatten : forall np ub a, fin ub -> flt ub a = false ->
  num64_flatten np fninf ub [a] = Ok [fmul fminus1 (np_log np (fsub ub a))].
Proof.
  intros np ub a F H. unfold num64_flatten.
  replace (num64_valid fninf ub [a]) with true.
  - cbn [map]. unfold unconstrain64. rewrite is_pinf_fin by auto. reflexivity.
  - symmetry. apply num64_valid_iff. constructor; auto. split; auto. apply flt_ninf.
Qed.

Lemma exp_mid : forall x, Rabs x <= 700 -> pow2 (-1010) <= exp x <= pow2 1010.
Proof.
  intros x H. apply Rabs_le_inv in H. split.
  - eapply Rle_trans; [apply exp_m700|]. apply exp_le. lra.
  - eapply Rle_trans; [|apply exp_700]. apply exp_le. lra.
Qed.

Lemma exp_fl_pos : forall np, np_contract np -> forall x, fin x -> Rabs (val x) <= 700 ->
  0 < val (np_exp np x).
Proof.
  intros np C x Fx Hx. assert (U: u = / 9007199254740992) by apply u_val.
  destruct (exp_mid _ Hx) as [L _].
  destruct (exp_small np C x Fx) as (_ & _ & E); [apply Rabs_le_inv in Hx; lra|].
  assert (T: pow2 (-1074) <= / 1000 * pow2 (-1010)).
  { change (-1010)%Z with (-1074 + 64)%Z. rewrite pm by lia. pose proof (pow2_pos (-1074)).
    change (IZR (2 ^ 64)) with 18446744073709551616. lra. }
  apply Rabs_le_inv in E. rewrite U in E. pose proof (pow2_pos (-1010)). lra.
Qed.

Lemma lower_round_trip : forall np, np_contract np -> forall lb, fin lb -> Rabs (val lb) <= pow2 1000 ->
  forall x, fin x -> Rabs (val x) <= 700 -> Rabs (val lb) <= pow2 40 * exp (val x) ->
  exists y, num64_flatten np lb finf (num64_fold np lb finf [x]) = Ok [y] /\ fin y /\
    Rabs (val y - val x) <= pow2 (-49) * (1 + Rabs (val x) + Rabs (val lb) / exp (val x)).
Proof.
  intros np C lb Fl Hl x Fx Hx Hb.
  destruct (constrain64_open np C lb finf (or_introl Fl) (or_intror eq_refl) (or_intror eq_refl) x
              (fin_not_nan _ Fx)) as (_ & V & _).
  cbn [num64_fold map]. rewrite low_flatten by auto.
  unfold constrain64. cbn [is_pinf finf]. rewrite is_ninf_fin by auto.
  destruct (exp_mid _ Hx) as [X1 X2].
  assert (Hx' := Rabs_le_inv _ _ Hx).
  destruct (exp_small np C x Fx ltac:(lra)) as (Fe & E0 & Ee).
  pose proof (exp_fl_pos np C x Fx Hx) as Pe.
  set (e := np_exp np x) in *.
  assert (B1: pow2 1011 + pow2 1000 <= pow2 1012).
  { change 1012%Z with (1011 + 1)%Z. rewrite pm by lia. change (IZR (2 ^ 1)) with 2.
    assert (pow2 1000 <= pow2 1011) by (apply pow2_mono; lia). lra. }
  assert (B2: pow2 1012 + pow2 1000 <= pow2 1023).
  { assert (pow2 1013 <= pow2 1023) by (apply pow2_mono; lia).
    assert (pow2 1013 = 2 * pow2 1012) by (change 1013%Z with (1012 + 1)%Z; rewrite pm by lia; reflexivity).
    assert (pow2 1000 <= pow2 1012) by (apply pow2_mono; lia). lra. }
  pose proof (pow2_pos 1000).
  assert (Ab: Rabs (val e + val lb) <= pow2 1012).
  { eapply Rle_trans; [apply Rabs_triang|]. rewrite (Rabs_pos_eq (val e)) by lra. lra. }
  destruct (fadd_val e lb Fe Fl) as [Fa Va]; [lra|].
  assert (Aa: Rabs (val (fadd e lb)) <= pow2 1012).
  { rewrite Va. apply rnd_abs_le; auto. apply fmt_pow2. lia. }
  set (a := fadd e lb) in *.
  destruct (fsub_val a lb Fa Fl) as [Fd Vd].
  { unfold Rminus. eapply Rle_trans; [apply Rabs_triang|]. rewrite Rabs_Ropp. lra. }
  set (d := fsub a lb) in *.
  assert (D: Rabs (val d - val e) <= 21 / 10 * u * (val e + Rabs (val lb))).
  { apply add_back with (val a); auto.
    - rewrite Va. apply rnd_add_error; apply fmt_val.
    - rewrite Vd. apply rnd_sub_error; apply fmt_val. }
  destruct (recover_log _ _ _ _ (val (np_log np d)) (exp_pos (val x)) Ee X1 D Hb) as [Pd L].
  destruct (log_near _ (np_log_ok _ C) d Fd Pd) as [Fy Ey].
  rewrite ln_exp in L. exists (np_log np d). auto.
Qed.

Lemma neg_val : forall x, fin x -> fin (fmul fminus1 x) /\ val (fmul fminus1 x) = - val x.
Proof.
  intros x Hf. unfold fin, fmul in *.
  pose proof (Bmult_correct 53 1024 prec64 emax64 mode_NE fminus1 x) as C.
  assert (V: val fminus1 = -1).
  { unfold val, fminus1, flit. cbn. unfold F2R, Fnum, Fexp.
    change (bpow radix2 (-52)) with (/ IZR (2 ^ 52)). cbn. lra. }
  rewrite rnd_eq in C. change (B2R fminus1) with (val fminus1) in C. rewrite V in C.
  change (B2R x) with (val x) in C.
  replace (-1 * val x) with (- val x) in C by ring.
  rewrite rnd_fmt in C by (apply fmt_opp, fmt_val). rewrite Rabs_Ropp in C.
  rewrite Rlt_bool_true in C by apply val_max.
  rewrite Hf in C. unfold val at 1. tauto.
Qed.

Lemma upper_round_trip : forall np, np_contract np -> forall ub, fin ub -> Rabs (val ub) <= pow2 1000 ->
  forall x, fin x -> Rabs (val x) <= 700 -> Rabs (val ub) <= pow2 40 * exp (- val x) ->
  exists y, num64_flatten np fninf ub (num64_fold np fninf ub [x]) = Ok [y] /\ fin y /\
    Rabs (val y - val x) <= pow2 (-49) * (1 + Rabs (val x) + Rabs (val ub) / exp (- val x)).
Proof.
  intros np C lb Fl Hl x Fx Hx Hb.
  destruct (constrain64_open np C fninf lb (or_intror eq_refl) (or_introl Fl) (or_introl eq_refl) x
              (fin_not_nan _ Fx)) as (_ & _ & V).
  cbn [num64_fold map]. rewrite up_flatten by auto.
  unfold constrain64. rewrite is_pinf_fin by auto. change (is_ninf fninf) with true. cbv iota.
  destruct (neg_val x Fx) as [Fn Vn].
  rewrite <- Vn in *. set (n := fmul fminus1 x) in *.
  assert (Hn: Rabs (val n) <= 700) by (rewrite Vn, Rabs_Ropp; auto).
  destruct (exp_mid _ Hn) as [X1 X2].
  assert (Hx' := Rabs_le_inv _ _ Hn).
  destruct (exp_small np C n Fn ltac:(lra)) as (Fe & E0 & Ee).
  pose proof (exp_fl_pos np C n Fn Hn) as Pe.
  set (e := np_exp np n) in *.
  assert (B1: pow2 1011 + pow2 1000 <= pow2 1012).
  { change 1012%Z with (1011 + 1)%Z. rewrite pm by lia. change (IZR (2 ^ 1)) with 2.
    assert (pow2 1000 <= pow2 1011) by (apply pow2_mono; lia). lra. }
  assert (B2: pow2 1012 + pow2 1000 <= pow2 1023).
  { assert (pow2 1013 <= pow2 1023) by (apply pow2_mono; lia).
    assert (pow2 1013 = 2 * pow2 1012) by (change 1013%Z with (1012 + 1)%Z; rewrite pm by lia; reflexivity).
    assert (pow2 1000 <= pow2 1012) by (apply pow2_mono; lia). lra. }
  pose proof (pow2_pos 1000).
  assert (Ab: Rabs (val lb - val e) <= pow2 1012).
  { unfold Rminus. eapply Rle_trans; [apply Rabs_triang|]. rewrite Rabs_Ropp, (Rabs_pos_eq (val e)) by lra. lra. }
  destruct (fsub_val lb e Fl Fe) as [Fa Va]; [lra|].
  assert (Aa: Rabs (val (fsub lb e)) <= pow2 1012).
  { rewrite Va. apply rnd_abs_le; auto. apply fmt_pow2. lia. }
  set (a := fsub lb e) in *.
  destruct (fsub_val lb a Fl Fa) as [Fd Vd].
  { unfold Rminus. eapply Rle_trans; [apply Rabs_triang|]. rewrite Rabs_Ropp. lra. }
  set (d := fsub lb a) in *.
  assert (D: Rabs (val d - val e) <= 21 / 10 * u * (val e + Rabs (val lb))).
  { rewrite <- (Rabs_Ropp (val lb)). apply add_back with (- val a); auto.
    - rewrite Va. pose proof (rnd_sub_error (val lb) (val e) (fmt_val _) (fmt_val _)) as R1.
      rewrite <- Rabs_Ropp. replace (- (- rnd (val lb - val e) - (val e + - val lb)))
        with (rnd (val lb - val e) - (val lb - val e)) by ring.
      rewrite <- (Rabs_Ropp (val e + - val lb)).
      replace (- (val e + - val lb)) with (val lb - val e) by ring. exact R1.
    - rewrite Vd. pose proof (rnd_sub_error (val lb) (val a) (fmt_val _) (fmt_val _)) as R1.
      replace (- val a - - val lb) with (val lb - val a) by ring. exact R1. }
  destruct (recover_log _ _ _ _ (val (np_log np d)) (exp_pos (val n)) Ee X1 D Hb) as [Pd L].
  destruct (log_near _ (np_log_ok _ C) d Fd Pd) as [Fy Ey].
  destruct (neg_val _ Fy) as [Fy' Vy'].
  rewrite ln_exp in L. exists (fmul fminus1 (np_log np d)). repeat split; auto.
  rewrite Vy'. specialize (L Ey).
  replace (- val (np_log np d) - val x) with (- (val (np_log np d) - val n)) by (rewrite Vn; ring).
  rewrite Rabs_Ropp. replace (Rabs (val x)) with (Rabs (val n)) by (rewrite Vn; apply Rabs_Ropp). exact L.
Qed.

(** No bounds: nothing happens. *)
Lemma free_round_trip : forall np x, num64_fold np fninf finf x = x /\
  num64_flatten np fninf finf x = Ok x.
Proof.
  intros np x. split.
  - unfold num64_fold. rewrite <- (map_id x) at 2. apply map_ext. reflexivity.
  - unfold num64_flatten. replace (num64_valid fninf finf x) with true.
    + f_equal. rewrite <- (map_id x) at 2. apply map_ext. reflexivity.
    + symmetry. apply num64_valid_iff. apply Forall_forall. intros. split; [apply flt_ninf|apply flt_pinf].
Qed.
