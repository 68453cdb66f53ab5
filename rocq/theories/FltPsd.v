(** * Simplexes with large entries, and PSD matrices, in binary64. *)
From Coq Require Import Reals ZArith Lra Lia List Permutation.
From Flocq Require Import Core Operations Relative Plus_error IEEE754.BinarySingleNaN.
From Verif Require Import Base Flt SpecFlt FltBase FltExp FltNum FltNum2 FltNum3 FltSimp FltSimp2.
Import ListNotations.
Local Open Scope R_scope.

(** ** A simplex never holds NaN or a negative number *)

Lemma Rabs_minus : forall a b, Rabs (a - b) <= Rabs a + Rabs b.
Proof. intros. unfold Rminus. rewrite <- (Rabs_Ropp b). apply Rabs_triang. Qed.

Lemma exp_neg : forall np, np_contract np -> forall x, fin x -> val x <= 0 ->
  fin (np_exp np x) /\ 0 <= val (np_exp np x) <= 2.
Proof.
  intros np C x Fx Hx. assert (U: u = / 9007199254740992) by apply u_val.
  destruct (exp_small np C x Fx) as (F & P & E); [lra|]. split; auto. split; [lra|].
  assert (exp (val x) <= 1) by (rewrite <- exp_0; apply exp_le; auto). pose proof (exp_pos (val x)).
  assert (pow2 (-1074) <= u) by (apply pow2_mono; lia). apply Rabs_le_inv in E. rewrite U in *. lra.
Qed.

Lemma simplex_tame : forall np, np_contract np -> forall x,
  (length x < Z.to_nat 1048576)%nat -> Forall (fun v => fin v /\ Rabs (val v) <= pow2 1000) x ->
  Forall (fun p => not_nan p /\ flt p fzero = false) (simplex64_fold np x).
Proof.
  intros np C x HL HF. assert (U: u = / 9007199254740992) by apply u_val.
  unfold simplex64_fold. cbv zeta. set (row := fzero :: x).
  assert (RF: Forall (fun v => fin v /\ Rabs (val v) <= pow2 1000) row).
  { apply Forall_cons; auto. split; [reflexivity|]. rewrite (proj2 fzero_val), Rabs_R0. left; apply pow2_pos. }
  destruct (fmaxl_fin row) as [IM MM]; [discriminate|eapply Forall_impl; [|exact RF]; cbn; tauto|].
  set (M := fmaxl row) in *.
  pose proof (proj1 (Forall_forall _ _) RF) as RF'. pose proof (proj1 (Forall_forall _ _) MM) as MM'.
  destruct (RF' M IM) as [FM BM].
  assert (P1: pow2 1001 = 2 * pow2 1000) by (change 1001%Z with (1000 + 1)%Z; rewrite pm by lia; reflexivity).
  assert (P2: pow2 1023 = 8388608 * pow2 1000) by (change 1023%Z with (1000 + 23)%Z; rewrite pm by lia; reflexivity).
  pose proof (pow2_pos 1000) as P0.
  assert (Big: 1000000000 <= pow2 1000).
  { apply Rle_trans with (pow2 40); [rewrite pow2_Z by lia; change (IZR (2 ^ 40)) with 1099511627776; lra|apply pow2_mono; lia]. }
  set (ex := fun v => np_exp np (fsub v M)).
  assert (EX: forall v, In v row -> fin (ex v) /\ 0 <= val (ex v) <= 2).
  { intros v Hv. destruct (RF' v Hv) as [Fv Bv].
    destruct (fsub_val v M Fv FM) as [Fd Vd].
    { eapply Rle_trans; [apply Rabs_minus|]. lra. }
    apply exp_neg; auto. rewrite Vd. apply rnd_le; [apply (fmt_IZR 0); reflexivity|].
    pose proof (MM' v Hv). lra. }
  assert (E1: val (ex M) = 1).
  { unfold ex. destruct (fsub_self M FM) as [s ->]. rewrite (exp_zero _ (np_exp_ok _ C)). apply fone_val. }
  assert (SB: 1 <= rsum (map val (map ex row)) <= 2 * 1048576).
  { split.
    - assert (G: forall l, In M l -> incl l row -> 1 <= rsum (map val (map ex l))).
      { induction l as [|a l IH]; [intros []|]. intros J I.
        assert (0 <= rsum (map val (map ex l))).
        { apply rsum_nonneg. rewrite !Forall_map. apply Forall_forall. intros v Hv. apply EX. apply I. right; auto. }
        assert (0 <= val (ex a)) by (apply EX; apply I; left; auto).
        unfold rsum in *. cbn [map fold_right]. destruct J as [->|J]; [lra|].
        assert (1 <= fold_right Rplus 0 (map val (map ex l))); [|lra].
        apply IH; auto. intros v Hv. apply I. right; auto. }
      apply G; auto. apply incl_refl.
    - apply Rle_trans with (2 * INR (length row)).
      + assert (G: forall l, incl l row -> rsum (map val (map ex l)) <= 2 * INR (length l)).
        { induction l as [|a l IH]; intros I; [unfold rsum; cbn; lra|].
          cbn [length]. rewrite S_INR. unfold rsum in *. cbn [map fold_right].
          assert (val (ex a) <= 2) by (apply EX; apply I; left; auto).
          assert (fold_right Rplus 0 (map val (map ex l)) <= 2 * INR (length l)).
          { apply IH. intros v Hv. apply I. right; auto. } lra. }
        apply G. apply incl_refl.
      + apply Rmult_le_compat_l; [lra|]. assert (N: (length row <= Z.to_nat 1048576)%nat) by (cbn [length row]; lia).
        apply le_INR in N. rewrite (INR_Z (Z.to_nat _)), Z2Nat.id in N by lia. exact N. }
  destruct (sum_near _ _ (np_sum_ok _ C (map ex row))) as [Fs Ns].
  { rewrite Forall_map. apply Forall_forall. intros v Hv. destruct (EX v Hv) as [A [B _]]. split; auto. }
  { lra. }
  { rewrite map_length. cbn [length row]. lia. }
  assert (ST: 0 <= steps (map ex row) <= / 4).
  { apply steps_small. rewrite map_length. cbn [length row]. lia. }
  set (s := np_sum np (map ex row)) in *.
  assert (S1: / 2 <= val s <= 4194304).
  { destruct Ns as [L H]. pose proof (exp_ge_lin (- steps (map ex row))).
    pose proof (exp_small_up (steps (map ex row))). split; nra. }
  destruct (log_near _ (np_log_ok _ C) s Fs) as [Fl El]; [lra|].
  assert (LB: Rabs (ln (val s)) <= 4194304).
  { assert (0 < val s) by lra. pose proof (ln_upper (val s) H). pose proof (ln_lower (val s) H).
    assert (/ val s <= 2) by (apply Rmult_le_reg_r with (val s); [lra|rewrite Rinv_l by lra; lra]).
    apply Rabs_le_both; lra. }
  assert (LL: Rabs (val (np_log np s)) <= 10000000).
  { replace (val (np_log np s)) with ((val (np_log np s) - ln (val s)) + ln (val s)) by ring.
    eapply Rle_trans; [apply Rabs_triang|]. rewrite p50, U in El. lra. }
  destruct (fadd_val (np_log np s) M Fl FM) as [Fr Vr].
  { eapply Rle_trans; [apply Rabs_triang|]. lra. }
  assert (Lb: Rabs (val (fadd (np_log np s) M)) <= pow2 1001).
  { rewrite Vr. apply rnd_abs_le; [apply fmt_pow2; lia|].
    eapply Rle_trans; [apply Rabs_triang|]. lra. }
  change (logsumexp64 np row) with (fadd (np_log np s) M).
  set (lse := fadd (np_log np s) M) in *.
  rewrite Forall_map. apply Forall_forall. intros v Hv. destruct (RF' v Hv) as [Fv Bv].
  destruct (fsub_val v lse Fv Fr) as [Fd Vd].
  { eapply Rle_trans; [apply Rabs_minus|]. lra. }
  destruct (exp_sign _ (np_exp_ok _ C) _ Fd) as [E|[F P]].
  - rewrite E. split; reflexivity.
  - split; [apply fin_not_nan; auto|]. apply flt_false; [exact F|reflexivity|].
    rewrite (proj2 fzero_val). auto.
Qed.

(** ** [a + b - b] *)

Lemma fadd_val' : forall x y, fin x -> fin y -> Rabs (rnd (val x + val y)) < bpow radix2 1024 ->
  fin (fadd x y) /\ val (fadd x y) = rnd (val x + val y).
Proof.
  intros x y Hx Hy H. unfold fadd, fin, val in *.
  pose proof (Bplus_correct 53 1024 prec64 emax64 mode_NE x y Hx Hy) as C.
  rewrite rnd_eq in C. rewrite Rlt_bool_true in C by exact H. tauto.
Qed.

Lemma cancel : forall e x, fin e -> fin x -> 1 <= Rabs (val x) ->
  Rabs (val e) < pow2 (-55) * Rabs (val x) -> exists s, fsub (fadd e x) x = B754_zero s.
Proof.
  intros e x Fe Fx Hx He.
  assert (R1: rnd (val e + val x) = val x).
  { rewrite Rplus_comm. apply rnd_absorb; auto; [apply fmt_val|].
    eapply Rle_trans; [|exact Hx]. change 1 with (pow2 0). apply pow2_mono. lia. }
  destruct (fadd_val' e x Fe Fx) as [F V]; [rewrite R1; apply val_max|].
  rewrite R1 in V.
  assert (E: fadd e x = x).
  { apply strict_inj; auto. rewrite V. intros Z. rewrite Z, Rabs_R0 in Hx. lra. }
  rewrite E. apply fsub_self. auto.
Qed.

Lemma feq_refl : forall x, fin x -> feq x x = true.
Proof. intros x H. unfold feq. rewrite Beqb_correct by exact H. apply Req_bool_true. reflexivity. Qed.

Lemma exp_diag_zero : forall np, np_contract np -> forall x, fin x -> val x <= -40 ->
  exists s, exp_diag64 np (fun _ _ => x) 0 0 = B754_zero s.
Proof.
  intros np C x Fx Hx. unfold exp_diag64. cbn [Nat.eqb].
  destruct (exp_small np C x Fx) as (Fe & Pe & Ee); [lra|].
  assert (A: exp (val x) <= pow2 (-57)).
  { eapply Rle_trans; [apply exp_le; exact Hx|]. apply exp_m40. }
  assert (Ax: Rabs (val x) = - val x) by (apply Rabs_left; lra).
  apply cancel; auto; rewrite Ax; [lra|].
  rewrite Rabs_pos_eq by lra.
  assert (T3: pow2 (-55) = 4 * pow2 (-57)) by (change (-55)%Z with (-57 + 2)%Z; rewrite pm by lia; reflexivity).
  assert (D: pow2 (-1074) <= pow2 (-57)) by (apply pow2_mono; lia).
  apply Rabs_le_inv in Ee. pose proof (pow2_pos (-57)). pose proof (exp_pos (val x)).
  assert (8 * u * exp (val x) <= pow2 (-57)) by (rewrite u_val; lra).
  rewrite T3. nra.
Qed.

Lemma psd_underflow : forall np, np_contract np -> forall lb, fin lb -> forall x, fin x -> val x <= -40 ->
  fin (psd64_fold np lb x) /\ val (psd64_fold np lb x) = val lb /\
  psd64_flatten np lb (psd64_fold np lb x) = Err LinAlgError.
Proof.
  intros np C lb Fl x Fx Hx. unfold psd64_fold. cbv zeta.
  destruct (exp_diag_zero np C x Fx Hx) as [s ->].
  assert (E: fmul (B754_zero s) (B754_zero s) = fzero) by (destruct s; reflexivity). rewrite E.
  assert (R1: rnd (val fzero + val lb) = val lb).
  { rewrite (proj2 fzero_val), Rplus_0_l. apply rnd_fmt, fmt_val. }
  destruct (fadd_val' fzero lb eq_refl Fl) as [F V]; [rewrite R1; apply val_max|].
  rewrite R1 in V. split; auto. split; auto.
  set (a := fadd fzero lb) in *. unfold psd64_flatten.
  rewrite flt_false by (auto; lra). rewrite feq_refl by auto. cbn [negb]. cbv zeta.
  destruct (fsub_val a lb F Fl) as [Fb Vb].
  { rewrite V, Rminus_diag_eq, Rabs_R0 by auto. left; apply pow2_pos. }
  rewrite V, Rminus_diag_eq, rnd_fmt in Vb by (auto; apply (fmt_IZR 0); reflexivity).
  rewrite flt_false; auto; [reflexivity|]. rewrite Vb, (proj2 fzero_val). lra.
Qed.

Lemma ln_pow2_512 : forall l, pow2 64 <= l <= pow2 512 -> 0 <= ln l <= 511.
Proof.
  intros l [H1 H2].
  assert (P: 1 <= l).
  { eapply Rle_trans; [|exact H1]. change 1 with (pow2 0). apply pow2_mono. lia. }
  split.
  - destruct P as [P| <-]; [|rewrite ln_1; lra]. left. rewrite <- ln_1. apply ln_increasing; lra.
  - rewrite <- (ln_exp 511). 
    assert (A: l <= exp 511).
    { eapply Rle_trans; [exact H2|]. pose proof (exp_Z_lower 511 512 ltac:(zcheck)) as H.
      rewrite INR_Z in H. exact H. }
    destruct A as [A| <-]; [left; apply ln_increasing; lra|lra].
Qed.

Lemma psd_overflow : forall np, np_contract np -> forall a, fin a -> pow2 128 <= val a ->
  exists y, psd64_flatten np fzero a = Ok y /\ fin y /\ val y = 0 /\
    val (psd64_fold np fzero y) = 1.
Proof.
  intros np C a Fa Ha. destruct fzero_val as [F0 V0].
  assert (Pa: 0 < val a) by (pose proof (pow2_pos 128); lra).
  unfold psd64_flatten. rewrite flt_false by (auto; lra). rewrite feq_refl by auto. cbn [negb]. cbv zeta.
  assert (Eb: fsub a fzero = a).
  { destruct a as [s|s| |s m e B]; try discriminate Fa; [cbn in Pa; lra|]. reflexivity. }
  rewrite Eb. rewrite flt_true by (auto; lra).
  set (l := fsqrt a).
  assert (Fl: fin l) by (apply fsqrt_fin; auto; lra).
  assert (Vl: pow2 64 <= val l <= pow2 512).
  { unfold l. rewrite fsqrt_val. split.
    - apply rnd_ge; [apply fmt_pow2; lia|].
      replace (pow2 64) with (sqrt (pow2 128)); [apply sqrt_le_1; lra || (pose proof (pow2_pos 128); lra)|].
      change 128%Z with (64 + 64)%Z. rewrite pow2_add. apply sqrt_square. left; apply pow2_pos.
    - apply rnd_le; [apply fmt_pow2; lia|].
      replace (pow2 512) with (sqrt (pow2 1024)).
      + apply sqrt_le_1; try lra; [left; apply pow2_pos|].
        pose proof (val_max a) as V. apply Rabs_lt_inv in V. unfold pow2. lra.
      + change 1024%Z with (512 + 512)%Z. rewrite pow2_add. apply sqrt_square. left; apply pow2_pos. }
  assert (Pl: 1 <= val l).
  { eapply Rle_trans; [|apply Vl]. change 1 with (pow2 0). apply pow2_mono. lia. }
  destruct (log_near _ (np_log_ok _ C) l Fl) as [Fg Eg]; [lra|].
  pose proof (ln_pow2_512 _ Vl) as LB.
  assert (G: Rabs (val (np_log np l)) < 512).
  { rewrite p50, u_val, (Rabs_pos_eq (ln (val l))) in Eg by lra. apply Rabs_le_inv in Eg.
    apply Rabs_def1; lra. }
  unfold log_diag64. cbn [Nat.eqb].
  destruct (cancel (np_log np l) l Fg Fl) as [s Es].
  - rewrite Rabs_pos_eq by lra. lra.
  - rewrite (Rabs_pos_eq (val l)) by lra. eapply Rlt_le_trans; [exact G|].
    replace 512 with (pow2 (-55) * pow2 64).
    + apply Rmult_le_compat_l; [left; apply pow2_pos|apply Vl].
    + rewrite <- pow2_add. rewrite pow2_Z by lia. reflexivity.
  - rewrite Es. exists (B754_zero s). repeat split.
    unfold psd64_fold, exp_diag64. cbn [Nat.eqb]. rewrite (exp_zero _ (np_exp_ok _ C)).
    replace (fadd _ fzero) with fone by (destruct s; apply B2SF_inj; reflexivity). apply fone_val.
Qed.

(** ** Accuracy of the diagonal maps *)

Lemma add_back' : forall E b a d, Rabs (a - (E + b)) <= u * Rabs (E + b) ->
  Rabs (d - (a - b)) <= u * Rabs (a - b) -> Rabs (d - E) <= 21 / 10 * u * (Rabs E + Rabs b).
Proof.
  intros E b a d Ha Hd. assert (U: u = / 9007199254740992) by apply u_val.
  assert (S: Rabs (E + b) <= Rabs E + Rabs b) by apply Rabs_triang.
  pose proof (Rabs_pos b) as Pb. pose proof (Rabs_pos E) as PE.
  assert (A: Rabs (a - b - E) <= u * (Rabs E + Rabs b)).
  { replace (a - b - E) with (a - (E + b)) by ring. rewrite U in *. lra. }
  assert (B: Rabs (a - b) <= Rabs E + u * (Rabs E + Rabs b)).
  { replace (a - b) with ((a - b - E) + E) by ring. eapply Rle_trans; [apply Rabs_triang|]. lra. }
  set (ab := Rabs b) in *. set (aE := Rabs E) in *.
  assert (D: Rabs (d - (a - b)) <= u * (aE + u * (aE + ab))).
  { eapply Rle_trans; [exact Hd|]. apply Rmult_le_compat_l; [left; apply pow2_pos|auto]. }
  replace (d - E) with ((d - (a - b)) + (a - b - E)) by ring.
  eapply Rle_trans; [apply Rabs_triang|].
  assert (u * (u * (aE + ab)) <= / 100 * u * (aE + ab)) by (rewrite U; nra).
  rewrite U in *. lra.
Qed.

Lemma add_sub_fl : forall e b, fin e -> fin b -> Rabs (val e) <= pow2 1020 -> Rabs (val b) <= pow2 1020 ->
  fin (fsub (fadd e b) b) /\
  Rabs (val (fsub (fadd e b) b) - val e) <= 21 / 10 * u * (Rabs (val e) + Rabs (val b)).
Proof.
  intros e b Fe Fb He Hb.
  assert (P: pow2 1021 = 2 * pow2 1020) by (change 1021%Z with (1020 + 1)%Z; rewrite pm by lia; reflexivity).
  assert (P': pow2 1023 = 8 * pow2 1020) by (change 1023%Z with (1020 + 3)%Z; rewrite pm by lia; reflexivity).
  pose proof (pow2_pos 1020).
  assert (A: Rabs (val e + val b) <= pow2 1021) by (eapply Rle_trans; [apply Rabs_triang|]; lra).
  destruct (fadd_val e b Fe Fb) as [Fa Va]; [lra|].
  assert (B: Rabs (val (fadd e b)) <= pow2 1021) by (rewrite Va; apply rnd_abs_le; auto; apply fmt_pow2; lia).
  destruct (fsub_val (fadd e b) b Fa Fb) as [Fd Vd]; [eapply Rle_trans; [apply Rabs_minus|]; lra|].
  split; auto. apply add_back' with (val (fadd e b)).
  - rewrite Va. apply rnd_add_error; apply fmt_val.
  - rewrite Vd. apply rnd_sub_error; apply fmt_val.
Qed.

Lemma exp_diag_accurate : forall np, np_contract np -> forall m i, fin (m i i) -> Rabs (val (m i i)) <= 700 ->
  fin (exp_diag64 np m i i) /\
  Rabs (val (exp_diag64 np m i i) - exp (val (m i i)))
    <= pow2 (-49) * (exp (val (m i i)) + Rabs (val (m i i))).
Proof.
  intros np C m i F H. assert (U: u = / 9007199254740992) by apply u_val.
  unfold exp_diag64. rewrite Nat.eqb_refl. set (x := m i i) in *.
  destruct (exp_mid _ H) as [X1 X2]. assert (H' := Rabs_le_inv _ _ H).
  destruct (exp_small np C x F) as (Fe & Pe & Ee); [lra|].
  assert (T: pow2 (-1074) <= / 1000 * u * exp (val x)).
  { assert (pow2 (-1074) <= / 1000 * u * pow2 (-1010)).
    { change (-1010)%Z with (-1074 + 64)%Z. rewrite pm by lia. pose proof (pow2_pos (-1074)).
      change (IZR (2 ^ 64)) with 18446744073709551616. rewrite U. lra. }
    rewrite U in *. lra. }
  destruct (add_sub_fl (np_exp np x) x Fe F) as [Fd Ed].
  { rewrite Rabs_pos_eq by lra. apply Rle_trans with (pow2 1011); [lra|apply pow2_mono; lia]. }
  { apply Rle_trans with (pow2 10); [rewrite pow2_Z by lia; change (IZR (2 ^ 10)) with 1024; lra|apply pow2_mono; lia]. }
  split; auto. rewrite p49. rewrite (Rabs_pos_eq (val (np_exp np x))) in Ed by lra.
  set (d := fsub _ _) in *. set (e := val (np_exp np x)) in *. set (X := exp (val x)) in *.
  apply Rabs_le_inv in Ed, Ee. pose proof (Rabs_pos (val x)). pose proof (exp_pos (val x)).
  rewrite U in *. apply Rabs_le_both; lra.
Qed.

Lemma ln_abs : forall m, pow2 (-1000) <= m <= pow2 1000 -> Rabs (ln m) <= 1000.
Proof.
  intros m [H1 H2]. assert (0 < m) by (pose proof (pow2_pos (-1000)); lra).
  pose proof (exp_Z_lower 1000 1000 ltac:(zcheck)) as E. rewrite INR_Z in E.
  change (Z.of_nat 1000) with 1000%Z in E.
  apply Rabs_le_both.
  - rewrite <- (ln_exp (- (1000))). assert (A: exp (- (1000)) <= m).
    { eapply Rle_trans; [|exact H1]. rewrite exp_inv. change (-1000)%Z with (- (1000))%Z. rewrite pow2_neg.
      apply Rinv_le_contravar; [apply pow2_pos|exact E]. }
    destruct A as [A| <-]; [left; apply ln_increasing; auto; apply exp_pos|lra].
  - rewrite <- (ln_exp 1000). assert (A: m <= exp 1000) by lra.
    destruct A as [A| ->]; [left; apply ln_increasing; auto|lra].
Qed.

Lemma log_diag_accurate : forall np, np_contract np -> forall m i, fin (m i i) ->
  pow2 (-1000) <= val (m i i) <= pow2 1000 ->
  fin (log_diag64 np m i i) /\
  Rabs (val (log_diag64 np m i i) - ln (val (m i i)))
    <= pow2 (-49) * (Rabs (ln (val (m i i))) + val (m i i)).
Proof.
  intros np C m i F H. assert (U: u = / 9007199254740992) by apply u_val.
  unfold log_diag64. rewrite Nat.eqb_refl. set (x := m i i) in *.
  assert (P: 0 < val x) by (pose proof (pow2_pos (-1000)); lra).
  destruct (log_near _ (np_log_ok _ C) x F P) as [Fl El]. rewrite p50 in El.
  pose proof (ln_abs _ H) as B.
  assert (BL: Rabs (val (np_log np x)) <= Rabs (ln (val x)) * (101 / 100)).
  { replace (val (np_log np x)) with ((val (np_log np x) - ln (val x)) + ln (val x)) by ring.
    eapply Rle_trans; [apply Rabs_triang|]. pose proof (Rabs_pos (ln (val x))). rewrite U in El. lra. }
  destruct (add_sub_fl (np_log np x) x Fl F) as [Fd Ed].
  { apply Rle_trans with (pow2 11); [rewrite pow2_Z by lia; change (IZR (2 ^ 11)) with 2048; lra|apply pow2_mono; lia]. }
  { rewrite Rabs_pos_eq by lra. apply Rle_trans with (pow2 1000); [lra|apply pow2_mono; lia]. }
  split; auto. rewrite p49. rewrite (Rabs_pos_eq (val x)) in Ed by lra.
  set (d := fsub _ _) in *. set (L := val (np_log np x)) in *. set (X := ln (val x)) in *.
  replace (val d - X) with ((val d - L) + (L - X)) by ring.
  eapply Rle_trans; [apply Rabs_triang|]. pose proof (Rabs_pos X). rewrite U in *. lra.
Qed.

Lemma off_diag : forall np m i j, i <> j -> fin (m i j) ->
  (fin (exp_diag64 np m i j) /\ val (exp_diag64 np m i j) = val (m i j)) /\
  (fin (log_diag64 np m i j) /\ val (log_diag64 np m i j) = val (m i j)).
Proof.
  intros np m i j N F. unfold exp_diag64, log_diag64. rewrite (proj2 (Nat.eqb_neq i j) N).
  assert (G: fin (fsub (fadd fzero (m i j)) fzero) /\ val (fsub (fadd fzero (m i j)) fzero) = val (m i j)).
  { set (x := m i j) in *.
    assert (R1: rnd (val fzero + val x) = val x).
    { rewrite (proj2 fzero_val), Rplus_0_l. apply rnd_fmt, fmt_val. }
    destruct (fadd_val' fzero x eq_refl F) as [Fa Va]; [rewrite R1; apply val_max|]. rewrite R1 in Va.
    pose proof (Bminus_correct 53 1024 prec64 emax64 mode_NE (fadd fzero x) fzero Fa eq_refl) as D.
    rewrite rnd_eq in D. change (B2R (fadd fzero x)) with (val (fadd fzero x)) in D.
    change (B2R fzero) with (val fzero) in D.
    rewrite Va, (proj2 fzero_val), Rminus_0_r, rnd_fmt in D by apply fmt_val.
    rewrite Rlt_bool_true in D by apply val_max. unfold fin, fsub. unfold val at 1. tauto. }
  auto.
Qed.
