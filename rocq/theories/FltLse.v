(** * [logsumexp] in binary64, for rows of any finite numbers. *)
From Coq Require Import Reals ZArith Lra Lia List Permutation.
From Flocq Require Import Core Operations Relative Plus_error IEEE754.BinarySingleNaN.
From Verif Require Import Base Flt SpecFlt FltBase FltExp FltNum FltNum2 FltNum3 FltSimp FltSimp2.
Import ListNotations.
Local Open Scope R_scope.

(** ** Adding something small never overflows *)
Lemma fadd_small : forall a b, fin a -> fin b -> Rabs (val a) <= pow2 969 ->
  fin (fadd a b) /\ val (fadd a b) = rnd (val a + val b).
Proof.
  intros a b Fa Fb H. set (z := val a + val b).
  assert (N: Rabs (rnd z - z) <= Rabs (val b - z)).
  { destruct (round_N_pt radix2 fx64 (fun n => negb (Z.even n)) z) as [_ P]. apply (P (val b)). apply fmt_val. }
  replace (val b - z) with (- val a) in N by (unfold z; ring). rewrite Rabs_Ropp in N.
  pose proof (abs_B2R_le_emax_minus_prec 53 1024 prec64 b) as M. fold (val b) in M.
  assert (B: Rabs (rnd z) < bpow radix2 1024).
  { replace (rnd z) with ((rnd z - z) + (val a + val b)) by (unfold z; ring).
    eapply Rle_lt_trans; [apply Rabs_triang|]. pose proof (Rabs_triang (val a) (val b)).
    change (bpow radix2 (1024 - 53)) with (pow2 971) in M.
    assert (E: pow2 971 = 4 * pow2 969) by (change 971%Z with (969 + 2)%Z; rewrite pm by lia; reflexivity).
    pose proof (pow2_pos 969). lra. }
  unfold fadd, fin, val in *.
  pose proof (Bplus_correct 53 1024 prec64 emax64 mode_NE a b Fa Fb) as C.
  rewrite rnd_eq in C. rewrite Rlt_bool_true in C by exact B. tauto.
Qed.

(** ** Subtracting the maximum *)
Lemma sub_max : forall v m, fin v -> fin m -> val v <= val m ->
  fin (fsub v m) /\ Rabs (val (fsub v m) - (val v - val m)) <= u * Rabs (val v - val m) \/
  fsub v m = fninf /\ val v - val m <= - pow2 1023.
Proof.
  intros v m Fv Fm H. pose proof (Bminus_correct 53 1024 prec64 emax64 mode_NE v m Fv Fm) as C.
  rewrite rnd_eq in C. fold (val v) (val m) (fsub v m) in C.
  destruct (Rlt_bool_spec (Rabs (rnd (val v - val m))) (bpow radix2 1024)) as [B|B].
  - left. destruct C as (V & F & _). split; [exact F|]. change (B2R (fsub v m)) with (val (fsub v m)) in V. rewrite V.
    apply rnd_sub_error; apply fmt_val.
  - right.
    assert (D: val v - val m <= - pow2 1023).
    { apply Rnot_lt_le. intros L. apply (Rlt_irrefl (bpow radix2 1024)). eapply Rle_lt_trans; [exact B|].
      apply lt_max. apply rnd_abs_le; [apply fmt_pow2; lia|].
      pose proof (pow2_pos 1023). rewrite (Rabs_left1 (val v - val m)) by lra. lra. }
    split; [|exact D].
    assert (Nv: val v < 0).
    { apply Rnot_le_lt. intros P. apply (Rlt_not_le _ _ (abs_B2R_lt_emax 53 1024 m)).
      eapply Rle_trans; [exact B|]. apply rnd_abs_le; [apply generic_format_abs, (fmt_val m)|].
      change (B2R m) with (val m). rewrite (Rabs_left1 (val v - val m)), (Rabs_pos_eq (val m)) by lra. lra. }
    destruct C as [C _]. assert (S: Bsign v = true).
    { destruct v as [s|s| |s mm e Hm]; cbn in *; try discriminate; try lra; destruct s; auto.
      exfalso. unfold val in Nv. cbn in Nv. pose proof (F2R_ge_0 radix2 (Float radix2 (Zpos mm) e) ltac:(cbn; lia)). lra. }
    rewrite S in C. unfold binary_overflow in C. cbn in C.
    destruct (fsub v m) as [s|s| |s mm e Hm]; cbn in C; try discriminate. injection C as ->. reflexivity.
Qed.

Lemma two_le_exp : forall s, 2 * s <= exp s.
Proof.
  intros s. pose proof (exp_ge_lin (s / 2)) as A. pose proof (exp_pos s).
  destruct (Rle_or_lt s 0); [lra|].
  replace (exp s) with (exp (s / 2) * exp (s / 2)) by (rewrite <- exp_plus; f_equal; field).
  assert ((1 + s / 2) * (1 + s / 2) <= exp (s / 2) * exp (s / 2)) by (apply Rmult_le_compat; lra).
  pose proof (Rle_0_sqr (1 - s / 2)) as Q. unfold Rsqr in Q. lra.
Qed.
Lemma exp_diff : forall a b, Rabs (exp a - exp b) <= Rabs (a - b) * exp (Rmax a b).
Proof.
  assert (G: forall a b, b <= a -> 0 <= exp a - exp b <= (a - b) * exp a).
  { intros a b H. pose proof (exp_le b a H). split; [lra|].
    replace (exp b) with (exp a * exp (b - a)) by (rewrite <- exp_plus; f_equal; ring).
    pose proof (exp_ge_lin (b - a)). pose proof (exp_pos a). nra. }
  intros a b. destruct (Rle_or_lt b a) as [H|H].
  - rewrite Rmax_left by lra. destruct (G a b H). rewrite !Rabs_pos_eq; lra.
  - rewrite Rmax_right by lra. destruct (G b a); [lra|]. rewrite !Rabs_left1; lra.
Qed.

(** Each term is right up to 2^-49. *)
Lemma term_near : forall np, np_contract np -> forall v m, fin v -> fin m -> val v <= val m ->
  fin (np_exp np (fsub v m)) /\ 0 <= val (np_exp np (fsub v m)) /\
  Rabs (val (np_exp np (fsub v m)) - exp (val v - val m)) <= pow2 (-49).
Proof.
  intros np C v m Fv Fm H. destruct (np_exp_ok np C) as [_ _ EN _ ES EX _].
  set (d := val v - val m) in *. assert (Hd: d <= 0) by (unfold d; lra).
  destruct (sub_max v m Fv Fm H) as [[F E]|[-> E]]; fold d in E.
  - set (t := fsub v m) in *. rewrite (Rabs_left1 d) in E by auto.
    assert (U: u = pow2 (-53)) by reflexivity. pose proof (pow2_pos (-53)) as Up. rewrite <- U in Up.
    assert (U1: u <= / 2) by (rewrite u_val; lra).
    apply Rabs_le_inv in E. assert (T: val t <= d / 2) by nra.
    assert (T1: exp (val t) <= 1) by (rewrite <- exp_0; apply exp_le; lra).
    destruct (EX t F) as [F2 E2]; [eapply Rle_trans; [exact T1|]; apply small_huge; lra|].
    destruct (ES t F) as [I|[_ P]]; [rewrite I in F2; discriminate|]. split; auto. split; auto.
    assert (D: Rabs (exp (val t) - exp d) <= u).
    { eapply Rle_trans; [apply exp_diff|].
      assert (M: exp (Rmax (val t) d) <= exp (d / 2)) by (apply exp_le, Rmax_lub; lra).
      pose proof (two_le_exp (- d / 2)) as X. pose proof (exp_pos (d / 2)) as Y.
      assert (Z: exp (d / 2) * exp (- d / 2) = 1) by (rewrite <- exp_plus; replace (d / 2 + - d / 2) with 0 by field; apply exp_0).
      assert (W: - d * exp (d / 2) <= 1).
      { rewrite <- Z. rewrite (Rmult_comm (exp (d / 2))). apply Rmult_le_compat_r; lra. }
      apply Rle_trans with ((u * - d) * exp (d / 2)).
      - apply Rmult_le_compat; [apply Rabs_pos|left; apply exp_pos|apply Rabs_le; lra|auto].
      - rewrite Rmult_assoc. rewrite <- (Rmult_1_r u) at 2. apply Rmult_le_compat_l; lra. }
    replace (val (np_exp np t) - exp d) with ((val (np_exp np t) - exp (val t)) + (exp (val t) - exp d)) by ring.
    eapply Rle_trans; [apply Rabs_triang|].
    assert (Q: pow2 (-50) * exp (val t) <= pow2 (-50)).
    { pose proof (pow2_pos (-50)). rewrite <- (Rmult_1_r (pow2 (-50))) at 2. apply Rmult_le_compat_l; lra. }
    assert (R1: pow2 (-1074) <= pow2 (-53)) by (apply pow2_mono; lia).
    assert (R2: pow2 (-49) = 16 * u) by (rewrite u_val; unfold pow2; cbn; lra).
    assert (R3: pow2 (-50) = 8 * u) by (rewrite u_val; unfold pow2; cbn; lra).
    rewrite <- U in R1. lra.
  - rewrite EN. split; [apply fzero_val|]. rewrite (proj2 fzero_val). split; [lra|].
    rewrite Rminus_0_l, Rabs_Ropp, Rabs_pos_eq by (left; apply exp_pos).
    apply Rle_trans with (exp (- pow2 1023)); [apply exp_le; auto|].
    rewrite exp_inv. pose proof (exp_ge_lin (pow2 1023)) as X. pose proof (pow2_pos 1023).
    assert (Y: pow2 49 <= pow2 1023) by (apply pow2_mono; lia).
    apply Rle_trans with (/ pow2 49).
    + apply Rinv_le_contravar; [apply pow2_pos|lra].
    + right. unfold pow2. rewrite <- bpow_opp. reflexivity.
Qed.

Lemma rsum_abs_diff : forall A (f g : A -> R) e l, (forall a, In a l -> Rabs (f a - g a) <= e) ->
  Rabs (rsum (map f l) - rsum (map g l)) <= INR (length l) * e.
Proof.
  intros A f g e. induction l as [|a l IH]; intros H; unfold rsum in *; cbn [map fold_right].
  - cbn [length INR]. rewrite Rminus_diag_eq, Rabs_R0 by auto. lra.
  - cbn [length]. rewrite S_INR.
    replace (f a + fold_right Rplus 0 (map f l) - (g a + fold_right Rplus 0 (map g l)))
      with ((f a - g a) + (fold_right Rplus 0 (map f l) - fold_right Rplus 0 (map g l))) by ring.
    eapply Rle_trans; [apply Rabs_triang|].
    pose proof (H a (or_introl eq_refl)). specialize (IH (fun b Hb => H b (or_intror Hb))). lra.
Qed.
Lemma rsum_member : forall A (f : A -> R) l a, (forall b, In b l -> 0 <= f b) -> In a l -> f a <= rsum (map f l).
Proof.
  intros A f. induction l as [|b l IH]; intros a H I; [destruct I|]. unfold rsum in *. cbn [map fold_right].
  assert (0 <= fold_right Rplus 0 (map f l)).
  { apply rsum_nonneg. rewrite Forall_map. apply Forall_forall. intros c Hc. apply H. right. auto. }
  destruct I as [->|I]; [lra|]. specialize (IH a (fun c Hc => H c (or_intror Hc)) I).
  specialize (H b (or_introl eq_refl)). lra.
Qed.
Lemma rsum_le_len : forall A (f : A -> R) l, (forall b, In b l -> f b <= 1) -> rsum (map f l) <= INR (length l).
Proof.
  intros A f. induction l as [|b l IH]; intros H; unfold rsum in *; cbn [map fold_right length]; [cbn; lra|].
  rewrite S_INR. specialize (IH (fun c Hc => H c (or_intror Hc))). specialize (H b (or_introl eq_refl)). lra.
Qed.

Theorem lse_accurate : forall np, np_contract np -> forall row,
  row <> [] -> Forall fin row -> (length row <= Z.to_nat 1048576)%nat ->
  fin (logsumexp64 np row) /\
  Rabs (val (logsumexp64 np row) - ln (rsum (map (fun v => exp (val v)) row)))
    <= INR (length row) * pow2 (-46) + pow2 (-53) * Rabs (ln (rsum (map (fun v => exp (val v)) row))).
Proof.
  intros np C row N F L. destruct (fmaxl_fin row N F) as [I M]. unfold logsumexp64.
  set (m := fmaxl row) in *. rewrite Forall_forall in F, M. pose proof (F m I) as Fm.
  set (n := length row) in *. set (es := map (fun v => np_exp np (fsub v m)) row).
  assert (T: forall v, In v row -> fin (np_exp np (fsub v m)) /\ 0 <= val (np_exp np (fsub v m)) /\
    Rabs (val (np_exp np (fsub v m)) - exp (val v - val m)) <= pow2 (-49)) by (intros v Iv; apply term_near; auto).
  set (S := rsum (map (fun v => exp (val v - val m)) row)).
  assert (S1: 1 <= S).
  { rewrite <- exp_0. replace 0 with (val m - val m) by ring.
    apply (rsum_member _ (fun v => exp (val v - val m)) row m); auto. intros. left. apply exp_pos. }
  assert (Sn: S <= INR n).
  { apply rsum_le_len. intros v Iv. rewrite <- exp_0. apply exp_le. specialize (M v Iv). lra. }
  assert (Nn: 1 <= INR n) by lra.
  assert (Nb: INR n <= 1048576).
  { apply le_INR in L. rewrite (INR_Z (Z.to_nat _)), Z2Nat.id in L by lia. exact L. }
  assert (P49: pow2 (-49) = 16 * u) by (rewrite u_val; unfold pow2; cbn; lra).
  assert (Uv: u = / 9007199254740992) by apply u_val.
  set (T0 := rsum (map val es)).
  assert (DT: Rabs (T0 - S) <= INR n * (16 * u)).
  { unfold T0, es. rewrite map_map, <- P49. apply rsum_abs_diff. intros v Iv. apply T. auto. }
  assert (T0b: T0 <= 2 * INR n) by (apply Rabs_le_inv in DT; rewrite Uv in DT; lra).
  destruct (sum_near es (np_sum np es) (np_sum_ok np C es)) as [Fs Ns].
  { unfold es. rewrite Forall_map. apply Forall_forall. intros v Iv. destruct (T v Iv) as (A & B & _). auto. }
  { fold T0. apply Rle_trans with (pow2 22); [rewrite pow2_Z by lia; change (IZR (2 ^ 22)) with 4194304; lra|apply pow2_mono; lia]. }
  { unfold es. rewrite map_length. exact L. }
  fold T0 in Ns. set (s := np_sum np es) in *.
  assert (St: steps es = 2 * u * INR n) by (unfold steps, es; rewrite map_length; reflexivity). rewrite St in Ns.
  assert (NT: near (2 * (INR n * (16 * u))) T0 S).
  { apply near_rel; [lra|rewrite Uv; lra|]. eapply Rle_trans; [exact DT|].
    rewrite <- (Rmult_1_r (INR n * (16 * u))) at 1. apply Rmult_le_compat_l; [rewrite Uv; lra|auto]. }
  pose proof (near_trans _ _ _ _ _ Ns NT) as NS. destruct (near_ln _ (val s) S ltac:(lra) NS) as [Ps Els].
  destruct (np_log_ok np C) as [_ _ _ LN]. destruct (LN s Fs Ps) as [Fl El]. set (l := np_log np s) in *.
  assert (LS: 0 <= ln S <= INR n).
  { split; [rewrite <- ln_1; destruct S1 as [X|X]; [left; apply ln_increasing; lra|rewrite X; lra]|].
    pose proof (exp_ge_lin (ln S)) as X. rewrite exp_ln in X by lra. lra. }
  assert (P50: pow2 (-50) = 8 * u) by (rewrite u_val; unfold pow2; cbn; lra). rewrite P50 in El.
  assert (Ls: Rabs (ln (val s)) <= 2 * INR n).
  { replace (ln (val s)) with ((ln (val s) - ln S) + ln S) by ring. eapply Rle_trans; [apply Rabs_triang|].
    rewrite (Rabs_pos_eq (ln S)) by lra. rewrite Uv in Els. lra. }
  assert (Ell: Rabs (val l - ln S) <= 50 * u * INR n).
  { replace (val l - ln S) with ((val l - ln (val s)) + (ln (val s) - ln S)) by ring.
    eapply Rle_trans; [apply Rabs_triang|].
    assert (8 * u * Rabs (ln (val s)) <= 8 * u * (2 * INR n)) by (apply Rmult_le_compat_l; [rewrite Uv; lra|auto]). lra. }
  assert (Lb: Rabs (val l) <= pow2 969).
  { apply Rle_trans with (pow2 22); [|apply pow2_mono; lia]. rewrite pow2_Z by lia. change (IZR (2 ^ 22)) with 4194304.
    replace (val l) with ((val l - ln S) + ln S) by ring. eapply Rle_trans; [apply Rabs_triang|].
    rewrite (Rabs_pos_eq (ln S)) by lra. rewrite Uv in Ell. lra. }
  destruct (fadd_small l m Fl Fm Lb) as [Fr Vr]. split; auto. rewrite Vr.
  assert (EQ: ln (rsum (map (fun v => exp (val v)) row)) = ln S + val m).
  { replace (rsum (map (fun v => exp (val v)) row)) with (S * exp (val m)).
    - rewrite ln_mult, ln_exp by (try apply exp_pos; lra). auto.
    - unfold S. generalize (val m). clear. intros w. induction row as [|v row IH]; unfold rsum in *; cbn [map fold_right]; [ring|].
      rewrite Rmult_plus_distr_r, IH, <- exp_plus. f_equal. f_equal. ring. }
  rewrite EQ. set (w := ln S + val m).
  pose proof (rnd_add_error (val l) (val m) (fmt_val _) (fmt_val _)) as ER.
  replace (rnd (val l + val m) - w) with ((rnd (val l + val m) - (val l + val m)) + (val l - ln S)) by (unfold w; ring).
  eapply Rle_trans; [apply Rabs_triang|].
  assert (AW: Rabs (val l + val m) <= Rabs w + 50 * u * INR n).
  { replace (val l + val m) with (w + (val l - ln S)) by (unfold w; ring). eapply Rle_trans; [apply Rabs_triang|]. lra. }
  assert (P46: pow2 (-46) = 128 * u) by (rewrite u_val; unfold pow2; cbn; lra). rewrite P46. change (pow2 (-53)) with u.
  assert (u * Rabs (val l + val m) <= u * (Rabs w + 50 * u * INR n)) by (apply Rmult_le_compat_l; [rewrite Uv; lra|auto]).
  assert (u * (50 * u * INR n) <= 1 * (50 * u * INR n)) by (apply Rmult_le_compat_r; rewrite Uv; lra).
  assert (0 <= u * INR n) by (apply Rmult_le_pos; rewrite ?Uv; lra).
  lra.
Qed.
