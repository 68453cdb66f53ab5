(** * Free simplex coordinates of any size, and infinite ones, in binary64. *)
From Coq Require Import Reals ZArith Lra Lia List Permutation.
From Flocq Require Import Core Operations Relative Plus_error IEEE754.BinarySingleNaN.
From Verif Require Import Base Flt SpecFlt FltBase FltExp FltNum FltNum2 FltNum3 FltSimp FltSimp2 FltLse SpecFltSum SpecFltWide.
Import ListNotations.
Local Open Scope R_scope.

Lemma rsum_pos_member : forall (l : list f64) v, In v l -> exp (val v) <= rsum (map (fun w => exp (val w)) l).
Proof. intros l v I. apply (rsum_member _ (fun w => exp (val w))); auto. intros. left. apply exp_pos. Qed.
Lemma rsum_le_mult : forall (l : list f64) c, (forall v, In v l -> exp (val v) <= c) ->
  rsum (map (fun w => exp (val w)) l) <= INR (length l) * c.
Proof.
  induction l as [|v l IH]; intros c H; unfold rsum in *; cbn [map fold_right length]; [cbn [INR]; lra|].
  rewrite S_INR. specialize (IH c (fun w Hw => H w (or_intror Hw))). specialize (H v (or_introl eq_refl)). lra.
Qed.
Lemma lse_bounds : forall l B, 0 <= B -> In fzero l -> (forall v, In v l -> Rabs (val v) <= B) ->
  0 <= real_lse l <= B + INR (length l) /\ (forall v, In v l -> val v <= real_lse l).
Proof.
  intros l B HB I0 H. destruct fzero_val as [_ V0].
  assert (G: forall v, In v l -> val v <= real_lse l).
  { intros v I. pose proof (rsum_pos_member l v I) as P. unfold real_lse. fold (rsum (map (fun w => exp (val w)) l)).
    rewrite <- (ln_exp (val v)). destruct P as [P|P]; [left; apply ln_increasing; auto; apply exp_pos|rewrite P; lra]. }
  split; [|exact G]. split; [rewrite <- V0; apply G; auto|].
  assert (P: rsum (map (fun w => exp (val w)) l) <= INR (length l) * exp B).
  { apply rsum_le_mult. intros v I. apply exp_le. specialize (H v I). apply Rabs_le_inv in H. lra. }
  pose proof (rsum_pos_member l fzero I0) as Q. rewrite V0, exp_0 in Q.
  unfold real_lse. fold (rsum (map (fun w => exp (val w)) l)).
  assert (N: INR (length l) <= exp (INR (length l))) by (pose proof (exp_ge_lin (INR (length l))); lra).
  apply Rle_trans with (ln (exp (B + INR (length l)))); [|rewrite ln_exp; lra].
  assert (R1: rsum (map (fun w => exp (val w)) l) <= exp (B + INR (length l))).
  { eapply Rle_trans; [exact P|]. rewrite exp_plus, Rmult_comm. apply Rmult_le_compat_l; [left; apply exp_pos|auto]. }
  destruct R1 as [R1|R1]; [left; apply ln_increasing; lra|rewrite R1; lra].
Qed.
Lemma softmax_lse : forall l v, In fzero l -> softmax (map val l) v = exp (v - real_lse l).
Proof.
  intros l v I. destruct fzero_val as [_ V0]. unfold softmax, real_lse. rewrite map_map.
  fold (rsum (map (fun w => exp (val w)) l)).
  pose proof (rsum_pos_member l fzero I) as Q. rewrite V0, exp_0 in Q.
  unfold Rminus. rewrite exp_plus, exp_Ropp, exp_ln by lra. reflexivity.
Qed.

Lemma entry_near : forall np, np_contract np -> forall l B n s, In fzero l -> 0 <= B <= pow2 50 ->
  (forall v, In v l -> fin v /\ Rabs (val v) <= B) -> INR (length l) <= n <= 1048576 -> fin s ->
  Rabs (val s - real_lse l) <= n * pow2 (-46) + pow2 (-53) * Rabs (real_lse l) -> forall v, In v l ->
  let p := np_exp np (fsub v s) in
  let q := softmax (map val l) (val v) in
  fin p /\ 0 <= val p /\ 0 <= q /\ Rabs (val p - q) <= q * (n * pow2 (-43) + B * pow2 (-51)) + pow2 (-48).
Proof.
  intros np C l B n s I0 HB Fl Hn Fs Es v Hv p q. destruct fzero_val as [F0 V0].
  destruct (Fl v Hv) as [Fv Bv].
  assert (Hq: q = exp (val v - real_lse l)) by (apply softmax_lse; auto).
  destruct (lse_bounds l B (proj1 HB) I0 (fun w Hw => proj2 (Fl w Hw))) as [[L0 L1] LV].
  specialize (LV v Hv). set (L := real_lse l) in *. rewrite (Rabs_pos_eq L) in Es by auto.
  assert (Nn: 1 <= n <= 1048576).
  { split; [|apply Hn]. destruct l as [|w l']; [destruct I0|]. cbn [length] in Hn. rewrite S_INR in Hn.
    pose proof (pos_INR (length l')). lra. }
  assert (L1': L <= B + n) by lra. clear L1. rename L1' into L1.
  assert (U: u = / 9007199254740992) by apply u_val.
  assert (P53: pow2 (-53) = / 9007199254740992) by exact u_val.
  assert (P46: pow2 (-46) = / 70368744177664) by (unfold pow2; cbn; lra).
  assert (P43: pow2 (-43) = / 8796093022208) by (unfold pow2; cbn; lra).
  assert (P51: pow2 (-51) = / 2251799813685248) by (unfold pow2; cbn; lra).
  assert (P48: pow2 (-48) = / 281474976710656) by (unfold pow2; cbn; lra).
  assert (P50: pow2 (-50) = / 1125899906842624) by (unfold pow2; cbn; lra).
  assert (Q50: pow2 50 = 1125899906842624) by (rewrite pow2_Z by lia; reflexivity).
  rewrite P53, P46 in Es. rewrite Q50 in HB.
  set (e1 := n * / 70368744177664 + / 9007199254740992 * (B + n)).
  assert (Es': Rabs (val s - L) <= e1).
  { eapply Rle_trans; [exact Es|]. unfold e1. apply Rplus_le_compat_l. apply Rmult_le_compat_l; lra. }
  assert (E1: 0 <= e1 <= / 7) by (unfold e1; lra).
  apply Rabs_le_inv in Es'. pose proof (Rabs_le_inv _ _ Bv) as Bv'.
  set (t := L - val v) in *. assert (T0: 0 <= t <= 2 * B + n) by (unfold t; lra).
  assert (AV: Rabs (val v - val s) <= t + e1) by (apply Rabs_le; unfold t; lra).
  destruct (fsub_val v s Fv Fs) as [Fd Vd].
  { eapply Rle_trans; [exact AV|]. apply Rle_trans with (pow2 60); [|apply pow2_mono; lia].
    rewrite pow2_Z by lia. change (IZR (2 ^ 60)) with 1152921504606846976. lra. }
  pose proof (rnd_sub_error (val v) (val s) (fmt_val _) (fmt_val _)) as Ed. rewrite <- Vd in Ed.
  set (d := fsub v s) in *.
  assert (Ed': Rabs (val d - - t) <= u * t + 2 * e1).
  { replace (val d - - t) with ((val d - (val v - val s)) + (L - val s)) by (unfold t; ring).
    eapply Rle_trans; [apply Rabs_triang|].
    assert (Rabs (L - val s) <= e1) by (apply Rabs_le; lra).
    assert (u * Rabs (val v - val s) <= u * (t + e1)) by (apply Rmult_le_compat_l; [rewrite U; lra|auto]).
    assert (u * e1 <= 1 * e1) by (apply Rmult_le_compat_r; rewrite ?U; lra). lra. }
  set (eta := u * t + 2 * e1) in *.
  assert (Ht: 0 <= eta <= 4 / 7) by (unfold eta; rewrite U; unfold e1 in *; lra).
  apply Rabs_le_inv in Ed' as Ed2.
  assert (X2: exp eta <= 2).
  { replace eta with (eta / 2 + eta / 2) by field. rewrite exp_plus.
    pose proof (exp_small_up (eta / 4)) as Y. pose proof (exp_pos (eta / 4)).
    assert (exp (eta / 2) <= 4 / 3 * (21 / 20)).
    { replace (eta / 2) with (eta / 4 + eta / 4) by field. rewrite exp_plus.
      pose proof (exp_ge_lin (- (eta / 4))) as Z. rewrite exp_inv in Z.
      assert (exp (eta / 4) <= 7 / 6).
      { assert (W: 6 / 7 <= / exp (eta / 4)) by lra.
        apply Rinv_le_contravar in W; [|lra]. rewrite Rinv_inv in W. lra. }
      assert (exp (eta / 4) * exp (eta / 4) <= 7 / 6 * (7 / 6)) by (apply Rmult_le_compat; lra). lra. }
    pose proof (exp_pos (eta / 2)).
    assert (exp (eta / 2) * exp (eta / 2) <= 7 / 5 * (7 / 5)) by (apply Rmult_le_compat; lra). lra. }
  assert (Qv: q = exp (- t)) by (rewrite Hq; f_equal; unfold t; ring).
  assert (Q1: 0 < q <= 1) by (rewrite Qv; split; [apply exp_pos|rewrite <- exp_0; apply exp_le; lra]).
  assert (D2: exp (val d) <= 2 * q).
  { apply Rle_trans with (exp (- t + eta)); [apply exp_le; lra|]. rewrite exp_plus, <- Qv. rewrite Rmult_comm. apply Rmult_le_compat_r; lra. }
  assert (DD: Rabs (exp (val d) - q) <= eta * (2 * q)).
  { rewrite Qv. eapply Rle_trans; [apply exp_diff|]. apply Rmult_le_compat; [apply Rabs_pos|left; apply exp_pos|exact Ed'|].
    rewrite <- Qv. apply Rle_trans with (exp (- t + eta)); [apply exp_le, Rmax_lub; lra|].
    rewrite exp_plus, <- Qv, Rmult_comm. apply Rmult_le_compat_r; lra. }
  assert (TQ: t * q <= / 2).
  { pose proof (two_le_exp t) as Y. rewrite Qv.
    assert (Z: exp t * exp (- t) = 1) by (rewrite <- exp_plus, Rplus_opp_r; apply exp_0).
    pose proof (exp_pos (- t)). nra. }
  destruct (np_exp_ok np C) as [_ _ _ _ ES EX _].
  destruct (EX d Fd) as [Fp Ep]; [eapply Rle_trans; [exact D2|]; apply small_huge; lra|].
  destruct (ES d Fd) as [W|[_ Pp]]; [unfold p, d in *; rewrite W in Fp; discriminate Fp|].
  change (np_exp np d) with p in Ep, Fp, Pp. split; auto. split; auto. split; [lra|].
  replace (val p - q) with ((val p - exp (val d)) + (exp (val d) - q)) by ring.
  eapply Rle_trans; [apply Rabs_triang|].
  assert (P1: pow2 (-1074) <= pow2 (-53)) by (apply pow2_mono; lia). rewrite P53 in P1. rewrite P50 in Ep.
  rewrite P43, P51, P48.
  assert (ETA: eta * (2 * q) = 2 * u * (t * q) + 4 * (e1 * q)) by (unfold eta; ring).
  assert (EQ: e1 * q = q * n * / 70368744177664 + / 9007199254740992 * (q * B + q * n)) by (unfold e1; ring).
  assert (QB: 0 <= q * B) by (apply Rmult_le_pos; lra). assert (QN: 0 <= q * n) by (apply Rmult_le_pos; lra).
  rewrite U in ETA. lra.
Qed.

Lemma len_bound : forall x : list f64, (length x < Z.to_nat 1048576)%nat -> INR (S (length x)) <= 1048576.
Proof.
  intros x H. assert (Q: (S (length x) <= Z.to_nat 1048576)%nat) by lia. apply le_INR in Q.
  rewrite (INR_Z (Z.to_nat _)), Z2Nat.id in Q by lia. exact Q.
Qed.
Lemma wide_entry : forall np, np_contract np -> forall x B, wide B x -> forall v, In v (fzero :: x) ->
  let p := np_exp np (fsub v (logsumexp64 np (fzero :: x))) in
  let q := softmax (0 :: map val x) (val v) in
  let n := INR (S (length x)) in
  fin p /\ 0 <= val p /\ 0 <= q /\ Rabs (val p - q) <= q * (n * pow2 (-43) + B * pow2 (-51)) + pow2 (-48).
Proof.
  intros np C x B (HB & HL & HF) v Hv. destruct fzero_val as [F0 V0].
  assert (Fl: Forall (fun v => fin v /\ Rabs (val v) <= B) (fzero :: x)).
  { constructor; auto. split; auto. rewrite V0, Rabs_R0. lra. }
  rewrite Forall_forall in Fl.
  destruct (lse_accurate np C (fzero :: x)) as [Fs Es];
    [discriminate|apply Forall_forall; intros w Hw; apply Fl; auto|cbn [length]; lia|].
  cbv zeta. rewrite <- V0. change (val fzero :: map val x) with (map val (fzero :: x)).
  apply (entry_near np C (fzero :: x)); auto; [left; auto|].
  pose proof (len_bound x HL). split; [apply Rle_refl|auto].
Qed.

Theorem wide_accurate : forall np, np_contract np -> forall x B, wide B x ->
  Forall2 (fun p v => fin p /\ 0 <= val p /\
    Rabs (val p - softmax (0 :: map val x) v) <=
      softmax (0 :: map val x) v * (INR (S (length x)) * pow2 (-43) + B * pow2 (-51)) + pow2 (-48))
    (simplex64_fold np x) (0 :: map val x).
Proof.
  intros np C x B W. pose proof (wide_entry np C x B W) as E. cbv zeta in E. destruct fzero_val as [_ V0].
  unfold simplex64_fold. set (q := softmax (0 :: map val x)) in *. cbv zeta.
  replace (0 :: map val x) with (map val (fzero :: x)) by (cbn [map]; rewrite V0; auto). clearbody q. revert E. generalize (logsumexp64 np (fzero :: x)). intros s.
  generalize (fzero :: x). intros l. induction l as [|v l IH]; intros E; cbn [map]; constructor.
  - destruct (E v (or_introl eq_refl)) as (A & D & _ & F). auto.
  - apply IH. intros w Hw. apply E. right. auto.
Qed.
Lemma rsum_softmax : forall l, l <> [] -> rsum (map (softmax l) l) = 1.
Proof.
  intros l N. assert (P: 0 < rsum (map exp l)).
  { destruct l as [|a l]; [congruence|]. unfold rsum. cbn [map fold_right]. pose proof (exp_pos a).
    assert (0 <= fold_right Rplus 0 (map exp l)); [|lra].
    apply (rsum_nonneg (map exp l)). rewrite Forall_map. apply Forall_forall. intros. left. apply exp_pos. }
  unfold softmax. set (S := rsum (map exp l)) in *.
  replace (rsum (map (fun v => exp v / S) l)) with (rsum (map exp l) / S); [unfold S; field; unfold S in P; lra|].
  clearbody S. clear N. induction l as [|a l IH]; unfold rsum in *; cbn [map fold_right]; [field; lra|].
  rewrite <- IH. field. lra.
Qed.
Theorem wide_sum : forall np, np_contract np -> forall x B, wide B x ->
  Rabs (total (simplex64_fold np x) - 1) <= INR (S (length x)) * pow2 (-42) + B * pow2 (-51).
Proof.
  intros np C x B W. pose proof (wide_accurate np C x B W) as A.
  rewrite <- (rsum_softmax (0 :: map val x)) by discriminate.
  set (q := softmax (0 :: map val x)) in *. set (e := INR (S (length x)) * pow2 (-43) + B * pow2 (-51)) in *.
  assert (G: forall ps vs, Forall2 (fun p v => fin p /\ 0 <= val p /\ Rabs (val p - q v) <= q v * e + pow2 (-48)) ps vs ->
    Rabs (total ps - rsum (map q vs)) <= rsum (map q vs) * e + INR (length vs) * pow2 (-48)).
  { induction 1 as [|p v ps vs (_ & _ & E) _ IH]; unfold total, rsum in *; cbn [map fold_right length].
    - cbn [INR]. rewrite Rminus_diag_eq, Rabs_R0 by auto. lra.
    - rewrite S_INR.
      replace (val p + fold_right Rplus 0 (map val ps) - (q v + fold_right Rplus 0 (map q vs)))
        with ((val p - q v) + (fold_right Rplus 0 (map val ps) - fold_right Rplus 0 (map q vs))) by ring.
      eapply Rle_trans; [apply Rabs_triang|]. lra. }
  eapply Rle_trans; [apply G; exact A|]. unfold q at 1. rewrite (rsum_softmax (0 :: map val x)) by discriminate.
  cbn [length]. rewrite map_length. unfold e.
  assert (P42: pow2 (-42) = 64 * pow2 (-48)) by (unfold pow2; cbn; lra).
  assert (P43: pow2 (-43) = 32 * pow2 (-48)) by (unfold pow2; cbn; lra).
  pose proof (pow2_pos (-48)). pose proof (pos_INR (S (length x))).
  assert (0 <= INR (S (length x)) * pow2 (-48)) by (apply Rmult_le_pos; lra). rewrite P42, P43. lra.
Qed.

(** ** Infinite coordinates *)
Lemma fadd_nan1 : forall v, fadd fnan v = fnan.
Proof. intros [ | | | ]; reflexivity. Qed.
Lemma fadd_nan2 : forall v, fadd v fnan = fnan.
Proof. intros [ | | | ]; reflexivity. Qed.
Lemma fsub_nan2 : forall v, fsub v fnan = fnan.
Proof. intros [ | | | ]; reflexivity. Qed.
Lemma sum_of_nan : forall l s, sum_of l s -> In fnan l -> s = fnan.
Proof.
  induction 1 as [|x|l m a b Hl IHl Hm IHm|l m a P H IH]; intros I.
  - destruct I.
  - destruct I as [->|[]]. auto.
  - apply in_app_iff in I. destruct I as [I|I]; [rewrite (IHl I); apply fadd_nan1|rewrite (IHm I); apply fadd_nan2].
  - apply IH. apply (Permutation_in _ (Permutation_sym P)). auto.
Qed.
Lemma fmax_inf1 : forall v, fmax finf v = finf.
Proof. intros [s|[|]| |[|] m e H]; reflexivity. Qed.
Lemma fmax_inf2 : forall v, not_nan v -> fmax v finf = finf.
Proof. intros [s|[|]| |[|] m e H] N; try reflexivity. discriminate N. Qed.
Lemma fmax_not_nan : forall a b, not_nan a -> not_nan b -> not_nan (fmax a b).
Proof. intros a b A B. unfold fmax. destruct (flt a b); auto. Qed.
Lemma fold_fmax_inf : forall l, fold_left fmax l finf = finf.
Proof. induction l as [|v l IH]; cbn [fold_left]; auto. rewrite fmax_inf1. auto. Qed.
Lemma fmaxl_inf : forall l, Forall not_nan l -> In finf l -> fmaxl l = finf.
Proof.
  intros [|a l] N I; [destruct I|]. cbn [fmaxl]. inversion N as [|? ? Na Nl]; subst. clear N.
  destruct I as [->|I]; [apply fold_fmax_inf|]. revert a Na. induction l as [|v l IH]; intros a Na; [destruct I|].
  inversion Nl; subst. cbn [fold_left]. destruct I as [->|I].
  - rewrite fmax_inf2 by auto. apply fold_fmax_inf.
  - apply IH; auto. apply fmax_not_nan; auto.
Qed.
Theorem lse_inf : forall np, np_contract np -> forall row, Forall not_nan row -> In finf row -> logsumexp64 np row = fnan.
Proof.
  intros np C row N I. unfold logsumexp64. rewrite (fmaxl_inf row N I).
  replace (np_sum np _) with fnan.
  - destruct (np_log_ok np C) as [-> _ _ _]. apply fadd_nan1.
  - symmetry. eapply sum_of_nan; [apply (np_sum_ok np C)|]. apply in_map_iff. exists finf. split; auto.
    change (fsub finf finf) with fnan. destruct (np_exp_ok np C) as [-> _ _ _ _ _ _]. auto.
Qed.
Lemma map_const_nan : forall A (f : A -> f64) l, (forall a, f a = fnan) -> map f l = repeat fnan (length l).
Proof. induction l; intros H; cbn; auto. rewrite H, IHl; auto. Qed.
Lemma lse_nan : forall np, np_contract np -> forall row, In fnan row -> logsumexp64 np row = fnan.
Proof.
  intros np C row I. unfold logsumexp64. replace (np_sum np _) with fnan.
  - destruct (np_log_ok np C) as [-> _ _ _]. apply fadd_nan1.
  - symmetry. eapply sum_of_nan; [apply (np_sum_ok np C)|]. apply in_map_iff. exists fnan. split; auto.
    replace (fsub fnan (fmaxl row)) with fnan by (destruct (fmaxl row); reflexivity).
    destruct (np_exp_ok np C) as [-> _ _ _ _ _ _]. auto.
Qed.
Lemma nan_or_not : forall l : list f64, In fnan l \/ Forall not_nan l.
Proof.
  induction l as [|v l [I|F]]; [right; constructor|left; right; auto|].
  destruct v as [s|s| |s m e H]; try (right; constructor; [reflexivity|auto]). left. left. auto.
Qed.
Theorem bad_coordinate : forall np, np_contract np -> forall x, In finf x \/ In fnan x ->
  logsumexp64 np (fzero :: x) = fnan /\ simplex64_fold np x = repeat fnan (S (length x)).
Proof.
  intros np C x I.
  assert (L: logsumexp64 np (fzero :: x) = fnan).
  { destruct (nan_or_not x) as [J|N]; [apply (lse_nan np C); right; auto|].
    destruct I as [I|I]; [|apply (lse_nan np C); right; auto].
    apply (lse_inf np C); [|right; auto]. constructor; auto. apply fin_not_nan. apply fzero_val. }
  split; auto. unfold simplex64_fold. rewrite L.
  apply (map_const_nan f64 _ (fzero :: x)). intros a. rewrite fsub_nan2. apply (np_exp_ok np C).
Qed.
Lemma log_minus_ninf : forall np, np_contract np -> forall v, fin v -> 0 < val v -> fsub (np_log np v) fninf = finf.
Proof.
  intros np C v F P. destruct (np_log_ok np C) as [_ _ _ LN]. destruct (LN v F P) as [Fl _].
  destruct (np_log np v); try discriminate Fl; reflexivity.
Qed.
Lemma zero_form : forall v, fin v -> val v = 0 -> exists s, v = B754_zero s.
Proof.
  intros v F Z. destruct v as [s|s| |s m e H]; try discriminate F; [eauto|]. exfalso.
  unfold val in Z. cbn [B2R] in Z. apply eq_0_F2R in Z. destruct s; discriminate Z.
Qed.
Theorem first_zero : forall np, np_contract np -> forall a0 r, fin a0 -> val a0 = 0 -> r <> [] ->
  Forall (fun v => fin v /\ 0 <= val v) r -> simplex64_valid np (a0 :: r) = true ->
  exists y, simplex64_flatten np (a0 :: r) = Ok y /\
    Forall2 (fun v c => (val v = 0 -> c = fnan) /\ (0 < val v -> c = finf)) r y /\
    simplex64_fold np y = repeat fnan (S (length r)).
Proof.
  intros np C a0 r F0 Z0 N F V. unfold simplex64_flatten. rewrite V. eexists. split; [reflexivity|].
  destruct (zero_form a0 F0 Z0) as [s ->]. destruct (np_log_ok np C) as [_ _ LZ _]. rewrite LZ.
  set (y := map (fun v => fsub (np_log np v) fninf) r).
  assert (E: Forall2 (fun v c => (val v = 0 -> c = fnan) /\ (0 < val v -> c = finf)) r y).
  { unfold y. clear N V. induction F as [|v r [A B] _ IH]; cbn [map]; constructor; auto. split; intros H.
    - destruct (zero_form v A H) as [t ->]. rewrite LZ. reflexivity.
    - apply (log_minus_ninf np C); auto. }
  split; [exact E|]. destruct (bad_coordinate np C y) as [_ B].
  - destruct E as [|v c r' y' [A D] _]; [congruence|]. inversion F as [|? ? [_ P] _]; subst.
    destruct P as [P|P]; [left; left; auto|right; left; auto].
  - rewrite B. unfold y. rewrite map_length. auto.
Qed.
