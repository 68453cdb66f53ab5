(** * Coordinates -inf: logsumexp and the simplex with gaps, in binary64. *)
From Coq Require Import Reals ZArith Lra Lia List Permutation.
From Flocq Require Import Core Operations Relative Plus_error IEEE754.BinarySingleNaN.
From Verif Require Import Base Flt SpecFlt FltBase FltExp FltNum FltNum2 FltNum3 FltSimp FltSimp2 FltLse SpecFltSum SpecFltWide FltWide.
From Verif Require FltCholFacts.
Import ListNotations.
Local Open Scope R_scope.

Lemma Forall2_impl' : forall A B (P Q : A -> B -> Prop) l m, (forall a b, P a b -> Q a b) -> Forall2 P l m -> Forall2 Q l m.
Proof. induction 2; constructor; auto. Qed.
Lemma ninf_sub : forall m, fin m -> fsub fninf m = fninf.
Proof. intros [ | | | ] F; try discriminate F; reflexivity. Qed.
Lemma fmax_ninf1 : forall v, fin v -> fmax fninf v = v.
Proof. intros [ | | |[|] ? ? ?] F; try discriminate F; reflexivity. Qed.
Lemma fmax_ninf2 : forall v, fmax v fninf = v.
Proof. intros [ |[|]| |[|] ? ? ?]; reflexivity. Qed.
Lemma fmaxl_gaps : forall l w, In w l -> fin w -> Forall (fun v => fin v \/ v = fninf) l ->
  In (fmaxl l) l /\ fin (fmaxl l) /\ (forall v, In v l -> fin v -> val v <= val (fmaxl l)).
Proof.
  assert (G: forall r a, (fin a \/ a = fninf) -> Forall (fun v => fin v \/ v = fninf) r ->
    In (fold_left fmax r a) (a :: r) /\
    (forall v, In v (a :: r) -> fin v -> fin (fold_left fmax r a) /\ val v <= val (fold_left fmax r a))).
  { induction r as [|b r IH]; intros a Fa Fr; cbn [fold_left].
    - split; [left; auto|]. intros v [->|[]] Fv. split; auto. lra.
    - inversion Fr as [|? ? Fb Fr']; subst.
      assert (D: (fmax a b = a \/ fmax a b = b) /\ (fin a -> fin (fmax a b) /\ val a <= val (fmax a b)) /\
        (fin b -> fin (fmax a b) /\ val b <= val (fmax a b))).
      { destruct Fb as [Fb| ->].
        - destruct Fa as [Fa| ->].
          + destruct (fmax_fin a b Fa Fb) as (D & L1 & L2).
            assert (Fm: fin (fmax a b)) by (destruct D as [->| ->]; auto). auto.
          + rewrite fmax_ninf1 by auto. split; auto. split; [intros X; discriminate X|]. split; auto. lra.
        - rewrite fmax_ninf2. split; auto. split; [|intros X; discriminate X]. split; auto. lra. }
      destruct D as (D & Da & Db).
      assert (Fm: fin (fmax a b) \/ fmax a b = fninf) by (destruct D as [->| ->]; auto).
      destruct (IH (fmax a b) Fm Fr') as (I & K). split.
      + destruct I as [I|I]; [|right; right; auto]. rewrite <- I.
        destruct D as [->| ->]; [left|right; left]; auto.
      + intros v [<-|[<-|Iv]] Fv.
        * destruct (Da Fv) as [X Y]. destruct (K _ (or_introl eq_refl) X). split; auto. lra.
        * destruct (Db Fv) as [X Y]. destruct (K _ (or_introl eq_refl) X). split; auto. lra.
        * apply K; auto. right. auto. }
  intros [|a r] w I Fw F; [destruct I|]. inversion F; subst. cbn [fmaxl].
  destruct (G r a) as (J & K); auto. split; auto. split; [apply (K w); auto|]. intros v Iv Fv. apply K; auto.
Qed.
Theorem lse_gaps : forall np, np_contract np -> forall row w0,
  In w0 row -> fin w0 -> Forall (fun v => fin v \/ v = fninf) row -> (length row <= Z.to_nat 1048576)%nat ->
  fin (logsumexp64 np row) /\
  Rabs (val (logsumexp64 np row) - real_lse (finite row))
    <= INR (length row) * pow2 (-46) + pow2 (-53) * Rabs (real_lse (finite row)).
Proof.
  intros np C row w0 I0 F0 F L. destruct (fmaxl_gaps row w0 I0 F0 F) as (I & Fm & M). unfold logsumexp64.
  set (m := fmaxl row) in *. rewrite Forall_forall in F.
  set (wt := fun v : f64 => if is_finite v then exp (val v - val m) else 0).
  assert (W0: forall v, 0 <= wt v) by (intros v; unfold wt; destruct (is_finite v); [left; apply exp_pos|lra]).
  set (n := length row) in *. set (es := map (fun v => np_exp np (fsub v m)) row).
  assert (T: forall v, In v row -> fin (np_exp np (fsub v m)) /\ 0 <= val (np_exp np (fsub v m)) /\
    Rabs (val (np_exp np (fsub v m)) - wt v) <= pow2 (-49)).
  { intros v Iv. unfold wt. destruct (F v Iv) as [Fv| ->].
    - unfold fin in Fv. rewrite Fv. apply term_near; auto.
    - rewrite (ninf_sub m Fm). destruct (np_exp_ok np C) as [_ _ -> _ _ _ _]. destruct fzero_val as [Z V]. rewrite V. cbn [is_finite fninf].
      split; auto. split; [lra|]. rewrite Rminus_diag_eq, Rabs_R0 by auto. left. apply pow2_pos. }
  set (S := rsum (map wt row)).
  assert (S1: 1 <= S).
  { replace 1 with (wt m); [apply (rsum_member _ wt row m); auto|].
    unfold wt. unfold fin in Fm. rewrite Fm. rewrite Rminus_diag_eq by auto. apply exp_0. }
  assert (Sn: S <= INR n).
  { apply rsum_le_len. intros v Iv. unfold wt. destruct (is_finite v) eqn:Fv; [|lra].
    rewrite <- exp_0. apply exp_le. specialize (M v Iv Fv). lra. }
  assert (Nn: 1 <= INR n) by lra.
  assert (Nb: INR n <= 1048576).
  { apply le_INR in L. rewrite (INR_Z (Z.to_nat _)), Z2Nat.id in L by lia. exact L. }
  assert (P49: pow2 (-49) = 16 * u) by (rewrite u_val; unfold pow2; cbn; lra).
  assert (Uv: u = / 9007199254740992) by apply u_val.
  set (T0 := rsum (map val es)).
  assert (DT: Rabs (T0 - S) <= INR n * (16 * u)).
  { unfold T0, es. rewrite map_map, <- P49. apply rsum_abs_diff. intros v Iv. apply T. auto. }
  assert (T0b: T0 <= 2 * INR n) by (apply Rabs_le_inv in DT; rewrite Uv in DT; lra).
  destruct (sum_near es (np_sum np es) (np_sum_ok np C es)) as [Fs Ns].
  { unfold es. rewrite Forall_map. apply Forall_forall. intros v Iv. destruct (T v Iv) as (A & B & _). auto. }
  { fold T0. apply Rle_trans with (pow2 22); [rewrite pow2_Z by lia; change (IZR (2 ^ 22)) with 4194304; lra|apply pow2_mono; lia]. }
  { unfold es. rewrite map_length. exact L. }
  fold T0 in Ns. set (s := np_sum np es) in *.
  assert (St: steps es = 2 * u * INR n) by (unfold steps, es; rewrite map_length; reflexivity). rewrite St in Ns.
  assert (NT: near (2 * (INR n * (16 * u))) T0 S).
  { apply near_rel; [lra|rewrite Uv; lra|]. eapply Rle_trans; [exact DT|].
    rewrite <- (Rmult_1_r (INR n * (16 * u))) at 1. apply Rmult_le_compat_l; [rewrite Uv; lra|auto]. }
  pose proof (near_trans _ _ _ _ _ Ns NT) as NS. destruct (near_ln _ (val s) S ltac:(lra) NS) as [Ps Els].
  destruct (np_log_ok np C) as [_ _ _ LN]. destruct (LN s Fs Ps) as [Fl El]. set (l := np_log np s) in *.
  assert (LS: 0 <= ln S <= INR n).
  { split; [rewrite <- ln_1; destruct S1 as [X|X]; [left; apply ln_increasing; lra|rewrite X; lra]|].
    pose proof (exp_ge_lin (ln S)) as X. rewrite exp_ln in X by lra. lra. }
  assert (P50: pow2 (-50) = 8 * u) by (rewrite u_val; unfold pow2; cbn; lra). rewrite P50 in El.
  assert (Ls: Rabs (ln (val s)) <= 2 * INR n).
  { replace (ln (val s)) with ((ln (val s) - ln S) + ln S) by ring. eapply Rle_trans; [apply Rabs_triang|].
    rewrite (Rabs_pos_eq (ln S)) by lra. rewrite Uv in Els. lra. }
  assert (Ell: Rabs (val l - ln S) <= 50 * u * INR n).
  { replace (val l - ln S) with ((val l - ln (val s)) + (ln (val s) - ln S)) by ring.
    eapply Rle_trans; [apply Rabs_triang|].
    assert (8 * u * Rabs (ln (val s)) <= 8 * u * (2 * INR n)) by (apply Rmult_le_compat_l; [rewrite Uv; lra|auto]). lra. }
  assert (Lb: Rabs (val l) <= pow2 969).
  { apply Rle_trans with (pow2 22); [|apply pow2_mono; lia]. rewrite pow2_Z by lia. change (IZR (2 ^ 22)) with 4194304.
    replace (val l) with ((val l - ln S) + ln S) by ring. eapply Rle_trans; [apply Rabs_triang|].
    rewrite (Rabs_pos_eq (ln S)) by lra. rewrite Uv in Ell. lra. }
  destruct (fadd_small l m Fl Fm Lb) as [Fr Vr]. split; auto. rewrite Vr.
  assert (EQ: real_lse (finite row) = ln S + val m).
  { unfold real_lse. fold (rsum (map (fun v => exp (val v)) (finite row))).
    replace (rsum (map (fun v => exp (val v)) (finite row))) with (S * exp (val m)).
    - rewrite ln_mult, ln_exp by (try apply exp_pos; lra). auto.
    - unfold S, wt, finite. generalize (val m). clear. intros w.
      induction row as [|v row IH]; unfold rsum in *; cbn [map fold_right filter]; [ring|].
      rewrite Rmult_plus_distr_r, IH. destruct (is_finite v); cbn [map fold_right]; [|ring].
      rewrite <- exp_plus. f_equal. f_equal. ring. }
  rewrite EQ. set (w := ln S + val m).
  pose proof (rnd_add_error (val l) (val m) (fmt_val _) (fmt_val _)) as ER.
  replace (rnd (val l + val m) - w) with ((rnd (val l + val m) - (val l + val m)) + (val l - ln S)) by (unfold w; ring).
  eapply Rle_trans; [apply Rabs_triang|].
  assert (AW: Rabs (val l + val m) <= Rabs w + 50 * u * INR n).
  { replace (val l + val m) with (w + (val l - ln S)) by (unfold w; ring). eapply Rle_trans; [apply Rabs_triang|]. lra. }
  assert (P46: pow2 (-46) = 128 * u) by (rewrite u_val; unfold pow2; cbn; lra). rewrite P46. change (pow2 (-53)) with u.
  assert (u * Rabs (val l + val m) <= u * (Rabs w + 50 * u * INR n)) by (apply Rmult_le_compat_l; [rewrite Uv; lra|auto]).
  assert (u * (50 * u * INR n) <= 1 * (50 * u * INR n)) by (apply Rmult_le_compat_r; rewrite Uv; lra).
  assert (0 <= u * INR n) by (apply Rmult_le_pos; rewrite ?Uv; lra).
  lra.
Qed.

Theorem gaps_accurate : forall np, np_contract np -> forall x B, wide_or_gone B x ->
  Forall2 (fun p v => (v = fninf -> p = fzero) /\
    (fin v -> fin p /\ 0 <= val p /\
      Rabs (val p - softmax (0 :: map val (finite x)) (val v)) <=
        softmax (0 :: map val (finite x)) (val v) * (INR (S (length x)) * pow2 (-43) + B * pow2 (-51)) + pow2 (-48)))
    (simplex64_fold np x) (fzero :: x).
Proof.
  intros np C x B (HB & HL & HF). destruct fzero_val as [Z0 V0].
  assert (Fr: Forall (fun v => v = fninf \/ (fin v /\ Rabs (val v) <= B)) (fzero :: x)).
  { constructor; auto. right. split; auto. rewrite V0, Rabs_R0. lra. }
  destruct (lse_gaps np C (fzero :: x) fzero (or_introl eq_refl) Z0) as [Fs Es].
  { eapply Forall_impl; [|exact Fr]. intros v [->|[A _]]; auto. }
  { cbn [length]. lia. }
  change (finite (fzero :: x)) with (fzero :: finite x) in Es.
  assert (Fl: forall v, In v (fzero :: finite x) -> fin v /\ Rabs (val v) <= B).
  { intros v [<-|I]; [split; auto; rewrite V0, Rabs_R0; lra|].
    unfold finite in I. apply filter_In in I. destruct I as [I E]. rewrite Forall_forall in HF.
    destruct (HF v I) as [->|H]; [discriminate E|auto]. }
  assert (Ln: INR (length (fzero :: finite x)) <= INR (S (length x)) <= 1048576).
  { split; [|apply len_bound; auto]. apply le_INR. cbn [length]. apply le_n_S.
    unfold finite. clear. induction x as [|v x IH]; cbn [filter length]; [lia|]. destruct (is_finite v); cbn [length]; lia. }
  pose proof (entry_near np C (fzero :: finite x) B (INR (S (length x))) _ (or_introl eq_refl) HB Fl Ln Fs Es) as E.
  cbv zeta in E. cbn [map] in E. rewrite V0 in E.
  assert (G: forall l, (forall v, In v l -> In v (fzero :: x)) ->
    Forall2 (fun p v => (v = fninf -> p = fzero) /\
    (fin v -> fin p /\ 0 <= val p /\
      Rabs (val p - softmax (0 :: map val (finite x)) (val v)) <=
        softmax (0 :: map val (finite x)) (val v) * (INR (S (length x)) * pow2 (-43) + B * pow2 (-51)) + pow2 (-48)))
    (map (fun v => np_exp np (fsub v (logsumexp64 np (fzero :: x)))) l) l).
  { induction l as [|v l IH]; intros H; cbn [map]; constructor; [|apply IH; intros w Hw; apply H; right; auto].
    split.
    - intros ->. rewrite ninf_sub by auto. apply (np_exp_ok np C).
    - intros Fv. destruct (E v) as (A & D & _ & K); auto.
      destruct (H v (or_introl eq_refl)) as [<-|I]; [left; auto|right]. unfold finite. apply filter_In. auto. }
  apply (G (fzero :: x)). auto.
Qed.

(** ** Zero entries of a simplex *)
Lemma log_range : forall np, np_contract np -> forall v, fin v -> 0 < val v ->
  fin (np_log np v) /\ Rabs (val (np_log np v)) <= 2000.
Proof.
  intros np C v F P. destruct (np_log_ok np C) as [_ _ _ LN]. destruct (LN v F P) as [Fl El]. split; auto.
  assert (L2: 0 < ln 2 < 1).
  { split; [rewrite <- ln_1; apply ln_increasing; lra|]. rewrite <- (ln_exp 1). apply ln_increasing; [lra|].
    pose proof (exp_ineq1 1). lra. }
  assert (LP: forall k, ln (pow2 k) = IZR k * ln 2).
  { intros k. unfold pow2. rewrite bpow_exp, ln_exp. reflexivity. }
  assert (Lo: -1074 <= ln (val v)).
  { apply Rle_trans with (ln (pow2 (-1074))); [rewrite LP; lra|].
    assert (Q: pow2 (-1074) <= val v).
    { apply FltCholFacts.least; auto. }
    destruct Q as [Q|Q]; [left; apply ln_increasing; auto; apply pow2_pos|rewrite Q; lra]. }
  assert (Up: ln (val v) <= 1024).
  { apply Rle_trans with (ln (pow2 1024)); [|rewrite LP; lra]. left. apply ln_increasing; auto.
    pose proof (abs_B2R_lt_emax 53 1024 v) as Q. rewrite Rabs_pos_eq in Q; auto. unfold val in P. lra. }
  assert (A: Rabs (ln (val v)) <= 1074) by (apply Rabs_le; lra).
  assert (P50: pow2 (-50) <= / 2) by (unfold pow2; cbn; lra).
  replace (val (np_log np v)) with ((val (np_log np v) - ln (val v)) + ln (val v)) by ring.
  eapply Rle_trans; [apply Rabs_triang|]. pose proof (Rabs_pos (ln (val v))).
  assert (pow2 (-50) * Rabs (ln (val v)) <= / 2 * Rabs (ln (val v))) by (apply Rmult_le_compat_r; auto). lra.
Qed.
Theorem later_zero : forall np, np_contract np -> forall a0 r, fin a0 -> 0 < val a0 ->
  Forall (fun v => fin v /\ 0 <= val v) r -> (length r < Z.to_nat 1048576)%nat ->
  simplex64_valid np (a0 :: r) = true ->
  exists y, simplex64_flatten np (a0 :: r) = Ok y /\
    Forall2 (fun v c => (val v = 0 -> c = fninf) /\ (0 < val v -> fin c)) r y /\
    Forall2 (fun v p => fin p /\ 0 <= val p /\ (val v = 0 -> p = fzero)) (a0 :: r) (simplex64_fold np y).
Proof.
  intros np C a0 r F0 P0 Fr L V. unfold simplex64_flatten. rewrite V. eexists. split; [reflexivity|].
  set (y := map (fun v => fsub (np_log np v) (np_log np a0)) r).
  destruct (log_range np C a0 F0 P0) as [Fa Ba].
  assert (Y: Forall2 (fun v c => (val v = 0 -> c = fninf) /\ (0 < val v -> fin c /\ Rabs (val c) <= 8000)) r y).
  { unfold y. clear V L y. induction Fr as [|v r [Fv Pv] _ IH]; cbn [map]; constructor; auto. split.
    - intros Z. pose proof (zero_form v Fv Z) as E.
      destruct E as [s ->]. destruct (np_log_ok np C) as [_ _ LZ _]. rewrite LZ. apply ninf_sub. auto.
    - intros P. destruct (log_range np C v Fv P) as [Fl Bl].
      assert (D: Rabs (val (np_log np v) - val (np_log np a0)) <= 4000).
      { unfold Rminus. eapply Rle_trans; [apply Rabs_triang|]. rewrite Rabs_Ropp. lra. }
      destruct (sub_near _ _ Fl Fa) as [Fd Ed]; [apply small_huge; lra|]. split; auto.
      set (d := fsub _ _) in *. set (t := val (np_log np v) - val (np_log np a0)) in *.
      replace (val d) with ((val d - t) + t) by ring. eapply Rle_trans; [apply Rabs_triang|].
      assert (u * Rabs t <= 1 * Rabs t) by (apply Rmult_le_compat_r; [apply Rabs_pos|rewrite u_val; lra]). lra. }
  split; [eapply Forall2_impl'; [|exact Y]; cbn; intros v c [A D]; split; auto; intros; apply D; auto|].
  assert (W: wide_or_gone 8000 y).
  { split; [|split].
    - split; [lra|]. apply Rle_trans with (pow2 20); [|apply pow2_mono; lia].
      rewrite pow2_Z by lia. change (IZR (2 ^ 20)) with 1048576. lra.
    - unfold y. rewrite map_length. auto.
    - clear V L. clearbody y. induction Y as [|v c r' y' [A D] _ IH]; constructor.
      + inversion Fr as [|? ? [Fv Pv] ?]; subst. destruct Pv as [P|P]; auto.
      + apply IH. inversion Fr; auto. }
  pose proof (gaps_accurate np C y 8000 W) as Gp.
  remember (simplex64_fold np y) as ps eqn:Eps. clear Eps.
  inversion Gp as [|p c ps' cs [_ Hp] Gr]; subst. constructor.
  - destruct (Hp (proj1 fzero_val)) as (A & D & _). split; auto. split; auto. intros Z. lra.
  - revert Gr. generalize (softmax (0 :: map val (finite y))). clear Gp Hp W.
    generalize (INR (S (length y)) * pow2 (-43) + 8000 * pow2 (-51)). intros e q. clear V L. clearbody y.
    revert ps'. induction Y as [|v c r' y' [A D] _ IH]; intros ps' Gr; inversion Gr as [|p0 c0 ps0 cs0 [E1 E2] Gr']; subst; constructor.
    + inversion Fr as [|? ? [Fv Pv] ?]; subst. destruct Pv as [P|P].
      * destruct (E2 (proj1 (D P))) as (X1 & X2 & _). split; [auto|]. split; [auto|]. intros; lra.
      * rewrite (E1 (A (eq_sym P))). destruct fzero_val as [X Z]. split; auto. split; [rewrite Z; lra|auto].
    + apply IH; auto. inversion Fr; auto.
Qed.
