(** * First pivots, 1 x 1 matrices and infinite entries. *)
From Coq Require Import Reals ZArith Lra Lia List Permutation.
From Flocq Require Import Core Operations IEEE754.BinarySingleNaN.
From Verif Require Import Base Flt SpecFlt FltBase FltExp FltNum FltNum2 FltMat SpecFltMat FltDot FltMatProps
  FltChol SpecFltChol FltElim FltCholFacts FltForm FltCholProps.
Import ListNotations.
Local Open Scope R_scope.

(** ** Nothing or one product to add *)
Lemma app_one : forall {A} (a b : list A) p, a ++ b = [p] -> (a = [] /\ b = [p]) \/ (a = [p] /\ b = []).
Proof.
  intros A [|x a] b p H; [left; auto|]. right. cbn in H. inversion H; subst.
  destruct a; [|discriminate]. cbn in H2. subst. auto.
Qed.
Lemma small_1023 : forall x, Rabs x <= pow2 1000 -> Rabs x <= pow2 1023.
Proof. intros. eapply Rle_trans; [eassumption|apply pow2_mono; lia]. Qed.

Lemma dot_few : forall l d, dot_of l d -> (l = [] -> fin d /\ val d = 0) /\
  forall p, l = [p] -> fin (fst p) -> fin (snd p) -> Rabs (pv p) <= pow2 999 -> fin d /\ val d = rnd (pv p).
Proof.
  assert (B: forall p, Rabs (pv p) <= pow2 999 -> Rabs (rnd (pv p)) <= pow2 1000).
  { intros p H. pose proof (rnd_error (pv p)) as E. pose proof u_val as U. pose proof (Rabs_pos (pv p)).
    assert (pow2 1000 = 2 * pow2 999) as E2 by (change 1000%Z with (999 + 1)%Z; rewrite pm by lia; reflexivity).
    assert (pow2 (-1075) <= / 4 * pow2 999).
    { assert (pow2 999 = 4 * pow2 997) as -> by (change 999%Z with (997 + 2)%Z; rewrite pm by lia; reflexivity).
      assert (pow2 (-1075) <= pow2 997) by (apply pow2_mono; lia). lra. }
    replace (rnd (pv p)) with (rnd (pv p) - pv p + pv p) by ring. eapply Rle_trans; [apply Rabs_triang|]. rewrite U in E. lra. }
  intros l d H. induction H as [|x y|x y l a H (IH0 & _)|l m a b Ha (A0 & A1) Hb (B0 & B1)|l m a P H (IH0 & IH1)].
  - split; [intros _; apply fzero_val|]. intros p E; discriminate E.
  - split; [discriminate|]. intros p E Fx Fy Hp. injection E as <-. cbn [fst snd] in *. unfold pv in *. cbn [fst snd] in *.
    apply fmul_val; auto. apply small_1023. eapply Rle_trans; [exact Hp|apply pow2_mono; lia].
  - split; [discriminate|]. intros p E Fx Fy Hp. injection E as <- ->. cbn [fst snd] in *. destruct (IH0 eq_refl) as (Fa & Va).
    unfold pv in *. cbn [fst snd] in *. destruct (ffma_val x y a Fx Fy Fa) as (F & V).
    + rewrite Va, Rplus_0_r. apply small_1023. eapply Rle_trans; [exact Hp|apply pow2_mono; lia].
    + rewrite Va, Rplus_0_r in V. auto.
  - split.
    + intros E. apply app_eq_nil in E. destruct E as (-> & ->). destruct (A0 eq_refl) as (Fa & Va). destruct (B0 eq_refl) as (Fb & Vb).
      destruct (fadd_val a b Fa Fb) as (F & V); [rewrite Va, Vb, Rplus_0_r, Rabs_R0; left; apply pow2_pos|].
      split; auto. rewrite V, Va, Vb, Rplus_0_r. apply rnd_fmt. rewrite <- (proj2 fzero_val). apply fmt_val.
    + intros p E Fx Fy Hp. destruct (app_one l m p E) as [(-> & ->)|(-> & ->)].
      * destruct (A0 eq_refl) as (Fa & Va). destruct (B1 p eq_refl Fx Fy Hp) as (Fb & Vb).
        destruct (fadd_val a b Fa Fb) as (F & V); [rewrite Va, Vb, Rplus_0_l; apply small_1023; auto|].
        split; auto. rewrite V, Va, Rplus_0_l, Vb. rewrite <- Vb. apply rnd_fmt, fmt_val.
      * destruct (B0 eq_refl) as (Fb & Vb). destruct (A1 p eq_refl Fx Fy Hp) as (Fa & Va).
        destruct (fadd_val a b Fa Fb) as (F & V); [rewrite Va, Vb, Rplus_0_r; apply small_1023; auto|].
        split; auto. rewrite V, Vb, Rplus_0_r, Va. rewrite <- Va. apply rnd_fmt, fmt_val.
  - split.
    + intros ->. apply Permutation_sym, Permutation_nil in P. auto.
    + intros p ->. apply Permutation_sym, Permutation_length_1_inv in P. auto.
Qed.

(** Subtracting a zero changes nothing but the sign of a zero. *)
Definition alike (a b : f64) : Prop := a = b \/ exists s t, a = B754_zero s /\ b = B754_zero t.
Lemma alike_trans : forall a b c, alike a b -> alike b c -> alike a c.
Proof.
  intros a b c [->|(s & t & -> & ->)] [E|(s' & t' & E & ->)]; unfold alike; subst; auto; right; eauto.
Qed.
Lemma fin_zero : forall d, fin d -> val d = 0 -> exists s, d = B754_zero s.
Proof.
  intros [s|s| |s mm ee Bd] F V; try discriminate F; [eauto|]. exfalso.
  change (F2R (Float radix2 (cond_Zopp s (Zpos mm)) ee) = 0) in V. apply eq_0_F2R in V. destruct s; discriminate V.
Qed.
Lemma minus_zero : forall r s, alike (fsub r (B754_zero s)) r.
Proof.
  intros [t|t| |t mm ee Bd] s.
  - right. destruct t, s; cbn; eauto.
  - left. reflexivity.
  - left. reflexivity.
  - left. reflexivity.
Qed.
Lemma less_nil : forall a l r, less_of a l r -> l = [] -> alike r a.
Proof.
  intros a l r H. induction H as [|l m r d H IH Hd|x y l r H IH|l m r P H IH]; intros E.
  - left. reflexivity.
  - apply app_eq_nil in E. destruct E as (-> & ->). apply alike_trans with r; [|auto].
    destruct (proj1 (dot_few [] d Hd) eq_refl) as (F & V). destruct (fin_zero d F V) as (s & ->). apply minus_zero.
  - discriminate E.
  - subst. apply Permutation_sym, Permutation_nil in P. auto.
Qed.
Lemma less_nil_nonzero : forall a r, less_of a [] r -> (forall s, a <> B754_zero s) -> r = a.
Proof. intros a r H Nz. destruct (less_nil a [] r H eq_refl) as [E|(s & t & _ & E)]; [auto|]. destruct (Nz t E). Qed.
Lemma alike_flt : forall a b, alike a b -> flt fzero a = flt fzero b.
Proof. intros a b [->|(s & t & -> & ->)]; [reflexivity|]. destruct s, t; reflexivity. Qed.
Lemma flt_nonzero : forall a, flt fzero a = true -> forall s, a <> B754_zero s.
Proof. intros a H s ->. destruct s; discriminate H. Qed.

(** One square taken off leaves something positive if the rounded square is less. *)
Lemma less_one : forall a l r, less_of a l r -> fin a -> 0 <= val a <= pow2 999 ->
  (l = [] -> fin r /\ val r = val a) /\
  forall q, l = [(q, q)] -> fin q -> rnd (val q * val q) < val a -> pow2 (-1000) <= val a - val q * val q ->
    fin r /\ 0 < val r.
Proof.
  assert (Up: forall x, 0 < x <= pow2 999 -> 0 <= x <= pow2 1000).
  { intros x H. assert (pow2 999 <= pow2 1000) by (apply pow2_mono; lia). lra. }
  intros a l r H Fa Ba. induction H as [|l m r d H (IH0 & IH1) Hd|x y l r H (IH0 & _)|l m r P H (IH0 & IH1)].
  - split; [auto|discriminate].
  - assert (Z0: fin d -> val d = 0 -> fin r -> 0 <= val r <= pow2 999 -> fin (fsub r d) /\ val (fsub r d) = val r).
    { intros F V Fr Br. destruct (fsub_val r d Fr F) as (Fs & Vs).
      - rewrite V, Rminus_0_r, Rabs_pos_eq by lra. eapply Rle_trans; [apply Br|apply pow2_mono; lia].
      - split; auto. rewrite Vs, V, Rminus_0_r. apply rnd_fmt, fmt_val. }
    split.
    + intros E. apply app_eq_nil in E. destruct E as (-> & ->). destruct (IH0 eq_refl) as (Fr & Vr).
      destruct (proj1 (dot_few [] d Hd) eq_refl) as (F & V). destruct (Z0 F V Fr) as (A & B); [lra|]. split; auto. lra.
    + intros q E Fq Lt Gt. destruct (app_one m l (q, q) E) as [(-> & ->)|(-> & ->)].
      * destruct (IH1 q eq_refl Fq Lt Gt) as (Fr & Vr). destruct (proj1 (dot_few [] d Hd) eq_refl) as (F & V).
        destruct (fin_zero d F V) as (s & ->). destruct (minus_zero r s) as [->|(s' & t & _ & ->)]; [auto|].
        exfalso. cbn in Vr. lra.
      * destruct (IH0 eq_refl) as (Fr & Vr). pose proof (Rle_0_sqr (val q)) as Sq. unfold Rsqr in Sq.
        destruct (proj2 (dot_few [(q, q)] d Hd) (q, q) eq_refl Fq Fq) as (F & V).
        { unfold pv. cbn [fst snd]. rewrite Rabs_pos_eq by auto. pose proof (pow2_pos (-1000)). lra. }
        unfold pv in V. cbn [fst snd] in V.
        assert (Dn: 0 <= rnd (val q * val q)) by (apply rnd_nonneg; auto).
        destruct (fsub_val r d Fr F) as (Fs & Vs).
        { rewrite Vr, V. rewrite Rabs_pos_eq by lra. apply Rle_trans with (pow2 999); [lra|apply pow2_mono; lia]. }
        split; auto. rewrite Vs, Vr, V.
        assert (N0: rnd (val a - rnd (val q * val q)) <> 0).
        { intros K. pose proof (rnd_sub_error (val a) (rnd (val q * val q)) (fmt_val a) ltac:(rewrite <- V; apply fmt_val)) as Er.
          rewrite K in Er. rewrite Rminus_0_l, Rabs_Ropp in Er.
          rewrite Rabs_pos_eq in Er by lra. rewrite u_val in Er. lra. }
        assert (0 <= rnd (val a - rnd (val q * val q))) by (apply rnd_nonneg; lra). lra.
  - split; [discriminate|]. intros q E Fq Lt Gt. injection E as -> -> ->. destruct (IH0 eq_refl) as (Fr & Vr).
    pose proof (Rle_0_sqr (val q)) as Sq. unfold Rsqr in Sq. pose proof (pow2_pos (-1000)) as Pp.
    destruct (ffma_val (fneg q) q r) as (F & V); auto.
    + apply fneg_fin. auto.
    + rewrite fneg_val, Vr. rewrite Rabs_pos_eq by lra. apply Rle_trans with (pow2 999); [lra|apply pow2_mono; lia].
    + split; auto. rewrite V, fneg_val, Vr. replace (- val q * val q + val a) with (val a - val q * val q) by ring.
      assert (0 <= rnd (val a - val q * val q)) by (apply rnd_nonneg; lra).
      assert (rnd (val a - val q * val q) <> 0).
      { intros K. pose proof (rnd_normal (val a - val q * val q)) as Er. rewrite Rabs_pos_eq in Er by lra.
        assert (pow2 (-1022) <= pow2 (-1000)) by (apply pow2_mono; lia). specialize (Er ltac:(lra)).
        rewrite K, Rminus_0_l, Rabs_Ropp, Rabs_pos_eq in Er by lra. rewrite u_val in Er. lra. }
      lra.
  - split.
    + intros ->. apply Permutation_sym, Permutation_nil in P. auto.
    + intros p ->. apply Permutation_sym, Permutation_length_1_inv in P. apply IH1; exact P.
Qed.

(** ** 1 x 1 matrices *)
Lemma flatten64_one : forall np chol, chol_contract chol -> forall lb m,
  flatten64 np chol 1 lb m = (x <- psd64_flatten np lb (m 0%nat 0%nat) ;; Ok [x]).
Proof.
  intros np chol CC lb m. unfold flatten64, psd64_valid, psd64_flatten. cbn [seq existsb forallb].
  rewrite orb_false_r, !andb_true_r. set (a := m 0%nat 0%nat).
  destruct (flt a lb); [reflexivity|]. cbn [negb andb]. destruct (feq a a); [|reflexivity]. cbn [negb]. unfold pack64.
  assert (Rem: forall l s, remainder (less_diag64 lb m) l 0 0 s -> alike s (fsub a lb)).
  { intros l s R. unfold remainder in R. cbn [seq map] in R. apply (less_nil _ [] s R eq_refl). }
  destruct (chol 1%nat (less_diag64 lb m)) as [l|] eqn:E.
  - destruct (chol_done chol CC _ _ _ E) as (C & _). destruct (C 0%nat ltac:(lia)) as ((s & R & P & El) & _).
    pose proof (Rem l s R) as A. rewrite (alike_flt _ _ A) in P. rewrite P. cbn [bind].
    destruct A as [->|(s' & t & _ & Ea)]; [|destruct (flt_nonzero _ P t Ea)].
    unfold triangle64. cbn [seq flat_map map Nat.add app]. unfold log_diag64. rewrite El. reflexivity.
  - destruct (chol_stop chol CC _ _ E) as (l & j & s & Hj & _ & R & F). replace j with 0%nat in R by lia.
    rewrite (alike_flt _ _ (Rem l s R)) in F. rewrite F. reflexivity.
Qed.

(** ** An infinite first entry *)
Lemma flatten64_infinite : forall np chol, chol_contract chol -> forall n lb m x,
  m 0%nat 0%nat = finf -> fin lb -> flatten64 np chol (S n) lb m = Ok x -> nth_error x 0 = Some fnan.
Proof.
  intros np chol CC n lb m x M F H. destruct (flatten_inv _ _ _ _ _ _ H) as (_ & l & E & ->).
  destruct (chol_done chol CC _ _ _ E) as (C & _). destruct (C 0%nat ltac:(lia)) as ((s & R & P & El) & _).
  unfold remainder in R. cbn [seq map] in R.
  assert (B: less_diag64 lb m 0 0 = finf).
  { unfold less_diag64. rewrite Nat.eqb_refl, M. destruct lb as [t|t| |t mm ee Bd]; try discriminate F; reflexivity. }
  rewrite B in R. rewrite (less_nil_nonzero finf s R) in El by discriminate.
  replace 0%nat with (0 * (0 + 1) / 2 + 0)%nat by reflexivity. rewrite triangle_nth by lia. f_equal.
  unfold log_diag64. rewrite Nat.eqb_refl, El. change (fsqrt finf) with finf.
  destruct (np_log np finf) as [t|[]| |t mm ee Bd]; reflexivity.
Qed.
