(** * The chain rule for objectives in free coordinates. *)
From Coq Require Import Reals NArith Lra Lia.
From Verif Require Import Base Num Nd Pattern Spec ListFacts Jac SpecJac FunWrap Api SpecOptim LinAlg
  SpecEnd EndFacts JacBase JacFacts JacProps JacMore JacPsd.
Local Open Scope list_scope.
Local Open Scope nat_scope.

Lemma Rsum_ext_lt : forall n f g, (forall i, i < n -> f i = g i) -> Rsum n f = Rsum n g.
Proof. induction n; intros f g H; auto. cbn. rewrite (IHn f g), (H n); auto. Qed.
Lemma Rsum_abs_le : forall n f g, (forall i, i < n -> (Rabs (f i) <= g i)%R) -> (Rabs (Rsum n f) <= Rsum n g)%R.
Proof.
  induction n; intros f g H; cbn.
  - rewrite Rabs_R0. lra.
  - eapply Rle_trans; [apply Rabs_triang|]. pose proof (H n ltac:(lia)). specialize (IHn f g ltac:(auto)). lra.
Qed.
Lemma rs_scal : forall n c f, (Rsum n (fun i => c * f i) = c * Rsum n f)%R.
Proof. induction n; intros; cbn; [lra|]. rewrite IHn. lra. Qed.
Lemma rs_plus : forall n f g, (Rsum n (fun i => f i + g i) = Rsum n f + Rsum n g)%R.
Proof. induction n; intros; cbn; [lra|]. rewrite IHn. lra. Qed.
Lemma rs_nonneg : forall n f, (forall i, i < n -> (0 <= f i)%R) -> (0 <= Rsum n f)%R.
Proof. induction n; intros f H; cbn; [lra|]. pose proof (H n ltac:(lia)). specialize (IHn f ltac:(auto)). lra. Qed.

(** A common neighbourhood for finitely many conditions. *)
Lemma common_delta : forall n (P : nat -> R -> Prop),
  (forall i d d', (0 < d' <= d)%R -> P i d -> P i d') ->
  (forall i, i < n -> exists d, (0 < d)%R /\ P i d) ->
  exists d, (0 < d)%R /\ forall i, i < n -> P i d.
Proof.
  induction n; intros P M H.
  - exists 1%R. split; [lra|]. intros i Hi. lia.
  - destruct (IHn P M) as (d & Hd & A); [intros i Hi; apply H; lia|].
    destruct (H n ltac:(lia)) as (d' & Hd' & B).
    exists (Rmin d d'). split; [apply Rmin_pos; auto|].
    intros i Hi. destruct (Nat.eq_dec i n) as [->|].
    + eapply M; [|exact B]. split; [apply Rmin_pos; auto|apply Rmin_r].
    + eapply M; [|apply A; lia]. split; [apply Rmin_pos; auto|apply Rmin_l].
Qed.

(** Along a differentiable curve. *)
Lemma curve_derivative : forall (Phi : list R -> R) (x gr : list R) (G : R -> list R) (t0 r : R) (c : nat -> R),
  has_gradient Phi x gr -> G t0 = x -> (0 < r)%R ->
  (forall t, (Rabs (t - t0) < r)%R -> length (G t) = length x) ->
  (forall i, i < length x -> derivable_pt_lim (fun t => nth i (G t) 0%R) t0 (c i)) ->
  derivable_pt_lim (fun t => Phi (G t)) t0 (Rsum (length x) (fun i => nth i gr 0 * c i)%R).
Proof.
  intros Phi x gr G t0 r c [Lg HG] G0 Hr LG D eps Heps.
  set (n := length x) in *.
  set (S1 := Rsum n (fun i => Rabs (nth i gr 0))%R).
  set (K := (Rsum n (fun i => Rabs (c i)) + INR n)%R).
  assert (S1p: (0 <= S1)%R) by (apply rs_nonneg; intros; apply Rabs_pos).
  assert (Kp: (0 <= K)%R).
  { unfold K. pose proof (pos_INR n). assert (0 <= Rsum n (fun i => Rabs (c i)))%R by (apply rs_nonneg; intros; apply Rabs_pos). lra. }
  set (e1 := (eps / (2 * (K + 1)))%R). set (e2 := (Rmin 1 (eps / (2 * (S1 + 1))))%R).
  assert (He1: (0 < e1)%R) by (apply Rdiv_lt_0_compat; lra).
  assert (He2: (0 < e2)%R) by (apply Rmin_pos; [lra|apply Rdiv_lt_0_compat; lra]).
  destruct (HG e1 He1) as (delta & Hdelta & HP).
  (* each coordinate close to its linear part *)
  destruct (common_delta n (fun i d => forall h, h <> 0%R -> (Rabs h < d)%R ->
     (Rabs ((nth i (G (t0 + h)) 0 - nth i (G t0) 0) / h - c i) < e2)%R)) as (d1 & Hd1 & A).
  { intros i d d' Hd P h N Hh. apply P; auto. lra. }
  { intros i Hi. destruct (D i Hi e2 He2) as ([d Hd] & P). exists d. split; auto. }
  set (C := Rsum n (fun i => (Rabs (c i) + 1)%R)).
  assert (Cp: (0 <= C)%R) by (apply rs_nonneg; intros; pose proof (Rabs_pos (c i)); lra).
  assert (Ci: forall i, i < n -> (Rabs (c i) + 1 <= C)%R).
  { unfold C. clear -n. induction n as [|m IH]; intros i Hi; [lia|]. cbn.
    pose proof (Rabs_pos (c m)).
    assert (0 <= Rsum m (fun i => Rabs (c i) + 1))%R by (apply rs_nonneg; intros; pose proof (Rabs_pos (c i0)); lra).
    destruct (Nat.eq_dec i m) as [->|]; [lra|]. specialize (IH i ltac:(lia)). lra. }
  set (d := Rmin d1 (Rmin r (delta / (C + 1)))%R).
  assert (Hd: (0 < d)%R).
  { unfold d. repeat apply Rmin_pos; auto. apply Rdiv_lt_0_compat; lra. }
  exists (mkposreal d Hd). intros h N Hh. cbn in Hh.
  assert (h1: (Rabs h < d1)%R) by (eapply Rlt_le_trans; [exact Hh|apply Rmin_l]).
  assert (h2: (Rabs h < r)%R) by (eapply Rlt_le_trans; [exact Hh|unfold d; eapply Rle_trans; [apply Rmin_r|apply Rmin_l]]).
  assert (h3: (Rabs h < delta / (C + 1))%R) by (eapply Rlt_le_trans; [exact Hh|unfold d; eapply Rle_trans; [apply Rmin_r|apply Rmin_r]]).
  assert (ha: (0 < Rabs h)%R) by (apply Rabs_pos_lt; auto).
  assert (L: length (G (t0 + h)%R) = n).
  { apply LG. replace (t0 + h - t0)%R with h by lra. auto. }
  (* bound of the increments *)
  assert (B: forall i, i < n -> (Rabs (nth i (G (t0 + h)%R) 0 - nth i x 0 - h * c i) <= e2 * Rabs h)%R).
  { intros i Hi. specialize (A i Hi h N h1). rewrite G0 in A.
    replace (nth i (G (t0 + h)%R) 0 - nth i x 0 - h * c i)%R
      with (((nth i (G (t0 + h)%R) 0 - nth i x 0) / h - c i) * h)%R by (field; auto).
    rewrite Rabs_mult. apply Rmult_le_compat_r; lra. }
  assert (e21: (e2 <= 1)%R) by (apply Rmin_l).
  assert (B': forall i, i < n -> (Rabs (nth i (G (t0 + h)%R) 0 - nth i x 0) <= (Rabs (c i) + 1) * Rabs h)%R).
  { intros i Hi. specialize (B i Hi).
    replace (nth i (G (t0 + h)%R) 0 - nth i x 0)%R
      with ((nth i (G (t0 + h)%R) 0 - nth i x 0 - h * c i) + h * c i)%R by lra.
    eapply Rle_trans; [apply Rabs_triang|]. rewrite (Rabs_mult h).
    assert (e2 * Rabs h <= 1 * Rabs h)%R by (apply Rmult_le_compat_r; lra). lra. }
  specialize (HP (G (t0 + h)%R) L).
  assert (near: forall i, i < n -> (Rabs (nth i (G (t0 + h)%R) 0 - nth i x 0) < delta)%R).
  { intros i Hi. eapply Rle_lt_trans; [apply B'; auto|].
    apply Rle_lt_trans with ((C + 1) * Rabs h)%R.
    - apply Rmult_le_compat_r; [lra|]. specialize (Ci i Hi). lra.
    - apply Rmult_lt_compat_l with (r := (C + 1)%R) in h3; [|lra].
      replace ((C + 1) * (delta / (C + 1)))%R with delta in h3 by (field; lra). lra. }
  specialize (HP near).
  rewrite G0.
  assert (T1: (Rabs (Phi (G (t0 + h)%R) - Phi x - Rsum n (fun i => nth i gr 0 * (nth i (G (t0 + h)%R) 0 - nth i x 0)))
     <= e1 * (K * Rabs h))%R).
  { eapply Rle_trans; [exact HP|]. apply Rmult_le_compat_l; [lra|].
    apply Rle_trans with (Rsum n (fun i => Rabs h * (Rabs (c i) + 1))%R).
    - apply Rle_trans with (Rabs (Rsum n (fun i => Rabs (nth i (G (t0 + h)%R) 0 - nth i x 0))))%R; [apply Rle_abs|].
      apply Rsum_abs_le. intros i Hi. rewrite Rabs_Rabsolu. rewrite Rmult_comm. apply B'; auto.
    - rewrite rs_scal. unfold K. rewrite rs_plus.
      assert (Rsum n (fun _ => 1%R) = INR n).
      { clear. induction n; auto. rewrite S_INR. cbn [Rsum]. rewrite IHn. reflexivity. }
      rewrite H. lra. }
  assert (T2: (Rabs (Rsum n (fun i => nth i gr 0 * (nth i (G (t0 + h)%R) 0 - nth i x 0))
                     - h * Rsum n (fun i => nth i gr 0 * c i)) <= e2 * Rabs h * S1)%R).
  { rewrite <- rs_scal.
    replace (Rsum n (fun i => nth i gr 0 * (nth i (G (t0 + h)%R) 0 - nth i x 0)) - Rsum n (fun i => h * (nth i gr 0 * c i)))%R
      with (Rsum n (fun i => nth i gr 0 * (nth i (G (t0 + h)%R) 0 - nth i x 0 - h * c i)))%R.
    - unfold S1. rewrite <- rs_scal. apply Rsum_abs_le. intros i Hi.
      rewrite Rabs_mult, Rmult_comm. apply Rmult_le_compat_r; [apply Rabs_pos|]. apply B; auto.
    - rewrite (Rsum_ext_lt n _ (fun i => nth i gr 0 * (nth i (G (t0 + h)%R) 0 - nth i x 0) + (-1) * (h * (nth i gr 0 * c i)))%R)
        by (intros; lra).
      rewrite rs_plus, rs_scal. lra. }
  set (Sg := Rsum n (fun i => nth i gr 0 * c i)%R) in *.
  set (Si := Rsum n (fun i => nth i gr 0 * (nth i (G (t0 + h)%R) 0 - nth i x 0))%R) in *.
  replace ((Phi (G (t0 + h)%R) - Phi x) / h - Sg)%R
    with (((Phi (G (t0 + h)%R) - Phi x - Si) + (Si - h * Sg)) / h)%R by (field; auto).
  unfold Rdiv. rewrite Rabs_mult, Rabs_inv.
  apply Rmult_lt_reg_r with (Rabs h); auto. rewrite Rmult_assoc, Rinv_l, Rmult_1_r by lra.
  eapply Rle_lt_trans; [apply Rabs_triang|].
  assert (Q1: (e1 * K <= eps / 2 * (K / (K + 1)))%R).
  { unfold e1. right. field. lra. }
  assert (Q2: (K / (K + 1) < 1)%R).
  { apply Rmult_lt_reg_r with (K + 1)%R; [lra|]. unfold Rdiv. rewrite Rmult_assoc, Rinv_l by lra. lra. }
  assert (Q1': (e1 * K < eps / 2)%R).
  { eapply Rle_lt_trans; [exact Q1|]. rewrite <- (Rmult_1_r (eps / 2)) at 2. apply Rmult_lt_compat_l; lra. }
  assert (Q3: (e2 * S1 <= eps / 2)%R).
  { apply Rle_trans with (eps / (2 * (S1 + 1)) * S1)%R; [apply Rmult_le_compat_r; auto; apply Rmin_r|].
    replace (eps / (2 * (S1 + 1)) * S1)%R with (eps / 2 * (S1 / (S1 + 1)))%R by (field; lra).
    rewrite <- (Rmult_1_r (eps / 2)) at 2. apply Rmult_le_compat_l; [lra|].
    apply Rmult_le_reg_r with (S1 + 1)%R; [lra|]. unfold Rdiv. rewrite Rmult_assoc, Rinv_l by lra. lra. }
  apply Rle_lt_trans with ((e1 * K + e2 * S1) * Rabs h)%R; [lra|].
  apply Rmult_lt_compat_r; auto. lra.
Qed.

Lemma upd_nth_same : forall (x : list R) j, upd x j (nth j x 0%R) = x.
Proof.
  induction x as [|a x IH]; intros [|j]; cbn; auto. rewrite IH. reflexivity.
Qed.
Lemma length_upd_R : forall (x : list R) j t, length (upd x j t) = length x.
Proof. induction x as [|a x IH]; intros [|j] t; cbn; auto. Qed.

(** The composition of a differentiable function with a transform. *)
Lemma composed_partials : forall F x y J Phi gr (H : list R -> R),
  derivative_at F x y J -> has_gradient Phi y gr ->
  (forall z w, length z = length x -> F (map Fin z) = Ok (map Fin w) -> H z = Phi w) ->
  exists D, partials H x D /\ pulled_back J gr D.
Proof.
  intros F x y J Phi gr H (Fx & R1 & C1 & DJ) HG Hv.
  assert (E: forall j, j < length x -> exists d c, (forall i, i < length y -> m_at J i j = Fin (c i)) /\
     d = Rsum (length y) (fun i => nth i gr 0 * c i)%R /\
     derivable_pt_lim (fun t => H (upd x j t)) (nth j x 0%R) d).
  { intros j Hj. destruct (DJ j Hj) as (r & G & Hr & FG & DG).
    set (c := fun i => match m_at J i j with Fin d => d | _ => 0%R end).
    assert (Hc: forall i, i < length y -> m_at J i j = Fin (c i) /\
      derivable_pt_lim (fun t => nth i (G t) 0%R) (nth j x 0%R) (c i)).
    { intros i Hi. destruct (DG i Hi) as (d & E & Dd). unfold c. rewrite E. auto. }
    exists (Rsum (length y) (fun i => nth i gr 0 * c i)%R), c.
    split; [intros i Hi; apply Hc; auto|]. split; [reflexivity|].
    assert (G0: G (nth j x 0%R) = y).
    { destruct (FG (nth j x 0%R)) as (E & _); [rewrite Rminus_diag_eq, Rabs_R0 by auto; auto|].
      rewrite upd_nth_same, Fx in E. injection E as E. symmetry. apply map_Fin_inj; auto. }
    assert (C: derivable_pt_lim (fun t => Phi (G t)) (nth j x 0%R) (Rsum (length y) (fun i => nth i gr 0 * c i)%R)).
    { apply curve_derivative with (r := r); auto; intros; [apply FG|apply Hc]; auto. }
    intros eps Heps. destruct (C eps Heps) as ([d Hd] & P).
    assert (Hm: (0 < Rmin d r)%R) by (apply Rmin_pos; auto).
    exists (mkposreal _ Hm). intros h N Hh. cbn in Hh, P.
    assert (Same: forall t, (Rabs (t - nth j x 0) < r)%R -> H (upd x j t) = Phi (G t)).
    { intros t Ht. apply Hv; [apply length_upd_R|apply FG; auto]. }
    rewrite (Same (nth j x 0 + h)%R), (Same (nth j x 0%R)).
    - apply P; auto. eapply Rlt_le_trans; [exact Hh|apply Rmin_l].
    - rewrite Rminus_diag_eq, Rabs_R0 by auto; auto.
    - replace (nth j x 0 + h - nth j x 0)%R with h by lra. eapply Rlt_le_trans; [exact Hh|apply Rmin_r]. }
  assert (Ch: exists D, length D = length x /\ forall j, j < length x ->
     exists c, (forall i, i < length y -> m_at J i j = Fin (c i)) /\
     nth j D 0%R = Rsum (length y) (fun i => nth i gr 0 * c i)%R /\
     derivable_pt_lim (fun t => H (upd x j t)) (nth j x 0%R) (nth j D 0%R)).
  { clear -E. revert E. generalize (length x). intros n E.
    assert (forall k, k <= n -> exists D, length D = k /\ forall j, j < k ->
     exists c, (forall i, i < length y -> m_at J i j = Fin (c i)) /\
     nth j D 0%R = Rsum (length y) (fun i => nth i gr 0 * c i)%R /\
     derivable_pt_lim (fun t => H (upd x j t)) (nth j x 0%R) (nth j D 0%R)) as Q; [|apply (Q n); auto].
    induction k; intros Hk.
    - exists []. split; auto. intros j Hj. lia.
    - destruct (IHk ltac:(lia)) as (D & LD & PD). destruct (E k ltac:(lia)) as (d & c & A1 & A2 & A3).
      exists (D ++ [d]). rewrite app_length, LD. cbn. split; [lia|]. intros j Hj.
      destruct (Nat.eq_dec j k) as [->|].
      + exists c. rewrite app_nth2 by lia. rewrite LD, Nat.sub_diag. cbn. auto.
      + rewrite app_nth1 by lia. apply PD. lia. }
  destruct Ch as (D & LD & PD). exists D. split.
  - split; auto. intros j Hj. destruct (PD j Hj) as (c & _ & _ & Q). exact Q.
  - split; [congruence|]. intros j Hj. rewrite C1 in Hj. destruct (PD j Hj) as (c & Q1 & Q2 & _).
    exists c. rewrite R1. auto.
Qed.

(** ** The wrapped objective *)

Lemma free_gradient_full : forall S (f : callable (obj R) S) ad p n v x gr Phi,
  usable p -> simplexes_nonempty p -> flat_length p (Some true) = Ok (plint n) ->
  (forall w z, admissible p w -> flatten p w (Some false) None = Ok (map Fin z) -> returns f w (Phi z)) ->
  interior p v -> flatten p v (Some false) None = Ok (map Fin x) -> has_gradient Phi x gr ->
  at_psd (jacobian_true ad false) p v ->
  exists g H y J D, free_objective f p = Ok g /\
    (forall z, length z = n -> returns g (FArr (vec (map Fin z))) (H z)) /\
    (forall z w u, length z = n -> fold p (vec (map Fin z)) (Some true) None = Ok w ->
       flatten p w (Some false) None = Ok (map Fin u) -> H z = Phi u) /\
    flatten p v (Some true) None = Ok (map Fin y) /\ length y = n /\
    jacobian ad false p v = Ok J /\ partials H y D /\ pulled_back J gr D.
Proof.
  intros S f ad p n v x gr Phi U SN L C I Fx HG AT.
  destruct (container_jacobian_psd ad false p v U SN I AT) as (J & EJ & (y & x' & Fy & Fx' & DA) & _ & _).
  cbn [negb] in Fy. rewrite Fx in Fx'. injection Fx' as Fx'. apply map_Fin_inj in Fx'. subst x'.
  destruct (free_call S f p) as (g & G1 & G2).
  destruct (api_free_fold_of_flatten p v None None U I) as (y' & Fy' & Ly & _).
  rewrite Fy in Fy'. injection Fy' as Fy'. apply map_Fin_inj in Fy'. subst y'.
  rewrite L in Ly. injection Ly as Ly.
  assert (from: forall z, length z = n -> exists w u, admissible p w /\ fold p (vec (map Fin z)) (Some true) None = Ok w /\
     flatten p w (Some false) None = Ok (map Fin u) /\ from_free p (map Fin z) = Ok (map Fin u)).
  { intros z Lz. destruct (fold_admissible p z n U L Lz) as (w & Aw & Fw & Lw).
    destruct (container_jacobian_psd psd_ad false p w U SN (proj1 Aw) (psd_ad_at p w U (proj1 Aw)))
      as (J' & _ & (z' & u & Fz & Fu & (T & _)) & _ & _).
    cbn [negb] in Fz. rewrite Lw in Fz. injection Fz as Fz. apply map_Fin_inj in Fz. subst z'.
    exists w, u. split; [exact Aw|]. split; [apply Fw|]. split; [exact Fu|exact T]. }
  set (H := fun z => match from_free p (map Fin z) with
                     | Ok l => Phi (map (fun a => match a with Fin r => r | _ => 0%R end) l)
                     | Err _ => 0%R end).
  assert (Id: forall z, map (fun a => match a with Fin r => r | _ => 0%R end) (map Fin z) = z).
  { intros z. rewrite map_map, map_id. reflexivity. }
  destruct (composed_partials (from_free p) y x J Phi gr H DA HG) as (D & D1 & D2).
  { intros z w _ E. unfold H. rewrite E, Id. reflexivity. }
  exists g, H, y, J, D. repeat split; auto; try apply D1; try apply D2.
  - intros z Lz. destruct (from z Lz) as (w & u & Aw & Fw & Fu & E).
    apply (G2 z w); auto. unfold H. rewrite E, Id. apply C; auto.
  - intros z w u Lz Fw Fu. destruct (from z Lz) as (w' & u' & _ & Fw' & Fu' & E).
    rewrite Fw in Fw'. injection Fw' as <-. rewrite Fu in Fu'. injection Fu' as Fu'.
    apply map_Fin_inj in Fu'. subst u'. unfold H. rewrite E, Id. reflexivity.
Qed.

Lemma free_gradient_psd : forall S (f : callable (obj R) S) ad p n v x gr Phi,
  usable p -> simplexes_nonempty p -> flat_length p (Some true) = Ok (plint n) ->
  (forall w z, admissible p w -> flatten p w (Some false) None = Ok (map Fin z) -> returns f w (Phi z)) ->
  interior p v -> flatten p v (Some false) None = Ok (map Fin x) -> has_gradient Phi x gr ->
  at_psd (jacobian_true ad false) p v ->
  exists g H y J D, free_objective f p = Ok g /\
    (forall z, length z = n -> returns g (FArr (vec (map Fin z))) (H z)) /\
    flatten p v (Some true) None = Ok (map Fin y) /\ length y = n /\
    jacobian ad false p v = Ok J /\ partials H y D /\ pulled_back J gr D.
Proof.
  intros S f ad p n v x gr Phi U SN L C I Fx HG AT.
  destruct (free_gradient_full S f ad p n v x gr Phi U SN L C I Fx HG AT)
    as (g & H & y & J & D & A1 & A2 & _ & A3). exists g, H, y, J, D. auto.
Qed.

Lemma free_gradient : forall S (f : callable (obj R) S) ad p n v x gr Phi,
  usable p -> simplexes_nonempty p -> no_psd p -> flat_length p (Some true) = Ok (plint n) ->
  (forall w z, admissible p w -> flatten p w (Some false) None = Ok (map Fin z) -> returns f w (Phi z)) ->
  interior p v -> flatten p v (Some false) None = Ok (map Fin x) -> has_gradient Phi x gr ->
  exists g H y J D, free_objective f p = Ok g /\
    (forall z, length z = n -> returns g (FArr (vec (map Fin z))) (H z)) /\
    flatten p v (Some true) None = Ok (map Fin y) /\ length y = n /\
    jacobian ad false p v = Ok J /\ partials H y D /\ pulled_back J gr D.
Proof.
  intros. eapply free_gradient_psd; eauto. apply no_psd_at; auto.
Qed.

(** ** Stationary points *)

Lemma zero_nth : forall l, zero_vector l <-> forall i, i < length l -> nth i l 0%R = 0%R.
Proof.
  intros l. unfold zero_vector. rewrite Forall_forall. split.
  - intros H i Hi. apply H. apply nth_In; auto.
  - intros H r Hr. destruct (In_nth l r 0%R Hr) as (i & Hi & <-). auto.
Qed.

Lemma stationary : forall ad p v J gr D,
  usable p -> simplexes_nonempty p -> no_psd p -> interior p v ->
  pl_n (flat_len p true) = pl_n (flat_len p false) ->
  jacobian ad false p v = Ok J -> length gr = m_rows J -> pulled_back J gr D ->
  (zero_vector D <-> zero_vector gr).
Proof.
  intros ad p v J gr D U SN NP I E EJ Lg (LD & PB).
  assert (W: jacobians_inverse ad p v) by (apply inverse_jacobians_psd; auto; apply no_psd_at; auto).
  destruct W as (J1 & J2 & E1 & E2 & F1 & F2 & (R1 & C2 & M & Id)).
  rewrite EJ in E2. injection E2 as <-.
  destruct (container_jacobian ad false p v U SN NP I) as (J' & E' & _ & R' & C').
  rewrite EJ in E'. injection E' as <-. cbn [negb] in C'.
  set (n := pl_n (flat_len p true)) in *.
  rewrite <- E in R'.
  set (a := fun i k => match m_at J1 i k with Fin d => d | _ => 0%R end).
  set (b := fun k j => match m_at J k j with Fin d => d | _ => 0%R end).
  assert (Ha: forall i k, i < n -> k < n -> m_at J1 i k = Fin (a i k)).
  { intros i k Hi Hk. destruct (F1 i k) as (d & Hd); try lia. unfold a. rewrite Hd. auto. }
  assert (Hb: forall k j, k < n -> j < n -> m_at J k j = Fin (b k j)).
  { intros k j Hk Hj. destruct (F2 k j) as (d & Hd); try lia. unfold b. rewrite Hd. auto. }
  assert (AB: Rmat_eq n (Rmatmul n a b) Rid).
  { intros i j Hi Hj. specialize (Id i j Hi Hj). unfold mat_prod in Id. rewrite M, R' in Id.
    rewrite (map_ext_in _ (fun k => Fin (a i k * b k j))) in Id.
    - rewrite nsum_fvec in Id. injection Id as Id. exact Id.
    - intros k Hk. apply in_seq in Hk. rewrite Ha, Hb by lia. reflexivity. }
  apply one_sided_inverse in AB.
  assert (PBn: forall j, j < n -> nth j D 0%R = Rsum n (fun i => nth i gr 0 * b i j)%R).
  { intros j Hj. destruct (PB j) as (c & Hc & Ed); [lia|]. rewrite Ed, R'. apply Rsum_ext_lt.
    intros i Hi. specialize (Hc i). rewrite Hb in Hc by lia. rewrite R' in Hc.
    specialize (Hc Hi). injection Hc as ->. auto. }
  rewrite !zero_nth, LD, Lg, C', R'. split; intros Z.
  - intros k Hk.
    set (g := fun (_ : nat) i => nth i gr 0%R).
    assert (Q: Rmatmul n g (Rmatmul n b a) 0 k = Rmatmul n (Rmatmul n g b) a 0 k) by (symmetry; apply mm_assoc).
    assert (Q1: Rmatmul n g (Rmatmul n b a) 0 k = nth k gr 0%R).
    { unfold Rmatmul at 1. rewrite (Rsum_ext_lt n _ (fun i => g O i * Rid i k)%R).
      - clear -Hk. unfold g, Rid. revert Hk. generalize n. intros m. induction m; intros H; [lia|]. cbn.
        destruct (Nat.eq_dec k m) as [->|Hne].
        + rewrite Nat.eqb_refl. rewrite (Rsum_ext_lt m _ (fun i => 0 * 0)%R).
          * rewrite rs_scal. lra.
          * intros i Hi. destruct (Nat.eqb_spec i m); [lia|]. lra.
        + rewrite IHm by lia. destruct (Nat.eqb_spec m k); [lia|]. lra.
      - intros i Hi. rewrite AB by auto. auto. }
    rewrite <- Q1, Q. unfold Rmatmul at 1.
    rewrite (Rsum_ext_lt n _ (fun i => 0 * 0)%R); [rewrite rs_scal; lra|].
    intros j Hj. unfold Rmatmul, g. rewrite <- PBn by auto. rewrite Z by auto. lra.
  - intros j Hj. rewrite PBn by auto. rewrite (Rsum_ext_lt n _ (fun i => 0 * 0)%R); [rewrite rs_scal; lra|].
    intros i Hi. rewrite Z by auto. lra.
Qed.
