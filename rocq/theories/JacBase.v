(** * Derivative facts: local equality, elementwise maps, simplex rows, blocks. *)
From Coq Require Import Reals Lra Lia.
From Verif Require Import Base Num Nd Numeric Simplex Psd Pattern Spec ListFacts NumFacts Jac SpecJac.
Local Open Scope list_scope.
Local Open Scope nat_scope.

Lemma lim_ext : forall f g x d r, (0 < r)%R ->
  (forall t, (Rabs (t - x) < r)%R -> f t = g t) ->
  derivable_pt_lim f x d -> derivable_pt_lim g x d.
Proof.
  intros f g x d r Hr He Hf eps Heps. destruct (Hf eps Heps) as (del & Hd).
  assert (0 < Rmin del r)%R as Hm by (apply Rmin_pos; [apply cond_pos|auto]).
  exists (mkposreal _ Hm). intros h Hh Hlt. simpl in Hlt.
  rewrite <- He, <- He.
  - apply Hd; auto. eapply Rlt_le_trans; [exact Hlt|apply Rmin_l].
  - replace (x - x)%R with 0%R by ring. rewrite Rabs_R0. auto.
  - replace (x + h - x)%R with h by ring. eapply Rlt_le_trans; [exact Hlt|apply Rmin_r].
Qed.

Lemma upd_length : forall A (l : list A) i x, length (upd l i x) = length l.
Proof. induction l; destruct i; simpl; auto. Qed.

Lemma nth_upd : forall A (l : list A) i j x d, i < length l ->
  nth j (upd l i x) d = if j =? i then x else nth j l d.
Proof.
  induction l as [|a l IH]; intros i j x d H; simpl in H; [lia|].
  destruct i; destruct j; simpl; auto. apply IH. lia.
Qed.

Lemma upd_same : forall A (l : list A) i d, upd l i (nth i l d) = l.
Proof. induction l; destruct i; simpl; intros; auto. rewrite IHl. auto. Qed.

Lemma upd_app_l : forall A (l m : list A) i x, i < length l -> upd (l ++ m) i x = upd l i x ++ m.
Proof. induction l; intros m [|i] x H; simpl in *; try lia; auto. rewrite IHl by lia. auto. Qed.

Lemma upd_app_r : forall A (l m : list A) i x, length l <= i ->
  upd (l ++ m) i x = l ++ upd m (i - length l) x.
Proof.
  induction l; intros m i x H; simpl in *; [rewrite Nat.sub_0_r; auto|].
  destruct i; [lia|]. simpl. rewrite IHl by lia. auto.
Qed.

Lemma map_upd : forall A B (f : A -> B) l i x, map f (upd l i x) = upd (map f l) i (f x).
Proof. induction l; destruct i; simpl; intros; auto. rewrite IHl. auto. Qed.

(** ** weakening *)
Lemma derivative_weaken : forall F G x y J,
  (forall x' y', length x' = length x ->
     F (map Fin x') = Ok (map Fin y') -> G (map Fin x') = Ok (map Fin y')) ->
  derivative_at F x y J -> derivative_at G x y J.
Proof.
  intros F G x y J HFG (H1 & H2 & H3 & H4). split; [apply HFG; auto|]. split; auto. split; auto.
  intros j Hj. destruct (H4 j Hj) as (r & g & Hr & Hl & Hd). exists r, g. split; auto.
  split; auto. intros t Ht. destruct (Hl t Ht) as (E & L). split; auto.
  apply HFG; auto. apply upd_length.
Qed.

(** ** elementwise maps *)
Lemma derivative_map : forall F g x y ds,
  length y = length x -> length ds = length x ->
  (forall x', length x' = length x -> F (map Fin x') = Ok (map g (map Fin x'))) ->
  map g (map Fin x) = map Fin y ->
  (forall j, j < length x -> exists gr r d,
     (0 < r)%R /\ (forall t, (Rabs (t - nth j x 0) < r)%R -> g (Fin t) = Fin (gr t)) /\
     nth j ds NaN = Fin d /\ derivable_pt_lim gr (nth j x 0%R) d) ->
  derivative_at F x y (diags ds).
Proof.
  intros F g x y ds Ly Ld HF Ey Hd. split; [rewrite HF, Ey; auto|].
  split; [simpl; lia|]. split; [simpl; lia|]. intros j Hj.
  destruct (Hd j Hj) as (gr & r & d & Hr & Hg & Ej & Hl).
  exists r, (fun t => upd y j (gr t)). split; auto. split.
  - intros t Ht. rewrite upd_length. split; auto.
    rewrite HF by apply upd_length. f_equal. rewrite !map_upd, Ey, Hg; auto.
  - intros i Hi. simpl. destruct (Nat.eqb_spec i j) as [->|Hij].
    + exists d. split; auto.
      eapply (lim_ext gr _ _ _ 1); [lra| |exact Hl].
      intros t _. rewrite nth_upd by lia. rewrite Nat.eqb_refl. auto.
    + exists 0%R. split; auto.
      eapply (lim_ext (fct_cte (nth i y 0%R)) _ _ _ 1); [lra| |apply derivable_pt_lim_const].
      intros t _. rewrite nth_upd by lia. rewrite (proj2 (Nat.eqb_neq i j)) by auto. auto.
Qed.

(** ** the scalar maps *)
Lemma lim_ln_sub : forall l x, (l < x)%R -> derivable_pt_lim (fun t => ln (t - l)%R) x (1 / (x - l))%R.
Proof.
  intros. replace (1 / (x - l))%R with (/ (x - l) * (1 - 0))%R by (unfold Rdiv; ring).
  apply (derivable_pt_lim_comp (fun t => t - l)%R ln).
  - apply derivable_pt_lim_minus; [apply derivable_pt_lim_id|apply derivable_pt_lim_const].
  - apply derivable_pt_lim_ln. lra.
Qed.

Lemma lim_ln_rsub : forall u x, (x < u)%R ->
  derivable_pt_lim (fun t => ln (u - t)%R) x (- (1 / (u - x)))%R.
Proof.
  intros. replace (- (1 / (u - x)))%R with (/ (u - x) * (0 - 1))%R by (unfold Rdiv; ring).
  apply (derivable_pt_lim_comp (fun t => u - t)%R ln).
  - apply derivable_pt_lim_minus; [apply derivable_pt_lim_const|apply derivable_pt_lim_id].
  - apply derivable_pt_lim_ln. lra.
Qed.

Lemma Rabs_lt_between : forall t x r, (Rabs (t - x) < r)%R -> (x - r < t < x + r)%R.
Proof. intros. apply Rabs_def2 in H. lra. Qed.

Lemma unconstrain1_lim : forall lb ub x, nlt lb (Fin x) -> nlt (Fin x) ub ->
  exists gr r d, (0 < r)%R /\
    (forall t, (Rabs (t - x) < r)%R -> unconstrain1 lb ub (Fin t) = Fin (gr t)) /\
    unconstrain1_jac lb ub (Fin x) = Fin d /\ derivable_pt_lim gr x d /\ (0 < d)%R.
Proof.
  intros lb ub x H1 H2. unfold unconstrain1, unconstrain1_jac.
  destruct ub as [u| | |]; simpl in H2; try tauto;
  destruct lb as [l| | |]; simpl in H1; try tauto; cbn [neqb].
  - exists (fun t => ln (t - l) - ln (u - t))%R, (Rmin (x - l) (u - x)), (1 / (x - l) + 1 / (u - x))%R.
    split; [apply Rmin_pos; lra|]. split; [|split; [|split]].
    + intros t Ht. apply Rabs_lt_between in Ht.
      pose proof (Rmin_l (x - l) (u - x)). pose proof (Rmin_r (x - l) (u - x)).
      cbn [nsub nneg nadd]. rewrite !nlog_pos by lra. reflexivity.
    + cbn [nsub nneg nadd]. rewrite !ndiv_fin by lra. reflexivity.
    + replace (1 / (x - l) + 1 / (u - x))%R with (1 / (x - l) - - (1 / (u - x)))%R by ring.
      apply derivable_pt_lim_minus; [apply lim_ln_sub|apply lim_ln_rsub]; auto.
    + assert (0 < 1 / (x - l))%R by (apply Rdiv_lt_0_compat; lra).
      assert (0 < 1 / (u - x))%R by (apply Rdiv_lt_0_compat; lra). lra.
  - exists (fun t => -1 * ln (u - t))%R, (u - x)%R, (1 / (u - x))%R.
    split; [lra|]. split; [|split; [|split]].
    + intros t Ht. apply Rabs_lt_between in Ht.
      cbn [nsub nneg nadd]. rewrite !nlog_pos by lra. reflexivity.
    + cbn [nsub nneg nadd]. rewrite !ndiv_fin by lra. reflexivity.
    + replace (1 / (u - x))%R with (-1 * - (1 / (u - x)))%R by ring.
      apply (derivable_pt_lim_scal (fun t => ln (u - t)%R)). apply lim_ln_rsub; auto.
    + apply Rdiv_lt_0_compat; lra.
  - exists (fun t => ln (t - l))%R, (x - l)%R, (1 / (x - l))%R.
    split; [lra|]. split; [|split; [|split]].
    + intros t Ht. apply Rabs_lt_between in Ht.
      cbn [nsub nneg nadd]. rewrite !nlog_pos by lra. reflexivity.
    + cbn [nsub nneg nadd]. rewrite !ndiv_fin by lra. reflexivity.
    + apply lim_ln_sub; auto.
    + apply Rdiv_lt_0_compat; lra.
  - exists (fun t => t), 1%R, 1%R. split; [lra|]. split; auto. split; auto.
    split; [apply derivable_pt_lim_id|lra].
Qed.

Lemma lim_exp_neg : forall x, derivable_pt_lim (fun t => exp (-1 * t)%R) x (- exp (-1 * x))%R.
Proof.
  intros. replace (- exp (-1 * x))%R with (exp (-1 * x) * (-1 * 1))%R by ring.
  apply (derivable_pt_lim_comp (fun t => -1 * t)%R exp).
  - apply (derivable_pt_lim_scal (fun t => t)). apply derivable_pt_lim_id.
  - apply derivable_pt_lim_exp.
Qed.

(** [a exp t / (c + exp t)] *)
Lemma lim_logistic : forall a c x, (0 < c)%R ->
  derivable_pt_lim (fun t => a * exp t / (c + exp t))%R x
    (a * (exp x / (c + exp x)) * (1 - exp x / (c + exp x)))%R.
Proof.
  intros a c x Hc. pose proof (exp_pos x) as He.
  replace (a * (exp x / (c + exp x)) * (1 - exp x / (c + exp x)))%R
    with ((a * exp x * (c + exp x) - (0 + exp x) * (a * exp x)) / Rsqr (c + exp x))%R
    by (unfold Rsqr; field; lra).
  apply (derivable_pt_lim_div (fun t => a * exp t)%R (fun t => c + exp t)%R).
  - apply (derivable_pt_lim_scal exp). apply derivable_pt_lim_exp.
  - apply derivable_pt_lim_plus; [apply derivable_pt_lim_const|apply derivable_pt_lim_exp].
  - lra.
Qed.

(** [a / (c + exp t)] *)
Lemma lim_inv_logistic : forall a c x, (0 < c)%R ->
  derivable_pt_lim (fun t => a / (c + exp t))%R x
    (- (a / (c + exp x) * (exp x / (c + exp x))))%R.
Proof.
  intros a c x Hc. pose proof (exp_pos x) as He.
  replace (- (a / (c + exp x) * (exp x / (c + exp x))))%R
    with ((0 * (c + exp x) - (0 + exp x) * a) / Rsqr (c + exp x))%R
    by (unfold Rsqr; field; lra).
  apply (derivable_pt_lim_div (fun _ => a) (fun t => c + exp t)%R).
  - apply derivable_pt_lim_const.
  - apply derivable_pt_lim_plus; [apply derivable_pt_lim_const|apply derivable_pt_lim_exp].
  - lra.
Qed.

Lemma constrain1_lim : forall lb ub x, nlt lb ub ->
  exists gr d,
    (forall t, constrain1 lb ub (Fin t) = Fin (gr t)) /\
    constrain1_jac lb ub (Fin x) = Fin d /\ derivable_pt_lim gr x d.
Proof.
  intros lb ub x H. unfold constrain1, constrain1_jac.
  destruct ub as [u| | |]; destruct lb as [l| | |]; simpl in H; try tauto; cbn [neqb].
  - exists (fun t => (u - l) * exp t / (1 + exp t) + l)%R,
      ((u - l) * (exp x / (1 + exp x)) * (1 - exp x / (1 + exp x)))%R.
    split; [|split].
    + intros t. pose proof (exp_pos t). cbn [nexp nsub nneg nadd nmul]. cbv zeta.
      rewrite ndiv_fin by lra. reflexivity.
    + pose proof (exp_pos x). cbn [nexp nsub nneg nadd nmul]. cbv zeta.
      rewrite ndiv_fin by lra. reflexivity.
    + replace ((u - l) * (exp x / (1 + exp x)) * (1 - exp x / (1 + exp x)))%R
        with ((u - l) * (exp x / (1 + exp x)) * (1 - exp x / (1 + exp x)) + 0)%R by ring.
      apply derivable_pt_lim_plus; [apply lim_logistic; lra|apply derivable_pt_lim_const].
  - exists (fun t => u - exp (-1 * t))%R, (exp (-1 * x))%R. split; [|split]; auto.
    replace (exp (-1 * x))%R with (0 - - exp (-1 * x))%R by ring.
    apply derivable_pt_lim_minus; [apply derivable_pt_lim_const|apply lim_exp_neg].
  - exists (fun t => exp t + l)%R, (exp x). split; [|split]; auto.
    replace (exp x) with (exp x + 0)%R by ring.
    apply derivable_pt_lim_plus; [apply derivable_pt_lim_exp|apply derivable_pt_lim_const].
  - exists (fun t => t), 1%R. split; auto. split; auto. apply derivable_pt_lim_id.
Qed.

(** The two scalar Jacobians are reciprocal. *)
Lemma jac1_inverse : forall lb ub x, nlt lb (Fin x) -> nlt (Fin x) ub ->
  exists d, (0 < d)%R /\ unconstrain1_jac lb ub (Fin x) = Fin d /\
            constrain1_jac lb ub (unconstrain1 lb ub (Fin x)) = Fin (/ d).
Proof.
  intros lb ub x H1 H2. unfold unconstrain1, unconstrain1_jac, constrain1_jac.
  destruct ub as [u| | |]; simpl in H2; try tauto;
  destruct lb as [l| | |]; simpl in H1; try tauto; cbn [neqb].
  - exists (1 / (x - l) + 1 / (u - x))%R.
    assert (0 < 1 / (x - l))%R by (apply Rdiv_lt_0_compat; lra).
    assert (0 < 1 / (u - x))%R by (apply Rdiv_lt_0_compat; lra). split; [lra|]. split.
    + cbn [nsub nneg nadd]. rewrite !ndiv_fin by lra. reflexivity.
    + cbn [nsub nneg nadd]. rewrite !nlog_pos by lra. cbn [nneg nadd nexp nmul nsub]. cbv zeta.
      assert (exp (ln (x + - l) + - ln (u + - x)) = (x - l) / (u - x))%R as ->.
      { rewrite exp_plus, exp_Ropp, !exp_ln by lra. reflexivity. }
      assert (0 < (x - l) / (u - x))%R by (apply Rdiv_lt_0_compat; lra).
      rewrite ndiv_fin by lra. cbn [nneg nadd nmul]. f_equal. field. lra.
  - exists (1 / (u - x))%R. split; [apply Rdiv_lt_0_compat; lra|]. split.
    + cbn [nsub nneg nadd]. rewrite !ndiv_fin by lra. reflexivity.
    + cbn [nsub nneg nadd]. rewrite !nlog_pos by lra. cbn [nmul nexp]. f_equal.
      replace (-1 * (-1 * ln (u + - x)))%R with (ln (u + - x)) by ring.
      rewrite exp_ln by lra. field. lra.
  - exists (1 / (x - l))%R. split; [apply Rdiv_lt_0_compat; lra|]. split.
    + cbn [nsub nneg nadd]. rewrite !ndiv_fin by lra. reflexivity.
    + cbn [nsub nneg nadd]. rewrite !nlog_pos by lra. cbn [nmul nexp]. f_equal.
      rewrite exp_ln by lra. field. lra.
  - exists 1%R. split; [lra|]. split; auto. f_equal. field.
Qed.

(** ** simplex rows *)
Lemma nth_fin : forall l i, i < length l -> nth i (map Fin l) NaN = Fin (nth i l 0%R).
Proof. intros. rewrite (nth_indep _ NaN (Fin 0)) by (rewrite map_length; auto). apply map_nth. Qed.

Lemma Forall_upd : forall A (P : A -> Prop) l i x, Forall P l -> P x -> Forall P (upd l i x).
Proof. intros A P l i x H Hx. revert i. induction H; destruct i; simpl; constructor; auto. Qed.

Lemma Forall_nth' : forall A (P : A -> Prop) l i d, Forall P l -> i < length l -> P (nth i l d).
Proof. intros. rewrite Forall_forall in H. apply H. apply nth_In. auto. Qed.

Lemma unconstrain_row_derivative : forall s0 s, (0 < s0)%R -> Forall (Rlt 0) s ->
  derivative_at (fun x => Ok (unconstrain_row x)) (s0 :: s) (map (fun y => ln y - ln s0)%R s)
    (simplex_jac true (map Fin (s0 :: s))).
Proof.
  intros s0 s H0 Hs.
  split; [rewrite unconstrain_row_fin by auto; reflexivity|].
  split; [cbn [simplex_jac m_rows]; simpl; rewrite !map_length; lia|].
  split; [cbn [simplex_jac m_cols]; simpl; rewrite !map_length; lia|].
  intros [|j] Hj; cbn [length] in Hj; cbn [nth].
  - exists s0, (fun t => map (fun y => ln y - ln t)%R s). split; auto. split.
    + intros t Ht. apply Rabs_lt_between in Ht. cbn [upd].
      rewrite unconstrain_row_fin by (auto; lra). rewrite !map_length. auto.
    + intros i Hi. rewrite map_length in Hi. exists (- (1 / s0))%R. split.
      * cbn [simplex_jac m_at unconstrain_row_jac nth map]. rewrite ndiv_fin by lra. f_equal. field. lra.
      * eapply (lim_ext (fun t => ln (nth i s 0) - ln t)%R _ _ _ 1); [lra| |].
        -- intros t _. symmetry. apply (nth_map_gen _ _ (fun y => ln y - ln t)%R). auto.
        -- replace (- (1 / s0))%R with (0 - / s0)%R by (field; lra).
           apply derivable_pt_lim_minus; [apply derivable_pt_lim_const|].
           apply derivable_pt_lim_ln. auto.
  - assert (j < length s) as Hj' by lia. pose proof (Forall_nth' _ _ s j 0%R Hs Hj') as Hp.
    exists (nth j s 0%R), (fun t => map (fun y => ln y - ln s0)%R (upd s j t)). split; auto. split.
    + intros t Ht. apply Rabs_lt_between in Ht. cbn [upd].
      rewrite unconstrain_row_fin; auto; [|apply Forall_upd; auto; lra].
      rewrite !map_length, upd_length. auto.
    + intros i Hi. rewrite map_length in Hi.
      cbn [simplex_jac m_at unconstrain_row_jac map nth]. rewrite nth_fin by auto.
      destruct (Nat.eqb_spec i j) as [->|Hij].
      * exists (1 / nth j s 0%R)%R. split; [apply ndiv_fin; lra|].
        eapply (lim_ext (fun t => ln t - ln s0)%R _ _ _ 1); [lra| |].
        -- intros t _. rewrite (nth_map_gen _ _ (fun y => ln y - ln s0)%R _ _ 0%R 0%R) by (rewrite upd_length; auto).
           rewrite nth_upd, Nat.eqb_refl by auto. auto.
        -- replace (1 / nth j s 0)%R with (/ nth j s 0 - 0)%R by (field; lra).
           apply derivable_pt_lim_minus; [|apply derivable_pt_lim_const].
           apply derivable_pt_lim_ln. auto.
      * exists 0%R. split; auto.
        eapply (lim_ext (fct_cte (ln (nth i s 0) - ln s0)%R) _ _ _ 1); [lra| |apply derivable_pt_lim_const].
        intros t _. rewrite (nth_map_gen _ _ (fun y => ln y - ln s0)%R _ _ 0%R 0%R) by (rewrite upd_length; auto).
        rewrite nth_upd by auto. rewrite (proj2 (Nat.eqb_neq i j)) by auto. reflexivity.
Qed.

Lemma Rlsum_upd : forall l i t, i < length l ->
  Rlsum (upd l i t) = (Rlsum l - nth i l 0 + t)%R.
Proof.
  induction l as [|a l IH]; intros [|i] t H; simpl in *; try lia; [ring|].
  rewrite IH by lia. ring.
Qed.

Lemma nth_softmax : forall x i, i <= length x ->
  nth i (softmax x) 0%R = (exp (nth i (0 :: x) 0) / Rlsum (map exp (0 :: x)))%R.
Proof.
  intros. unfold softmax. cbv zeta.
  rewrite (nth_map_gen _ _ (fun y => y / Rlsum (map exp (0%R :: x)))%R _ _ 0%R 0%R)
    by (rewrite map_length; simpl; lia).
  rewrite (nth_map_gen _ _ exp _ _ 0%R 0%R) by (simpl; lia). auto.
Qed.

Lemma Rlsum_exp_pos : forall l, (0 <= Rlsum (map exp l))%R.
Proof. induction l; simpl; [lra|]. pose proof (exp_pos a). lra. Qed.

Lemma Rlsum_ge_nth : forall l i, i < length l -> (exp (nth i l 0) <= Rlsum (map exp l))%R.
Proof.
  induction l as [|a l IH]; intros i H; simpl in H; [lia|]. destruct i; simpl.
  - pose proof (Rlsum_exp_pos l). lra.
  - pose proof (exp_pos a). specialize (IH i). assert (i < length l) by lia. specialize (IH H1). lra.
Qed.

Lemma constrain_row_derivative : forall x,
  derivative_at (fun y => Ok (constrain_row y)) x (softmax x)
    (simplex_jac false (map Fin (softmax x))).
Proof.
  intros x. destruct (softmax_spec x) as (Ls & _ & _).
  split; [rewrite constrain_row_fin; auto|].
  split; [cbn [simplex_jac m_rows]; rewrite map_length; auto|].
  split; [cbn [simplex_jac m_cols]; rewrite map_length; lia|].
  intros j Hj. exists 1%R, (fun t => softmax (upd x j t)). split; [lra|]. split.
  - intros t _. rewrite constrain_row_fin. split; auto.
    destruct (softmax_spec (upd x j t)) as (-> & _). rewrite upd_length; auto.
  - intros i Hi. rewrite Ls in Hi.
    set (c := (1 + Rlsum (map exp x) - exp (nth j x 0))%R).
    assert (0 < c)%R as Hc. { pose proof (Rlsum_ge_nth x j Hj). unfold c. lra. }
    assert (forall t, Rlsum (map exp (0%R :: upd x j t)) = c + exp t)%R as Hsum.
    { intros t. cbn [map Rlsum fold_right]. fold (Rlsum (map exp (upd x j t))).
      rewrite map_upd, Rlsum_upd by (rewrite map_length; auto).
      rewrite (nth_map_gen _ _ exp _ _ 0%R 0%R) by auto. rewrite exp_0. unfold c. ring. }
    assert (Rlsum (map exp (0%R :: x)) = c + exp (nth j x 0))%R as Hsum0.
    { rewrite <- (Hsum (nth j x 0%R)), upd_same. auto. }
    set (z := nth j x 0%R) in *. pose proof (exp_pos z) as Hz.
    cbn [simplex_jac m_at]. unfold constrain_row_jac.
    rewrite !nth_fin by lia. rewrite !nth_softmax by lia. rewrite !Hsum0.
    change (nth (S j) (0%R :: x) 0%R) with z.
    destruct (Nat.eqb_spec i (S j)) as [->|Hij].
    + eexists. split; [cbn [nmul nadd]; reflexivity|]. change (nth (S j) (0%R :: x) 0%R) with z.
      eapply (lim_ext (fun t => 1 * exp t / (c + exp t))%R _ _ _ 1); [lra| |].
      * intros t _. rewrite nth_softmax by (rewrite upd_length; lia). rewrite Hsum. cbn [nth].
        rewrite nth_upd, Nat.eqb_refl by auto. field. pose proof (exp_pos t). lra.
      * replace (-1 * (exp z / (c + exp z) * (exp z / (c + exp z))) + exp z / (c + exp z))%R
          with (1 * (exp z / (c + exp z)) * (1 - exp z / (c + exp z)))%R by ring.
        apply lim_logistic. auto.
    + eexists. split; [cbn [nmul nadd]; reflexivity|].
      eapply (lim_ext (fun t => exp (nth i (0 :: x) 0) / (c + exp t))%R _ _ _ 1); [lra| |].
      * intros t _. rewrite nth_softmax by (rewrite upd_length; lia). rewrite Hsum. f_equal. f_equal.
        destruct i as [|i]; cbn [nth]; auto.
        rewrite nth_upd by auto. rewrite (proj2 (Nat.eqb_neq i j)) by lia. auto.
      * replace (-1 * (exp (nth i (0 :: x) 0) / (c + exp z) * (exp z / (c + exp z))) + 0)%R
          with (- (exp (nth i (0 :: x) 0) / (c + exp z) * (exp z / (c + exp z))))%R by ring.
        apply lim_inv_logistic. auto.
Qed.

(** ** blocks *)
Fixpoint joint (l : list (nat * (list num -> res (list num)))) (x : list num)
  : res (list num) :=
  match l with
  | [] => Ok []
  | (n, F) :: r =>
      y <- F (firstn n x) ;; ys <- joint r (skipn n x) ;; Ok (y ++ ys)
  end.

Definition zero_mat : matrix := mkMat 0 0 (fun _ _ => Fin 0).
Definition bdiag (Js : list matrix) : matrix := fold_right block2 zero_mat Js.

Inductive blocks : list (nat * (list num -> res (list num))) -> list R -> list R -> list matrix -> Prop :=
| blocks_nil : blocks [] [] [] []
| blocks_cons : forall n F x y J l xs ys Js,
    n = length x -> derivative_at F x y J -> blocks l xs ys Js ->
    blocks ((n, F) :: l) (x ++ xs) (y ++ ys) (J :: Js).

Lemma firstn_app_eq : forall A (a b : list A) n, n = length a -> firstn n (a ++ b) = a.
Proof. intros. subst. rewrite firstn_app, Nat.sub_diag, firstn_all. simpl. apply app_nil_r. Qed.
Lemma skipn_app_eq : forall A (a b : list A) n, n = length a -> skipn n (a ++ b) = b.
Proof. intros. subst. rewrite skipn_app, Nat.sub_diag, skipn_all. auto. Qed.

Lemma joint_cons_app : forall n F l x xs y ys, n = length x ->
  F (map Fin x) = Ok (map Fin y) -> joint l (map Fin xs) = Ok (map Fin ys) ->
  joint ((n, F) :: l) (map Fin (x ++ xs)) = Ok (map Fin (y ++ ys)).
Proof.
  intros. cbn [joint]. rewrite map_app, firstn_app_eq, skipn_app_eq by (rewrite map_length; auto).
  rewrite H0. cbn [bind]. rewrite H1. cbn [bind]. rewrite map_app. auto.
Qed.

Lemma blocks_derivative : forall l x y Js, blocks l x y Js ->
  derivative_at (joint l) x y (bdiag Js).
Proof.
  intros l x y Js H. induction H as [|n F x y J l xs ys Js Hn (E1 & R1 & C1 & D1) Hb (E2 & R2 & C2 & D2)].
  - split; [reflexivity|]. split; auto. split; auto. intros j Hj. simpl in Hj. lia.
  - change (bdiag (J :: Js)) with (block2 J (bdiag Js)).
    split; [apply joint_cons_app; auto|].
    split; [cbn [block2 m_rows]; rewrite app_length; lia|].
    split; [cbn [block2 m_cols]; rewrite app_length; lia|].
    intros j Hj. rewrite app_length in Hj. cbn [block2 m_at]. rewrite R1, C1.
    destruct (Nat.ltb_spec j (length x)) as [Hlt|Hge].
    + destruct (D1 j Hlt) as (r & G & Hr & HG & HD).
      exists r, (fun t => G t ++ ys). rewrite app_nth1 by auto. split; auto. split.
      * intros t Ht. destruct (HG t Ht) as (EG & LG). split; [|rewrite !app_length; lia].
        rewrite upd_app_l by auto. apply joint_cons_app; auto. rewrite upd_length; auto.
      * intros i Hi. rewrite app_length in Hi. destruct (Nat.ltb_spec i (length y)) as [Hi1|Hi1].
        -- destruct (HD i Hi1) as (d & Ed & Hd). exists d. split; auto.
           eapply lim_ext; [exact Hr| |exact Hd].
           intros t Ht. cbv beta. destruct (HG t Ht) as (_ & LG). rewrite app_nth1 by lia. auto.
        -- exists 0%R. split; auto.
           eapply (lim_ext (fct_cte (nth (i - length y) ys 0%R)));
             [exact Hr| |apply derivable_pt_lim_const].
           intros t Ht. destruct (HG t Ht) as (_ & LG). rewrite app_nth2 by lia. rewrite LG. reflexivity.
    + assert (j - length x < length xs) as Hj2 by lia.
      destruct (D2 _ Hj2) as (r & G & Hr & HG & HD).
      exists r, (fun t => y ++ G t). rewrite app_nth2 by auto. split; auto. split.
      * intros t Ht. destruct (HG t Ht) as (EG & LG). split; [|rewrite !app_length; lia].
        rewrite upd_app_r by auto. apply joint_cons_app; auto.
      * intros i Hi. rewrite app_length in Hi. destruct (Nat.ltb_spec i (length y)) as [Hi1|Hi1].
        -- exists 0%R. split; auto.
           eapply (lim_ext (fct_cte (nth i y 0%R))); [exact Hr| |apply derivable_pt_lim_const].
           intros t Ht. rewrite app_nth1 by lia. reflexivity.
        -- assert (i - length y < length ys) as Hi2 by lia.
           destruct (HD _ Hi2) as (d & Ed & Hd). exists d. split; auto.
           eapply lim_ext; [exact Hr| |exact Hd].
           intros t Ht. cbv beta. rewrite app_nth2 by lia. auto.
Qed.

(** ** [bdiag] is block diagonal *)
Lemma bdiag_rows : forall Js, m_rows (bdiag Js) = lsum (map m_rows Js).
Proof. induction Js; simpl; auto. Qed.
Lemma bdiag_cols : forall Js, m_cols (bdiag Js) = lsum (map m_cols Js).
Proof. induction Js; simpl; auto. Qed.

Lemma bdiag_at : forall Js a b Ja Jb i j,
  nth_error Js a = Some Ja -> nth_error Js b = Some Jb -> i < m_rows Ja -> j < m_cols Jb ->
  m_at (bdiag Js) (row_offset Js a + i) (col_offset Js b + j) =
  if a =? b then m_at Ja i j else Fin 0.
Proof.
  induction Js as [|J Js IH]; intros a b Ja Jb i j Ha Hb Hi Hj; [destruct a; discriminate|].
  change (bdiag (J :: Js)) with (block2 J (bdiag Js)). cbn [block2 m_at].
  unfold row_offset, col_offset in *.
  destruct a as [|a]; destruct b as [|b]; cbn [nth_error] in *; cbn [firstn map lsum fold_right Nat.eqb].
  - injection Ha as <-. injection Hb as <-. cbn [Nat.add].
    rewrite (proj2 (Nat.ltb_lt _ _)), (proj2 (Nat.ltb_lt _ _)) by auto. auto.
  - injection Ha as <-. cbn [Nat.add].
    rewrite (proj2 (Nat.ltb_lt _ _)) by auto. rewrite (proj2 (Nat.ltb_ge _ _)) by lia. auto.
  - injection Hb as <-. cbn [Nat.add].
    rewrite (proj2 (Nat.ltb_ge _ _)) by lia. rewrite (proj2 (Nat.ltb_lt _ _)) by auto. auto.
  - rewrite (proj2 (Nat.ltb_ge _ _)), (proj2 (Nat.ltb_ge _ _)) by lia.
    rewrite <- (IH a b Ja Jb i j); auto. f_equal; unfold lsum; lia.
Qed.

Lemma bdiag_block : forall Js, block_diagonal Js (bdiag Js).
Proof.
  intros. split; [apply bdiag_rows|]. split; [apply bdiag_cols|].
  intros. apply bdiag_at with (Jb := Jb); auto.
Qed.

Lemma block_diag_ok : forall Js, Js <> [] -> block_diag Js = Ok (bdiag Js).
Proof. intros [|J Js] H; [contradiction|reflexivity]. Qed.
