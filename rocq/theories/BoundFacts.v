(** * Infinite free values and values on the boundary: leaves. *)
From Coq Require Import Reals Lra.
From Verif Require Import Base Num Nd Numeric Simplex Psd Pattern Spec SpecBound ListFacts PatFacts
  NonFree NumFacts CholFacts Free JacEdge.

Ltac ev2 := ev; cbn -[Reqb Rltb]; first [reflexivity | f_equal; unfold Rdiv; lra].

Lemma edge_lower : forall l, constrain1 (Fin l) PInf NInf = Fin l /\ unconstrain1 (Fin l) PInf (Fin l) = NInf /\
  constrain1 (Fin l) PInf PInf = PInf /\ unconstrain1 (Fin l) PInf PInf = PInf.
Proof.
  intros l. unfold constrain1, unconstrain1. repeat split; ev2.
Qed.
Lemma edge_upper : forall u, constrain1 NInf (Fin u) PInf = Fin u /\ unconstrain1 NInf (Fin u) (Fin u) = PInf /\
  constrain1 NInf (Fin u) NInf = NInf /\ unconstrain1 NInf (Fin u) NInf = NInf.
Proof.
  intros u. unfold constrain1, unconstrain1. repeat split; ev2.
Qed.
Lemma edge_two : forall l u, (l < u)%R ->
  constrain1 (Fin l) (Fin u) NInf = Fin l /\ unconstrain1 (Fin l) (Fin u) (Fin l) = NInf.
Proof.
  intros l u H. unfold constrain1, unconstrain1. split; ev2.
Qed.

Lemma ext_constrain : forall lb ub x, nlt lb ub -> ext_free lb ub x ->
  ext_value lb ub (constrain1 lb ub x) /\ unconstrain1 lb ub (constrain1 lb ub x) = x.
Proof.
  intros lb ub x H (Hn & Hp). destruct x as [x| | |]; [| | |contradiction].
  - destruct (constrain1_fin lb ub x H) as (y & -> & H1 & H2 & H3). split; auto.
    split; [discriminate|]. split; [|split].
    + intros X. destruct lb; simpl in *; try tauto; lra.
    + intros X. destruct ub; simpl in *; try tauto; lra.
    + intros (l & ->) (u & ->) E. inversion E; subst. simpl in H2. lra.
  - unfold ext_value. destruct lb as [l| | |], ub as [u| | |]; simpl in H; try tauto.
    + destruct (Hp eq_refl); discriminate.
    + destruct (edge_lower l) as (_ & _ & -> & ->). simpl. repeat split; auto; try discriminate.
      intros _ (u & E). discriminate.
    + destruct (edge_upper u) as (-> & -> & _). simpl. repeat split; auto; try discriminate; try lra.
      intros (l & E). discriminate.
    + simpl. repeat split; auto; try discriminate. intros (l & E). discriminate.
  - unfold ext_value. destruct lb as [l| | |], ub as [u| | |]; simpl in H; try tauto.
    + destruct (edge_two l u H) as (-> & ->). simpl. repeat split; auto; try discriminate; try lra.
      intros _ _ E. inversion E. lra.
    + destruct (edge_lower l) as (-> & -> & _). simpl. repeat split; auto; try discriminate; try lra.
    + destruct (edge_upper u) as (_ & _ & -> & ->). simpl. repeat split; auto; try discriminate.
    + simpl. repeat split; auto; try discriminate.
Qed.

Lemma ext_unconstrain : forall lb ub y, nlt lb ub -> ext_value lb ub y ->
  ext_free lb ub (unconstrain1 lb ub y) /\ constrain1 lb ub (unconstrain1 lb ub y) = y.
Proof.
  intros lb ub y H (Hn & Hl & Hu & Ht).
  assert (nlt lb y /\ nlt y ub /\ finite y \/ (y = lb \/ y = ub)) as [(H1 & H2 & (r & ->))|E].
  { destruct y as [y| | |], lb as [l| | |], ub as [u| | |]; simpl in *; try tauto;
      try (right; auto; fail); try (left; repeat split; auto; exists y; auto; fail).
    - destruct (Rtotal_order l y) as [?|[->|?]]; [|right; auto|lra].
      destruct (Rtotal_order y u) as [?|[->|?]]; [|right; auto|lra]. left. repeat split; auto. exists y; auto.
    - destruct (Rtotal_order l y) as [?|[->|?]]; [|right; auto|lra]. left. repeat split; auto. exists y; auto.
    - destruct (Rtotal_order y u) as [?|[->|?]]; [|right; auto|lra]. left. repeat split; auto. exists y; auto. }
  - destruct (unconstrain1_fin lb ub r H1 H2) as (x & -> & ->). split; auto. split; discriminate.
  - unfold ext_free. destruct lb as [l| | |], ub as [u| | |]; simpl in H; try tauto;
      destruct E; subst; try (exfalso; apply Ht; unfold finite; eauto; fail).
    + destruct (edge_two l u H) as (E1 & E2). rewrite E2, E1. repeat split; try discriminate.
    + destruct (edge_lower l) as (E1 & E2 & _). rewrite E2, E1. repeat split; try discriminate.
    + destruct (edge_lower l) as (_ & _ & E1 & E2). rewrite E2, E1. repeat split; auto; try discriminate.
    + destruct (edge_upper u) as (_ & _ & E1 & E2). rewrite E2, E1. repeat split; auto; try discriminate.
    + destruct (edge_upper u) as (E1 & E2 & _). rewrite E2, E1. repeat split; auto; try discriminate.
Qed.

(** ** simplex rows *)
Lemma ex_nonneg : forall x, (0 <= ex x)%R.
Proof. intros [r| | |]; simpl; try lra. left. apply exp_pos. Qed.

Lemma max_low : forall l m, Forall low l -> exists M, nmaxl (Fin m) l = Fin M.
Proof.
  unfold nmaxl. induction l as [|x l IH]; intros m H; [exists m; auto|]. inversion H as [|? ? [(r & ->)| ->] Hl]; subst.
  - simpl. destruct (Rltb m r); apply IH; auto.
  - simpl. apply IH; auto.
Qed.

Definition weights (x : list num) : list R := 1%R :: map ex x.
Definition soft (x : list num) : list R := map (fun e => e / Rlsum (weights x))%R (weights x).

Lemma weights_sum : forall x, (0 < Rlsum (weights x))%R.
Proof.
  intros x. unfold weights. cbn [Rlsum]. assert (0 <= Rlsum (map ex x))%R; [|unfold Rlsum in *; simpl in *; lra].
  induction x as [|y x IH]; simpl in *; [lra|]. pose proof (ex_nonneg y). lra.
Qed.

Lemma constrain_row_low : forall x, Forall low x -> constrain_row x = map Fin (soft x).
Proof.
  intros x H. unfold constrain_row, logsumexp. destruct (max_low x 0 H) as (M & ->).
  pose proof (weights_sum x) as Hp. pose proof (exp_pos (- M)) as He.
  assert (map (fun y => nexp (nsub y (Fin M))) (Fin 0 :: x) = map Fin (map (fun e => exp (- M) * e)%R (weights x))) as ->.
  { unfold weights. simpl. f_equal; [f_equal; rewrite exp_plus, exp_0; ring|].
    rewrite !map_map. apply map_ext_in. intros y Hy. rewrite Forall_forall in H.
    destruct (H y Hy) as [(r & ->)| ->]; simpl; f_equal; [rewrite exp_plus; ring|ring]. }
  rewrite nsum_fin, Rlsum_scal, nlog_pos by (apply Rmult_lt_0_compat; auto). cbn [nadd].
  rewrite ln_mult, ln_exp by auto. replace (- M + ln (Rlsum (weights x)) + M)%R with (ln (Rlsum (weights x))) by ring.
  unfold soft. set (S := Rlsum (weights x)) in *. unfold weights. cbn [map]. f_equal.
  - cbn [nsub nneg nadd nexp]. f_equal. rewrite exp_plus, exp_Ropp, exp_ln, exp_0 by auto. auto.
  - rewrite !map_map. apply map_ext_in. intros y Hy. rewrite Forall_forall in H.
    destruct (H y Hy) as [(r & ->)| ->]; cbn [nsub nneg nadd nexp ex]; f_equal.
    + rewrite exp_plus, exp_Ropp, exp_ln by auto. auto.
    + unfold Rdiv. ring.
Qed.

Lemma soft_simplex : forall x n, length x = n - 1 -> 2 <= n -> ext_simplex n (soft x).
Proof.
  intros x n L N. pose proof (weights_sum x) as Hp. split; [|split].
  - unfold soft, weights. rewrite map_length. simpl. rewrite map_length. lia.
  - unfold soft. set (S := Rlsum (weights x)) in *. unfold weights. cbn [map]. eexists. eexists. split; [reflexivity|].
    split; [apply Rdiv_lt_0_compat; lra|]. apply Forall_forall. intros y Hy. apply in_map_iff in Hy.
    destruct Hy as (e & <- & He). apply in_map_iff in He. destruct He as (z & <- & _).
    apply Rmult_le_pos; [apply ex_nonneg|]. left. apply Rinv_0_lt_compat. auto.
  - unfold soft. rewrite (map_ext _ (fun y => / Rlsum (weights x) * y)%R) by (intros; unfold Rdiv; ring).
    rewrite Rlsum_scal. field. lra.
Qed.

Lemma unconstrain_soft : forall x, Forall low x -> unconstrain_row (map Fin (soft x)) = x.
Proof.
  intros x H. pose proof (weights_sum x) as Hp. unfold soft. set (S := Rlsum (weights x)) in *.
  unfold weights. cbn [map unconstrain_row]. rewrite !map_map.
  rewrite (nlog_pos (1 / S)) by (apply Rdiv_lt_0_compat; lra).
  rewrite <- (map_id x) at 2. apply map_ext_in. intros y Hy. rewrite Forall_forall in H.
  destruct (H y Hy) as [(r & ->)| ->]; cbn [ex].
  - rewrite nlog_pos by (apply Rdiv_lt_0_compat; auto; apply exp_pos). cbn [nsub nneg nadd]. f_equal.
    unfold Rdiv. rewrite !ln_mult, ln_exp, ln_1 by (auto using exp_pos, Rinv_0_lt_compat; lra). ring.
  - replace (0 / S)%R with 0%R by (unfold Rdiv; ring). cbn -[Rltb]. rewrite !(Rltb_f 0 0) by lra. reflexivity.
Qed.

Lemma soft_unconstrain : forall n r, ext_simplex n r ->
  exists x, unconstrain_row (map Fin r) = x /\ Forall low x /\ n = S (length x) /\ constrain_row x = map Fin r.
Proof.
  intros n r (L & (r0 & rest & -> & P & Q) & S1).
  set (x := map (fun y => if Rlt_dec 0 y then Fin (ln y - ln r0) else NInf) rest).
  exists x.
  assert (Forall low x) as Hx.
  { apply Forall_forall. intros z Hz. apply in_map_iff in Hz. destruct Hz as (y & <- & _).
    destruct (Rlt_dec 0 y); [left; eexists; reflexivity|right; auto]. }
  assert (map ex x = map (fun y => y * / r0)%R rest) as Ex.
  { unfold x. rewrite map_map. apply map_ext_in. intros y Hy. rewrite Forall_forall in Q. specialize (Q y Hy).
    destruct (Rlt_dec 0 y); cbn [ex].
    - unfold Rminus. rewrite exp_plus, exp_Ropp, !exp_ln by auto. auto.
    - assert (y = 0%R) by lra. subst. ring. }
  assert (Rlsum (weights x) = / r0)%R as Sw.
  { unfold weights. rewrite Ex. cbn [Rlsum] in *.
    assert (Rlsum (map (fun y => y * / r0) rest) = / r0 * Rlsum rest)%R as E.
    { rewrite <- Rlsum_scal. f_equal. apply map_ext. intros; ring. }
    unfold Rlsum in *. simpl in *. rewrite E. replace (fold_right Rplus 0 rest)%R with (1 - r0)%R by lra. field. lra. }
  split; [|split; [auto|split]].
  - cbn [map unconstrain_row]. rewrite nlog_pos by auto. rewrite map_map. unfold x. apply map_ext_in. intros y Hy.
    rewrite Forall_forall in Q. specialize (Q y Hy). destruct (Rlt_dec 0 y).
    + rewrite nlog_pos by auto. reflexivity.
    + assert (y = 0%R) by lra. subst. cbn -[Rltb]. rewrite !(Rltb_f 0 0) by lra. reflexivity.
  - unfold x. rewrite map_length. simpl in L. lia.
  - rewrite constrain_row_low by auto. f_equal. unfold soft. rewrite Sw. unfold weights. cbn [map]. f_equal.
    + field. lra.
    + rewrite Ex, map_map. rewrite <- (map_id rest) at 2. apply map_ext. intros; field. lra.
Qed.
