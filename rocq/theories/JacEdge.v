(** * Numeric Jacobians at values on a bound and at infinite values. *)
From Coq Require Import Reals Lra Lia.
From Verif Require Import Base Num NumFacts Nd Numeric Pattern Jac.
Local Open Scope list_scope.
Local Open Scope nat_scope.

Lemma jacobian_diag : forall ad freeing k shape lb ub dv fd a i x,
  nth_error (dat a) i = Some x ->
  exists J, jacobian ad freeing (PNum k shape lb ub dv fd) (FArr a) = Ok J /\
    m_at J i i = (if freeing then unconstrain1_jac (pyval lb) (pyval ub) x
                  else constrain1_jac (pyval lb) (pyval ub) (unconstrain1 (pyval lb) (pyval ub) x)).
Proof.
  intros ad freeing k shape lb ub dv fd a i x H. eexists. split; [reflexivity|].
  unfold diags. cbn [m_at]. rewrite Nat.eqb_refl. unfold num_jac_array.
  destruct freeing; apply nth_error_nth; rewrite nth_error_map, H; reflexivity.
Qed.

Lemma Reqb_refl0 : forall x, Reqb x x = true.
Proof. intros. unfold Reqb. destruct (Req_EM_T x x); auto; lra. Qed.
Lemma Rltb_t : forall x y, (x < y)%R -> Rltb x y = true.
Proof. intros. unfold Rltb. destruct (Rlt_dec x y); auto; lra. Qed.
Lemma Rltb_f : forall x y, (y <= x)%R -> Rltb x y = false.
Proof. intros. unfold Rltb. destruct (Rlt_dec x y); auto; lra. Qed.
Lemma Reqb_f : forall x y, x <> y -> Reqb x y = false.
Proof. intros. unfold Reqb. destruct (Req_EM_T x y); auto; lra. Qed.

Lemma Reqb_t : forall x y, x = y -> Reqb x y = true.
Proof. intros x y ->. apply Reqb_refl0. Qed.
Ltac ev := repeat (cbn -[Reqb Rltb]; unfold inf_times; cbn -[Reqb Rltb];
  match goal with
  | |- context [Rltb ?a ?b] => first [rewrite (Rltb_t a b) by lra | rewrite (Rltb_f a b) by lra]
  | |- context [Reqb ?a ?b] => first [rewrite (Reqb_t a b) by lra | rewrite (Reqb_f a b) by lra]
  end); try reflexivity.

Lemma numeric_edges : forall ad k shape lb ub dv fd a i x,
  nth_error (dat a) i = Some x ->
  exists F U, jacobian ad true (PNum k shape lb ub dv fd) (FArr a) = Ok F /\
    jacobian ad false (PNum k shape lb ub dv fd) (FArr a) = Ok U /\
    (pyval lb = NInf -> pyval ub = PInf -> m_at F i i = Fin 1 /\ m_at U i i = Fin 1) /\
    (forall l, pyval lb = Fin l -> pyval ub = PInf ->
       (x = Fin l -> m_at F i i = PInf /\ m_at U i i = Fin 0) /\
       (x = PInf -> m_at F i i = Fin 0 /\ m_at U i i = PInf)) /\
    (forall h, pyval lb = NInf -> pyval ub = Fin h ->
       (x = Fin h -> m_at F i i = PInf /\ m_at U i i = Fin 0) /\
       (x = NInf -> m_at F i i = Fin 0 /\ m_at U i i = PInf)) /\
    (forall l h, pyval lb = Fin l -> pyval ub = Fin h -> (l < h)%R ->
       (x = Fin l -> m_at F i i = PInf /\ m_at U i i = Fin 0) /\
       (x = Fin h -> m_at F i i = PInf /\ m_at U i i = NaN)).
Proof.
  intros ad k shape lb ub dv fd a i x H.
  destruct (jacobian_diag ad true k shape lb ub dv fd a i x H) as (F & EF & HF).
  destruct (jacobian_diag ad false k shape lb ub dv fd a i x H) as (U & EU & HU).
  exists F, U. split; auto. split; auto. rewrite HF, HU. clear.
  split; [|split; [|split]].
  - intros -> ->. split; reflexivity.
  - intros l -> ->. split; intros ->; (split; [unfold unconstrain1_jac|unfold constrain1_jac, unconstrain1]; ev).
  - intros h -> ->. split; intros ->; (split; [unfold unconstrain1_jac|unfold constrain1_jac, unconstrain1]; ev).
  - intros l h -> -> L. split; intros ->; (split; [unfold unconstrain1_jac|unfold constrain1_jac, unconstrain1]; ev).
    cbn [nmul nneg]. f_equal. field.
Qed.

(** At the upper bound of a two-sided pattern the unfreeing Jacobian is NaN. *)
Lemma upper_edge_nan : forall ad k shape lb ub dv fd a i l h,
  pyval lb = Fin l -> pyval ub = Fin h -> (l < h)%R -> nth_error (dat a) i = Some (Fin h) ->
  exists U, jacobian ad false (PNum k shape lb ub dv fd) (FArr a) = Ok U /\ m_at U i i = NaN.
Proof.
  intros ad k shape lb ub dv fd a i l h Hl Hh L H.
  destruct (numeric_edges ad k shape lb ub dv fd a i _ H) as (F & U & _ & EU & _ & _ & _ & T).
  exists U. split; auto. apply (T l h Hl Hh L). reflexivity.
Qed.
