(** * Lemmas about extended reals and the elementwise transforms. *)
From Coq Require Import Reals Lra Psatz.
From Verif Require Import Base Num Nd Numeric Simplex Spec ListFacts.

Lemma Rltb_true : forall x y, Rltb x y = true <-> (x < y)%R.
Proof. intros. unfold Rltb. destruct (Rlt_dec x y); split; auto; try discriminate; tauto. Qed.
Lemma Rltb_false : forall x y, Rltb x y = false <-> (y <= x)%R.
Proof. intros. unfold Rltb. destruct (Rlt_dec x y); split; auto; try discriminate; lra. Qed.
Lemma Reqb_true : forall x y, Reqb x y = true <-> x = y.
Proof. intros. unfold Reqb. destruct (Req_EM_T x y); split; auto; try discriminate; tauto. Qed.
Lemma Reqb_false : forall x y, Reqb x y = false <-> x <> y.
Proof. intros. unfold Reqb. destruct (Req_EM_T x y); split; auto; try discriminate; tauto. Qed.
Lemma Reqb_refl : forall x, Reqb x x = true.
Proof. intros. apply Reqb_true. auto. Qed.

Lemma nltb_nlt : forall a b, nltb a b = true <-> nlt a b.
Proof.
  intros [x| | |] [y| | |]; simpl; split; intros; try discriminate; try tauto;
    apply Rltb_true; auto.
Qed.

Lemma nltb_asym : forall a b, nlt a b -> nltb b a = false.
Proof.
  intros [x| | |] [y| | |]; simpl; intros; try tauto. apply Rltb_false. lra.
Qed.

Lemma nlog_pos : forall x, (0 < x)%R -> nlog (Fin x) = Fin (ln x).
Proof. intros. simpl. rewrite (proj2 (Rltb_true 0 x)); auto. Qed.

Lemma ndiv_fin : forall x y, y <> 0%R -> ndiv (Fin x) (Fin y) = Fin (x / y).
Proof. intros. simpl. rewrite (proj2 (Reqb_false y 0)); auto. Qed.

Lemma exp_pos' : forall x, (0 < exp x)%R.
Proof. apply exp_pos. Qed.

(** ** bounded reals *)
Lemma logistic_bounds : forall l u e, (l < u)%R -> (0 < e)%R ->
  (l < (u - l) * e / (1 + e) + l < u)%R.
Proof.
  intros. split.
  - assert (0 < (u - l) * e / (1 + e))%R; [|lra].
    apply Rdiv_lt_0_compat; [apply Rmult_lt_0_compat|]; lra.
  - assert ((u - l) * e / (1 + e) < u - l)%R; [|lra].
    apply (Rmult_lt_reg_r (1 + e)); [lra|]. unfold Rdiv.
    rewrite Rmult_assoc, Rinv_l by lra. nra.
Qed.

Lemma constrain1_fin : forall lb ub x, nlt lb ub ->
  exists y, constrain1 lb ub (Fin x) = Fin y /\ nlt lb (Fin y) /\ nlt (Fin y) ub /\
            unconstrain1 lb ub (Fin y) = Fin x.
Proof.
  intros lb ub x H. unfold constrain1, unconstrain1.
  destruct ub as [u| | |]; simpl in H; try (destruct lb; tauto).
  - destruct lb as [l| | |]; try tauto; simpl neqb; cbv iota.
    + cbv zeta. cbn [nexp nsub nneg nadd nmul ndiv]. set (e := exp x).
      assert (0 < e)%R as He by apply exp_pos. rewrite (proj2 (Reqb_false (1 + e) 0)) by lra. simpl.
      pose proof (logistic_bounds l u e H He) as [B1 B2].
      replace (u + - l)%R with (u - l)%R by ring.
      eexists; split; [reflexivity|]. simpl. split; auto. split; auto.
      rewrite (proj2 (Rltb_true _ _)) by lra.
      rewrite (proj2 (Rltb_true _ _)) by lra. simpl. f_equal.
      replace ((u - l) * e / (1 + e) + l + - l)%R with ((u - l) * e / (1 + e))%R by ring.
      replace (u + - ((u - l) * e / (1 + e) + l))%R with ((u - l) / (1 + e))%R by (field; lra).
      assert (forall a b, (0 < a)%R -> (0 < b)%R -> ln (a / b) = ln a - ln b)%R as Hln.
      { intros. unfold Rdiv. rewrite ln_mult, ln_Rinv; auto. apply Rinv_0_lt_compat; auto. }
      rewrite !Hln; try lra.
      * rewrite ln_mult by lra. unfold e. rewrite ln_exp. ring.
      * apply Rmult_lt_0_compat; lra.
    + simpl. eexists; split; [reflexivity|]. simpl. pose proof (exp_pos (-1 * x)).
      split; auto. split; [lra|].
      replace (u + - (u + - exp (-1 * x)))%R with (exp (-1 * x)) by ring.
      rewrite (proj2 (Rltb_true _ _)) by lra. simpl. rewrite ln_exp. f_equal. ring.
  - destruct lb as [l| | |]; try tauto; simpl neqb; cbv iota.
    + simpl. eexists; split; [reflexivity|]. simpl. pose proof (exp_pos x).
      split; [lra|]. split; auto.
      replace (exp x + l + - l)%R with (exp x) by ring.
      rewrite (proj2 (Rltb_true _ _)) by lra. rewrite ln_exp. auto.
    + eexists; split; [reflexivity|]. simpl. auto.
Qed.

Lemma unconstrain1_fin : forall lb ub y, nlt lb (Fin y) -> nlt (Fin y) ub ->
  exists x, unconstrain1 lb ub (Fin y) = Fin x /\ constrain1 lb ub (Fin x) = Fin y.
Proof.
  intros lb ub y H1 H2. unfold constrain1, unconstrain1.
  destruct ub as [u| | |]; simpl in H2; try tauto.
  - destruct lb as [l| | |]; simpl in H1; try tauto; simpl neqb; cbv iota.
    + simpl. rewrite (proj2 (Rltb_true _ _)) by lra.
      rewrite (proj2 (Rltb_true _ _)) by lra. simpl.
      eexists; split; [reflexivity|]. simpl.
      assert (exp (ln (y + - l) + - ln (u + - y)) = (y - l) / (u - y))%R as ->.
      { rewrite exp_plus, exp_Ropp, !exp_ln by lra. unfold Rdiv, Rminus. auto. }
      assert (0 < (y - l) / (u - y))%R by (apply Rdiv_lt_0_compat; lra).
      rewrite (proj2 (Reqb_false _ 0)) by lra. simpl. f_equal. field. lra.
    + simpl. rewrite (proj2 (Rltb_true _ _)) by lra. simpl.
      eexists; split; [reflexivity|]. simpl. f_equal.
      replace (-1 * (-1 * ln (u + - y)))%R with (ln (u + - y)) by ring.
      rewrite exp_ln by lra. ring.
  - destruct lb as [l| | |]; simpl in H1; try tauto; simpl neqb; cbv iota.
    + simpl. rewrite (proj2 (Rltb_true _ _)) by lra.
      eexists; split; [reflexivity|]. simpl. rewrite exp_ln by lra. f_equal. ring.
    + eexists; split; reflexivity.
Qed.

(** ** finite sums and maxima *)
Lemma nsum_fin : forall l, nsum (map Fin l) = Fin (Rlsum l).
Proof. induction l; simpl; auto. rewrite IHl. auto. Qed.

Fixpoint rmaxl (x : R) (l : list R) : R :=
  match l with [] => x | y :: l' => rmaxl (if Rltb x y then y else x) l' end.

Lemma nmaxl_fin : forall l x, nmaxl (Fin x) (map Fin l) = Fin (rmaxl x l).
Proof.
  unfold nmaxl. induction l; intros; simpl; auto.
  rewrite <- IHl. f_equal. destruct (Rltb x a); auto.
Qed.

Lemma Rlsum_app : forall a b, (Rlsum (a ++ b) = Rlsum a + Rlsum b)%R.
Proof. induction a; intros; simpl; [ring|]. rewrite IHa. ring. Qed.

Lemma Rlsum_scal : forall c l, (Rlsum (map (fun x => c * x) l) = c * Rlsum l)%R.
Proof. induction l; simpl; [ring|]. rewrite IHl. ring. Qed.

Lemma Rlsum_pos : forall l, l <> [] -> Forall (Rlt 0) l -> (0 < Rlsum l)%R.
Proof.
  intros l Hne H. destruct l as [|a l]; [contradiction|]. clear Hne.
  inversion H; subst. simpl.
  assert (0 <= Rlsum l)%R; [|lra]. clear -H3. induction H3; simpl; lra.
Qed.

(** The value of logsumexp on finite rows does not depend on the shift. *)
Lemma logsumexp_fin : forall x l,
  logsumexp (Fin x) (map Fin l) = Fin (ln (Rlsum (map exp (x :: l)))).
Proof.
  intros. unfold logsumexp. rewrite nmaxl_fin. set (m := rmaxl x l).
  assert (map (fun y => nexp (nsub y (Fin m))) (Fin x :: map Fin l)
          = map Fin (map (fun y => exp (- m) * exp y)%R (x :: l))) as ->.
  { change (Fin x :: map Fin l) with (map Fin (x :: l)). rewrite !map_map.
    apply map_ext. intros a. simpl. f_equal. rewrite exp_plus. ring. }
  rewrite nsum_fin.
  assert (Rlsum (map (fun y => exp (- m) * exp y)%R (x :: l))
         = exp (- m) * Rlsum (map exp (x :: l)))%R as ->.
  { rewrite <- Rlsum_scal, map_map. auto. }
  assert (0 < Rlsum (map exp (x :: l)))%R as Hp.
  { apply Rlsum_pos; [discriminate|]. apply Forall_forall. intros y Hy.
    apply in_map_iff in Hy. destruct Hy as (z & <- & _). apply exp_pos. }
  pose proof (exp_pos (- m)) as He.
  rewrite nlog_pos by (apply Rmult_lt_0_compat; auto).
  cbn [nadd]. apply f_equal. rewrite ln_mult, ln_exp by auto. ring.
Qed.

(** ** simplex rows *)
Definition softmax (x : list R) : list R :=
  let e := map exp (0%R :: x) in map (fun y => y / Rlsum e)%R e.

Lemma constrain_row_fin : forall x, constrain_row (map Fin x) = map Fin (softmax x).
Proof.
  intros. unfold constrain_row, softmax. rewrite logsumexp_fin.
  change (Fin 0 :: map Fin x) with (map Fin (0%R :: x)). rewrite !map_map.
  apply map_ext. intros a. simpl nexp. f_equal.
  assert (0 < Rlsum (map exp (0%R :: x)))%R as Hp.
  { apply Rlsum_pos; [discriminate|]. apply Forall_forall. intros y Hy.
    apply in_map_iff in Hy. destruct Hy as (z & <- & _). apply exp_pos. }
  rewrite exp_plus, exp_Ropp, exp_ln by auto. auto.
Qed.

Lemma softmax_spec : forall x,
  length (softmax x) = S (length x) /\ Forall (Rlt 0) (softmax x) /\ Rlsum (softmax x) = 1%R.
Proof.
  intros. unfold softmax. 
  assert (0 < Rlsum (map exp (0%R :: x)))%R as Hp.
  { apply Rlsum_pos; [discriminate|]. apply Forall_forall. intros y Hy.
    apply in_map_iff in Hy. destruct Hy as (z & <- & _). apply exp_pos. }
  split; [rewrite !map_length; auto|]. split.
  - apply Forall_forall. intros y Hy. apply in_map_iff in Hy. destruct Hy as (z & <- & Hz).
    apply in_map_iff in Hz. destruct Hz as (w & <- & _).
    apply Rdiv_lt_0_compat; auto. apply exp_pos.
  - set (e := map exp (0%R :: x)) in *.
    rewrite (map_ext _ (fun y => / Rlsum e * y)%R) by (intros; unfold Rdiv; ring).
    rewrite Rlsum_scal. field. lra.
Qed.

Lemma unconstrain_row_fin : forall s0 s, (0 < s0)%R -> Forall (Rlt 0) s ->
  unconstrain_row (map Fin (s0 :: s)) = map Fin (map (fun y => ln y - ln s0)%R s).
Proof.
  intros. simpl. rewrite !map_map. apply map_ext_in. intros a Ha.
  rewrite Forall_forall in H0. cbn [nlog]. rewrite (proj2 (Rltb_true _ _)) by auto.
  rewrite (proj2 (Rltb_true _ _)) by auto. auto.
Qed.

Lemma unconstrain_constrain_row : forall x,
  unconstrain_row (constrain_row (map Fin x)) = map Fin x.
Proof.
  intros. rewrite constrain_row_fin. destruct (softmax_spec x) as (_ & Hp & _).
  unfold softmax in *. rewrite map_cons in *. rewrite (map_cons (fun y => y / _)%R) in *.
  inversion Hp; subst. rewrite unconstrain_row_fin by auto. f_equal.
  rewrite !map_map.
  transitivity (map (fun y : R => y) x); [|apply map_id].
  apply map_ext. intros a. rewrite exp_0 in *.
  set (T := Rlsum (1%R :: map exp x)) in *.
  assert (0 < T)%R as HT.
  { unfold Rdiv in H1. rewrite Rmult_1_l in H1. rewrite <- (Rinv_inv T).
    apply Rinv_0_lt_compat. auto. }
  unfold Rdiv. rewrite !ln_mult; try lra; try apply exp_pos; try (apply Rinv_0_lt_compat; lra).
  rewrite ln_exp, ln_1. ring.
Qed.

Lemma constrain_unconstrain_row : forall s,
  s <> [] -> Forall (Rlt 0) s -> Rlsum s = 1%R ->
  exists x, unconstrain_row (map Fin s) = map Fin x /\ length s = S (length x) /\
            constrain_row (map Fin x) = map Fin s.
Proof.
  intros s Hne Hp Hs. destruct s as [|s0 s]; [contradiction|].
  inversion Hp; subst. rewrite unconstrain_row_fin by auto.
  eexists. split; [reflexivity|]. split; [simpl; rewrite map_length; auto|].
  rewrite constrain_row_fin. f_equal. unfold softmax.
  assert (map exp (0%R :: map (fun y => ln y - ln s0)%R s) = map (fun y => / s0 * y)%R (s0 :: s)) as ->.
  { simpl. rewrite exp_0, map_map. f_equal; [field; lra|].
    apply map_ext_in. intros a Ha. rewrite Forall_forall in H2.
    unfold Rminus. rewrite exp_plus, exp_Ropp, !exp_ln by auto. ring. }
  rewrite Rlsum_scal, Hs, map_map.
  transitivity (map (fun y : R => y) (s0 :: s)); [|apply map_id].
  apply map_ext. intros. field. lra.
Qed.
