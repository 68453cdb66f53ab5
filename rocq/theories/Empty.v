(** * [empty(valid=True)] is strictly inside the constraint set (C17). *)
From Coq Require Import Reals Lra.
From Verif Require Import Base Num Nd Numeric Simplex Psd Pattern Spec ListFacts PatFacts
  NonFree NumFacts CholFacts Free Contract Api.
Local Open Scope list_scope.
Local Open Scope nat_scope.

Lemma inbounds_ok : forall lb ub, nlt lb ub ->
  finite (inbounds_value lb ub) /\ nlt lb (inbounds_value lb ub) /\ nlt (inbounds_value lb ub) ub.
Proof.
  intros lb ub H. unfold inbounds_value.
  destruct lb as [l| | |], ub as [u| | |]; simpl in *; try tauto; unfold finite;
    repeat split; eauto; try lra; try (eexists; reflexivity);
    try (rewrite (proj2 (Reqb_false _ _)) by lra; simpl; try lra; eauto).
Qed.

Lemma concat_repeat_len : forall A (l : list A) n, length (concat (repeat l n)) = n * length l.
Proof. induction n; simpl; auto. rewrite app_length. lia. Qed.
Lemma flat_map_const : forall A B (l : list A) (x : list B),
  flat_map (fun _ => x) l = concat (repeat x (length l)).
Proof. induction l; simpl; intros; auto. rewrite IHl. auto. Qed.
Lemma concat_repeat_repeat : forall A (x : A) n m, concat (repeat (repeat x n) m) = repeat x (m * n).
Proof. induction m; simpl; auto. rewrite IHm. symmetry. apply repeat_app. Qed.
Lemma Rlsum_repeat : forall c n, Rlsum (repeat c n) = (INR n * c)%R.
Proof.
  induction n; [simpl; lra|]. cbn [repeat Rlsum fold_right]. fold (Rlsum (repeat c n)). rewrite IHn, S_INR. lra.
Qed.
Lemma Rsum_diag_form : forall n x c,
  (Rsum n (fun i => Rsum n (fun j => x i * (if (i =? j)%nat then c else 0) * x j)) =
   c * Rsum n (fun i => x i * x i))%R.
Proof.
  intros. rewrite <- Rsum_scal. apply Rsum_ext. intros i Hi.
  rewrite (Rsum_single n _ i Hi).
  - rewrite Nat.eqb_refl. ring.
  - intros j Hj Hne. rewrite (proj2 (Nat.eqb_neq i j)) by auto. ring.
Qed.

Theorem empty_interior : forall p, usable p ->
  exists v, empty_valid p = Ok v /\ interior p v /\ canon p v = v /\ (is_dict p = false -> exists d, v = FArr (mkNd (folded_shape p) d)).
Proof.
  apply (pat_ind' (fun p => usable p ->
    exists v, empty_valid p = Ok v /\ interior p v /\ canon p v = v /\ (is_dict p = false -> exists d, v = FArr (mkNd (folded_shape p) d)))).
  - intros k s lb ub dv fd (Hs & Hlt). simpl. eexists. split; [reflexivity|]. split; [|split; [reflexivity|eauto]].
    split; [split; [unfold nd_ok; simpl; apply repeat_length|auto]|].
    apply Forall_forall. intros x Hx. simpl in Hx. apply repeat_spec in Hx. subst x. apply inbounds_ok; auto.
  - intros n s dv fd Hn. simpl in Hn. cbn [empty_valid]. eexists. split; [reflexivity|]. split; [|split; [reflexivity|eauto]].
    split; [reflexivity|].
    assert (INR n <> 0%R) as Hn0 by (apply not_0_INR; lia).
    exists (repeat (repeat (1 / INR n)%R n) (prod s)). split; [apply repeat_length|]. split.
    + rewrite ndiv_fin by auto. rewrite concat_repeat_repeat, prod_app. simpl. rewrite Nat.mul_1_r.
      generalize (prod s * n). intros m. induction m; simpl; congruence.
    + apply Forall_forall. intros r Hr. apply repeat_spec in Hr. subst r. split; [apply repeat_length|]. split.
      * apply Forall_forall. intros x Hx. apply repeat_spec in Hx. subst x. unfold Rdiv. rewrite Rmult_1_l.
        apply Rinv_0_lt_compat. apply lt_0_INR. lia.
      * rewrite Rlsum_repeat. field. auto.
  - intros sz fl dlb dv fd (Hf & c & Hc & Hpos). simpl. rewrite Hc. eexists. split; [reflexivity|]. split; [|split; [reflexivity|eexists; reflexivity]].
    split; [reflexivity|]. exists (fun i j => if (i =? j) then (c + 1)%R else 0%R), c.
    split; [|split; [auto|split]].
    + unfold to_nd, rows_of. simpl. apply flat_map_ext_in'. intros i _. apply map_ext. intros j.
      destruct (i =? j); simpl; f_equal; lra.
    + intros i j _ _. rewrite Nat.eqb_sym. auto.
    + intros x (i & Hi & Hx).
      rewrite (Rsum_ext _ _ (fun i => Rsum sz (fun j => x i * (if (i =? j)%nat then 1 else 0) * x j))%R).
      2:{ intros a _. apply Rsum_ext. intros b _. unfold minus_diag. destruct (a =? b); f_equal; f_equal; lra. }
      rewrite Rsum_diag_form. rewrite Rmult_1_l. eapply Rsum_sq_pos; eauto.
  - intros s b fd IH (Hs & Hp & Hd & Hub). destruct (IH Hub) as (v & Ev & Hi & _ & Hsh).
    destruct (Hsh Hd) as (d & ->). cbn [empty_valid]. rewrite Ev. cbn [bind as_arr].
    assert (nd_ok (mkNd (folded_shape b) d)) as Hok by (apply (interior_fv_arr b); auto).
    unfold nd_ok in Hok. simpl in Hok.
    assert (flat_map dat (map (fun _ : list nat => mkNd (folded_shape b) d) (indices s)) = concat (repeat d (prod s))) as E.
    { rewrite flat_map_concat, map_map. simpl. rewrite <- flat_map_concat, flat_map_const, indices_length. auto. }
    unfold stack_reshape. rewrite E. cbn [folded_shape]. rewrite concat_repeat_len, prod_app, Hok, Nat.eqb_refl.
    cbn [bind]. eexists. split; [reflexivity|]. split; [|split; [reflexivity|eauto]].
    split; [reflexivity|]. split; [unfold nd_ok; simpl; rewrite concat_repeat_len, prod_app, Hok; auto|].
    intros i Hip. cbn [dat]. change (slice (concat (repeat d (prod s))) (i * prod (folded_shape b)) (prod (folded_shape b)))
      with (chunk (prod (folded_shape b)) (concat (repeat d (prod s))) i).
    rewrite (chunk_concat _ _ _ _ d).
    + assert (nth i (repeat d (prod s)) d = d) as -> by apply nth_repeat. auto.
    + intros x Hx. apply repeat_spec in Hx. subst; auto.
    + rewrite repeat_length. auto.
  - intros items l fl fd lk IH (Hne & Hnd & _ & _ & Hu). cbn [empty_valid].
    assert (exists d, mapM (fun kq => v <- empty_valid (snd kq) ;; Ok (fst kq, v)) items = Ok d /\
       Forall2 (fun kq kw => fst kw = fst kq /\ interior (snd kq) (snd kw) /\ canon (snd kq) (snd kw) = snd kw) items d) as (d & E & HF).
    { apply mapM_exists. intros [k q] Hin. rewrite Forall_forall in IH. 
      rewrite all_items_Forall, Forall_forall in Hu. specialize (Hu _ Hin).
      destruct (IH _ Hin Hu) as (v & Ev & Hi & Hc & _). cbn [snd fst]. simpl in Ev. rewrite Ev. cbn [bind]. eauto. }
    rewrite E. cbn [bind]. eexists. split; [reflexivity|].
    assert (map fst d = map fst items) as Hk.
    { clear - HF. induction HF; simpl; auto. destruct H. congruence. }
    split; [|split; [|discriminate]].
    2:{ cbn [canon]. f_equal. apply canon_items_nodup; auto. clear - HF. induction HF; constructor; auto. tauto. }
    cbn [interior]. rewrite all_items_Forall. apply Forall_forall. intros [k q] Hin. cbn [fst snd].
    assert (exists w, In (k, w) d /\ interior q w) as (w & Hw & Hi).
    { clear - HF Hin. induction HF; [contradiction|]. destruct Hin as [->|Hin].
      - destruct y as [k' w]. simpl in H. destruct H as (-> & H & _). exists w. split; auto. left; auto.
      - destruct (IHHF Hin) as (w & ? & ?). exists w. split; auto. right; auto. }
    exists w. split; auto. apply dict_get_in_nodup; auto. rewrite Hk. auto.
Qed.

Theorem empty_valid_spec : forall p, usable p ->
  exists v, empty_valid p = Ok v /\ interior p v /\ canon p v = v /\
    (forall vv, validate snum p v vv = Ok None) /\
    forall vv vv', exists x, flatten p v (Some true) vv = Ok (map Fin x) /\
      fold p (vec (map Fin x)) (Some true) vv' = Ok v.
Proof.
  intros p Hu. destruct (empty_interior p Hu) as (v & E & Hi & Hc & _). exists v. split; auto. split; auto.
  split; [auto|]. split; [intros; apply interior_valid; auto|]. intros vv vv'.
  destruct (api_free_fold_of_flatten p v vv vv' Hu Hi) as (x & H1 & _ & H2). rewrite Hc in H2. eauto.
Qed.
