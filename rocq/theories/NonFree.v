(** * Non-free fold and flatten: equations and round trips. *)
From Coq Require Import Reals.
From Verif Require Import Base Num Nd Numeric Simplex Psd Pattern Spec ListFacts PatFacts.

Lemma fv_ok_get : forall A (d : list (key * fv A)) k w,
  fv_ok (FDict d) -> dict_get d k = Some w -> fv_ok w.
Proof.
  induction d as [|[k' w'] d IH]; intros k w H E; simpl in *; [discriminate|].
  destruct H as [H1 H2]. destruct (key_eqb k k'); [inversion E; subst; auto|].
  eapply IH; eauto.
Qed.

Lemma atleast_idem : forall A (a : nd A), atleast_1d (atleast_1d a) = atleast_1d a.
Proof. intros A [s d]. unfold atleast_1d. simpl. destruct s; auto. Qed.
Lemma atleast_dat : forall A (a : nd A), dat (atleast_1d a) = dat a.
Proof. intros A [s d]. unfold atleast_1d. simpl. destruct s; auto. Qed.

(** ** lengths of the entries *)
Lemma entries_length : forall A p (v : fv A),
  usable p -> fv_ok v -> shape_fits p v ->
  length (entries p v) = pl_n (flat_len p false).
Proof.
  intros A. apply (pat_ind' (fun p => forall v : fv A,
    usable p -> fv_ok v -> shape_fits p v -> length (entries p v) = pl_n (flat_len p false)));
    intros; destruct v as [a|dct]; simpl in *; try tauto.
  - unfold nd_ok in H0. rewrite H0. destruct H1 as [->|[-> ->]]; auto.
  - unfold nd_ok in H0. rewrite H0, H1. rewrite np_prod_int; auto. destruct s; discriminate.
  - unfold nd_ok in H0. rewrite H0, H1. simpl. lia.
  - unfold nd_ok in H1. rewrite H1, H2.
    destruct H0 as (Ha & Hb & Hc & Hd). rewrite np_prod_int by auto. simpl.
    rewrite prod_app, flat_len_arr; auto.
  - destruct H0 as (_ & _ & -> & _ & Hu). simpl.
    revert H2 Hu. induction items as [|[k q] items IH]; simpl; auto.
    intros ((w & Hw & Hf) & H2) (Hu & Hus). rewrite Hw. inversion H; subst.
    rewrite app_length, IH by auto. simpl in H4; rewrite (H4 w); auto.
    eapply fv_ok_get; eauto.
Qed.

(** ** flatten(free=False) *)
Theorem flatten_nonfree : forall A (sc : scalar A) vv p v,
  usable p -> fv_ok v ->
  flatten_ sc p v false vv = (_ <- require_valid sc p v vv ;; Ok (entries p v)).
Proof.
  intros A sc vv.
  apply (pat_ind' (fun p => forall v, usable p -> fv_ok v ->
    flatten_ sc p v false vv = (_ <- require_valid sc p v vv ;; Ok (entries p v))));
    try (intros; destruct v as [a|dct]; reflexivity).
  - intros k s lb ub dv fd [a|dct] Hu Hok; [|reflexivity].
    simpl. unfold require_valid. simpl. unfold num_validate. rewrite atleast_idem, atleast_dat. auto.
  - intros s b fd IH [a|dct] Hu Hok; [|reflexivity].
    destruct (require_valid sc (PArr s b fd) (FArr a) vv) as [u|e] eqn:E.
    2:{ cbn [flatten_]. rewrite E. auto. }
    apply require_valid_ok in E. pose proof (validate_shape _ _ _ _ _ Hu E) as Hs.
    simpl in Hs. rewrite flatten_arr_eq by auto.
    pose proof E as E'. destruct u. apply (require_valid_ok _ _ _ _ _ tt) in E'. rewrite E'. cbn [bind].
    simpl in E. unfold ndim in E. rewrite Hs, Nat.eqb_refl, shape_eqb_refl in E. simpl in E.
    rewrite (validate_cells_seq' _ _ a s (folded_shape b) Hs) in E.
    destruct Hu as (Ha & Hb & Hc & Hd).
    simpl in Hok. unfold nd_ok in Hok. rewrite Hs, prod_app in Hok.
    rewrite (mapM_ok_all _ _ _ (fun i => chunk (prod (folded_shape b)) (dat a) i)).
    + cbn [bind]. destruct (seq 0 (prod s)) as [|i l] eqn:Eseq.
      { destruct (prod s); [lia|discriminate]. }
      rewrite <- Eseq. change (map (fun i0 => chunk (prod (folded_shape b)) (dat a) i0) (seq 0 (prod s)))
        with (chunks (prod (folded_shape b)) (prod s) (dat a)).
      unfold hstack. destruct (chunks (prod (folded_shape b)) (prod s) (dat a)) as [|c cs] eqn:Ec.
      { assert (length (chunks (prod (folded_shape b)) (prod s) (dat a)) = 0) as L by (rewrite Ec; auto).
        rewrite chunks_length in L. lia. }
      rewrite <- Ec. rewrite concat_chunks by auto. auto.
    + intros i Hi. apply in_seq in Hi. rewrite IH; auto.
      * assert (validate sc b (FArr (mkNd (folded_shape b) (chunk (prod (folded_shape b)) (dat a) i))) vv = Ok None)
          as Ev by (apply E; lia).
        apply (require_valid_ok _ _ _ _ _ tt) in Ev. rewrite Ev. simpl. destruct b; auto; discriminate.
      * simpl. unfold nd_ok. simpl. eapply chunk_length; eauto. lia.
  - intros items l fl fd lk IH [a|dct] Hu Hok; [reflexivity|].
    destruct (require_valid sc (PDict items l fl fd lk) (FDict dct) vv) as [u|e] eqn:E.
    2:{ cbn [flatten_]. rewrite E. auto. }
    cbn [flatten_]. rewrite E. cbn [bind]. apply require_valid_ok in E. simpl in E.
    rewrite validate_items_ok in E.
    destruct Hu as (Hne & _ & _ & _ & Hu).
    assert (exists parts, flatten_items (fun q w => flatten_ sc q w false vv) dct items = Ok parts /\
              length parts = length items /\ concat parts = entries_items entries dct items) as (parts & Hp & Hlen & Hc).
    { clear Hne. revert E Hu. induction items as [|[k q] items IHi]; intros E Hu.
      - exists []. auto.
      - simpl in E, Hu. destruct E as ((w & Hw & Hv) & E). destruct Hu as (Hu1 & Hu).
        inversion IH; subst. simpl in *.
        destruct (IHi H2 E Hu) as (parts & Hp & Hlen & Hc).
        exists (entries q w :: parts). rewrite Hw. rewrite H1; auto.
        2: eapply fv_ok_get; eauto.
        apply (require_valid_ok _ _ _ _ _ tt) in Hv. rewrite Hv. simpl. rewrite Hp. simpl.
        rewrite Hlen, Hc. auto. }
    rewrite Hp. simpl. rewrite <- Hc. destruct parts; auto.
    destruct items; [contradiction|discriminate].
Qed.

(** ** layout and entries are inverse *)
Lemma entries_layout : forall A p (x : list A),
  usable p -> length x = pl_n (flat_len p false) -> entries p (layout p x) = x.
Proof.
  intros A. apply (pat_ind' (fun p => forall x : list A,
    usable p -> length x = pl_n (flat_len p false) -> entries p (layout p x) = x));
    try (intros; reflexivity).
  intros items l fl fd lk IH x Hu Hx.
  destruct Hu as (_ & Hnd & -> & _ & Hu). simpl in Hx. simpl.
  revert x Hx. induction items as [|[k q] items IHi]; intros x Hx; simpl in *.
  - destruct x; auto; discriminate.
  - rewrite key_eqb_refl. inversion IH; subst. inversion Hnd; subst. destruct Hu as (Hu1 & Hu).
    simpl in H1. rewrite H1 by (auto; rewrite firstn_length; lia).
    assert (forall its d' kk ww, ~ In kk (map fst its) ->
       entries_items (@entries A) ((kk, ww) :: d') its = entries_items entries d' its) as E.
    { clear. induction its as [|[k q] its IH]; intros d' kk ww H; auto.
      cbn [entries_items]. rewrite dict_get_cons_ne by (simpl in H; intuition).
      rewrite IH by (simpl in H; intuition). auto. }
    rewrite E by auto. rewrite IHi; auto.
    + apply firstn_skipn.
    + rewrite skipn_length. lia.
Qed.

Lemma layout_entries : forall A p (v : fv A),
  usable p -> fv_ok v -> shape_fits p v -> layout p (entries p v) = canon p v.
Proof.
  intros A. apply (pat_ind' (fun p => forall v : fv A,
    usable p -> fv_ok v -> shape_fits p v -> layout p (entries p v) = canon p v)).
  - intros k s lb ub dv fd [a|dct] Hu Hok Hs; simpl in *; tauto.
  - intros n s dv fd [[s' d']|dct] Hu Hok Hs; simpl in *; try tauto. subst; auto.
  - intros sz fl d dv fd [[s' d']|dct] Hu Hok Hs; simpl in *; try tauto. subst; auto.
  - intros s b fd IH [[s' d']|dct] Hu Hok Hs; simpl in *; try tauto. subst; auto.
  - intros items l fl fd lk IH [a|dct] Hu Hok Hs; simpl in Hs; try tauto.
    destruct Hu as (_ & _ & _ & _ & Hu). simpl. f_equal.
    revert Hs Hu. induction items as [|[k q] items IHi]; intros Hs Hu; simpl in *; auto.
    destruct Hs as ((w & Hw & Hf) & Hs). destruct Hu as (Hu1 & Hu). inversion IH; subst.
    rewrite Hw. simpl in H1.
    assert (fv_ok w) as Hokw by (eapply fv_ok_get; eauto).
    assert (length (entries q w) = pl_n (flat_len q false)) as L by (apply entries_length; auto).
    rewrite firstn_app, <- L, firstn_all, Nat.sub_diag, firstn_O, app_nil_r.
    rewrite skipn_app, skipn_all, Nat.sub_diag. simpl.
    rewrite IHi, H1 by auto. auto.
Qed.

(** ** validation does not see the difference between a value and its canonical
    form *)
Lemma canon_items_get : forall A (f : pat -> fv A -> fv A) d its k q w,
  NoDup (map fst its) -> In (k, q) its -> dict_get d k = Some w ->
  dict_get (canon_items f d its) k = Some (f q w).
Proof.
  induction its as [|[k' q'] its IH]; intros k q w Hnd Hin Hg; simpl in *; [tauto|].
  inversion Hnd; subst. destruct Hin as [E|Hin].
  - inversion E; subst. rewrite Hg. simpl. rewrite key_eqb_refl. auto.
  - assert (k <> k') as Hne.
    { intros ->. apply H1. apply (in_map fst) in Hin. auto. }
    destruct (dict_get d k').
    + rewrite dict_get_cons_ne; eauto.
    + eauto.
Qed.

Lemma validate_canon : forall A (sc : scalar A) vv p v,
  usable p -> fv_ok v -> shape_fits p v -> validate sc p (canon p v) vv = validate sc p v vv.
Proof.
  intros A sc vv. apply (pat_ind' (fun p => forall v,
    usable p -> fv_ok v -> shape_fits p v -> validate sc p (canon p v) vv = validate sc p v vv)).
  - intros k s lb ub dv fd [[s' d']|dct] Hu Hok Hs; simpl in *; try tauto.
    destruct Hs as [->|[-> ->]]; auto.
  - intros n s dv fd [[s' d']|dct] Hu Hok Hs; simpl in *; try tauto.
  - intros sz fl d dv fd [[s' d']|dct] Hu Hok Hs; simpl in *; try tauto.
  - intros s b fd IH [[s' d']|dct] Hu Hok Hs; simpl in *; try tauto.
  - intros items l fl fd lk IH [a|dct] Hu Hok Hs; simpl in Hs; try tauto.
    destruct Hu as (_ & Hnd & _ & _ & Hu). simpl.
    apply all_items_Forall in Hs, Hu.
    assert (forall its, (forall kq, In kq its -> In kq items) ->
       validate_items (fun q w => validate sc q w vv) (canon_items canon dct items) its =
       validate_items (fun q w => validate sc q w vv) dct its) as E.
    { induction its as [|[k q] its IHi]; intros Hsub; simpl; auto.
      assert (In (k, q) items) as Hin by (apply Hsub; left; auto).
      rewrite Forall_forall in *.
      destruct (Hs _ Hin) as (w & Hw & Hf). simpl in *.
      rewrite (canon_items_get _ _ _ _ _ q w Hnd Hin Hw), Hw.
      pose proof (IH _ Hin) as IHq. simpl in IHq.
      rewrite (IHq w (Hu _ Hin) (fv_ok_get _ _ _ _ Hok Hw) Hf).
      destruct (validate sc q w vv) as [[m|]|e]; simpl; auto.
      all: apply IHi; intros; apply Hsub; right; auto. }
    apply E. auto.
Qed.

(** ** Round trips *)
Theorem nonfree_fold_flatten : forall A (sc : scalar A) vv p v x,
  usable p -> fv_ok v ->
  flatten_ sc p v false vv = Ok x ->
  length x = pl_n (flat_len p false) /\ fold_ sc p (vec x) false vv = Ok (canon p v).
Proof.
  intros A sc vv p v x Hu Hok H. rewrite flatten_nonfree in H by auto.
  apply bind_ok in H. destruct H as (u & Hv & H). inversion H; subst x; clear H.
  apply require_valid_ok in Hv.
  pose proof (validate_shape _ _ _ _ _ Hu Hv) as Hs.
  split; [apply entries_length; auto|].
  rewrite fold_nonfree by (auto; apply entries_length; auto).
  rewrite layout_entries by auto. unfold require_valid.
  rewrite validate_canon, Hv by auto. auto.
Qed.

Lemma layout_fv_ok : forall A p (x : list A),
  usable p -> length x = pl_n (flat_len p false) -> fv_ok (layout p x).
Proof.
  intros A. apply (pat_ind' (fun p => forall x : list A,
    usable p -> length x = pl_n (flat_len p false) -> fv_ok (layout p x)));
    try (intros; simpl; unfold nd_ok; simpl; rewrite H0;
         match goal with H : usable ?p |- _ => apply (flat_len_arr p H eq_refl) end).
  - intros s b fd _ x Hu Hx. simpl. unfold nd_ok. simpl. rewrite Hx.
    apply (flat_len_arr _ Hu eq_refl).
  - intros items l fl fd lk IH x Hu Hx.
    destruct Hu as (_ & _ & -> & _ & Hu). simpl in *.
    revert x Hx. induction items as [|[k q] items IHi]; intros x Hx; simpl in *; auto.
    inversion IH; subst. destruct Hu as (Hu1 & Hu). split.
    + apply H1; auto. simpl. rewrite firstn_length. lia.
    + apply IHi; auto. rewrite skipn_length. lia.
Qed.

Lemma layout_shape : forall A p (x : list A),
  usable p -> length x = pl_n (flat_len p false) -> shape_fits p (layout p x).
Proof.
  intros A. apply (pat_ind' (fun p => forall x : list A,
    usable p -> length x = pl_n (flat_len p false) -> shape_fits p (layout p x)));
    try (intros; simpl; auto; fail).
  intros items l fl fd lk IH x Hu Hx.
  destruct Hu as (_ & Hnd & -> & _ & Hu). simpl in *.
  revert x Hx. induction items as [|[k q] items IHi]; intros x Hx; simpl in *; auto.
  inversion IH; subst. inversion Hnd; subst. destruct Hu as (Hu1 & Hu). split.
  - rewrite key_eqb_refl. eexists. split; eauto. apply H1; auto. simpl. rewrite firstn_length. lia.
  - assert (all_items (fun k0 q0 => exists w, dict_get (layout_items layout items
       (skipn (pl_n (flat_len q false)) x)) k0 = Some w /\ shape_fits q0 w) items) as E.
    { apply IHi; auto. rewrite skipn_length. lia. }
    apply all_items_Forall in E. apply all_items_Forall.
    rewrite Forall_forall in *. intros [k' q'] Hin. destruct (E _ Hin) as (w & Hw & Hf).
    exists w. split; auto. simpl in *.
    rewrite (proj2 (key_eqb_false k' k)); auto. intros ->. apply H3. apply (in_map fst) in Hin. auto.
Qed.

Lemma canon_layout : forall A p (x : list A),
  usable p -> length x = pl_n (flat_len p false) -> canon p (layout p x) = layout p x.
Proof.
  intros. rewrite <- layout_entries; auto using layout_fv_ok, layout_shape.
  rewrite entries_layout; auto.
Qed.

Theorem nonfree_flatten_fold : forall A (sc : scalar A) vv p x v,
  usable p ->
  fold_ sc p (vec x) false vv = Ok v ->
  length x = pl_n (flat_len p false) ->
  v = layout p x /\ fv_ok v /\ flatten_ sc p v false vv = Ok x.
Proof.
  intros A sc vv p x v Hu H Hl. rewrite fold_nonfree in H by auto.
  apply bind_ok in H. destruct H as (u & Hv & H). inversion H; subst v; clear H.
  pose proof (layout_fv_ok _ _ _ Hu Hl) as Hok.
  split; auto. split; auto.
  rewrite flatten_nonfree by auto. rewrite Hv. simpl. rewrite entries_layout; auto.
Qed.
