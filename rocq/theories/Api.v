(** * The round-trip and contract results, phrased for the public methods. *)
From Coq Require Import Reals Permutation.
From Verif Require Import Base Num Nd Numeric Simplex Psd Pattern Spec ListFacts PatFacts
  NonFree NumFacts CholFacts Free Contract Build.

Lemma flat_length_some : forall p f n, usable p ->
  flat_length p (Some f) = Ok (plint n) <-> n = pl_n (flat_len p f).
Proof.
  intros p f n Hu. unfold flat_length. simpl. pose proof (usable_int p f Hu) as H.
  destruct (flat_len p f) as [m b]. simpl in *. subst b. unfold plint. split; intros E.
  - inversion E; auto.
  - subst; auto.
Qed.

Lemma api_free_flatten_of_fold : forall p x vv vv',
  usable p -> flat_length p (Some true) = Ok (plint (length x)) ->
  exists v, fold p (vec (map Fin x)) (Some true) vv = Ok v /\
            flatten p v (Some true) vv' = Ok (map Fin x).
Proof.
  intros p x vv vv' Hu Hx. apply flat_length_some in Hx; auto.
  destruct (free_flatten_of_fold vv vv' p x Hu Hx) as (v & H1 & _ & _ & H2).
  exists v. auto.
Qed.

Lemma api_free_fold_of_flatten : forall p v vv vv',
  usable p -> interior p v ->
  exists x, flatten p v (Some true) vv = Ok (map Fin x) /\
            flat_length p (Some true) = Ok (plint (length x)) /\
            fold p (vec (map Fin x)) (Some true) vv' = Ok (canon p v).
Proof.
  intros p v vv vv' Hu Hi.
  destruct (free_fold_of_flatten vv vv' p v Hu Hi) as (x & H1 & H2 & H3).
  exists x. split; auto. split; auto. apply flat_length_some; auto.
Qed.

Lemma api_nonfree_fold_of_flatten : forall A (sc : scalar A) p v x vv,
  usable p -> fv_ok v -> flatten_gen sc p v (Some false) vv = Ok x ->
  flat_length p (Some false) = Ok (plint (length x)) /\
  fold_gen sc p (vec x) (Some false) vv = Ok (canon p v).
Proof.
  intros A sc p v x vv Hu Hok H.
  destruct (nonfree_fold_flatten _ sc vv p v x Hu Hok H) as (H1 & H2). split; auto.
  apply flat_length_some; auto.
Qed.

Lemma api_nonfree_flatten_of_fold : forall A (sc : scalar A) p x v vv,
  usable p -> fold_gen sc p (vec x) (Some false) vv = Ok v ->
  flatten_gen sc p v (Some false) vv = Ok x.
Proof.
  intros A sc p x v vv Hu H.
  destruct (Nat.eq_dec (length x) (pl_n (flat_len p false))) as [E|E].
  - destruct (nonfree_flatten_fold _ sc vv p x v Hu H E) as (_ & _ & H2). auto.
  - unfold fold_gen in H. simpl in H. rewrite fold_wrong_length in H by auto. discriminate.
Qed.

Lemma api_fold_interior : forall p x vv,
  usable p -> flat_length p (Some true) = Ok (plint (length x)) ->
  exists v, fold p (vec (map Fin x)) (Some true) vv = Ok v /\ interior p v /\
            forall vv', validate snum p v vv' = Ok None.
Proof.
  intros p x vv Hu Hx. apply flat_length_some in Hx; auto.
  destruct (free_flatten_of_fold vv vv p x Hu Hx) as (v & H1 & H2 & _ & _).
  exists v. split; auto. split; auto. intros. apply interior_valid; auto.
Qed.

Lemma array_string_keys : forall p, usable p -> is_dict p = false -> string_keys p.
Proof.
  apply (pat_ind' (fun p => usable p -> is_dict p = false -> string_keys p)); simpl; auto.
  - intros s b fd IH (_ & _ & Hd & Hu) _. auto.
  - intros. discriminate.
Qed.

Lemma api_length : forall A (sc : scalar A) p free vv,
  usable p ->
  (forall v x, fv_ok v -> flatten_gen sc p v (Some free) vv = Ok x ->
     flat_length p (Some free) = Ok (plint (length x))) /\
  (forall x, flat_length p (Some free) <> Ok (plint (length x)) ->
     (string_keys p -> fold_gen sc p (vec x) (Some free) vv = Err ValueError) /\
     (~ string_keys p -> fold_gen sc p (vec x) (Some free) vv = Err TypeError)).
Proof.
  intros A sc p free vv Hu. split.
  - intros v x Hok H. apply flat_length_some; auto. apply (flatten_length _ sc vv free p v x); auto.
  - intros x Hx. unfold fold_gen. cbn [free_with_default bind]. rewrite fold_wrong_length.
    2:{ intros E. apply Hx. apply flat_length_some; auto. }
    split; intros Hs.
    + rewrite (proj2 (string_keys_ok p) Hs), andb_false_r. auto.
    + destruct (str_ok p) eqn:E; [apply string_keys_ok in E; contradiction|].
      destruct p; auto; try discriminate; try (exfalso; apply Hs; exact I).
      exfalso. apply Hs. apply array_string_keys; auto.
Qed.

Lemma api_lenient : forall A (sc : scalar A) p vv,
  usable p -> lenient p vv ->
  (forall x, flat_length p (Some false) = Ok (plint (length x)) ->
     exists v, fold_gen sc p (vec x) (Some false) vv = Ok v) /\
  (forall v, fv_ok v -> shape_fits p v ->
     validate sc p v vv = Ok None /\ exists x, flatten_gen sc p v (Some false) vv = Ok x).
Proof.
  intros A sc p vv Hu Hl. split.
  - intros x Hx. apply flat_length_some in Hx; auto. exists (layout p x). apply fold_lenient; auto.
  - intros v Hok Hs. split; [apply validate_lenient; auto|].
    exists (entries p v). apply flatten_lenient; auto.
Qed.

Lemma api_free_default : forall A (sc : scalar A) p vv,
  (forall x, fold_gen sc p x None vv =
     match free_default p with Some f => fold_gen sc p x (Some f) vv | None => Err ValueError end) /\
  (forall v, flatten_gen sc p v None vv =
     match free_default p with Some f => flatten_gen sc p v (Some f) vv | None => Err ValueError end) /\
  flat_length p None =
     match free_default p with Some f => flat_length p (Some f) | None => Err ValueError end.
Proof.
  intros A sc p vv. unfold fold_gen, flatten_gen, flat_length, free_with_default.
  destruct (free_default p); auto.
Qed.

Lemma anyb_in : forall l, anyb l = true <-> In true l.
Proof.
  intros l. unfold anyb. rewrite existsb_exists. split.
  - intros (x & H & E). destruct x; [auto|discriminate].
  - intros H. exists true. auto.
Qed.

Lemma api_indices_default : forall p m,
  (is_dict p = true \/ (exists s b fd, p = PArr s b fd) \/ any_true m) ->
  (forall f, free_default p = Some f -> flat_indices p m None = flat_indices p m (Some f)) /\
  (free_default p = None -> exists e, flat_indices p m None = Err e /\ (e = ValueError \/ e = TypeError)).
Proof.
  intros p m H. split.
  - intros f Hf. destruct p; destruct m; simpl in *; try rewrite Hf; auto.
  - intros Hf. destruct p; destruct m as [a|d]; simpl in *; try rewrite Hf; simpl; eauto;
      destruct (anyb (dat a)) eqn:E; simpl; eauto; exfalso;
      destruct H as [H|[(s & b & fd' & H)|H]]; try discriminate;
      apply anyb_in in H; congruence.
Qed.

Lemma api_sim : forall p q, sim p q ->
  (forall A (sc : scalar A) x f vv, fold_gen sc p x (Some f) vv = fold_gen sc q x (Some f) vv) /\
  (forall A (sc : scalar A) v f vv, flatten_gen sc p v (Some f) vv = flatten_gen sc q v (Some f) vv) /\
  (forall A (sc : scalar A) v vv, validate sc p v vv = validate sc q v vv) /\
  (forall f, flat_length p (Some f) = flat_length q (Some f)) /\
  (forall m f, flat_indices p m (Some f) = flat_indices q m (Some f)) /\
  empty_valid p = empty_valid q /\
  (forall b, empty_bool p b = empty_bool q b).
Proof.
  intros p q H. repeat match goal with |- _ /\ _ => split end.
  - intros. apply sim_fold; auto.
  - intros. apply sim_flatten; auto.
  - intros. apply sim_validate; auto.
  - intros. unfold flat_length. simpl. rewrite (sim_flat_len _ _ f H). auto.
  - intros. apply sim_flat_indices; auto.
  - apply sim_empty; auto.
  - intros b. unfold empty_bool, flat_length. simpl. rewrite (sim_flat_len _ _ false H).
    destruct (as_index _); simpl; auto. apply sim_fold; auto.
Qed.

Lemma set_fd_sim : forall g p, sim p (set_fd g p).
Proof.
  intros g. apply pat_ind'; intros; simpl; auto. split; auto. split; auto.
  induction items as [|[k q] items IH]; simpl; auto. inversion H; subst. auto.
Qed.

Lemma api_dict_flatten : forall A (sc : scalar A) items l fl fd lk d f vv x,
  flatten_gen sc (PDict items l fl fd lk) (FDict d) (Some f) vv = Ok x ->
  exists parts, x = concat parts /\
    Forall2 (fun kq part => exists w, dict_get d (fst kq) = Some w /\
                            flatten_gen sc (snd kq) w (Some f) vv = Ok part) items parts.
Proof. intros. apply flatten_dict_layout in H. auto. Qed.

Lemma api_dict_local : forall A (sc : scalar A) items l fl fd lk x y f vv d e i k q,
  usable (PDict items l fl fd lk) ->
  fold_gen sc (PDict items l fl fd lk) (vec x) (Some f) vv = Ok (FDict d) ->
  fold_gen sc (PDict items l fl fd lk) (vec y) (Some f) vv = Ok (FDict e) ->
  nth_error items i = Some (k, q) ->
  slice x (total_len (firstn i items) f) (pl_n (flat_len q f)) =
  slice y (total_len (firstn i items) f) (pl_n (flat_len q f)) ->
  dict_get d k = dict_get e k.
Proof.
  intros A sc items l fl fd lk x y f vv d e i k q Hu Hx Hy Hi Hs.
  apply fold_dict_layout in Hx; auto. apply fold_dict_layout in Hy; auto.
  destruct Hx as (d' & E1 & _ & Hx). destruct Hy as (e' & E2 & _ & Hy).
  inversion E1; inversion E2; subst d' e'.
  destruct (Hx _ _ _ Hi) as (w & Hw & Fw). destruct (Hy _ _ _ Hi) as (w' & Hw' & Fw').
  rewrite Hs in Fw. congruence.
Qed.

Lemma api_same_on : forall A (sc : scalar A) p v w, same_on p v w ->
  (forall vv, validate sc p v vv = validate sc p w vv) /\
  (forall free vv, flatten_gen sc p v free vv = flatten_gen sc p w free vv).
Proof.
  intros A sc p v w H. split.
  - intros; apply validate_same_on; auto.
  - intros. unfold flatten_gen. destruct (free_with_default p free); simpl; auto.
    apply flatten_same_on; auto.
Qed.

Lemma api_permuted : forall A items l fl fd lk (d e : list (key * fv A)),
  NoDup (map fst d) -> Permutation d e ->
  same_on (PDict items l fl fd lk) (FDict d) (FDict e).
Proof. intros. apply same_on_of_get. intros. apply dict_get_perm; auto. Qed.

Lemma dict_get_app : forall V (d e : list (key * V)) k v, dict_get d k = Some v -> dict_get (d ++ e) k = Some v.
Proof. induction d as [|[k' v'] d IH]; simpl; intros; [discriminate|]. destruct (key_eqb k k'); auto. Qed.
Lemma dict_get_app_none : forall V (d e : list (key * V)) k, dict_get d k = None -> dict_get (d ++ e) k = dict_get e k.
Proof. induction d as [|[k' v'] d IH]; simpl; intros; auto. destruct (key_eqb k k'); auto. discriminate. Qed.
Lemma dict_get_none : forall V (d : list (key * V)) k, ~ In k (map fst d) -> dict_get d k = None.
Proof. induction d as [|[k' v'] d IH]; simpl; intros; auto. destruct (key_eqb k k') eqn:E.
  - apply key_eqb_true in E. subst. tauto.
  - apply IH. tauto. Qed.

Lemma api_extra_keys : forall A items l fl fd lk (d extra : list (key * fv A)),
  (forall k, In k (map fst items) -> ~ In k (map fst extra)) ->
  same_on (PDict items l fl fd lk) (FDict (d ++ extra)) (FDict d).
Proof.
  intros. apply same_on_of_get. intros k Hk. destruct (dict_get d k) eqn:E.
  - apply dict_get_app; auto.
  - rewrite dict_get_app_none; auto. apply dict_get_none; auto.
Qed.

(** [indices s] enumerates the multi-indices below [s] in row-major order. *)
Lemma indices_rank : forall s i item,
  nth_error (indices s) i = Some item <-> Forall2 lt item s /\ ravel item s = i.
Proof.
  intros s i item. split.
  - intros H. assert (i < prod s) as Hi.
    { rewrite <- indices_length. apply nth_error_Some. congruence. }
    pose proof (nth_error_nth _ _ [] H) as E. split.
    + apply in_indices. eapply nth_error_In; eauto.
    + rewrite <- E. apply ravel_nth; auto.
  - intros (H & E). apply in_indices in H. pose proof (ravel_lt _ _ H) as L.
    pose proof (nth_ravel s item [] H) as N. subst i.
    rewrite <- N at 2. apply nth_error_nth'. rewrite indices_length. auto.
Qed.
