(** * Lengths, wrong lengths, leniency, layout, key order. *)
From Coq Require Import Reals Permutation.
From Verif Require Import Base Num Nd Numeric Simplex Psd Pattern Spec ListFacts PatFacts
  NonFree NumFacts CholFacts Free.

(** ** flatten returns vectors of the advertised length *)
Lemma flatten_items_inv : forall A (fq : pat -> fv A -> res (list A)) d its parts,
  flatten_items fq d its = Ok parts <->
  Forall2 (fun kq x => exists w, dict_get d (fst kq) = Some w /\ fq (snd kq) w = Ok x) its parts.
Proof.
  intros A fq d. induction its as [|[k q] its IH]; intros parts; simpl.
  - split; intros H; inversion H; subst; constructor.
  - destruct (dict_get d k) as [w|] eqn:E.
    + destruct (fq q w) as [x|e] eqn:Ex; simpl.
      * destruct (flatten_items fq d its) as [r|e] eqn:Er; simpl.
        -- split; intros H.
           ++ inversion H; subst. constructor; [|apply IH; auto]. simpl. exists w; auto.
           ++ inversion H; subst. destruct H2 as (w' & Hw & Hf). simpl in *.
              apply IH in H4. inversion H4; subst. congruence.
        -- split; intros H; [discriminate|]. inversion H; subst. apply IH in H4. discriminate.
      * split; intros H; [discriminate|]. inversion H; subst. destruct H2 as (w' & Hw & Hf).
        simpl in *. congruence.
    + split; intros H; [discriminate|]. inversion H; subst. destruct H2 as (w' & Hw & Hf).
      simpl in *. congruence.
Qed.

Lemma hstack_ok : forall A (l : list (list A)) x, hstack l = Ok x <-> l <> [] /\ x = concat l.
Proof.
  intros A l x. unfold hstack. destruct l; split; intros H.
  - discriminate.
  - destruct H; contradiction.
  - inversion H; split; auto. discriminate.
  - destruct H; subst; auto.
Qed.

Lemma pack_length : forall n m c x, pack_posdef n m c = Ok x -> length x = T n.
Proof.
  intros n m c x H. unfold pack_posdef in H. apply bind_ok in H. destruct H as (C & _ & H).
  inversion H. unfold vectorize_ld. rewrite map_length, tril_length. auto.
Qed.

Lemma unconstrain_row_length : forall r, length (unconstrain_row r) = length r - 1.
Proof. destruct r; simpl; auto. rewrite map_length. lia. Qed.

Theorem flatten_length : forall A (sc : scalar A) vv f p v x,
  usable p -> fv_ok v -> flatten_ sc p v f vv = Ok x -> length x = pl_n (flat_len p f).
Proof.
  intros A sc vv f.
  apply (pat_ind' (fun p => forall v x, usable p -> fv_ok v -> flatten_ sc p v f vv = Ok x ->
     length x = pl_n (flat_len p f))).
  - intros k s lb ub dv fd [a|dct] x Hu Hok H; [|discriminate].
    cbn [flatten_] in H. apply bind_ok in H. destruct H as ([] & Hv & H).
    apply require_valid_ok in Hv. pose proof (validate_shape _ _ _ _ _ Hu Hv) as Hs.
    simpl in Hs. rewrite atleast_dat in H.
    assert (length (dat (atleast_1d a)) = prod s) as L.
    { rewrite atleast_dat. simpl in Hok. unfold nd_ok in Hok. rewrite Hok.
      unfold atleast_1d in Hs. destruct (shp a) eqn:E.
      - simpl in Hs. destruct Hs as [<-|[? _]]; [auto|discriminate].
      - rewrite E in Hs. destruct Hs as [<-|[? _]]; [auto|discriminate]. }
    rewrite atleast_dat in L. simpl.
    destruct f; inversion H; subst; rewrite ?map_length; auto.
  - intros n s dv fd [a|dct] x Hu Hok H; [|discriminate].
    cbn [flatten_] in H. apply bind_ok in H. destruct H as ([] & Hv & H).
    apply require_valid_ok in Hv. pose proof (validate_shape _ _ _ _ _ Hu Hv) as Hs.
    simpl in Hs, Hok. unfold nd_ok in Hok. rewrite Hs, prod_app in Hok. simpl in Hok.
    cbn [flat_len]. rewrite simplex_flen. destruct f; inversion H; subst; clear H.
    + rewrite map_length, flat_map_concat.
      rewrite (concat_length_uniform _ (n - 1)).
      * rewrite map_length, chunks_length. auto.
      * intros z Hz. apply in_map_iff in Hz. destruct Hz as (r & <- & Hr).
        apply in_chunks in Hr. destruct Hr as (i & Hi & ->).
        rewrite unconstrain_row_length. rewrite (chunk_length _ _ _ _ (prod s)); auto.
        rewrite map_length. lia.
    + lia.
  - intros sz fl d dv fd [a|dct] x Hu Hok H; [|discriminate].
    cbn [flatten_] in H. apply bind_ok in H. destruct H as ([] & Hv & H).
    apply require_valid_ok in Hv. pose proof (validate_shape _ _ _ _ _ Hu Hv) as Hs.
    simpl in Hs, Hok. unfold nd_ok in Hok. rewrite Hs in Hok. simpl in Hok.
    destruct Hu as (Hfl & _). simpl. destruct f.
    + apply bind_ok in H. destruct H as (y & Hy & H). inversion H; subst.
      rewrite map_length. apply pack_length in Hy. rewrite Hy. auto.
    + inversion H; subst. lia.
  - intros s b fd IH [a|dct] x Hu Hok H; [|discriminate].
    assert (validate sc (PArr s b fd) (FArr a) vv = Ok None) as Hv.
    { cbn [flatten_] in H. apply bind_ok in H. destruct H as ([] & Hv & H).
      apply require_valid_ok in Hv. auto. }
    pose proof (validate_shape _ _ _ _ _ Hu Hv) as Hs. simpl in Hs, Hok.
    rewrite flatten_arr_eq in H by auto. apply bind_ok in H. destruct H as ([] & _ & H).
    apply bind_ok in H. destruct H as (parts & Hp & H). apply hstack_ok in H. destruct H as (_ & ->).
    destruct Hu as (Ha & Hb & Hd & Hub). unfold nd_ok in Hok. rewrite Hs, prod_app in Hok.
    pose proof (mapM_length _ _ _ _ _ Hp) as Lp. rewrite seq_length in Lp.
    apply mapM_ok_inv in Hp.
    rewrite (concat_length_uniform _ (pl_n (flat_len b f))).
    + rewrite Lp. simpl. rewrite np_prod_int by auto. auto.
    + intros z Hz.
      assert (exists i, In i (seq 0 (prod s)) /\ flatten_ sc b (FArr (mkNd (folded_shape b)
          (chunk (prod (folded_shape b)) (dat a) i))) f vv = Ok z) as (i & Hi & E).
      { clear -Hp Hz. induction Hp; [destruct Hz|]. destruct Hz as [<-|Hz].
        - exists x. split; auto. left; auto.
        - destruct (IHHp Hz) as (i & Hi & E). exists i. split; auto. right; auto. }
      apply (IH _ z Hub) in E; auto. simpl. unfold nd_ok. simpl.
      apply in_seq in Hi. apply (chunk_length _ _ _ _ (prod s)); auto. lia.
  - intros items l fl fd lk IH [a|dct] x Hu Hok H; [discriminate|].
    cbn [flatten_] in H. apply bind_ok in H. destruct H as ([] & _ & H).
    apply bind_ok in H. destruct H as (parts & Hp & H). apply hstack_ok in H. destruct H as (_ & ->).
    apply flatten_items_inv in Hp. destruct Hu as (_ & _ & Hl & Hfl & Hu).
    assert (length (concat parts) = total_len items f) as E.
    { clear Hl Hfl. revert IH Hu. induction Hp as [|[k q] z its parts (w & Hw & Hz) Hp IHp]; intros IH Hu; auto.
      inversion IH; subst. simpl in *. destruct Hu as (Hu1 & Hu).
      rewrite app_length. unfold total_len in *. simpl. rewrite IHp by auto.
      rewrite (H1 w z); auto. eapply fv_ok_get; eauto. }
    rewrite E. simpl. rewrite Hl, Hfl. destruct f; auto.
Qed.

(** ** fold rejects every other length *)
Theorem fold_wrong_length : forall A (sc : scalar A) p x f vv,
  length x <> pl_n (flat_len p f) ->
  fold_ sc p (vec x) f vv = Err (if is_dict p && negb (str_ok p) then TypeError else ValueError).
Proof.
  intros A sc p x f vv H. apply Nat.eqb_neq in H.
  destruct p; cbn [fold_]; rewrite ?atleast_vec, ?ndim_vec, ?size_vec; cbn [Nat.eqb negb];
    try (rewrite H; auto; fail).
  - simpl in H. rewrite H. auto.
  - cbn [pylen vec shp bind]. rewrite H. auto.
  - rewrite H. cbn [is_dict andb]. destruct (str_ok _); auto.
Qed.

Lemma string_keys_ok : forall p, str_ok p = true <-> string_keys p.
Proof.
  apply (pat_ind' (fun p => str_ok p = true <-> string_keys p)); simpl; try tauto.
  intros items _ _ _ _ H. rewrite forallb_forall, all_items_Forall, Forall_forall.
  rewrite Forall_forall in H. split; intros K kq Hin; specialize (K _ Hin); specialize (H _ Hin).
  - destruct (fst kq) as [s|z]; [|discriminate]. split; [exists s; auto|]. apply H. auto.
  - destruct K as ((s & ->) & K). apply H. auto.
Qed.

(** ** leniency *)
Lemma lenient_vv : forall (vv : option bool) dv,
  match vv with Some b => b = false | None => dv = false end -> vv_or vv dv = false.
Proof. intros [b|] dv H; simpl; auto. Qed.

Theorem validate_lenient : forall A (sc : scalar A) vv p v,
  usable p -> lenient p vv -> (validate sc p v vv = Ok None <-> shape_fits p v).
Proof.
  intros A sc vv p v Hu Hl. split; [apply validate_shape; auto|]. revert p v Hu Hl.
  apply (pat_ind' (fun p => forall v, usable p -> lenient p vv -> shape_fits p v ->
      validate sc p v vv = Ok None)).
  - intros k s lb ub dv fd [a|dct] Hu Hl H; simpl in H; [|tauto].
    simpl. unfold num_validate. simpl in Hl. rewrite (lenient_vv _ _ Hl).
    assert (shp (atleast_1d a) = s) as ->.
    { unfold atleast_1d. destruct H as [H|[H ->]].
      - rewrite H. destruct s; [destruct Hu; contradiction|]. auto.
      - rewrite H. auto. }
    rewrite shape_eqb_refl. auto.
  - intros n s dv fd [a|dct] Hu Hl H; simpl in H; [|tauto].
    simpl. unfold simplex_validate. simpl in Hl. rewrite (lenient_vv _ _ Hl), H, shape_eqb_refl. auto.
  - intros sz fl d dv fd [a|dct] Hu Hl H; simpl in H; [|tauto].
    simpl. unfold psd_validate. simpl in Hl. rewrite (lenient_vv _ _ Hl), H, shape_eqb_refl. auto.
  - intros s b fd IH [a|dct] Hu Hl H; simpl in H; [|tauto].
    simpl in Hl |- *. unfold ndim. rewrite H, Nat.eqb_refl, shape_eqb_refl. cbn [negb].
    apply (validate_cells_seq' _ _ a s (folded_shape b) H). intros i Hi.
    destruct Hu as (_ & _ & Hd & Hub). apply IH; auto.
    destruct b; simpl; auto. discriminate.
  - intros items l fl fd lk IH [a|dct] Hu Hl H; simpl in H; [tauto|].
    simpl. apply validate_items_ok. destruct Hu as (_ & _ & _ & _ & Hu). simpl in Hl.
    apply all_items_Forall in H, Hu, Hl. apply all_items_Forall.
    rewrite Forall_forall in *. intros kq Hkq. destruct (H _ Hkq) as (w & Hw & Hi).
    exists w. split; auto.
Qed.

Theorem fold_lenient : forall A (sc : scalar A) vv p x,
  usable p -> lenient p vv -> length x = pl_n (flat_len p false) ->
  fold_ sc p (vec x) false vv = Ok (layout p x).
Proof.
  intros. rewrite fold_nonfree by auto.
  rewrite (proj2 (require_valid_ok _ _ _ _ _ tt)); auto.
  apply validate_lenient; auto. apply layout_shape; auto.
Qed.

Theorem flatten_lenient : forall A (sc : scalar A) vv p v,
  usable p -> lenient p vv -> fv_ok v -> shape_fits p v ->
  flatten_ sc p v false vv = Ok (entries p v).
Proof.
  intros. rewrite flatten_nonfree by auto.
  rewrite (proj2 (require_valid_ok _ _ _ _ _ tt)); auto.
  apply validate_lenient; auto.
Qed.

(** ** layout of dictionaries *)
Theorem flatten_dict_layout : forall A (sc : scalar A) items l fl fd lk d f vv x,
  flatten_ sc (PDict items l fl fd lk) (FDict d) f vv = Ok x ->
  exists parts, x = concat parts /\
    Forall2 (fun kq part => exists w, dict_get d (fst kq) = Some w /\
                            flatten_ sc (snd kq) w f vv = Ok part) items parts.
Proof.
  intros A sc items l fl fd lk d f vv x H. cbn [flatten_] in H.
  apply bind_ok in H. destruct H as ([] & _ & H).
  apply bind_ok in H. destruct H as (parts & Hp & H). apply hstack_ok in H. destruct H as (_ & ->).
  exists parts. split; auto. apply (proj1 (flatten_items_inv _ _ _ _ _) Hp).
Qed.

Lemma fold_items_inv : forall A (fq : pat -> nd A -> res (fv A)) free flat its off d,
  all_items (fun _ q => usable q) its ->
  fold_items fq free flat its (plint off) = Ok d ->
  map fst d = map fst its /\
  forall i k q, nth_error its i = Some (k, q) ->
    exists w, nth_error d i = Some (k, w) /\
      fq q (vec (slice flat (off + total_len (firstn i its) free) (pl_n (flat_len q free)))) = Ok w.
Proof.
  intros A fq free flat. induction its as [|[k q] its IH]; intros off d Hu H.
  - inversion H; subst. split; auto. intros [|i] k q E; discriminate.
  - destruct Hu as (Hu1 & Hu). rewrite fold_items_cons in H by (apply usable_int; auto).
    apply bind_ok in H. destruct H as (w & Hw & H).
    apply bind_ok in H. destruct H as (r & Hr & H). inversion H; subst.
    destruct (IH _ _ Hu Hr) as (IH1 & IH2). split; [simpl; rewrite IH1; auto|].
    intros [|i] k' q' E; simpl in E.
    + inversion E; subst. exists w. split; auto. unfold total_len. simpl. rewrite Nat.add_0_r. auto.
    + destruct (IH2 i k' q' E) as (w' & Hw' & Hf). exists w'. split; auto.
      rewrite <- Hf. f_equal. f_equal. f_equal. unfold total_len. simpl. lia.
Qed.

Theorem fold_dict_layout : forall A (sc : scalar A) items l fl fd lk x f vv v,
  usable (PDict items l fl fd lk) ->
  fold_ sc (PDict items l fl fd lk) (vec x) f vv = Ok v ->
  exists d, v = FDict d /\ map fst d = map fst items /\
  forall i k q, nth_error items i = Some (k, q) ->
    exists w, dict_get d k = Some w /\
      fold_ sc q (vec (slice x (total_len (firstn i items) f) (pl_n (flat_len q f)))) f vv = Ok w.
Proof.
  intros A sc items l fl fd lk x f vv v Hu H.
  assert (length x = pl_n (flat_len (PDict items l fl fd lk) f)) as Hx.
  { destruct (Nat.eq_dec (length x) (pl_n (flat_len (PDict items l fl fd lk) f))); auto.
    rewrite fold_wrong_length in H by auto. discriminate. }
  rewrite fold_dict_eq in H by auto. destruct Hu as (Hne & Hnd & _ & _ & Hu).
  apply bind_ok in H. destruct H as (d & Hd & H).
  assert (v = FDict d) as ->.
  { destruct f; [inversion H; auto|]. apply bind_ok in H. destruct H as (u & _ & H). inversion H; auto. }
  apply fold_items_inv in Hd; auto. destruct Hd as (H1 & H2).
  exists d. split; auto. split; auto. intros i k q E. destruct (H2 _ _ _ E) as (w & Hw & Hf).
  exists w. split; auto. apply dict_get_in_nodup; [rewrite H1; auto|].
  eapply nth_error_In; eauto.
Qed.

(** ** layout of arrays *)
Theorem flatten_arr_layout : forall A (sc : scalar A) s b fd a f vv x,
  usable (PArr s b fd) ->
  flatten_ sc (PArr s b fd) (FArr a) f vv = Ok x ->
  exists parts, x = concat parts /\
    Forall2 (fun item part => flatten_ sc b (FArr (subarr a item (length s))) f vv = Ok part)
      (indices s) parts.
Proof.
  intros A sc s b fd a f vv x Hu H. cbn [flatten_] in H.
  apply bind_ok in H. destruct H as ([] & _ & H).
  apply bind_ok in H. destruct H as (parts & Hp & H). apply hstack_ok in H. destruct H as (_ & ->).
  exists parts. split; auto. apply mapM_ok_inv; auto.
Qed.

Lemma as_arr_ok : forall A (v : fv A) a, as_arr v = Ok a -> v = FArr a.
Proof. intros A [a'|d] a H; inversion H; auto. Qed.

(** Every successful fold of an array pattern has the folded shape. *)
Lemma fold_shape : forall A (sc : scalar A) f vv p x v,
  usable p -> is_dict p = false -> fold_ sc p (vec x) f vv = Ok v ->
  exists a, v = FArr a /\ shp a = folded_shape p /\ nd_ok a.
Proof.
  intros A sc f vv.
  apply (pat_ind' (fun p => forall x v, usable p -> is_dict p = false -> fold_ sc p (vec x) f vv = Ok v ->
    exists a, v = FArr a /\ shp a = folded_shape p /\ nd_ok a)).
  - intros k s lb ub dv fd x v Hu Hd H. cbn [fold_] in H.
    rewrite atleast_vec, ndim_vec, size_vec in H. cbn [Nat.eqb negb] in H.
    destruct (length x =? prod s) eqn:E; [|discriminate]. apply Nat.eqb_eq in E. cbn [negb] in H.
    destruct f.
    + inversion H. eexists; split; [reflexivity|]. split; auto. unfold nd_ok. simpl.
      rewrite !map_length. auto.
    + rewrite reshape_vec in H by auto. cbn [bind] in H. apply bind_ok in H. destruct H as (u & _ & H).
      inversion H. eexists; split; [reflexivity|]. split; auto.
  - intros n s dv fd x v Hu Hd H. cbn [fold_ pylen vec shp bind flat_len] in H.
    rewrite simplex_flen in H. simpl in Hu.
    destruct (length x =? _) eqn:E; [|discriminate]. apply Nat.eqb_eq in E. cbn [negb] in H.
    destruct f.
    + rewrite reshape_vec in H by (rewrite E, prod_app; simpl; lia). cbn [bind] in H.
      inversion H. eexists; split; [reflexivity|]. split; auto. unfold nd_ok. cbn [shp nd_map simplex_fold_free dat].
      rewrite map_length, prod_app, flat_map_concat.
      rewrite (concat_length_uniform _ n).
      * rewrite map_length, chunks_length. simpl. lia.
      * intros z Hz. apply in_map_iff in Hz. destruct Hz as (r & <- & Hr).
        apply in_chunks in Hr. destruct Hr as (i & Hi & ->).
        unfold constrain_row. rewrite map_length. cbn [length].
        rewrite (chunk_length _ _ _ _ (prod s)); auto; [lia|]. rewrite map_length. auto.
    + rewrite reshape_vec in H by (rewrite E, prod_app; simpl; lia). cbn [bind] in H.
      apply bind_ok in H. destruct H as (u & _ & H).
      inversion H. eexists; split; [reflexivity|]. split; auto. unfold nd_ok. simpl.
      rewrite prod_app. simpl. lia.
  - intros sz fl d dv fd x v Hu Hd H. cbn [fold_ flat_len] in H. destruct Hu as (Hfl & _).
    rewrite atleast_vec, ndim_vec, size_vec in H. cbn [Nat.eqb negb plint pl_n] in H.
    destruct (length x =? _) eqn:E; [|discriminate]. apply Nat.eqb_eq in E. cbn [negb] in H.
    destruct f.
    + apply bind_ok in H. destruct H as (m & Hm & H). inversion H; subst.
      unfold unpack_posdef in Hm. cbn [vec dat] in Hm.
      rewrite (unvectorize_T _ sz) in Hm by (rewrite map_length; auto).
      cbn [bind fst snd] in Hm. inversion Hm; subst.
      eexists; split; [reflexivity|]. split; auto. unfold nd_ok. cbn [nd_map to_nd shp dat].
      rewrite map_length, flat_map_concat, (concat_length_uniform _ sz).
      * rewrite map_length, seq_length. simpl. lia.
      * intros z Hz. apply in_map_iff in Hz. destruct Hz as (r & <- & Hr).
        rewrite map_length, seq_length. auto.
    + rewrite reshape_vec in H by (rewrite E; simpl; lia). cbn [bind] in H.
      apply bind_ok in H. destruct H as (u & _ & H).
      inversion H. eexists; split; [reflexivity|]. split; auto. unfold nd_ok. simpl. lia.
  - intros s b fd IH x v Hu Hd H.
    assert (length x = pl_n (flat_len (PArr s b fd) f)) as Hx.
    { destruct (Nat.eq_dec (length x) (pl_n (flat_len (PArr s b fd) f))); auto.
      rewrite fold_wrong_length in H by auto. discriminate. }
    rewrite fold_arr_eq in H by auto. apply bind_ok in H. destruct H as (parts & _ & H).
    apply bind_ok in H. destruct H as (a & Ha & H). unfold stack_reshape in Ha.
    destruct (prod _ =? _) eqn:E; [|discriminate]. apply Nat.eqb_eq in E. inversion Ha; subst.
    assert (v = FArr (mkNd (s ++ folded_shape b) (flat_map dat parts))) as ->.
    { destruct f; [inversion H; auto|]. apply bind_ok in H. destruct H as (u & _ & H). inversion H; auto. }
    eexists; split; [reflexivity|]. split; auto. unfold nd_ok. simpl. auto.
  - intros. discriminate.
Qed.

Theorem fold_arr_layout : forall A (sc : scalar A) s b fd x f vv v,
  usable (PArr s b fd) ->
  fold_ sc (PArr s b fd) (vec x) f vv = Ok v ->
  exists a, v = FArr a /\ shp a = s ++ folded_shape b /\
  forall item, In item (indices s) ->
    fold_ sc b (vec (slice x (ravel item s * pl_n (flat_len b f)) (pl_n (flat_len b f)))) f vv
    = Ok (FArr (subarr a item (length s))).
Proof.
  intros A sc s b fd x f vv v Hu H.
  assert (length x = pl_n (flat_len (PArr s b fd) f)) as Hx.
  { destruct (Nat.eq_dec (length x) (pl_n (flat_len (PArr s b fd) f))); auto.
    rewrite fold_wrong_length in H by auto. discriminate. }
  rewrite fold_arr_eq in H by auto. apply bind_ok in H. destruct H as (parts & Hp & H).
  pose proof (mapM_length _ _ _ _ _ Hp) as Lp. rewrite seq_length in Lp.
  apply mapM_ok_inv in Hp. pose proof Hu as (Hne & Hpos & Hd & Hub).
  assert (forall i, i < prod s -> exists a, nth_error parts i = Some a /\ shp a = folded_shape b /\ nd_ok a /\
      fold_ sc b (vec (chunk (pl_n (flat_len b f)) x i)) f vv = Ok (FArr a)) as Hcell.
  { intros i Hi.
    assert (forall o n ps, Forall2 (fun i a => (v <- fold_ sc b (vec (chunk (pl_n (flat_len b f)) x i)) f vv ;; as_arr v) = Ok a)
         (seq o n) ps -> forall i, i < n -> exists a, nth_error ps i = Some a /\
         (v <- fold_ sc b (vec (chunk (pl_n (flat_len b f)) x (o + i))) f vv ;; as_arr v) = Ok a) as E.
    { clear. intros o n. revert o. induction n; intros o ps H i Hi; [lia|].
      inversion H; subst. destruct i.
      - exists y. rewrite Nat.add_0_r. auto.
      - destruct (IHn (S o) l' H4 i ltac:(lia)) as (a & Ha & Hb). exists a.
        replace (o + S i) with (S o + i) by lia. auto. }
    destruct (E _ _ _ Hp i Hi) as (a & Ha & Hb). exists a. simpl in Hb.
    apply bind_ok in Hb. destruct Hb as (w & Hw & Hb). apply as_arr_ok in Hb. subst w.
    destruct (fold_shape _ _ _ _ _ _ _ Hub Hd Hw) as (a' & Ea & Hs & Hok). inversion Ea; subst a'.
    auto. }
  apply bind_ok in H. destruct H as (a & Ha & H). unfold stack_reshape in Ha.
  destruct (prod _ =? _) eqn:E; [|discriminate]. apply Nat.eqb_eq in E. inversion Ha; subst a. clear Ha.
  assert (v = FArr (mkNd (s ++ folded_shape b) (flat_map dat parts))) as ->.
  { destruct f; [inversion H; auto|]. apply bind_ok in H. destruct H as (u & _ & H). inversion H; auto. }
  eexists; split; [reflexivity|]. split; auto. intros item Hit.
  pose proof (ravel_lt _ _ Hit) as Hr. destruct (Hcell _ Hr) as (a & Ha & Hs & Hok & Hf).
  change (slice x (ravel item s * pl_n (flat_len b f)) (pl_n (flat_len b f)))
    with (chunk (pl_n (flat_len b f)) x (ravel item s)).
  rewrite Hf. f_equal. f_equal. rewrite (subarr_chunk _ _ item s (folded_shape b)) by auto.
  cbn [dat]. rewrite flat_map_concat.
  rewrite (chunk_concat _ _ _ (ravel item s) (dat (mkNd (folded_shape b) ([] : list A)))).
  - rewrite map_nth. rewrite (nth_error_nth _ _ _ Ha). destruct a as [s' d']. simpl in *. subst. auto.
  - intros z Hz. apply in_map_iff in Hz. destruct Hz as (a' & <- & Hin).
    apply In_nth_error in Hin. destruct Hin as (i & Hi).
    assert (i < prod s) as Hlt. { rewrite <- Lp. apply nth_error_Some. congruence. }
    destruct (Hcell _ Hlt) as (a2 & Ha2 & Hs2 & Hok2 & _). rewrite Hi in Ha2. inversion Ha2; subst a2.
    unfold nd_ok in Hok2. rewrite Hok2, Hs2. auto.
  - rewrite map_length. lia.
Qed.

(** ** key order and extra keys *)
Lemma dict_get_perm : forall V (d e : list (key * V)),
  Permutation d e -> NoDup (map fst d) -> forall k, dict_get d k = dict_get e k.
Proof.
  intros V d e Hp Hn k.
  assert (NoDup (map fst e)) as Hne.
  { eapply Permutation_NoDup; [|exact Hn]. apply Permutation_map. auto. }
  destruct (dict_get d k) as [v|] eqn:E.
  - symmetry. apply dict_get_in_nodup; auto. eapply Permutation_in; [exact Hp|].
    apply dict_get_in; auto.
  - destruct (dict_get e k) as [v|] eqn:E2; auto.
    apply dict_get_in in E2. eapply Permutation_in in E2; [|apply Permutation_sym; exact Hp].
    rewrite (dict_get_in_nodup _ _ _ _ Hn E2) in E. discriminate.
Qed.

Lemma same_on_refl : forall A p (v : fv A), same_on p v v.
Proof.
  intros A. apply (pat_ind' (fun p => forall v : fv A, same_on p v v)); intros; simpl; auto;
    destruct v; auto.
  apply all_items_Forall. rewrite Forall_forall in *. intros kq Hkq.
  destruct (dict_get d (fst kq)); auto.
Qed.

Lemma same_on_of_get : forall A items l fl fd lk (d e : list (key * fv A)),
  (forall k, In k (map fst items) -> dict_get d k = dict_get e k) ->
  same_on (PDict items l fl fd lk) (FDict d) (FDict e).
Proof.
  intros. simpl. apply all_items_Forall. apply Forall_forall. intros kq Hkq.
  rewrite H by (apply in_map; auto). destruct (dict_get e (fst kq)); auto. apply same_on_refl.
Qed.

Theorem validate_same_on : forall A (sc : scalar A) vv p v w,
  same_on p v w -> validate sc p v vv = validate sc p w vv.
Proof.
  intros A sc vv. apply (pat_ind' (fun p => forall v w, same_on p v w ->
    validate sc p v vv = validate sc p w vv)); try (intros; simpl in *; subst; auto; fail).
  intros items l fl fd lk IH v w H. destruct v as [a|d], w as [b|e]; simpl in H; try (inversion H; auto; fail);
    try discriminate.
  simpl. revert H IH. induction items as [|[k q] items IHi]; simpl; auto. intros (H1 & H2) IH.
  inversion IH; subst. destruct (dict_get d k), (dict_get e k); try tauto.
  simpl in *. rewrite (H3 _ _ H1). rewrite IHi; auto.
Qed.

Theorem flatten_same_on : forall A (sc : scalar A) f vv p v w,
  same_on p v w -> flatten_ sc p v f vv = flatten_ sc p w f vv.
Proof.
  intros A sc f vv. apply (pat_ind' (fun p => forall v w, same_on p v w ->
    flatten_ sc p v f vv = flatten_ sc p w f vv)); try (intros; simpl in *; subst; auto; fail).
  intros items l fl fd lk IH v w H. destruct v as [a|d], w as [b|e]; simpl in H; try (inversion H; auto; fail);
    try discriminate.
  cbn [flatten_].
  assert (require_valid sc (PDict items l fl fd lk) (FDict d) vv
        = require_valid sc (PDict items l fl fd lk) (FDict e) vv) as ->.
  { unfold require_valid. rewrite (validate_same_on _ _ _ _ (FDict d) (FDict e)); auto. }
  f_equal.
  assert (flatten_items (fun q w => flatten_ sc q w f vv) d items
       = flatten_items (fun q w => flatten_ sc q w f vv) e items) as ->; auto.
  revert H IH. induction items as [|[k q] items IHi]; simpl; auto. intros (H1 & H2) IH.
  inversion IH; subst. destruct (dict_get d k), (dict_get e k); try tauto.
  simpl in *. rewrite (H3 _ _ H1). rewrite IHi; auto.
Qed.

Theorem flat_indices_same_on : forall p v w free,
  same_on p v w -> flat_indices p v free = flat_indices p w free.
Proof.
  apply (pat_ind' (fun p => forall v w free, same_on p v w ->
    flat_indices p v free = flat_indices p w free)); try (intros; simpl in *; subst; auto; fail).
  intros items l fl fd lk IH v w free H. destruct v as [a|d], w as [b|e]; simpl in H; try (inversion H; auto; fail);
    try discriminate.
  cbn [flat_indices]. destruct (free_with_default _ free) as [f|]; auto. cbn [bind].
  assert (require_valid sbool (PDict items l fl fd lk) (FDict d) (Some false)
        = require_valid sbool (PDict items l fl fd lk) (FDict e) (Some false)) as ->.
  { unfold require_valid. rewrite (validate_same_on _ _ _ _ (FDict d) (FDict e)); auto. }
  destruct (require_valid _ _ _ _); auto. cbn [bind].
  generalize (plint 0). revert H IH. induction items as [|[k q] items IHi]; simpl; auto.
  intros (H1 & H2) IH off.
  inversion IH; subst. destruct (dict_get d k), (dict_get e k); try tauto.
  simpl in *. rewrite (H3 _ _ _ H1). destruct (flat_indices q f1 (Some f)); simpl; auto.
  destruct (shift_indices off _); simpl; auto. rewrite IHi; auto.
Qed.

Theorem missing_key : forall A (sc : scalar A) items l fl fd lk d vv k,
  In k (map fst items) -> dict_get d k = None ->
  (forall k' q w, In (k', q) items -> dict_get d k' = Some w -> exists r, validate sc q w vv = Ok r) ->
  (exists m, validate sc (PDict items l fl fd lk) (FDict d) vv = Ok (Some m)) /\
  forall f, flatten_ sc (PDict items l fl fd lk) (FDict d) f vv = Err ValueError.
Proof.
  intros A sc items l fl fd lk d vv k Hin Hno Hok.
  assert (exists m, validate sc (PDict items l fl fd lk) (FDict d) vv = Ok (Some m)) as (m & Hm).
  { simpl. clear l fl fd lk. revert Hok Hin. induction items as [|[k' q] items IH]; simpl; intros Hok Hin; [tauto|].
    destruct (dict_get d k') as [w|] eqn:E.
    - destruct (Hok k' q w (or_introl eq_refl) E) as (r & Hr). rewrite Hr. cbn [bind].
      destruct r as [m|]; [eexists; eauto|]. apply IH.
      + intros; eapply Hok; eauto.
      + destruct Hin as [->|Hin]; auto. congruence.
    - eexists; eauto. }
  split; [eauto|]. intros f. cbn [flatten_]. unfold require_valid. rewrite Hm. auto.
Qed.

Theorem missing_key_rejected : forall A (sc : scalar A) items l fl fd lk d vv f k x,
  In k (map fst items) -> dict_get d k = None ->
  flatten_ sc (PDict items l fl fd lk) (FDict d) f vv <> Ok x.
Proof.
  intros A sc items l fl fd lk d vv f k x Hin Hno H.
  apply flatten_dict_layout in H. destruct H as (parts & _ & HF).
  induction HF as [|[k' q] z its parts (w & Hw & _) HF IH]; simpl in *; [tauto|].
  destruct Hin as [->|Hin]; auto. congruence.
Qed.

(** ** structurally equal patterns behave alike *)
Lemma sim_items_ext : forall A (f g : pat -> A) its its',
  sim_items sim its its' ->
  (forall k q q', In (k, q) its -> sim q q' -> f q = g q') ->
  map (fun kq => (fst kq, f (snd kq))) its = map (fun kq => (fst kq, g (snd kq))) its'.
Proof.
  induction its as [|[k q] its IH]; intros [|[k' q'] its'] H Hf; simpl in H; try tauto; auto.
  destruct H as (-> & H1 & H2). simpl. f_equal.
  - rewrite (Hf k' q q'); auto. left; auto.
  - apply IH; auto. intros; eapply Hf; eauto. right; eauto.
Qed.

Lemma sim_flat_len : forall p q f, sim p q -> flat_len p f = flat_len q f.
Proof.
  intros p q f. revert p q. apply (pat_ind' (fun p => forall q, sim p q -> flat_len p f = flat_len q f));
    intros; destruct q; simpl in *; try tauto.
  - destruct H as (-> & _); auto.
  - destruct H as (-> & -> & _); auto.
  - destruct H as (-> & -> & _); auto.
  - destruct H0 as (-> & H0). rewrite (H q); auto.
  - destruct H0 as (-> & -> & _); auto.
Qed.

Lemma sim_folded_shape : forall p q, sim p q -> folded_shape p = folded_shape q.
Proof.
  apply (pat_ind' (fun p => forall q, sim p q -> folded_shape p = folded_shape q));
    intros; destruct q; simpl in *; try tauto.
  - destruct H as (-> & -> & _); auto.
  - destruct H as (-> & _); auto.
  - destruct H0 as (-> & H0). rewrite (H q); auto.
Qed.

Theorem sim_validate : forall A (sc : scalar A) vv p q v, sim p q ->
  validate sc p v vv = validate sc q v vv.
Proof.
  intros A sc vv. apply (pat_ind' (fun p => forall q v, sim p q ->
     validate sc p v vv = validate sc q v vv)); intros; destruct q; simpl in H; simpl sim in *; try tauto;
     destruct v as [a|dct]; auto.
  - destruct H as (-> & H1 & H2 & ->). simpl. rewrite H1, H2. auto.
  - destruct H as (-> & -> & ->). auto.
  - destruct H as (-> & -> & H1 & ->). simpl. rewrite H1. auto.
  - destruct H0 as (-> & H0). simpl. rewrite (sim_folded_shape _ _ H0).
    destruct (ndim a =? _); simpl; auto. destruct (shape_eqb _ _); simpl; auto.
    generalize (indices ashape). induction l as [|it l IHl]; simpl; auto.
    rewrite (H q _ H0). destruct (validate sc q _ vv) as [[m|]|e]; simpl; auto.
  - destruct H0 as (_ & _ & H0). simpl. clear l fl fd lk len flen fd0 locked.
    revert items0 H0. induction items as [|[k q] items IHi]; intros [|[k' q'] its'] H0; simpl in H0; try tauto; auto.
    destruct H0 as (-> & H1 & H2). inversion H; subst. simpl in *.
    destruct (dict_get dct k') as [w|]; auto. rewrite (H4 _ w H1). rewrite (IHi H5 its' H2). auto.
Qed.

Lemma sim_require : forall A (sc : scalar A) vv p q v, sim p q ->
  require_valid sc p v vv = require_valid sc q v vv.
Proof. intros. unfold require_valid. rewrite (sim_validate _ _ _ _ _ _ H). auto. Qed.

Lemma sim_str_ok : forall p q, sim p q -> str_ok p = str_ok q.
Proof.
  apply (pat_ind' (fun p => forall q, sim p q -> str_ok p = str_ok q)).
  - intros k s lb ub dv fd q H. destruct q; simpl in H; tauto.
  - intros n s dv fd q H. destruct q; simpl in H; tauto.
  - intros sz fl d dv fd q H. destruct q; simpl in H; tauto.
  - intros s b fd IH q H. destruct q; simpl in H; try tauto. simpl. apply IH. tauto.
  - intros items l fl fd lk IH q H. destruct q; simpl in H; try tauto. destruct H as (_ & _ & H).
    cbn [str_ok]. revert items0 H.
    induction items as [|[k q] items IHi]; intros [|[k' q'] its'] H; simpl in H; try tauto; auto.
    destruct H as (-> & H1 & H2). inversion IH; subst. cbn [forallb fst snd].
    rewrite (IHi H4 _ H2). destruct k'; auto. f_equal. apply H3. auto.
Qed.

Theorem sim_fold : forall A (sc : scalar A) f vv p q x, sim p q ->
  fold_ sc p x f vv = fold_ sc q x f vv.
Proof.
  intros A sc f vv. apply (pat_ind' (fun p => forall q x, sim p q -> fold_ sc p x f vv = fold_ sc q x f vv)).
  - intros k s lb ub dv fd q x H. pose proof (fun v => sim_require _ sc vv _ _ v H) as Hr.
    destruct q; simpl in H; try tauto. destruct H as (-> & H1 & H2 & ->).
    cbn [fold_]. destruct (negb _); auto. destruct (negb _); auto. rewrite H1, H2.
    destruct f; auto. destruct (reshape _ _); cbn [bind]; auto. rewrite Hr. auto.
  - intros n s dv fd q x H. pose proof (fun v => sim_require _ sc vv _ _ v H) as Hr.
    destruct q; simpl in H; try tauto. destruct H as (-> & -> & ->).
    cbn [fold_ flat_len]. destruct (pylen x); cbn [bind]; auto.
  - intros sz fl d dv fd q x H. pose proof (fun v => sim_require _ sc vv _ _ v H) as Hr.
    destruct q; simpl in H; try tauto. destruct H as (-> & -> & H1 & ->).
    cbn [fold_ flat_len]. destruct (negb _); auto. destruct (negb _); auto. rewrite H1.
    destruct f; auto. destruct (reshape _ _); cbn [bind]; auto. rewrite Hr. auto.
  - intros s b fd IH q x H. pose proof (fun v => sim_require _ sc vv _ _ v H) as Hr.
    pose proof (sim_flat_len _ _ f H) as HL.
    destruct q; simpl in H; try tauto. destruct H as (-> & H).
    cbn [fold_]. rewrite HL. destruct (negb _); auto. destruct (negb _); auto.
    destruct ashape as [|n0 ashape]; auto. rewrite (sim_flat_len _ _ f H).
    cbn [folded_shape]. rewrite (sim_folded_shape _ _ H).
    match goal with |- (parts <- mapM ?g _ ;; _) = (parts <- mapM ?h _ ;; _) =>
      rewrite (mapM_ext _ _ g h) end.
    2:{ intros it _. destruct (as_index _); cbn [bind]; auto. rewrite (IH _ _ H). auto. }
    destruct (mapM _ _); cbn [bind]; auto. destruct (stack_reshape _ _); cbn [bind]; auto.
    destruct f; auto. rewrite Hr. auto.
  - intros items l fl fd lk IH q x H. pose proof H as Hsim. pose proof (fun v => sim_require _ sc vv _ _ v H) as Hr.
    pose proof (sim_flat_len _ _ f H) as HL.
    destruct q; simpl in H; try tauto. destruct H as (-> & -> & H).
    cbn [fold_]. rewrite HL, (sim_str_ok _ _ Hsim). destruct (negb _); auto. destruct (negb _); auto.
    assert (forall y off, fold_items (fun q x => fold_ sc q x f vv) f y items off
        = fold_items (fun q x => fold_ sc q x f vv) f y items0 off) as E.
    { intros y. clear Hr HL Hsim. revert items0 H.
      induction items as [|[k q] items IHi]; intros [|[k' q'] its'] H off; simpl in H; try tauto; auto.
      destruct H as (-> & H1 & H2). inversion IH; subst. simpl in *.
      rewrite (sim_flat_len _ _ f H1). destruct (as_index off); cbn [bind]; auto.
      destruct (as_index _); cbn [bind]; auto. rewrite (H3 _ _ H1).
      destruct (fold_ sc q' _ f vv); cbn [bind]; auto. rewrite (IHi H4 its' H2). auto. }
    rewrite E. destruct (fold_items _ _ _ _ _); cbn [bind]; auto. destruct f; auto. rewrite Hr. auto.
Qed.

Theorem sim_flatten : forall A (sc : scalar A) f vv p q v, sim p q ->
  flatten_ sc p v f vv = flatten_ sc q v f vv.
Proof.
  intros A sc f vv. apply (pat_ind' (fun p => forall q v, sim p q -> flatten_ sc p v f vv = flatten_ sc q v f vv)).
  - intros k s lb ub dv fd q v H. pose proof (fun v => sim_require _ sc vv _ _ v H) as Hr.
    destruct q; simpl in H; try tauto. destruct H as (-> & H1 & H2 & ->).
    destruct v; auto. cbn [flatten_]. rewrite Hr, H1, H2. auto.
  - intros n s dv fd q v H. pose proof (fun v => sim_require _ sc vv _ _ v H) as Hr.
    destruct q; simpl in H; try tauto. destruct H as (-> & -> & ->). destruct v; auto.
  - intros sz fl d dv fd q v H. pose proof (fun v => sim_require _ sc vv _ _ v H) as Hr.
    destruct q; simpl in H; try tauto. destruct H as (-> & -> & H1 & ->).
    destruct v; auto. cbn [flatten_]. rewrite Hr, H1. auto.
  - intros s b fd IH q v H. pose proof (fun v => sim_require _ sc vv _ _ v H) as Hr.
    destruct q; simpl in H; try tauto. destruct H as (-> & H).
    destruct v; auto. cbn [flatten_]. rewrite Hr.
    match goal with |- (_ <- _ ;; (parts <- mapM ?g _ ;; _)) = (_ <- _ ;; (parts <- mapM ?h _ ;; _)) =>
      rewrite (mapM_ext _ _ g h) end; auto.
  - intros items l fl fd lk IH q v H. pose proof (fun v => sim_require _ sc vv _ _ v H) as Hr.
    destruct q; simpl in H; try tauto. destruct H as (-> & -> & H).
    destruct v as [a|d]; auto. cbn [flatten_]. rewrite Hr.
    assert (flatten_items (fun q w => flatten_ sc q w f vv) d items
        = flatten_items (fun q w => flatten_ sc q w f vv) d items0) as ->; auto.
    clear Hr. revert items0 H.
    induction items as [|[k q] items IHi]; intros [|[k' q'] its'] H; simpl in H; try tauto; auto.
    destruct H as (-> & H1 & H2). inversion IH; subst. simpl in *.
    destruct (dict_get d k'); auto. rewrite (H3 _ _ H1). rewrite (IHi H4 its' H2). auto.
Qed.

Theorem sim_flat_indices : forall p q m f, sim p q ->
  flat_indices p m (Some f) = flat_indices q m (Some f).
Proof.
  intros p q m f. revert p q m.
  apply (pat_ind' (fun p => forall q m, sim p q -> flat_indices p m (Some f) = flat_indices q m (Some f))).
  - intros k s lb ub dv fd q v H. destruct q; simpl in H; try tauto. destruct H as (-> & H1 & H2 & ->).
    destruct v; auto.
  - intros n s dv fd q v H. destruct q; simpl in H; try tauto. destruct H as (-> & -> & ->). destruct v; auto.
  - intros sz fl d dv fd q v H. pose proof (fun x => sim_fold _ snat false (Some false) _ _ x H) as Hf.
    destruct q; simpl in H; try tauto. destruct H as (-> & -> & H1 & ->).
    destruct v; auto.
  - intros s b fd IH q v H. pose proof (fun v => sim_require _ sbool (Some false) _ _ v H) as Hr.
    destruct q; simpl in H; try tauto. destruct H as (-> & H).
    destruct v; auto. cbn [flat_indices free_with_default bind]. rewrite Hr.
    destruct (require_valid _ _ _ _); cbn [bind]; auto. rewrite (sim_flat_len _ _ f H).
    generalize (plint 0). generalize (indices ashape). induction l as [|it l IHl]; intros off; simpl; auto.
    rewrite (IH _ _ H). destruct (anyb _); auto.
    + destruct (flat_indices q _ _); simpl; auto. destruct (shift_indices off a1); simpl; auto.
      rewrite IHl. auto.
    + simpl. rewrite IHl. auto.
  - intros items l fl fd lk IH q v H. pose proof (fun v => sim_require _ sbool (Some false) _ _ v H) as Hr.
    destruct q; simpl in H; try tauto. destruct H as (-> & -> & H).
    destruct v as [a|d]; auto. cbn [flat_indices free_with_default bind]. rewrite Hr.
    destruct (require_valid _ _ _ _); cbn [bind]; auto. generalize (plint 0). clear Hr. revert items0 H.
    induction items as [|[k q] items IHi]; intros [|[k' q'] its'] H off; simpl in H; try tauto; auto.
    destruct H as (-> & H1 & H2). inversion IH; subst. simpl in *.
    destruct (dict_get d k'); auto. rewrite (H3 _ _ H1). destruct (flat_indices q' _ _); cbn [bind]; auto.
    destruct (shift_indices off _); cbn [bind]; auto. rewrite (sim_flat_len _ _ f H1), (IHi H4 its' H2). auto.
Qed.

Theorem sim_empty : forall p q, sim p q -> empty_valid p = empty_valid q.
Proof.
  apply (pat_ind' (fun p => forall q, sim p q -> empty_valid p = empty_valid q)); intros; destruct q; simpl in *; try tauto.
  - destruct H as (-> & -> & -> & _). auto.
  - destruct H as (-> & -> & _). auto.
  - destruct H as (-> & _ & -> & _). auto.
  - destruct H0 as (-> & H0). rewrite (H _ H0), (sim_folded_shape _ _ H0). auto.
  - destruct H0 as (_ & _ & H0). clear l fl fd lk len flen fd0 locked.
    assert (mapM (fun kq => v <- empty_valid (snd kq) ;; Ok (fst kq, v)) items
          = mapM (fun kq => v <- empty_valid (snd kq) ;; Ok (fst kq, v)) items0) as ->; auto.
    revert items0 H0. induction items as [|[k q] items IHi]; intros [|[k' q'] its'] H0; simpl in H0; try tauto; auto.
    destruct H0 as (-> & H1 & H2). inversion H; subst. simpl in *. rewrite (H4 _ H1).
    destruct (empty_valid q'); simpl; auto. rewrite (IHi H5 its' H2). auto.
Qed.

Lemma sim_refl : forall p, sim p p.
Proof.
  apply pat_ind'; intros; simpl; auto. split; auto. split; auto.
  induction items as [|[k q] items IH]; simpl; auto. inversion H; subst. auto.
Qed.

Lemma sim_usable : forall p q, sim p q -> usable p -> usable q.
Proof.
  apply (pat_ind' (fun p => forall q, sim p q -> usable p -> usable q)); intros; destruct q; simpl in *; try tauto.
  - destruct H as (-> & <- & <- & _). auto.
  - destruct H as (-> & -> & _). auto.
  - destruct H as (-> & -> & <- & _). auto.
  - destruct H0 as (-> & H0). destruct H1 as (H1 & H2 & H3 & H4). repeat split; auto.
    destruct b, q; simpl in *; try tauto; discriminate.
  - destruct H0 as (-> & -> & H0). destruct H1 as (H1 & H2 & -> & -> & H5).
    clear -H H0 H1 H2 H5.
    assert (map fst items = map fst items0 /\
      (forall f, map (fun kq => pl_n (flat_len (snd kq) f)) items = map (fun kq => pl_n (flat_len (snd kq) f)) items0) /\
      all_items (fun _ q => usable q) items0) as (E1 & E2 & E3).
    { clear H1 H2. revert items0 H0 H5. induction items as [|[k q] items IHi]; intros [|[k' q'] its'] H0 H5; simpl in H0; try tauto; auto.
      destruct H0 as (-> & H1 & H2). simpl in H5. destruct H5 as (H5 & H6). inversion H; subst.
      destruct (IHi H7 its' H2 H6) as (E1 & E2 & E3). simpl in *. split; [rewrite E1; auto|].
      split; [intros; rewrite E2, (sim_flat_len _ _ f H1); auto|]. split; auto. }
    rewrite <- !E2, <- E1. repeat split; auto. intros ->. destruct items; auto. discriminate.
Qed.
