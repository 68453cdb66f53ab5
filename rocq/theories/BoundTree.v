(** * Infinite free values and values on the boundary: whole patterns. *)
From Coq Require Import Reals Lra.
From Verif Require Import Base Num Nd Numeric Simplex Psd Pattern Spec SpecBound ListFacts PatFacts
  NonFree NumFacts CholFacts Free Contract Build Api BoundFacts.

Lemma boundary_fv_arr : forall p a, usable p -> boundary_value p (FArr a) -> nd_ok a /\ shape_fits p (FArr a).
Proof.
  intros p a Hu H. destruct p; try (apply (interior_fv_arr _ a Hu H)); simpl in H; simpl shape_fits.
  - destruct H as ((H1 & H2) & _). auto.
  - destruct H as (Hs & rows & H1 & H2 & H3). split; auto.
    unfold nd_ok. rewrite Hs, H2, map_length, prod_app.
    rewrite (concat_length_uniform _ n).
    + rewrite H1. simpl. lia.
    + intros r Hr. rewrite Forall_forall in H3. apply H3; auto.
  - tauto.
Qed.

Lemma nltb_not : forall x y, ~ nlt x y -> nltb x y = false.
Proof.
  intros [x| | |] [y| | |] H; simpl in *; try tauto; auto. apply Rltb_false. lra.
Qed.

Lemma boundary_valid : forall vv p v, usable p -> boundary_value p v -> validate snum p v vv = Ok None.
Proof.
  intros vv.
  apply (pat_ind' (fun p => forall v, usable p -> boundary_value p v -> validate snum p v vv = Ok None)).
  - intros k s lb ub dv fd [a|dct] Hu H; simpl in H; try tauto.
    destruct H as ((Hok & Hs) & Hb). simpl. unfold num_validate.
    assert (shp (atleast_1d a) = s) as ->.
    { unfold atleast_1d. destruct Hs as [Hs|[Hs ->]].
      - rewrite Hs. destruct s; [destruct Hu; contradiction|]. auto.
      - rewrite Hs. auto. }
    rewrite shape_eqb_refl, atleast_dat. cbn [negb]. 
    rewrite Forall_forall in Hb.
    rewrite (proj2 (existsb_false_iff _ _ _)).
    2:{ intros x Hx. simpl. destruct (Hb x Hx) as (_ & H1 & _). apply nltb_not. auto. }
    rewrite (proj2 (existsb_false_iff _ _ _)).
    2:{ intros x Hx. simpl. destruct (Hb x Hx) as (_ & _ & H1 & _). apply nltb_not. auto. }
    destruct (vv_or vv dv); auto.
  - intros n s dv fd [a|dct] Hu H; simpl in H; try tauto.
    destruct H as (Hs & rows & H1 & H2 & H3). simpl. unfold simplex_validate.
    rewrite Hs, shape_eqb_refl. cbn [negb]. rewrite Forall_forall in H3.
    cbn [snum to_num]. rewrite map_id, H2.
    rewrite (proj2 (existsb_false_iff _ _ _)).
    2:{ intros x Hx. apply in_map_iff in Hx. destruct Hx as (r & <- & Hr).
        apply in_concat in Hr. destruct Hr as (row & Hrow & Hr).
        destruct (H3 _ Hrow) as (_ & (r0 & rest & -> & P & Q) & _). rewrite Forall_forall in Q.
        simpl. apply Rltb_false. destruct Hr as [<-|Hr]; [lra|]. specialize (Q r Hr). lra. }
    rewrite chunks_map, chunks_concat; auto.
    2:{ intros x Hx. apply H3; auto. }
    rewrite (proj2 (existsb_false_iff _ _ _)).
    2:{ intros x Hx. apply in_map_iff in Hx. destruct Hx as (row & <- & Hrow).
        destruct (H3 _ Hrow) as (_ & _ & Hsum). unfold row_sum_bad. rewrite nsum_fin, Hsum.
        unfold simplex_tol, ngtb. simpl. apply Rltb_false.
        match goal with |- context[Rabs ?t] => replace t with 0%R by ring end. rewrite Rabs_R0. lra. }
    destruct (vv_or vv dv); auto.
  - intros sz fl d dv fd [a|dct] Hu H; [|simpl in H; tauto]. apply interior_valid; auto.
  - intros s b fd IH [a|dct] Hu H; simpl in H; try tauto.
    destruct H as (Hs & Hok & Hc). destruct Hu as (Ha & Hb & Hcd & Hd).
    simpl. unfold ndim. rewrite Hs, Nat.eqb_refl, shape_eqb_refl. cbn [negb].
    apply (validate_cells_seq' _ _ a s (folded_shape b) Hs).
    intros i Hi. apply IH; auto. apply Hc; auto.
  - intros items l fl fd lk IH [a|dct] Hu H; simpl in H; try tauto.
    destruct Hu as (_ & _ & _ & _ & Hu). simpl.
    apply validate_items_ok. apply all_items_Forall in H, Hu. apply all_items_Forall.
    rewrite Forall_forall in *. intros kq Hkq. destruct (H _ Hkq) as (w & Hw & Hi).
    exists w. split; auto.
Qed.

Lemma boundary_require : forall vv p v, usable p -> boundary_value p v -> require_valid snum p v vv = Ok tt.
Proof. intros. apply require_valid_ok. apply boundary_valid; auto. Qed.

Lemma boundary_shape : forall p (a : nd num), is_dict p = false -> boundary_value p (FArr a) ->
  canon p (FArr a) = FArr a -> shp a = folded_shape p.
Proof.
  intros p a Hd Hi Hc. destruct p; simpl in Hd, Hi, Hc |- *; try discriminate; try tauto.
  inversion Hc. rewrite <- H0 at 1. auto.
Qed.

Definition bfree_items := fix go (its : list (key * pat)) (x : list num) : Prop :=
  match its with
  | [] => x = []
  | kq :: its => exists y z, x = y ++ z /\ boundary_free (snd kq) y /\ go its z
  end.

Lemma boundary_free_len : forall p x, usable p -> boundary_free p x -> length x = pl_n (flat_len p true).
Proof.
  apply (pat_ind' (fun p => forall x, usable p -> boundary_free p x -> length x = pl_n (flat_len p true))).
  - intros k s lb ub dv fd x Hu (H & _). simpl. auto.
  - intros n s dv fd x Hu (H & _). simpl flat_len. rewrite simplex_flen. auto.
  - intros sz fl d dv fd x Hu (H & _). simpl. auto.
  - intros s b fd IH x (Ha & _) (H & _). simpl. rewrite np_prod_int by auto. simpl. auto.
  - intros items l fl fd lk IH x (Hne & Hnd & Hl & Hfl & Hu) H.
    cbn [flat_len]. rewrite Hfl. cbn [plint pl_n].
    change (bfree_items items x) in H. clear Hne Hnd Hl Hfl. revert x H Hu. induction IH as [|kq its Hq _ IH]; intros x H Hu.
    + simpl in H. subst. auto.
    + cbn [bfree_items] in H. destruct H as (y & z & -> & Hy & Hz). simpl in Hu. destruct kq as [k q]. destruct Hu as (Hu1 & Hu).
      rewrite app_length. simpl. simpl in Hq, Hy. rewrite (Hq y), (IH z); auto.
Qed.

Lemma Forall_chunk : forall A (P : A -> Prop) k l i, Forall P l -> Forall P (chunk k l i).
Proof.
  intros A P k l i H. unfold chunk, slice. rewrite <- (firstn_skipn (i * k) l) in H.
  apply Forall_app in H. destruct H as (_ & H). rewrite <- (firstn_skipn k (skipn (i * k) l)) in H.
  apply Forall_app in H. tauto.
Qed.

Theorem boundary_flatten_of_fold : forall vv vv' p x,
  usable p -> boundary_free p x ->
  exists v, fold_ snum p (vec x) true vv = Ok v /\
    boundary_value p v /\ canon p v = v /\
    flatten_ snum p v true vv' = Ok x.
Proof.
  intros vv vv'.
  apply (pat_ind' (fun p => forall x, usable p -> boundary_free p x ->
    exists v, fold_ snum p (vec x) true vv = Ok v /\
    boundary_value p v /\ canon p v = v /\
    flatten_ snum p v true vv' = Ok x)).
  - intros k s lb ub dv fd x Hu Hx. simpl in Hx. destruct Hx as (Hx & Hf). destruct Hu as (Hne & Hlt).
    assert (exists y, map (constrain1 (pyval lb) (pyval ub)) x = y /\
       Forall (ext_value (pyval lb) (pyval ub)) y /\
       map (unconstrain1 (pyval lb) (pyval ub)) y = x) as (y & Y1 & Y2 & Y3).
    { clear Hx. induction Hf as [|r x Hr Hf IHx].
      - exists []. auto.
      - destruct IHx as (y & Y1 & Y2 & Y3).
        destruct (ext_constrain _ _ r Hlt Hr) as (Z1 & Z2).
        eexists. split; [reflexivity|]. simpl. rewrite Y1, Z2, Y3. auto. }
    assert (length y = prod s) as Ly.
    { subst y. rewrite !map_length. auto. }
    exists (FArr (mkNd s y)).
    assert (boundary_value (PNum k s lb ub dv fd) (FArr (mkNd s y))) as Hi.
    { simpl. split; auto. split; auto. }
    split; [|split; [|split]]; auto.
    + cbn [fold_]. rewrite atleast_vec, ndim_vec, size_vec, Hx, !Nat.eqb_refl.
      cbn [negb]. unfold num_fold_free. cbn [vec dat snum of_num to_num].
      rewrite map_id, nd_map_id, Y1. auto.
    + cbn [flatten_].
      assert (atleast_1d (mkNd s y) = mkNd s y) as ->.
      { unfold atleast_1d. simpl. destruct s; auto. contradiction. }
      rewrite boundary_require; [|split; auto|auto]. cbn [bind dat snum of_num to_num].
      rewrite <- Y3. auto.
  - intros n s dv fd x Hu Hx. simpl in Hx. destruct Hx as (Hx & Hf). simpl in Hu.
    set (xs := chunks (n - 1) (prod s) x).
    assert (x = concat xs) as Ex by (symmetry; apply concat_chunks; auto).
    assert (length xs = prod s) as Lxs.
    { unfold xs, chunks. rewrite map_length, seq_length. auto. }
    assert (forall z, In z xs -> length z = n - 1 /\ Forall low z) as Hz.
    { intros z Hz. apply in_chunks in Hz. destruct Hz as (i & Hi & ->). split; [|apply Forall_chunk; auto].
      apply (chunk_length _ _ _ _ (prod s)); auto. }
    assert (Forall (ext_simplex n) (map soft xs)) as Hrows.
    { apply Forall_forall. intros r Hr. apply in_map_iff in Hr. destruct Hr as (z & <- & Hzz).
      apply soft_simplex; auto. apply Hz; auto. }
    assert (map constrain_row xs = map (map Fin) (map soft xs)) as Hc.
    { rewrite map_map. apply map_ext_in. intros z Hzz. apply constrain_row_low. apply Hz; auto. }
    assert (map unconstrain_row (map (map Fin) (map soft xs)) = xs) as Huc.
    { rewrite !map_map. rewrite <- (map_id xs) at 2. apply map_ext_in. intros z Hzz.
      apply unconstrain_soft. apply Hz; auto. }
    exists (FArr (mkNd (s ++ [n]) (map Fin (concat (map soft xs))))).
    assert (boundary_value (PSimplex n s dv fd) (FArr (mkNd (s ++ [n]) (map Fin (concat (map soft xs)))))) as Hi.
    { simpl. split; auto. exists (map soft xs). rewrite map_length. auto. }
    split; [|split; [|split]]; auto.
    + cbn [fold_ pylen vec shp bind flat_len]. rewrite simplex_flen, Hx, Nat.eqb_refl.
      cbn [negb]. rewrite reshape_vec.
      2:{ rewrite Hx, prod_app. simpl. lia. }
      cbn [bind dat snum of_num to_num].
      rewrite map_id, nd_map_id. unfold simplex_fold_free.
      fold xs. rewrite flat_map_concat, Hc, concat_map. auto.
    + cbn [flatten_]. rewrite boundary_require by auto. cbn [bind dat snum of_num to_num].
      rewrite !map_id, chunks_map, chunks_concat.
      * rewrite flat_map_concat, Huc. rewrite <- Ex. auto.
      * rewrite Forall_forall in Hrows. intros; apply Hrows; auto.
      * rewrite map_length. auto.
  - intros sz fl d dv fd x Hu (Hx & Hf). destruct (forall_fin_list x Hf) as (r & ->). rewrite map_length in Hx.
    destruct (free_flatten_of_fold vv vv' (PPsd sz fl d dv fd) r Hu Hx) as (v & V1 & V2 & V3 & V4).
    exists v. repeat split; auto. destruct v; auto.
  - intros s b fd IH x Hu Hx. pose proof Hu as (Ha & Hb & Hd & Hub). cbn [boundary_free] in Hx. destruct Hx as (Lx & Hf).
    set (bs := folded_shape b) in *. set (k := pl_n (flat_len b true)) in *.
    destruct (mapM_exists _ _
       (fun i => v <- fold_ snum b (vec (chunk k x i)) true vv ;; as_arr v)
       (fun i a => nd_ok a /\ shp a = bs /\ boundary_value b (FArr a) /\
          flatten_ snum b (FArr a) true vv' = Ok (chunk k x i))
       (seq 0 (prod s))) as (parts & Hparts & HF).
    { intros i Hi. apply in_seq in Hi.
      destruct (IH (chunk k x i) Hub) as (v & V1 & V2 & V3 & V4).
      { apply Hf. lia. }
      rewrite V1. destruct v as [a|dct]; [|destruct b; simpl in V2, Hd; try tauto; discriminate].
      exists a. split; auto. split; [apply (boundary_fv_arr b); auto|].
      split; [apply (boundary_shape b); auto|]. auto. }
    assert (length parts = prod s) as Lp.
    { apply Forall2_len in HF. rewrite seq_length in HF. auto. }
    assert (forall a, In a parts -> length (dat a) = prod bs) as Hpd.
    { intros a Hin. clear -HF Hin. induction HF; [destruct Hin|].
      destruct Hin as [<-|Hin]; auto. destruct H as (H1 & H2 & _). rewrite <- H2. apply H1. }
    set (v := mkNd (s ++ bs) (flat_map dat parts)).
    assert (length (flat_map dat parts) = prod (s ++ bs)) as Lv.
    { rewrite flat_map_concat, (concat_length_uniform _ (prod bs)).
      - rewrite map_length, Lp, prod_app. auto.
      - intros z Hz. apply in_map_iff in Hz. destruct Hz as (a & <- & Hin). auto. }
    assert (forall i, i < prod s -> exists a, nd_ok a /\ shp a = bs /\ boundary_value b (FArr a) /\
          flatten_ snum b (FArr a) true vv' = Ok (chunk k x i) /\
          mkNd bs (chunk (prod bs) (dat v) i) = a) as Hcell.
    { intros i Hi.
      assert (forall o n ps, Forall2 (fun i a => nd_ok a /\ shp a = bs /\ boundary_value b (FArr a) /\
          flatten_ snum b (FArr a) true vv' = Ok (chunk k x i)) (seq o n) ps ->
          forall i d, i < n -> nd_ok (nth i ps d) /\ shp (nth i ps d) = bs /\ boundary_value b (FArr (nth i ps d)) /\
          flatten_ snum b (FArr (nth i ps d)) true vv' = Ok (chunk k x (o + i))) as E.
      { clear. intros o n. revert o. induction n; intros o ps H i d Hi; [lia|].
        inversion H; subst. destruct i.
        - rewrite Nat.add_0_r. auto.
        - replace (o + S i) with (S o + i) by lia. apply (IHn (S o) l' H4 i d). lia. }
      destruct (E _ _ _ HF i (mkNd bs []) Hi) as (E1 & E2 & E3 & E4).
      exists (nth i parts (mkNd bs [])). repeat split; auto.
      unfold v. cbn [dat]. rewrite flat_map_concat.
      rewrite (chunk_concat _ _ _ i (dat (mkNd bs ([]:list num)))).
      - rewrite map_nth. destruct (nth i parts (mkNd bs [])); simpl in *. subst; auto.
      - intros z Hz. apply in_map_iff in Hz. destruct Hz as (a & <- & Hin). auto.
      - rewrite map_length. lia. }
    assert (boundary_value (PArr s b fd) (FArr v)) as Hi.
    { simpl. split; auto. split; auto. intros i Hi'. destruct (Hcell i Hi') as (a & _ & _ & H3 & _ & H5).
      unfold chunk in H5. unfold v in H5 |- *. cbn [dat] in H5 |- *. fold bs. rewrite H5. auto. }
    exists (FArr v). split; [|split; [|split]]; auto.
    + rewrite fold_arr_eq; auto; [|simpl; rewrite np_prod_int by auto; auto].
      fold k. rewrite Hparts. cbn [bind]. unfold stack_reshape. fold bs. rewrite Lv, Nat.eqb_refl. auto.
    + rewrite flatten_arr_eq by auto. rewrite boundary_require by auto. cbn [bind]. fold bs.
      rewrite (mapM_ok_all _ _ _ (fun i => chunk k x i)).
      * cbn [bind]. unfold hstack.
        change (map (fun i => chunk k x i) (seq 0 (prod s))) with (chunks k (prod s) x).
        pose proof (concat_chunks _ k (prod s) x Lx) as Hcc.
        pose proof (chunks_length _ k (prod s) x) as Hcl.
        destruct (chunks k (prod s) x); [simpl in Hcl; lia|]. rewrite Hcc. auto.
      * intros i Hin. apply in_seq in Hin. destruct (Hcell i ltac:(lia)) as (a & H1 & H2 & H3 & H4 & H5).
        rewrite H5. auto.
  - intros items l fl fd lk IH x Hu Hx. pose proof (boundary_free_len _ _ Hu Hx) as Lx.
    pose proof Hu as (Hne & Hnd & Hl & Hfl & Hus).
    cbn [boundary_free] in Hx. change (bfree_items items x) in Hx.
    assert (exists d, (forall pre post, fold_items (fun q y => fold_ snum q y true vv) true
                 (pre ++ x ++ post) items (plint (length pre)) = Ok d) /\
              map fst d = map fst items /\
              Forall2 (fun kq kw => boundary_value (snd kq) (snd kw) /\ canon (snd kq) (snd kw) = snd kw) items d /\
              (forall d', (forall k w, In (k, w) d -> dict_get d' k = Some w) ->
                 exists xs, flatten_items (fun q w => flatten_ snum q w true vv') d' items = Ok xs /\
                   concat xs = x /\ length xs = length items))
      as (d & D1 & D2 & D3 & D4).
    { clear Hne Hnd Hl Hfl Hu Lx. revert x Hx. induction items as [|[k q] items IHi]; intros x Hx.
      - simpl in Hx. subst x. exists []. repeat split; auto. intros d' _. exists []. auto.
      - simpl in Hus. destruct Hus as (Hu1 & Hus). inversion IH as [|? ? IHq IHr]; subst.
        cbn [bfree_items snd] in Hx. destruct Hx as (y & z & -> & Hy & Hz).
        pose proof (boundary_free_len _ _ Hu1 Hy) as Ln.
        destruct (IHi IHr Hus z Hz) as (d & D1 & D2 & D3 & D4).
        simpl in IHq. destruct (IHq y Hu1 Hy) as (w & W1 & W2 & W3 & W4).
        exists ((k, w) :: d). split; [|split; [|split]].
        + intros pre post. rewrite fold_items_cons by (apply usable_int; auto).
          rewrite <- app_assoc.
          rewrite slice_mid by auto.
          rewrite W1. cbn [bind].
          specialize (D1 (pre ++ y) post).
          rewrite app_length, Ln in D1. rewrite <- !app_assoc in *. rewrite D1. auto.
        + simpl. rewrite D2. auto.
        + constructor; auto.
        + intros d' Hd'. destruct (D4 d') as (xs & X1 & X2 & X3).
          { intros; apply Hd'; right; auto. }
          exists (y :: xs). simpl. rewrite (Hd' k w) by (left; auto).
          rewrite W4. simpl. rewrite X1. simpl. rewrite X2, X3. auto. }
    assert (NoDup (map fst d)) as Hndd by (rewrite D2; auto).
    assert (boundary_value (PDict items l fl fd lk) (FDict d)) as Hi.
    { simpl. apply all_items_Forall. rewrite Forall_forall. intros kq Hkq.
      assert (forall its d1, map fst d1 = map fst its ->
         Forall2 (fun kq kw => boundary_value (snd kq) (snd kw) /\ canon (snd kq) (snd kw) = snd kw) its d1 ->
         In kq its -> exists w, In (fst kq, w) d1 /\ boundary_value (snd kq) w) as E.
      { clear. intros its d1 Hk HF. revert Hk. induction HF as [|a [k w] its d1 (H1 & _) HF IH]; intros Hk Hin.
        - destruct Hin.
        - simpl in Hk. inversion Hk; subst. destruct Hin as [->|Hin].
          + exists w. split; auto. left; auto.
          + destruct (IH H2 Hin) as (w' & Hw & Hi'). exists w'. split; auto. right; auto. }
      destruct (E _ _ D2 D3 Hkq) as (w & Hw & Hint). exists w. split; auto.
      apply dict_get_in_nodup; auto. }
    exists (FDict d). split; [|split; [|split]]; auto.
    + rewrite fold_dict_eq by auto.
      specialize (D1 [] []). simpl in D1. rewrite app_nil_r in D1. rewrite D1. auto.
    + cbn [canon]. f_equal. apply canon_items_nodup; auto.
      clear -D3. induction D3; constructor; tauto.
    + cbn [flatten_]. rewrite boundary_require by auto. cbn [bind].
      destruct (D4 d) as (xs & X1 & X2 & X3).
      { intros; apply dict_get_in_nodup; auto. }
      rewrite X1. cbn [bind]. unfold hstack. destruct xs as [|z xs].
      * destruct items; [contradiction|discriminate].
      * rewrite X2. auto.
Qed.

Theorem boundary_fold_of_flatten : forall vv vv' p v,
  usable p -> boundary_value p v ->
  exists x, flatten_ snum p v true vv = Ok x /\ boundary_free p x /\
    fold_ snum p (vec x) true vv' = Ok (canon p v).
Proof.
  intros vv vv'.
  apply (pat_ind' (fun p => forall v, usable p -> boundary_value p v ->
    exists x, flatten_ snum p v true vv = Ok x /\ boundary_free p x /\
    fold_ snum p (vec x) true vv' = Ok (canon p v))).
  - intros k s lb ub dv fd [a|dct] Hu H; try (simpl in H; tauto).
    pose proof (boundary_require vv _ _ Hu H) as Hv.
    pose proof (boundary_fv_arr _ _ Hu H) as (Hok & Hsf).
    simpl in H. destruct H as (_ & Hb). destruct Hu as (Hne & Hlt).
    assert (require_valid snum (PNum k s lb ub dv fd) (FArr (atleast_1d a)) vv = Ok tt) as Hv'.
    { rewrite <- Hv. unfold require_valid. simpl. unfold num_validate. rewrite atleast_idem. auto. }
    assert (exists x, map (unconstrain1 (pyval lb) (pyval ub)) (dat a) = x /\
                      Forall (ext_free (pyval lb) (pyval ub)) x /\
                      map (constrain1 (pyval lb) (pyval ub)) x = dat a) as (x & Hx1 & Hx3 & Hx2).
    { revert Hb. generalize (dat a). induction l as [|y l IHl]; intros Hb.
      - exists []. auto.
      - inversion Hb; subst.
        destruct (ext_unconstrain _ _ y Hlt H1) as (Hz1 & Hz2).
        destruct (IHl H2) as (x & Hx1 & Hx3 & Hx2).
        eexists. split; [reflexivity|]. simpl. rewrite Hx1, Hz2, Hx2. auto. }
    assert (length x = prod s) as Hlen.
    { rewrite <- Hx1, map_length.
      simpl in Hsf. unfold nd_ok in Hok. rewrite Hok. destruct Hsf as [->|[-> ->]]; auto. }
    exists x. split; [|split].
    + cbn [flatten_]. rewrite Hv', atleast_dat. cbn [bind snum of_num to_num]. rewrite <- Hx1. auto.
    + simpl. auto.
    + cbn [fold_]. rewrite atleast_vec, ndim_vec, size_vec, Hlen, !Nat.eqb_refl.
      cbn [negb]. unfold num_fold_free. cbn [vec dat snum of_num to_num].
      rewrite map_id, nd_map_id, Hx2. auto.
  - intros n s dv fd [a|dct] Hu H; try (simpl in H; tauto).
    pose proof (boundary_require vv _ _ Hu H) as Hv.
    simpl in H. destruct H as (Hs & rows & H1 & H2 & H3). simpl in Hu.
    assert (exists xs, map unconstrain_row (map (map Fin) rows) = xs /\
              (forall x, In x xs -> length x = n - 1) /\ Forall low (concat xs) /\
              map constrain_row xs = map (map Fin) rows) as (xs & X1 & X2 & X4 & X3).
    { clear -H3 Hu. induction H3 as [|r rows Hr _ IH].
      - exists []. repeat split; auto. simpl; tauto. constructor.
      - destruct IH as (xs & X1 & X2 & X4 & X3).
        destruct (soft_unconstrain n r Hr) as (x & Y1 & Y2 & Y3 & Y4).
        exists (x :: xs). simpl. rewrite Y1, X1, Y4, X3. repeat split; auto.
        + intros z [<-|Hz]; auto. lia.
        + apply Forall_app. auto. }
    assert (length xs = prod s) as Lxs.
    { apply (f_equal (@length _)) in X1. rewrite !map_length in X1. lia. }
    assert (length (concat xs) = prod s * (n - 1)) as Lc.
    { rewrite (concat_length_uniform _ (n - 1)); auto. }
    exists (concat xs). split; [|split].
    + cbn [flatten_]. rewrite Hv. cbn [bind snum of_num to_num]. rewrite !map_id, H2.
      rewrite chunks_map, chunks_concat; auto.
      * rewrite flat_map_concat, X1. auto.
      * rewrite Forall_forall in H3. intros; apply H3; auto.
    + simpl. auto.
    + cbn [fold_ pylen vec shp bind flat_len]. rewrite simplex_flen, Lc, Nat.eqb_refl.
      cbn [negb]. rewrite reshape_vec.
      2:{ rewrite Lc, prod_app. simpl. lia. }
      cbn [bind dat snum of_num to_num].
      rewrite map_id, nd_map_id. unfold simplex_fold_free.
      rewrite <- Lxs.
      rewrite chunks_concat by auto.
      rewrite flat_map_concat, X3. simpl.
      destruct a as [s' d']. simpl in *. subst. rewrite concat_map. auto.
  - intros sz fl d dv fd [a|dct] Hu H; try (simpl in H; tauto).
    destruct (free_fold_of_flatten vv vv' (PPsd sz fl d dv fd) (FArr a) Hu H) as (x & X1 & X2 & X3).
    exists (map Fin x). split; auto. split; auto. cbn [boundary_free]. rewrite map_length. split; [exact X2|apply map_fin_finite].
  - intros s b fd IH [a|dct] Hu H; try (simpl in H; tauto).
    pose proof (boundary_require vv _ _ Hu H) as Hv.
    simpl in H. destruct H as (Hs & Hok & Hc). pose proof Hu as (Ha & Hb & Hd & Hub).
    set (bs := folded_shape b) in *.
    unfold nd_ok in Hok. rewrite Hs, prod_app in Hok.
    destruct (mapM_exists _ _
       (fun i => flatten_ snum b (FArr (mkNd bs (chunk (prod bs) (dat a) i))) true vv)
       (fun i r => length r = pl_n (flat_len b true) /\ boundary_free b r /\
          fold_ snum b (vec r) true vv'
            = Ok (FArr (mkNd bs (chunk (prod bs) (dat a) i))))
       (seq 0 (prod s))) as (rs & Hparts & HF').
    { intros i Hi. apply in_seq in Hi.
      destruct (IH (FArr (mkNd bs (chunk (prod bs) (dat a) i))) Hub) as (r & R1 & R2 & R3).
      { apply Hc. lia. }
      exists r. split; auto. split; [apply boundary_free_len; auto|]. split; auto.
      rewrite R3. f_equal. destruct b; auto. }
    assert (length rs = prod s) as Lrs.
    { apply Forall2_len in HF'. rewrite seq_length in HF'. auto. }
    exists (concat rs).
    assert (forall r, In r rs -> length r = pl_n (flat_len b true)) as Hru.
    { intros r Hr. clear -HF' Hr. induction HF'; [destruct Hr|].
      destruct Hr as [<-|Hr]; auto. tauto. }
    assert (length (concat rs) = prod s * pl_n (flat_len b true)) as Lc.
    { rewrite (concat_length_uniform _ _ _ Hru), Lrs. auto. }
    assert (forall i, i < prod s ->
       chunk (pl_n (flat_len b true)) (concat rs) i = nth i rs []) as Hch.
    { intros i Hi. apply chunk_concat; auto. lia. }
    assert (forall i, i < prod s -> boundary_free b (nth i rs []) /\ fold_ snum b (vec (nth i rs [])) true vv'
              = Ok (FArr (mkNd bs (chunk (prod bs) (dat a) i)))) as Hfi.
    { intros i Hi. clear -HF' Hi Lrs.
      assert (forall o n rs, Forall2 (fun i r => length r = pl_n (flat_len b true) /\ boundary_free b r /\
         fold_ snum b (vec r) true vv'
           = Ok (FArr (mkNd bs (chunk (prod bs) (dat a) i)))) (seq o n) rs ->
         forall i, i < n -> boundary_free b (nth i rs []) /\ fold_ snum b (vec (nth i rs [])) true vv'
           = Ok (FArr (mkNd bs (chunk (prod bs) (dat a) (o + i))))) as E.
      { clear. intros o n. revert o. induction n; intros o rs H i Hi; [lia|].
        inversion H; subst. destruct i; simpl.
        - rewrite Nat.add_0_r. tauto.
        - replace (o + S i) with (S o + i) by lia. apply (IHn (S o) l' H4 i). lia. }
      apply (E 0 (prod s)); auto. }
    split; [|split]; auto.
    + rewrite flatten_arr_eq by auto. rewrite Hv. cbn [bind]. fold bs. rewrite Hparts. cbn [bind].
      unfold hstack. destruct rs as [|r rs]; [simpl in Lrs; lia|]. auto.
    + cbn [boundary_free]. split; auto. intros i Hi. fold (chunk (pl_n (flat_len b true)) (concat rs) i).
      rewrite Hch by auto. apply Hfi; auto.
    + rewrite fold_arr_eq; auto; [|rewrite Lc; simpl; rewrite np_prod_int by auto; auto].
      rewrite (mapM_of_Forall2 _ _ _ _ (map (fun i => mkNd bs (chunk (prod bs) (dat a) i)) (seq 0 (prod s)))).
      * cbn [bind]. unfold stack_reshape. rewrite flat_map_concat, map_map. cbn [dat].
        change (map (fun x => chunk (prod bs) (dat a) x) (seq 0 (prod s)))
          with (chunks (prod bs) (prod s) (dat a)).
        rewrite concat_chunks by auto. fold bs. rewrite Hok, prod_app, Nat.eqb_refl. cbn [bind].
        destruct a as [s' d']. simpl in *. subst. auto.
      * clear -Hch Hfi. 
        assert (forall l, (forall i, In i l -> i < prod s) ->
          Forall2 (fun a0 b0 => (v <- fold_ snum b (vec (chunk (pl_n (flat_len b true))
             (concat rs) a0)) true vv' ;; as_arr v) = Ok b0) l
           (map (fun i => mkNd bs (chunk (prod bs) (dat a) i)) l)) as E.
        { induction l as [|i l IHl]; intros Hl; simpl; constructor.
          - assert (i < prod s) as Hi by (apply Hl; left; auto). rewrite Hch by auto.
            rewrite (proj2 (Hfi i Hi)). auto.
          - apply IHl. intros; apply Hl; right; auto. }
        apply E. intros i Hi. apply in_seq in Hi. lia.
  - intros items l fl fd lk IH [a|dct] Hu H; try (simpl in H; tauto).
    pose proof (boundary_require vv _ _ Hu H) as Hv.
    simpl in H. pose proof Hu as (Hne & Hnd & Hl & Hfl & Hus).
    assert (exists xs, flatten_items (fun q w => flatten_ snum q w true vv) dct items = Ok xs /\
              length xs = length items /\ bfree_items items (concat xs) /\
              forall pre, fold_items (fun q y => fold_ snum q y true vv') true
                 (pre ++ concat xs) items (plint (length pre))
                 = Ok (canon_items canon dct items)) as (xs & X1 & X2 & X3 & X4).
    { clear Hne Hnd Hl Hfl Hv Hu. induction items as [|[k q] items IHi].
      - exists []. repeat split; auto.
      - simpl in H, Hus. destruct H as ((w & Hw & Hint) & H). destruct Hus as (Hu1 & Hu).
        inversion IH; subst. destruct (IHi H3 H Hu) as (xs & X1 & X2 & X3 & X4). clear IHi.
        simpl in H2. destruct (H2 w Hu1 Hint) as (x & Y1 & Y2 & Y3).
        pose proof (boundary_free_len _ _ Hu1 Y2) as Ly.
        exists (x :: xs). simpl concat. split; [|split; [|split]].
        + simpl. rewrite Hw, Y1. simpl. rewrite X1. auto.
        + simpl. rewrite X2. auto.
        + cbn [bfree_items snd]. exists x, (concat xs). auto.
        + intros pre. rewrite fold_items_cons by (apply usable_int; auto).
          rewrite slice_mid by auto.
          rewrite Y3. cbn [bind].
          rewrite app_assoc, <- Ly.
          specialize (X4 (pre ++ x)). rewrite app_length in X4.
          rewrite X4. cbn [bind canon_items]. rewrite Hw. auto. }
    assert (boundary_free (PDict items l fl fd lk) (concat xs)) as Hbf by exact X3.
    exists (concat xs). split; [|split]; auto.
    + cbn [flatten_]. rewrite Hv. cbn [bind]. rewrite X1. cbn [bind].
      unfold hstack. destruct xs as [|x xs].
      * destruct items; [contradiction|discriminate].
      * auto.
    + rewrite fold_dict_eq by (apply boundary_free_len; auto).
      specialize (X4 []). simpl in X4. rewrite X4. auto.
Qed.
