(** * Free fold and flatten: round trips and range. *)
From Coq Require Import Reals Lra.
From Verif Require Import Base Num Nd Numeric Simplex Psd Pattern Spec ListFacts PatFacts
  NonFree NumFacts CholFacts.

Lemma nd_map_id : forall (a : nd num), nd_map (fun x : num => x) a = a.
Proof. intros [s d]. unfold nd_map. simpl. rewrite map_id. auto. Qed.

Lemma mapM_exists : forall A B (f : A -> res B) (P : A -> B -> Prop) l,
  (forall a, In a l -> exists b, f a = Ok b /\ P a b) ->
  exists bs, mapM f l = Ok bs /\ Forall2 P l bs.
Proof.
  induction l as [|a l IH]; intros H.
  - exists []. split; auto.
  - destruct (H a) as (b & Hb & Pb); [left; auto|].
    destruct IH as (bs & Hbs & Pbs); [intros; apply H; right; auto|].
    exists (b :: bs). simpl. rewrite Hb. simpl. rewrite Hbs. simpl. auto.
Qed.

Lemma reshape_vec : forall A (x : list A) s, length x = prod s -> reshape (vec x) s = Ok (mkNd s x).
Proof. intros. unfold reshape. rewrite size_vec, H, Nat.eqb_refl. auto. Qed.

(** ** interior values *)
Lemma interior_fv_arr : forall p a, usable p -> interior p (FArr a) -> nd_ok a /\ shape_fits p (FArr a).
Proof.
  intros p a Hu H. destruct p; simpl in H; simpl shape_fits.
  - destruct H as ((H1 & H2) & _). auto.
  - destruct H as (Hs & rows & H1 & H2 & H3). split; auto.
    unfold nd_ok. rewrite Hs, H2, map_length, prod_app.
    rewrite (concat_length_uniform _ n).
    + rewrite H1. simpl. lia.
    + intros r Hr. rewrite Forall_forall in H3. apply H3; auto.
  - destruct H as (Hs & m & c & H1 & _). split; auto.
    unfold nd_ok. rewrite Hs, H1, rows_of_length. simpl. lia.
  - tauto.
  - tauto.
Qed.

Lemma interior_shape : forall p v, usable p -> interior p v -> shape_fits p v.
Proof.
  apply (pat_ind' (fun p => forall v, usable p -> interior p v -> shape_fits p v));
    try (intros; destruct v as [a|dct]; [apply interior_fv_arr; auto|simpl in *; tauto]; fail).
  intros items l fl fd lk IH [a|dct] Hu H; simpl in *; try tauto.
  destruct Hu as (_ & _ & _ & _ & Hu).
  apply all_items_Forall in Hu, H. apply all_items_Forall.
  rewrite Forall_forall in *. intros kq Hkq. destruct (H _ Hkq) as (w & Hw & Hi).
  exists w. split; auto.
Qed.

Lemma pos_def_diag : forall n m c i, pos_def n (minus_diag m c) -> i < n -> (c < m i i)%R.
Proof.
  intros n m c i H Hi.
  specialize (H (fun k => if k =? i then 1%R else 0%R)).
  assert (exists k, k < n /\ (if k =? i then 1%R else 0%R) <> 0%R) as He.
  { exists i. rewrite Nat.eqb_refl. split; auto. }
  specialize (H He). cbv beta in H.
  rewrite (Rsum_single n _ i Hi) in H.
  - rewrite (Rsum_single n _ i Hi) in H.
    + rewrite Nat.eqb_refl in H. unfold minus_diag in H. rewrite Nat.eqb_refl in H. lra.
    + intros j Hj Hne. rewrite (proj2 (Nat.eqb_neq j i)) by auto. ring.
  - intros j Hj Hne. rewrite (proj2 (Nat.eqb_neq j i)) by auto.
    apply Rsum_zero. intros; ring.
Qed.

Lemma interior_valid : forall vv p v, usable p -> interior p v -> validate snum p v vv = Ok None.
Proof.
  intros vv.
  apply (pat_ind' (fun p => forall v, usable p -> interior p v -> validate snum p v vv = Ok None)).
  - intros k s lb ub dv fd [a|dct] Hu H; simpl in H; try tauto.
    destruct H as ((Hok & Hs) & Hb). simpl. unfold num_validate.
    assert (shp (atleast_1d a) = s) as ->.
    { unfold atleast_1d. destruct Hs as [Hs|[Hs ->]].
      - rewrite Hs. destruct s; [destruct Hu; contradiction|]. auto.
      - rewrite Hs. auto. }
    rewrite shape_eqb_refl, atleast_dat. cbn [negb]. 
    rewrite Forall_forall in Hb.
    rewrite (proj2 (existsb_false_iff _ _ _)).
    2:{ intros x Hx. simpl. destruct (Hb x Hx) as (_ & H1 & _). apply nltb_asym. auto. }
    rewrite (proj2 (existsb_false_iff _ _ _)).
    2:{ intros x Hx. simpl. destruct (Hb x Hx) as (_ & _ & H1). apply nltb_asym. auto. }
    destruct (vv_or vv dv); auto.
  - intros n s dv fd [a|dct] Hu H; simpl in H; try tauto.
    destruct H as (Hs & rows & H1 & H2 & H3). simpl. unfold simplex_validate.
    rewrite Hs, shape_eqb_refl. cbn [negb]. rewrite Forall_forall in H3.
    cbn [snum to_num]. rewrite map_id, H2.
    rewrite (proj2 (existsb_false_iff _ _ _)).
    2:{ intros x Hx. apply in_map_iff in Hx. destruct Hx as (r & <- & Hr).
        apply in_concat in Hr. destruct Hr as (row & Hrow & Hr).
        destruct (H3 _ Hrow) as (_ & Hp & _). rewrite Forall_forall in Hp.
        simpl. apply Rltb_false. specialize (Hp r Hr). lra. }
    rewrite chunks_map, chunks_concat; auto.
    2:{ intros x Hx. apply H3; auto. }
    rewrite (proj2 (existsb_false_iff _ _ _)).
    2:{ intros x Hx. apply in_map_iff in Hx. destruct Hx as (row & <- & Hrow).
        destruct (H3 _ Hrow) as (_ & _ & Hsum). unfold row_sum_bad. rewrite nsum_fin, Hsum.
        unfold simplex_tol, ngtb. simpl. apply Rltb_false.
        match goal with |- context[Rabs ?t] => replace t with 0%R by ring end. rewrite Rabs_R0. lra. }
    destruct (vv_or vv dv); auto.
  - intros sz fl d dv fd [a|dct] Hu H; simpl in H; try tauto.
    destruct H as (Hs & m & c & H1 & H2 & H3 & H4). simpl. unfold psd_validate.
    rewrite Hs, shape_eqb_refl. cbn [negb snum to_num]. rewrite nd_map_id.
    destruct a as [s' d']. simpl in Hs, H1. subst s' d'.
    rewrite (proj2 (existsb_false_iff _ _ _)).
    2:{ intros i Hi. apply in_seq in Hi. rewrite mat_of_rows, H2 by lia. simpl.
        apply Rltb_false. pose proof (pos_def_diag sz m c i H4 ltac:(lia)). lra. }
    rewrite (proj2 (forallb_forall _ _)).
    2:{ intros i Hi. apply in_seq in Hi. apply forallb_forall. intros j Hj. apply in_seq in Hj.
        rewrite !mat_of_rows by lia. simpl. apply Reqb_true. apply H3; lia. }
    destruct (vv_or vv dv); auto.
  - intros s b fd IH [a|dct] Hu H; simpl in H; try tauto.
    destruct H as (Hs & Hok & Hc). destruct Hu as (Ha & Hb & Hcd & Hd).
    simpl. unfold ndim. rewrite Hs, Nat.eqb_refl, shape_eqb_refl. cbn [negb].
    apply (validate_cells_seq' _ _ a s (folded_shape b) Hs).
    intros i Hi. apply IH; auto. apply Hc; auto.
  - intros items l fl fd lk IH [a|dct] Hu H; simpl in H; try tauto.
    destruct Hu as (_ & _ & _ & _ & Hu). simpl.
    apply validate_items_ok. apply all_items_Forall in H, Hu. apply all_items_Forall.
    rewrite Forall_forall in *. intros kq Hkq. destruct (H _ Hkq) as (w & Hw & Hi).
    exists w. split; auto.
Qed.

Lemma interior_require : forall vv p v, usable p -> interior p v -> require_valid snum p v vv = Ok tt.
Proof. intros. apply require_valid_ok. apply interior_valid; auto. Qed.

(** ** flatten of an interior value, then fold *)
Lemma forall_fin_list : forall l, Forall finite l -> exists r, l = map Fin r.
Proof.
  induction 1 as [|x l (r & ->) H (rs & ->)].
  - exists []. auto.
  - exists (r :: rs). auto.
Qed.

Lemma map_fin_finite : forall r, Forall finite (map Fin r).
Proof. intros. apply Forall_forall. intros x Hx. apply in_map_iff in Hx. destruct Hx as (y & <- & _). exists y. auto. Qed.

Lemma simplex_flen : forall n s, pl_n (np_prod (s ++ [n])) = prod s * n.
Proof.
  intros. rewrite np_prod_int by (destruct s; discriminate). simpl. rewrite prod_app. simpl. lia.
Qed.

Theorem free_fold_of_flatten : forall vv vv' p v,
  usable p -> interior p v ->
  exists x, flatten_ snum p v true vv = Ok (map Fin x) /\
    length x = pl_n (flat_len p true) /\
    fold_ snum p (vec (map Fin x)) true vv' = Ok (canon p v).
Proof.
  intros vv vv'.
  apply (pat_ind' (fun p => forall v, usable p -> interior p v ->
    exists x, flatten_ snum p v true vv = Ok (map Fin x) /\
    length x = pl_n (flat_len p true) /\
    fold_ snum p (vec (map Fin x)) true vv' = Ok (canon p v))).
  - intros k s lb ub dv fd [a|dct] Hu H; try (simpl in H; tauto).
    pose proof (interior_require vv _ _ Hu H) as Hv.
    pose proof (interior_fv_arr _ _ Hu H) as (Hok & Hsf).
    simpl in H. destruct H as (_ & Hb).
    assert (require_valid snum (PNum k s lb ub dv fd) (FArr (atleast_1d a)) vv = Ok tt) as Hv'.
    { rewrite <- Hv. unfold require_valid. simpl. unfold num_validate. rewrite atleast_idem. auto. }
    assert (exists x, map (unconstrain1 (pyval lb) (pyval ub)) (dat a) = map Fin x /\
                      map (constrain1 (pyval lb) (pyval ub)) (map Fin x) = dat a) as (x & Hx1 & Hx2).
    { revert Hb. generalize (dat a). induction l as [|y l IHl]; intros Hb.
      - exists []. auto.
      - inversion Hb; subst. destruct H1 as ((r & ->) & Hlb & Hub).
        destruct (unconstrain1_fin _ _ r Hlb Hub) as (z & Hz1 & Hz2).
        destruct (IHl H2) as (x & Hx1 & Hx2).
        exists (z :: x). simpl. rewrite Hz1, Hx1, Hz2, Hx2. auto. }
    assert (length x = prod s) as Hlen.
    { apply (f_equal (@length _)) in Hx1. rewrite !map_length in Hx1. rewrite <- Hx1.
      simpl in Hsf. unfold nd_ok in Hok. rewrite Hok. destruct Hsf as [->|[-> ->]]; auto. }
    exists x. split; [|split].
    + cbn [flatten_]. rewrite Hv', atleast_dat. cbn [bind snum of_num to_num]. rewrite <- Hx1. auto.
    + auto.
    + cbn [fold_]. rewrite atleast_vec, ndim_vec, size_vec, map_length, Hlen, !Nat.eqb_refl.
      cbn [negb]. unfold num_fold_free. cbn [vec dat snum of_num to_num].
      rewrite map_id, nd_map_id, Hx2. auto.
  - intros n s dv fd [a|dct] Hu H; try (simpl in H; tauto).
    pose proof (interior_require vv _ _ Hu H) as Hv.
    simpl in H. destruct H as (Hs & rows & H1 & H2 & H3). simpl in Hu.
    assert (exists xs, map unconstrain_row (map (map Fin) rows) = map (map Fin) xs /\
              (forall x, In x xs -> length x = n - 1) /\
              map constrain_row (map (map Fin) xs) = map (map Fin) rows) as (xs & X1 & X2 & X3).
    { clear -H3 Hu. induction H3 as [|r rows (L & P & S) _ IH].
      - exists []. repeat split; auto. simpl; tauto.
      - destruct IH as (xs & X1 & X2 & X3).
        destruct (constrain_unconstrain_row r) as (x & Y1 & Y2 & Y3); auto.
        { destruct r; [simpl in L; lia|discriminate]. }
        exists (x :: xs). simpl. rewrite Y1, X1, Y3, X3. repeat split; auto.
        intros z [<-|Hz]; auto. lia. }
    assert (length xs = prod s) as Lxs.
    { apply (f_equal (@length _)) in X1. rewrite !map_length in X1. lia. }
    assert (length (concat xs) = prod s * (n - 1)) as Lc.
    { rewrite (concat_length_uniform _ (n - 1)); auto. }
    exists (concat xs). split; [|split].
    + cbn [flatten_]. rewrite Hv. cbn [bind snum of_num to_num]. rewrite !map_id, H2.
      rewrite chunks_map, chunks_concat; auto.
      * rewrite flat_map_concat, X1, concat_map. auto.
      * rewrite Forall_forall in H3. intros; apply H3; auto.
    + cbn [flat_len]. rewrite simplex_flen. auto.
    + cbn [fold_ pylen vec shp bind flat_len]. rewrite map_length, simplex_flen, Lc, Nat.eqb_refl.
      cbn [negb]. rewrite reshape_vec.
      2:{ rewrite map_length, Lc, prod_app. simpl. lia. }
      cbn [bind dat snum of_num to_num].
      rewrite map_id, nd_map_id. unfold simplex_fold_free.
      rewrite <- Lxs. rewrite concat_map.
      rewrite chunks_concat.
      * rewrite flat_map_concat, X3. simpl.
        destruct a as [s' d']. simpl in *. subst. rewrite concat_map. auto.
      * intros x Hx. apply in_map_iff in Hx. destruct Hx as (y & <- & Hy).
        rewrite map_length. auto.
      * rewrite map_length. auto.
  - intros sz fl d dv fd [a|dct] Hu H; try (simpl in H; tauto).
    pose proof (interior_require vv _ _ Hu H) as Hv.
    simpl in H. destruct H as (Hs & m & c & H1 & H2 & H3 & H4). 
    destruct Hu as (Hfl & _).
    destruct (unpack_pack sz m c H3 H4) as (x & X1 & X2 & X3).
    destruct a as [s' d']. simpl in Hs, H1. subst s' d'.
    exists x. split; [|split].
    + cbn [flatten_]. rewrite Hv. cbn [bind snum of_num to_num]. rewrite nd_map_id, H2, X1.
      cbn [bind]. rewrite map_id. auto.
    + simpl. rewrite X2, Hfl. auto.
    + cbn [fold_ flat_len]. rewrite atleast_vec, ndim_vec, size_vec, map_length, X2, Hfl.
      cbn [plint pl_n]. change (sz * (sz + 1) / 2) with (T sz). rewrite !Nat.eqb_refl.
      cbn [negb vec dat snum of_num to_num]. rewrite map_id, H2, X3. cbn [bind].
      rewrite nd_map_id. auto.
  - intros s b fd IH [a|dct] Hu H; try (simpl in H; tauto).
    pose proof (interior_require vv _ _ Hu H) as Hv.
    simpl in H. destruct H as (Hs & Hok & Hc). pose proof Hu as (Ha & Hb & Hd & Hub).
    set (bs := folded_shape b) in *.
    unfold nd_ok in Hok. rewrite Hs, prod_app in Hok.
    destruct (mapM_exists _ _
       (fun i => flatten_ snum b (FArr (mkNd bs (chunk (prod bs) (dat a) i))) true vv)
       (fun i x => exists r, x = map Fin r /\ length r = pl_n (flat_len b true) /\
          fold_ snum b (vec (map Fin r)) true vv'
            = Ok (FArr (mkNd bs (chunk (prod bs) (dat a) i))))
       (seq 0 (prod s))) as (parts & Hparts & HF).
    { intros i Hi. apply in_seq in Hi.
      destruct (IH (FArr (mkNd bs (chunk (prod bs) (dat a) i))) Hub) as (r & R1 & R2 & R3).
      { apply Hc. lia. }
      exists (map Fin r). split; auto. exists r. split; auto. split; auto.
      rewrite R3. f_equal. destruct b; auto. }
    assert (exists rs, parts = map (map Fin) rs /\ length rs = prod s /\
       Forall2 (fun i r => length r = pl_n (flat_len b true) /\
          fold_ snum b (vec (map Fin r)) true vv'
            = Ok (FArr (mkNd bs (chunk (prod bs) (dat a) i)))) (seq 0 (prod s)) rs)
      as (rs & -> & Lrs & HF').
    { pose proof (Forall2_len _ _ _ _ _ HF) as L. rewrite seq_length in L.
      clear Hparts. revert L HF. generalize (prod s) at 1 3 as N. intros N L HF.
      assert (exists rs, parts = map (map Fin) rs /\
         Forall2 (fun i r => length r = pl_n (flat_len b true) /\
          fold_ snum b (vec (map Fin r)) true vv'
            = Ok (FArr (mkNd bs (chunk (prod bs) (dat a) i)))) (seq 0 (prod s)) rs) as (rs & E & F).
      { clear L. induction HF as [|i x li lx (r & -> & R2 & R3) _ (rs & -> & F)].
        - exists []. auto.
        - exists (r :: rs). simpl. auto. }
      exists rs. subst parts. rewrite map_length in L. auto. }
    exists (concat rs).
    assert (forall r, In r rs -> length r = pl_n (flat_len b true)) as Hru.
    { intros r Hr. clear -HF' Hr. induction HF'; [destruct Hr|].
      destruct Hr as [<-|Hr]; auto. tauto. }
    assert (length (concat rs) = pl_n (flat_len (PArr s b fd) true)) as Lc.
    { rewrite (concat_length_uniform _ _ _ Hru), Lrs. simpl. rewrite np_prod_int by auto. auto. }
    split; [|split]; auto.
    + rewrite flatten_arr_eq by auto. rewrite Hv. cbn [bind]. fold bs. rewrite Hparts. cbn [bind].
      unfold hstack. destruct rs as [|r rs]; [simpl in Lrs; lia|]. cbn [map].
      rewrite <- map_cons, concat_map. auto.
    + rewrite fold_arr_eq; auto; [|rewrite map_length; auto].
      rewrite (mapM_of_Forall2 _ _ _ _ (map (fun i => mkNd bs (chunk (prod bs) (dat a) i)) (seq 0 (prod s)))).
      * cbn [bind]. unfold stack_reshape. rewrite flat_map_concat, map_map. cbn [dat].
        change (map (fun x => chunk (prod bs) (dat a) x) (seq 0 (prod s)))
          with (chunks (prod bs) (prod s) (dat a)).
        rewrite concat_chunks by auto. fold bs. rewrite Hok, prod_app, Nat.eqb_refl. cbn [bind].
        destruct a as [s' d']. simpl in *. subst. auto.
      * rewrite concat_map.
        assert (forall i, i < prod s ->
           chunk (pl_n (flat_len b true)) (concat (map (map Fin) rs)) i = map Fin (nth i rs [])) as Hch.
        { intros i Hi. rewrite (chunk_concat _ _ _ i []).
          - rewrite (nth_map_gen _ _ _ _ _ [] []) by lia. auto.
          - intros x Hx. apply in_map_iff in Hx. destruct Hx as (y & <- & Hy).
            rewrite map_length. auto.
          - rewrite map_length. lia. }
        assert (forall i, i < prod s -> fold_ snum b (vec (map Fin (nth i rs []))) true vv'
                  = Ok (FArr (mkNd bs (chunk (prod bs) (dat a) i)))) as Hfi.
        { intros i Hi. clear -HF' Hi Lrs.
          assert (forall o n rs, Forall2 (fun i r => length r = pl_n (flat_len b true) /\
             fold_ snum b (vec (map Fin r)) true vv'
               = Ok (FArr (mkNd bs (chunk (prod bs) (dat a) i)))) (seq o n) rs ->
             forall i, i < n -> fold_ snum b (vec (map Fin (nth i rs []))) true vv'
               = Ok (FArr (mkNd bs (chunk (prod bs) (dat a) (o + i))))) as E.
          { clear. intros o n. revert o. induction n; intros o rs H i Hi; [lia|].
            inversion H; subst. destruct i; simpl.
            - rewrite Nat.add_0_r. tauto.
            - rewrite (IHn (S o) l' H4 i) by lia. f_equal. f_equal. f_equal. f_equal. lia. }
          apply (E 0 (prod s)); auto. }
        clear -Hch Hfi. 
        assert (forall l, (forall i, In i l -> i < prod s) ->
          Forall2 (fun a0 b0 => (v <- fold_ snum b (vec (chunk (pl_n (flat_len b true))
             (concat (map (map Fin) rs)) a0)) true vv' ;; as_arr v) = Ok b0) l
           (map (fun i => mkNd bs (chunk (prod bs) (dat a) i)) l)) as E.
        { induction l as [|i l IHl]; intros Hl; simpl; constructor.
          - rewrite Hch, Hfi by (apply Hl; left; auto). auto.
          - apply IHl. intros; apply Hl; right; auto. }
        apply E. intros i Hi. apply in_seq in Hi. lia.
  - intros items l fl fd lk IH [a|dct] Hu H; try (simpl in H; tauto).
    pose proof (interior_require vv _ _ Hu H) as Hv.
    simpl in H. destruct Hu as (Hne & Hnd & Hl & Hfl & Hu).
    assert (exists xs, flatten_items (fun q w => flatten_ snum q w true vv) dct items = Ok (map (map Fin) xs) /\
              length xs = length items /\
              length (concat xs) = lsum (map (fun kq => pl_n (flat_len (snd kq) true)) items) /\
              forall pre, fold_items (fun q y => fold_ snum q y true vv') true
                 (pre ++ map Fin (concat xs)) items (plint (length pre))
                 = Ok (canon_items canon dct items)) as (xs & X1 & X2 & X3 & X4).
    { clear Hne Hnd Hl Hfl Hv. induction items as [|[k q] items IHi].
      - exists []. repeat split; auto.
      - simpl in H, Hu. destruct H as ((w & Hw & Hint) & H). destruct Hu as (Hu1 & Hu).
        inversion IH; subst. destruct (IHi H3 Hu H) as (xs & X1 & X2 & X3 & X4). clear IHi.
        simpl in H2. destruct (H2 w Hu1 Hint) as (x & Y1 & Y2 & Y3).
        exists (x :: xs). simpl concat. split; [|split; [|split]].
        + simpl. rewrite Hw, Y1. simpl. rewrite X1. auto.
        + simpl. rewrite X2. auto.
        + rewrite app_length, Y2, X3. auto.
        + intros pre. rewrite fold_items_cons by (apply usable_int; auto).
          rewrite map_app.
          rewrite slice_mid by (auto; rewrite map_length; auto).
          rewrite Y3. cbn [bind].
          rewrite app_assoc, <- Y2.
          specialize (X4 (pre ++ map Fin x)). rewrite app_length, map_length in X4.
          rewrite X4. cbn [bind canon_items]. rewrite Hw. auto. }
    exists (concat xs). subst fl. split; [|split]; auto.
    + cbn [flatten_]. rewrite Hv. cbn [bind]. rewrite X1. cbn [bind].
      unfold hstack. destruct xs as [|x xs].
      * destruct items; [contradiction|discriminate].
      * cbn [map]. rewrite <- map_cons, concat_map. auto.
    + rewrite fold_dict_eq; [|rewrite map_length; auto].
      specialize (X4 []). simpl in X4. rewrite X4. auto.
Qed.

(** ** fold of a free vector, then flatten *)
Lemma canon_arr_shape : forall p (a : nd num), is_dict p = false -> interior p (FArr a) ->
  canon p (FArr a) = FArr a -> shp a = folded_shape p.
Proof.
  intros p a Hd Hi Hc. destruct p; simpl in Hd, Hi, Hc |- *; try discriminate; try tauto.
  inversion Hc. rewrite <- H0 at 1. auto.
Qed.

Lemma canon_items_nodup : forall A (f : pat -> fv A -> fv A) its (d : list (key * fv A)),
  map fst d = map fst its -> NoDup (map fst its) ->
  Forall2 (fun kq kw => f (snd kq) (snd kw) = snd kw) its d ->
  canon_items f d its = d.
Proof.
  intros A f its d Hk Hn HF.
  assert (forall pre d0, d0 = pre ++ d -> NoDup (map fst d0) -> canon_items f d0 its = d) as E.
  { clear Hn. revert d Hk HF. induction its as [|[k q] its IH]; intros d Hk HF pre d0 -> Hn.
    - destruct d; [auto|discriminate].
    - destruct d as [|[k' w] d]; [discriminate|]. simpl in Hk. inversion Hk; subst.
      inversion HF; subst. simpl.
      rewrite (dict_get_in_nodup _ (pre ++ (k, w) :: d) k w).
      + simpl in *. rewrite H3. f_equal. apply (IH d H1 H5 (pre ++ [(k, w)])); auto.
        rewrite <- app_assoc. auto.
      + auto.
      + apply in_or_app. right; left; auto. }
  apply (E []); auto. rewrite Hk. auto.
Qed.

Theorem free_flatten_of_fold : forall vv vv' p x,
  usable p -> length x = pl_n (flat_len p true) ->
  exists v, fold_ snum p (vec (map Fin x)) true vv = Ok v /\
    interior p v /\ canon p v = v /\
    flatten_ snum p v true vv' = Ok (map Fin x).
Proof.
  intros vv vv'.
  apply (pat_ind' (fun p => forall x, usable p -> length x = pl_n (flat_len p true) ->
    exists v, fold_ snum p (vec (map Fin x)) true vv = Ok v /\
    interior p v /\ canon p v = v /\
    flatten_ snum p v true vv' = Ok (map Fin x))).
  - intros k s lb ub dv fd x Hu Hx. simpl in Hx. destruct Hu as (Hne & Hlt).
    assert (exists y, map (constrain1 (pyval lb) (pyval ub)) (map Fin x) = y /\
       Forall (fun x => finite x /\ nlt (pyval lb) x /\ nlt x (pyval ub)) y /\
       map (unconstrain1 (pyval lb) (pyval ub)) y = map Fin x) as (y & Y1 & Y2 & Y3).
    { clear Hx. induction x as [|r x IHx].
      - exists []. auto.
      - destruct IHx as (y & Y1 & Y2 & Y3).
        destruct (constrain1_fin _ _ r Hlt) as (z & Z1 & Z2 & Z3 & Z4).
        exists (Fin z :: y). simpl. rewrite Z1, Y1, Z4, Y3. split; auto. split; auto.
        constructor; auto. split; auto. exists z; auto. }
    assert (length y = prod s) as Ly.
    { subst y. rewrite !map_length. auto. }
    exists (FArr (mkNd s y)).
    assert (interior (PNum k s lb ub dv fd) (FArr (mkNd s y))) as Hi.
    { simpl. split; auto. split; auto. }
    split; [|split; [|split]]; auto.
    + cbn [fold_]. rewrite atleast_vec, ndim_vec, size_vec, map_length, Hx, !Nat.eqb_refl.
      cbn [negb]. unfold num_fold_free. cbn [vec dat snum of_num to_num].
      rewrite map_id, nd_map_id, Y1. auto.
    + cbn [flatten_].
      assert (atleast_1d (mkNd s y) = mkNd s y) as ->.
      { unfold atleast_1d. simpl. destruct s; auto. contradiction. }
      rewrite interior_require; [|split; auto|auto]. cbn [bind dat snum of_num to_num].
      rewrite <- Y3. auto.
  - intros n s dv fd x Hu Hx. simpl flat_len in Hx. rewrite simplex_flen in Hx. simpl in Hu.
    set (xs := chunks (n - 1) (prod s) x).
    assert (x = concat xs) as Ex by (symmetry; apply concat_chunks; auto).
    assert (length xs = prod s) as Lxs.
    { unfold xs, chunks. rewrite map_length, seq_length. auto. }
    assert (forall z, In z xs -> length z = n - 1) as Hz.
    { intros z Hz. apply in_chunks in Hz. destruct Hz as (i & Hi & ->).
      apply (chunk_length _ _ _ _ (prod s)); auto. }
    assert (Forall (fun r => length r = n /\ Forall (Rlt 0) r /\ Rlsum r = 1%R) (map softmax xs)) as Hrows.
    { apply Forall_forall. intros r Hr. apply in_map_iff in Hr. destruct Hr as (z & <- & Hzz).
      destruct (softmax_spec z) as (L & P & S). split; auto. rewrite L, Hz; auto. lia. }
    assert (map constrain_row (map (map Fin) xs) = map (map Fin) (map softmax xs)) as Hc.
    { rewrite !map_map. apply map_ext. apply constrain_row_fin. }
    assert (map unconstrain_row (map (map Fin) (map softmax xs)) = map (map Fin) xs) as Huc.
    { rewrite <- Hc, map_map. rewrite !map_map. apply map_ext. apply unconstrain_constrain_row. }
    exists (FArr (mkNd (s ++ [n]) (map Fin (concat (map softmax xs))))).
    assert (interior (PSimplex n s dv fd) (FArr (mkNd (s ++ [n]) (map Fin (concat (map softmax xs)))))) as Hi.
    { simpl. split; auto. exists (map softmax xs). rewrite map_length. auto. }
    split; [|split; [|split]]; auto.
    + cbn [fold_ pylen vec shp bind flat_len]. rewrite map_length, simplex_flen, Hx, Nat.eqb_refl.
      cbn [negb]. rewrite reshape_vec.
      2:{ rewrite map_length, Hx, prod_app. simpl. lia. }
      cbn [bind dat snum of_num to_num].
      rewrite map_id, nd_map_id. unfold simplex_fold_free.
      rewrite chunks_map. fold xs. rewrite flat_map_concat, Hc, concat_map. auto.
    + cbn [flatten_]. rewrite interior_require by auto. cbn [bind dat snum of_num to_num].
      rewrite !map_id, chunks_map, chunks_concat.
      * rewrite flat_map_concat, Huc. rewrite Ex at 1. rewrite concat_map. auto.
      * rewrite Forall_forall in Hrows. intros; apply Hrows; auto.
      * rewrite map_length. auto.
  - intros sz fl d dv fd x Hu Hx. simpl in Hx. pose proof Hu as (Hfl & c & Hc & Hpos).
    assert (length x = T sz) as Lx by (rewrite Hx, Hfl; auto).
    set (v := mkNd [sz; sz] (rows_of sz (add_diag c (gram sz (chol_of x))))).
    assert (interior (PPsd sz fl d dv fd) (FArr v)) as Hi.
    { simpl. split; auto. eexists; exists c. split; [reflexivity|]. split; auto.
      apply unpack_interior. }
    exists (FArr v). split; [|split; [|split]]; auto.
    + cbn [fold_ flat_len]. rewrite atleast_vec, ndim_vec, size_vec, map_length, Hx.
      cbn [plint pl_n]. rewrite !Nat.eqb_refl.
      cbn [negb vec dat snum of_num to_num]. rewrite map_id, Hc, (unpack_fin sz) by auto. cbn [bind].
      rewrite nd_map_id. auto.
    + cbn [flatten_]. rewrite interior_require by auto. cbn [bind dat snum of_num to_num].
      rewrite nd_map_id, Hc. unfold v. rewrite pack_unpack by auto. cbn [bind]. rewrite map_id. auto.
  - intros s b fd IH x Hu Hx. pose proof Hu as (Ha & Hb & Hd & Hub).
    set (bs := folded_shape b) in *. set (k := pl_n (flat_len b true)).
    assert (length x = prod s * k) as Lx.
    { rewrite Hx. simpl. rewrite np_prod_int by auto. auto. }
    destruct (mapM_exists _ _
       (fun i => v <- fold_ snum b (vec (chunk k (map Fin x) i)) true vv ;; as_arr v)
       (fun i a => nd_ok a /\ shp a = bs /\ interior b (FArr a) /\
          flatten_ snum b (FArr a) true vv' = Ok (chunk k (map Fin x) i))
       (seq 0 (prod s))) as (parts & Hparts & HF).
    { intros i Hi. apply in_seq in Hi. rewrite chunk_map.
      destruct (IH (chunk k x i) Hub) as (v & V1 & V2 & V3 & V4).
      { apply (chunk_length _ _ _ _ (prod s)); auto; lia. }
      rewrite V1. destruct v as [a|dct]; [|destruct b; simpl in V2, Hd; try tauto; discriminate].
      exists a. split; auto. split; [apply (interior_fv_arr b); auto|].
      split; [apply (canon_arr_shape b); auto|]. auto. }
    assert (length parts = prod s) as Lp.
    { apply Forall2_len in HF. rewrite seq_length in HF. auto. }
    assert (forall a, In a parts -> length (dat a) = prod bs) as Hpd.
    { intros a Hin. clear -HF Hin. induction HF; [destruct Hin|].
      destruct Hin as [<-|Hin]; auto. destruct H as (H1 & H2 & _). rewrite <- H2. apply H1. }
    set (v := mkNd (s ++ bs) (flat_map dat parts)).
    assert (length (flat_map dat parts) = prod (s ++ bs)) as Lv.
    { rewrite flat_map_concat, (concat_length_uniform _ (prod bs)).
      - rewrite map_length, Lp, prod_app. auto.
      - intros z Hz. apply in_map_iff in Hz. destruct Hz as (a & <- & Hin). auto. }
    assert (forall i, i < prod s -> exists a, nd_ok a /\ shp a = bs /\ interior b (FArr a) /\
          flatten_ snum b (FArr a) true vv' = Ok (chunk k (map Fin x) i) /\
          mkNd bs (chunk (prod bs) (dat v) i) = a) as Hcell.
    { intros i Hi.
      assert (forall o n ps, Forall2 (fun i a => nd_ok a /\ shp a = bs /\ interior b (FArr a) /\
          flatten_ snum b (FArr a) true vv' = Ok (chunk k (map Fin x) i)) (seq o n) ps ->
          forall i d, i < n -> nd_ok (nth i ps d) /\ shp (nth i ps d) = bs /\ interior b (FArr (nth i ps d)) /\
          flatten_ snum b (FArr (nth i ps d)) true vv' = Ok (chunk k (map Fin x) (o + i))) as E.
      { clear. intros o n. revert o. induction n; intros o ps H i d Hi; [lia|].
        inversion H; subst. destruct i.
        - rewrite Nat.add_0_r. auto.
        - replace (o + S i) with (S o + i) by lia. apply (IHn (S o) l' H4 i d). lia. }
      destruct (E _ _ _ HF i (mkNd bs []) Hi) as (E1 & E2 & E3 & E4).
      exists (nth i parts (mkNd bs [])). repeat split; auto.
      unfold v. cbn [dat]. rewrite flat_map_concat.
      rewrite (chunk_concat _ _ _ i (dat (mkNd bs ([]:list num)))).
      - rewrite map_nth. destruct (nth i parts (mkNd bs [])); simpl in *. subst; auto.
      - intros z Hz. apply in_map_iff in Hz. destruct Hz as (a & <- & Hin). auto.
      - rewrite map_length. lia. }
    assert (interior (PArr s b fd) (FArr v)) as Hi.
    { simpl. split; auto. split; auto. intros i Hi'. destruct (Hcell i Hi') as (a & _ & _ & H3 & _ & H5).
      unfold chunk in H5. unfold v in H5 |- *. cbn [dat] in H5 |- *. fold bs. rewrite H5. auto. }
    exists (FArr v). split; [|split; [|split]]; auto.
    + rewrite fold_arr_eq; auto; [|rewrite map_length; auto].
      fold k. rewrite Hparts. cbn [bind]. unfold stack_reshape. fold bs. rewrite Lv, Nat.eqb_refl. auto.
    + rewrite flatten_arr_eq by auto. rewrite interior_require by auto. cbn [bind]. fold bs.
      rewrite (mapM_ok_all _ _ _ (fun i => chunk k (map Fin x) i)).
      * cbn [bind]. unfold hstack.
        change (map (fun i => chunk k (map Fin x) i) (seq 0 (prod s))) with (chunks k (prod s) (map Fin x)).
        pose proof (concat_chunks _ k (prod s) (map Fin x)) as Hcc. 
        rewrite map_length in Hcc. specialize (Hcc Lx).
        pose proof (chunks_length _ k (prod s) (map Fin x)) as Hcl.
        destruct (chunks k (prod s) (map Fin x)); [simpl in Hcl; lia|]. rewrite Hcc. auto.
      * intros i Hin. apply in_seq in Hin. destruct (Hcell i ltac:(lia)) as (a & H1 & H2 & H3 & H4 & H5).
        rewrite H5. auto.
  - intros items l fl fd lk IH x Hu Hx. pose proof Hu as (Hne & Hnd & Hl & Hfl & Hus).
    simpl in Hx. rewrite Hfl in Hx. cbn [plint pl_n] in Hx.
    assert (exists d, (forall pre post, fold_items (fun q y => fold_ snum q y true vv) true
                 (pre ++ map Fin x ++ post) items (plint (length pre)) = Ok d) /\
              map fst d = map fst items /\
              Forall2 (fun kq kw => interior (snd kq) (snd kw) /\ canon (snd kq) (snd kw) = snd kw) items d /\
              (forall d', (forall k w, In (k, w) d -> dict_get d' k = Some w) ->
                 exists xs, flatten_items (fun q w => flatten_ snum q w true vv') d' items = Ok (map (map Fin) xs) /\
                   concat xs = x /\ length xs = length items))
      as (d & D1 & D2 & D3 & D4).
    { clear Hne Hnd Hl Hfl Hu. revert x Hx. induction items as [|[k q] items IHi]; intros x Hx.
      - destruct x; [|discriminate]. exists []. repeat split; auto. intros d' _. exists []. auto.
      - simpl in Hx, Hus. destruct Hus as (Hu1 & Hus). inversion IH as [|? ? IHq IHr]; subst.
        set (n := pl_n (flat_len q true)) in *.
        assert (x = firstn n x ++ skipn n x) as Ex by (symmetry; apply firstn_skipn).
        assert (length (firstn n x) = n) as Ln by (rewrite firstn_length; lia).
        destruct (IHi IHr Hus (skipn n x)) as (d & D1 & D2 & D3 & D4); [rewrite skipn_length; lia|].
        simpl in IHq. destruct (IHq (firstn n x) Hu1 Ln) as (w & W1 & W2 & W3 & W4).
        exists ((k, w) :: d). split; [|split; [|split]].
        + intros pre post. rewrite fold_items_cons by (apply usable_int; auto). fold n.
          rewrite Ex at 1. rewrite map_app, <- app_assoc.
          rewrite slice_mid by (auto; rewrite map_length; auto).
          rewrite W1. cbn [bind]. rewrite Ex at 1. rewrite map_app.
          specialize (D1 (pre ++ map Fin (firstn n x)) post).
          rewrite app_length, map_length, Ln in D1. rewrite <- !app_assoc in *. rewrite D1. auto.
        + simpl. rewrite D2. auto.
        + constructor; auto.
        + intros d' Hd'. destruct (D4 d') as (xs & X1 & X2 & X3).
          { intros; apply Hd'; right; auto. }
          exists (firstn n x :: xs). simpl. rewrite (Hd' k w) by (left; auto).
          rewrite W4. simpl. rewrite X1. simpl. rewrite X2, X3, firstn_skipn. auto. }
    assert (NoDup (map fst d)) as Hndd by (rewrite D2; auto).
    assert (interior (PDict items l fl fd lk) (FDict d)) as Hi.
    { simpl. apply all_items_Forall. rewrite Forall_forall. intros kq Hkq.
      assert (forall its d1, map fst d1 = map fst its ->
         Forall2 (fun kq kw => interior (snd kq) (snd kw) /\ canon (snd kq) (snd kw) = snd kw) its d1 ->
         In kq its -> exists w, In (fst kq, w) d1 /\ interior (snd kq) w) as E.
      { clear. intros its d1 Hk HF. revert Hk. induction HF as [|a [k w] its d1 (H1 & _) HF IH]; intros Hk Hin.
        - destruct Hin.
        - simpl in Hk. inversion Hk; subst. destruct Hin as [->|Hin].
          + exists w. split; auto. left; auto.
          + destruct (IH H2 Hin) as (w' & Hw & Hi'). exists w'. split; auto. right; auto. }
      destruct (E _ _ D2 D3 Hkq) as (w & Hw & Hint). exists w. split; auto.
      apply dict_get_in_nodup; auto. }
    exists (FDict d). split; [|split; [|split]]; auto.
    + rewrite fold_dict_eq; [|rewrite map_length; simpl; rewrite Hfl; auto].
      specialize (D1 [] []). simpl in D1. rewrite app_nil_r in D1. rewrite D1. auto.
    + cbn [canon]. f_equal. apply canon_items_nodup; auto.
      clear -D3. induction D3; constructor; tauto.
    + cbn [flatten_]. rewrite interior_require by auto. cbn [bind].
      destruct (D4 d) as (xs & X1 & X2 & X3).
      { intros; apply dict_get_in_nodup; auto. }
      rewrite X1. cbn [bind]. unfold hstack. destruct xs as [|z xs].
      * destruct items; [contradiction|discriminate].
      * cbn [map]. rewrite <- map_cons, <- concat_map, X2. auto.
Qed.
