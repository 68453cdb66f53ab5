(** * Folding whole patterns in float64 against exact folding. *)
From Coq Require Import Reals Lra Lia ZArith.
From Flocq Require Import Core IEEE754.BinarySingleNaN.
From Verif Require Import Base Num Nd ListFacts Pattern Spec PatFacts NumFacts Numeric Simplex Psd CholFacts NonFree Free
  Contract Indices2 AlongFacts Flt SpecFlt FltMat SpecFltMat FltChol SpecFltChol FltPat SpecFltPat FltBase FltLeaf FltLeafPsd.
Local Open Scope nat_scope.

Lemma small_fin : forall x, small64 x -> Forall fin x.
Proof. intros x H. eapply Forall_impl; [|exact H]. intros a [F _]. exact F. Qed.
Lemma small_slice : forall x o n, small64 x -> small64 (slice x o n).
Proof.
  intros x o n H. unfold small64 in *. rewrite Forall_forall in *. intros v I. apply H. eapply in_slice. exact I.
Qed.

Lemma leafwise_arr : forall L p v w, is_dict p = false -> leafwise L p v w ->
  exists a b, v = FArr a /\ w = FArr b /\ shp a = folded_shape p /\ shp b = folded_shape p /\
    (nd_ok b -> nd_ok a).
Proof.
  intros L p v w D H. destruct p as [k s lb ub dv fd|n s dv fd|sz fl dlb dv fd|s base fd|items l fl fd lk]; try discriminate D;
    destruct v as [a|d]; try contradiction; destruct w as [b|e]; try contradiction; exists a, b; cbn [leafwise folded_shape] in *.
  - destruct H as (A & B & F). repeat split; auto. unfold nd_ok. rewrite (Forall2_len _ _ _ _ _ F), A, B. auto.
  - destruct H as (A & B & F). repeat split; auto. unfold nd_ok. rewrite (Forall2_len _ _ _ _ _ F), A, B. auto.
  - destruct H as (A & B & F & _). repeat split; auto. unfold nd_ok. rewrite (Forall2_len _ _ _ _ _ F), A, B. auto.
  - destruct H as (A & B & O & _). repeat split; auto.
Qed.

Section Tree.
Variables (np : np64) (gram : gram64).
Hypothesis C : np_contract np.
Hypothesis G : gram_contract gram.

Lemma pfold_arr_eq : forall s b fd x, usable (PArr s b fd) -> length x = pl_n (flat_len (PArr s b fd) true) ->
  pfold64 np gram (PArr s b fd) x =
  (parts <- mapM (fun i => v <- pfold64 np gram b (chunk (pl_n (flat_len b true)) x i) ;; as_arr v) (seq 0 (prod s)) ;;
   a <- stack_reshape parts (s ++ folded_shape b) ;; Ok (FArr a)).
Proof.
  intros s b fd x Hu Hl. pose proof Hu as (Hs & Hp & Hd & Hub).
  cbn [pfold64]. rewrite Hl, Nat.eqb_refl. cbn [negb].
  destruct s as [|n s]; [contradiction|].
  rewrite <- (mapM_indices _ (fun i => v <- pfold64 np gram b (chunk (pl_n (flat_len b true)) x i) ;; as_arr v)).
  assert (as_index (flat_len b true) = Ok (pl_n (flat_len b true))) as Hi.
  { unfold as_index. rewrite usable_int; auto. }
  rewrite Hi. cbn [bind]. reflexivity.
Qed.

Variable vv : option bool.

Definition fold_near (p : pat) : Prop := forall x, usable p -> modest p -> length x = pl_n (flat_len p true) -> small64 x ->
  exists v w, pfold64 np gram p x = Ok v /\ fold_ snum p (vec (map num64 x)) true vv = Ok w /\ leafwise fold_err p v w.

Lemma near_num : forall k s lb ub dv fd, fold_near (PNum k s lb ub dv fd).
Proof.
  intros k s lb ub dv fd x (_ & O) (El & Eu & Bl & Bu) L S. cbn [flat_len plint pl_n] in L.
  cbn [pfold64 fold_]. rewrite atleast_vec, ndim_vec, size_vec, map_length, L, !Nat.eqb_refl. cbn [negb vec dat snum of_num to_num].
  rewrite map_id, nd_map_id. unfold num_fold_free. do 2 eexists. split; [reflexivity|]. split; [reflexivity|].
  cbn [leafwise shp dat]. split; auto. split; auto. unfold num64_fold. rewrite nums_fin by (apply small_fin; auto).
  rewrite map_map. clear L. induction S as [|a x [Fa Ba] S IH]; cbn [map]; constructor; auto.
  rewrite !map_map in *. apply num_leaf; auto.
Qed.

Lemma near_simplex : forall n s dv fd, fold_near (PSimplex n s dv fd).
Proof.
  intros n s dv fd x Hn M L S. cbn [usable modest] in Hn, M. cbn [flat_len] in L. rewrite simplex_flen in L.
  assert (L' : length x = prod (s ++ [n - 1])) by (rewrite prod_app; cbn; lia).
  cbn [pfold64 fold_ pylen vec shp bind flat_len]. rewrite map_length, simplex_flen, <- L, Nat.eqb_refl. cbn [negb].
  rewrite L', Nat.eqb_refl. cbn [negb]. rewrite reshape_vec by (rewrite map_length; auto).
  cbn [bind dat snum of_num to_num]. rewrite map_id, nd_map_id. unfold simplex_fold_free.
  do 2 eexists. split; [reflexivity|]. split; [reflexivity|]. cbn [leafwise shp dat]. split; auto. split; auto.
  rewrite chunks_map. 
  assert (H : forall r, In r (chunks (n - 1) (prod s) x) -> moderate r).
  { intros r Hr. apply in_chunks in Hr. destruct Hr as (i & Hi & ->). split.
    - rewrite (chunk_length _ _ _ _ (prod s)) by auto. lia.
    - apply small_slice. auto. }
  revert H. generalize (chunks (n - 1) (prod s) x) as l.
  induction l as [|r l IH]; intros H; cbn [flat_map map]; [constructor|].
  assert (moderate r) as Mr by (apply H; left; auto).
  apply Forall2_app; [|apply IH; intros; apply H; right; auto].
  rewrite nums_fin by (apply small_fin; apply Mr). apply simplex_leaf; auto.
Qed.

Lemma near_psd : forall sz fl dlb dv fd, fold_near (PPsd sz fl dlb dv fd).
Proof.
  intros sz fl dlb dv fd x (Hf & c & Pc & _) (N & Ed & Bd) L S. cbn [flat_len plint pl_n] in L.
  assert (L' : length x = T sz) by (rewrite L, Hf; reflexivity).
  cbn [pfold64 fold_ flat_len pl_n plint]. rewrite atleast_vec, ndim_vec, size_vec, map_length, L, !Nat.eqb_refl.
  cbn [negb vec dat snum of_num to_num]. rewrite map_id, nums_fin by (apply small_fin; auto).
  rewrite Pc, (unpack_fin sz) by (rewrite map_length; auto). cbn [bind]. rewrite nd_map_id.
  do 2 eexists. split; [reflexivity|]. split; [reflexivity|]. cbn [leafwise shp dat arr64]. split; auto. split; auto.
  pose proof (psd_leaf np gram C G sz dlb c x N Ed Pc Bd L' S) as H. cbv zeta in H.
  set (e := add_diag c (CholFacts.gram sz (chol_of (map val x)))) in *.
  set (m := unpack64 np gram sz (bound64 dlb) x) in *.
  split.
  - unfold rows_of. assert (Q : forall l l', (forall i, In i l -> i < sz) -> (forall j, In j l' -> j < sz) ->
      Forall2 (both (fun _ _ => True)) (flat_map (fun i => map (fun j => m i j) l') l)
        (flat_map (fun i => map (fun j => Fin (e i j)) l') l)).
    { intros l l' Hl Hl'. induction l as [|i l IH]; cbn [flat_map]; [constructor|]. apply Forall2_app; [|apply IH; intros; apply Hl; right; auto].
      clear IH. induction l' as [|j l' IH]; cbn [map]; constructor.
      - split; [apply (H i j); [apply Hl|apply Hl']; left; auto|]. eexists. split; [reflexivity|auto].
      - apply IH. intros; apply Hl'; right; auto. }
    apply Q; intros i Hi; apply in_seq in Hi; lia.
  - intros i j Hi Hj. pose proof (H i j Hi Hj) as [_ E].
    change (rows_of sz e) with (grid sz (fun i j => Fin (e i j))).
    change (flat_map (fun i0 => map (fun j0 => m i0 j0) (seq 0 sz)) (seq 0 sz)) with (grid sz m).
    cbn [on_psd fold_err] in E |- *. rewrite !(grid_nth sz) by auto. cbn [real_of]. exact E.
Qed.

Lemma near_arr : forall s b fd, fold_near b -> fold_near (PArr s b fd).
Proof.
  intros s b fd IH x Hu M L S. pose proof Hu as (Hs & Hp & Hd & Hub). cbn [modest] in M.
  destruct (free_flatten_of_fold vv vv (PArr s b fd) (map val x) Hu) as (w & Ew & _). { rewrite map_length. auto. }
  destruct (fold_arr_blocks vv s b fd (map val x) w Hu ltac:(rewrite map_length; auto) Ew) as (bb & -> & Lb & Blk).
  destruct (fold_shape _ snum true vv (PArr s b fd) _ _ Hu eq_refl Ew) as (bb' & Eq & Hsh & Hok). inversion Eq; subst bb'. clear Eq.
  cbn [folded_shape] in Hsh. set (k := prod (folded_shape b)) in *.
  assert (Lx : length x = prod s * pl_n (flat_len b true)).
  { rewrite L. cbn [flat_len plen_mul pl_n]. rewrite np_prod_int by auto. reflexivity. }
  destruct (mapM_exists _ _ (fun i => v <- pfold64 np gram b (chunk (pl_n (flat_len b true)) x i) ;; as_arr v)
    (fun i a => i < prod s -> shp a = folded_shape b /\ length (dat a) = k /\
       leafwise fold_err b (FArr a) (FArr (mkNd (folded_shape b) (chunk k (dat bb) i)))) (seq 0 (prod s))) as (parts & Ep & Fp).
  { intros i Hi. apply in_seq in Hi. destruct Hi as [_ Hi]. cbn in Hi.
    destruct (IH (chunk (pl_n (flat_len b true)) x i) Hub M) as (v & w & Ev & Ew' & Lf).
    { apply (chunk_length _ _ _ _ (prod s)); auto. }
    { apply small_slice. auto. }
    rewrite <- chunk_map, nums_fin in Ew' by (apply small_fin; auto). rewrite chunk_map in Ew'.
    rewrite (Blk i Hi) in Ew'. inversion Ew'; subst w. clear Ew'.
    destruct (leafwise_arr _ _ _ _ Hd Lf) as (a & b' & -> & Eb & Sa & Sb & Ok').
    exists a. rewrite Ev. split; auto. intros _. split; auto. split; auto.
    inversion Eb; subst b'. unfold nd_ok in Ok'. cbn [shp dat] in Ok'. rewrite Ok', Sa; auto.
    apply (chunk_length _ _ _ _ (prod s)); auto. }
  assert (Fp' : Forall2 (fun i a => shp a = folded_shape b /\ length (dat a) = k /\
       leafwise fold_err b (FArr a) (FArr (mkNd (folded_shape b) (chunk k (dat bb) i)))) (seq 0 (prod s)) parts).
  { clear -Fp. assert (H : forall i, In i (seq 0 (prod s)) -> i < prod s) by (intros i Hi; apply in_seq in Hi; lia).
    induction Fp; constructor; auto. - apply H0. apply H; left; auto. - apply IHFp. intros; apply H; right; auto. }
  assert (Lp : length parts = prod s) by (apply Forall2_len in Fp'; rewrite seq_length in Fp'; auto).
  assert (Hk : forall z, In z (map dat parts) -> length z = k).
  { intros z Hz. apply in_map_iff in Hz. destruct Hz as (a & <- & Ha). clear -Fp' Ha.
    induction Fp'; [destruct Ha|]. destruct Ha as [<-|Ha]; auto. apply H. }
  assert (Ld : length (concat (map dat parts)) = prod s * k).
  { rewrite (concat_length_uniform _ k) by auto. rewrite map_length, Lp. auto. }
  exists (FArr (mkNd (s ++ folded_shape b) (concat (map dat parts)))), (FArr bb).
  split; [|split].
  - rewrite pfold_arr_eq by auto. rewrite Ep. cbn [bind]. unfold stack_reshape. rewrite flat_map_concat, Ld, prod_app.
    fold k. rewrite Nat.eqb_refl. reflexivity.
  - rewrite nums_fin by (apply small_fin; auto). exact Ew.
  - cbn [leafwise shp dat]. split; auto. split; auto. split. { unfold nd_ok. cbn [shp dat]. rewrite prod_app. exact Ld. }
    split; auto. intros i Hi. fold k. fold (chunk k (concat (map dat parts)) i). fold (chunk k (dat bb) i).
    rewrite (chunk_concat _ k _ i []) by (auto; rewrite map_length; lia).
    assert (E : forall o n l, Forall2 (fun i a => shp a = folded_shape b /\ length (dat a) = k /\
       leafwise fold_err b (FArr a) (FArr (mkNd (folded_shape b) (chunk k (dat bb) i)))) (seq o n) l -> forall i, i < n ->
       leafwise fold_err b (FArr (mkNd (folded_shape b) (nth i (map dat l) []))) (FArr (mkNd (folded_shape b) (chunk k (dat bb) (o + i))))).
    { clear. intros o n. revert o. induction n; intros o l H i Hi; [lia|]. cbn [seq] in H. inversion H; subst. destruct i.
      - destruct H2 as (A & _ & B). cbn [map nth]. rewrite Nat.add_0_r. destruct y as [sy dy]. cbn [Nd.shp Nd.dat] in *. subst sy. exact B.
      - cbn [map nth]. replace (o + Datatypes.S i) with (Datatypes.S o + i) by lia. apply IHn; auto. lia. }
    exact (E 0 (prod s) parts Fp' i Hi).
Qed.

Lemma near_items : forall items off x, Forall (fun kq => fold_near (snd kq)) items -> NoDup (map fst items) ->
  all_items (fun _ q => usable q) items -> all_items (fun _ q => modest q) items -> small64 x ->
  off + lsum (map (fun kq => pl_n (flat_len (snd kq) true)) items) <= length x ->
  exists d e, fold_items (fun q y => pfold64 np gram q (dat y)) true x items (plint off) = Ok d /\
    fold_items (fun q y => fold_ snum q y true vv) true (map num64 x) items (plint off) = Ok e /\
    all_items (fun k q => exists v' w', dict_get d k = Some v' /\ dict_get e k = Some w' /\ leafwise fold_err q v' w') items.
Proof.
  induction items as [|[k q] items IHi]; intros off x F ND U M S L.
  - exists [], []. cbn. auto.
  - inversion F; subst. inversion ND; subst. destruct U as [Uq U]. destruct M as [Mq M]. cbn [map snd] in L.
    destruct (H1 (slice x off (pl_n (flat_len q true))) Uq Mq) as (v & w & Ev & Ew & Lf).
    { unfold lsum in L. cbn [map snd fold_right] in L. apply slice_length. cbn [snd]. lia. }
    { apply small_slice. auto. }
    destruct (IHi (off + pl_n (flat_len q true)) x H2 H4 U M S) as (d & e & Ed & Ee & A).
    { unfold lsum in *. cbn [map snd fold_right] in *. lia. }
    exists ((k, v) :: d), ((k, w) :: e). rewrite !fold_items_cons by (apply usable_int; auto).
    cbn [vec dat snd] in *. rewrite slice_map, Ev, Ed. cbn [bind]. unfold vec in Ew. rewrite map_length in Ew. unfold vec. rewrite ?map_length, Ew, Ee. cbn [bind].
    split; auto. split; auto. cbn [all_items]. split.
    + exists v, w. cbn [dict_get]. rewrite key_eqb_refl. auto.
    + clear -A H3. cbn [fst] in H3.
      assert (Q : forall its, ~ In k (map fst its) ->
        all_items (fun k q => exists v' w', dict_get d k = Some v' /\ dict_get e k = Some w' /\ leafwise fold_err q v' w') its ->
        all_items (fun k0 q => exists v' w', dict_get ((k, v) :: d) k0 = Some v' /\ dict_get ((k, w) :: e) k0 = Some w' /\ leafwise fold_err q v' w') its).
      { induction its as [|[k' q'] its IH]; intros N B; cbn [all_items] in *; auto. destruct B as [(v' & w' & B1 & B2 & B3) B].
        cbn [map fst] in N. split.
        - exists v', w'. rewrite !dict_get_cons_ne by (intros E; apply N; left; auto). auto.
        - apply IH; auto. intros I. apply N. right. auto. }
      apply Q; auto.
Qed.

Theorem fold_near_all : forall p, fold_near p.
Proof.
  apply (pat_ind' fold_near).
  - apply near_num.
  - apply near_simplex.
  - apply near_psd.
  - intros s b fd IH. apply near_arr. auto.
  - intros items l fl fd lk IH x Hu M L S. pose proof Hu as (_ & ND & _ & Hfl & U). cbn [modest] in M.
    destruct (near_items items 0 x IH ND U M S) as (d & e & Ed & Ee & A).
    { rewrite L, Hfl in *. cbn [flat_len pl_n plint] in *. subst fl. lia. }
    exists (FDict d), (FDict e). split; [|split].
    + cbn [pfold64]. rewrite L, Nat.eqb_refl. cbn [negb]. rewrite Ed. reflexivity.
    + rewrite fold_dict_eq by (rewrite map_length; auto). rewrite Ee. reflexivity.
    + exact A.
Qed.
End Tree.
