(** * Induction over patterns, lengths, and the non-free layout. *)
From Coq Require Import Reals.
From Verif Require Import Base Num Nd Numeric Simplex Psd Pattern Spec ListFacts.

(** ** Induction *)
Lemma pat_ind' : forall P : pat -> Prop,
  (forall k s lb ub dv fd, P (PNum k s lb ub dv fd)) ->
  (forall n s dv fd, P (PSimplex n s dv fd)) ->
  (forall sz fl d dv fd, P (PPsd sz fl d dv fd)) ->
  (forall s b fd, P b -> P (PArr s b fd)) ->
  (forall items l fl fd lk, Forall (fun kq => P (snd kq)) items -> P (PDict items l fl fd lk)) ->
  forall p, P p.
Proof.
  intros P H1 H2 H3 H4 H5.
  fix IH 1. intros [| | | |items l fl fd lk].
  - apply H1.
  - apply H2.
  - apply H3.
  - apply H4. apply IH.
  - apply H5. induction items as [|[k q] items IHi]; constructor.
    + simpl. apply IH.
    + apply IHi.
Qed.

Lemma fv_ind' : forall A (P : fv A -> Prop),
  (forall a, P (FArr a)) ->
  (forall d, Forall (fun kv => P (snd kv)) d -> P (FDict d)) ->
  forall v, P v.
Proof.
  intros A P H1 H2. fix IH 1. intros [a|d].
  - apply H1.
  - apply H2. induction d as [|[k w] d IHd]; constructor.
    + simpl. apply IH.
    + apply IHd.
Qed.

Lemma all_items_Forall : forall P its,
  all_items P its <-> Forall (fun kq => P (fst kq) (snd kq)) its.
Proof.
  induction its as [|[k q] its IH]; simpl; split; intros; auto.
  - constructor; simpl; tauto.
  - inversion H; subst; simpl in *. tauto.
Qed.

Lemma key_eqb_true : forall a b, key_eqb a b = true <-> a = b.
Proof. intros. unfold key_eqb. destruct (key_eq_dec a b); split; auto; discriminate. Qed.
Lemma key_eqb_refl : forall a, key_eqb a a = true.
Proof. intros. apply key_eqb_true; auto. Qed.
Lemma key_eqb_false : forall a b, key_eqb a b = false <-> a <> b.
Proof.
  intros. unfold key_eqb. destruct (key_eq_dec a b); split; auto; try discriminate; contradiction.
Qed.

Lemma dict_get_in : forall V (d : list (key * V)) k v, dict_get d k = Some v -> In (k, v) d.
Proof.
  induction d as [|[k' v'] d IH]; simpl; intros; try discriminate.
  destruct (key_eqb k k') eqn:E.
  - apply key_eqb_true in E. inversion H; subst; auto.
  - right; auto.
Qed.

Lemma dict_get_cons_ne : forall V (d : list (key * V)) k k' v,
  k <> k' -> dict_get ((k', v) :: d) k = dict_get d k.
Proof. intros. simpl. apply key_eqb_false in H. rewrite H. auto. Qed.

Lemma dict_get_in_nodup : forall V (d : list (key * V)) k v,
  NoDup (map fst d) -> In (k, v) d -> dict_get d k = Some v.
Proof.
  induction d as [|[k' v'] d IH]; simpl; intros; [tauto|].
  inversion H; subst. destruct H0 as [E|H0].
  - inversion E; subst. rewrite key_eqb_refl. auto.
  - destruct (key_eqb k k') eqn:E; auto. apply key_eqb_true in E. subst.
    exfalso. apply H3. apply (in_map fst) in H0. auto.
Qed.

(** ** Lengths *)
Lemma plint_n : forall l, pl_float l = false -> l = plint (pl_n l).
Proof. intros [n f]; simpl; intros; subst; auto. Qed.

Lemma np_prod_int : forall s, s <> [] -> np_prod s = plint (prod s).
Proof. intros [|n s] H; simpl; auto. contradiction. Qed.

Lemma usable_int : forall p f, usable p -> pl_float (flat_len p f) = false.
Proof.
  intros p f; revert p; apply (pat_ind' (fun p => usable p -> pl_float (flat_len p f) = false)); simpl; intros; auto.
  - rewrite np_prod_int; auto. destruct s; discriminate.
  - destruct H0 as (H0 & H1 & H2 & H3). rewrite np_prod_int by auto. simpl. auto.
  - destruct H0 as (H0 & H1 & -> & -> & H2). destruct f; auto.
Qed.

Lemma flat_len_arr : forall p, usable p -> is_dict p = false ->
  pl_n (flat_len p false) = prod (folded_shape p).
Proof.
  apply (pat_ind' (fun p => usable p -> is_dict p = false ->
     pl_n (flat_len p false) = prod (folded_shape p))); simpl; intros; auto; try discriminate.
  - rewrite np_prod_int; auto. destruct s; discriminate.
  - lia.
  - destruct H0 as (H0 & H2 & H3 & H4). rewrite np_prod_int by auto. simpl.
    rewrite H by auto. rewrite prod_app. auto.
Qed.

(** ** require_valid *)
Lemma require_valid_ok : forall A (sc : scalar A) p v vv u,
  require_valid sc p v vv = Ok u <-> validate sc p v vv = Ok None.
Proof.
  intros. unfold require_valid. destruct (validate sc p v vv) as [[m|]|e]; simpl;
    destruct u; split; intros; try discriminate; auto.
Qed.

(** One loop over all cells; the linear index is all that matters. *)
Lemma validate_cells_seq : forall A (vb : nd A -> res verdict) a s bs cells,
  shp a = s ++ bs ->
  validate_cells vb a (length s) cells = Ok None <->
  forall it, In it cells -> vb (mkNd bs (chunk (prod bs) (dat a) (ravel it s))) = Ok None.
Proof.
  intros A vb a s bs cells Hs. induction cells as [|it cells IH]; simpl.
  - split; [tauto|auto].
  - rewrite (subarr_chunk _ a it s bs Hs).
    destruct (vb (mkNd bs (chunk (prod bs) (dat a) (ravel it s)))) as [[m|]|e] eqn:E; simpl.
    + split; intros H; [discriminate|]. specialize (H it (or_introl eq_refl)). congruence.
    + rewrite IH. split; intros H; auto.
      intros it' [<-|Hin]; auto.
    + split; intros H; [discriminate|]. specialize (H it (or_introl eq_refl)). congruence.
Qed.

Lemma validate_cells_seq' : forall A (vb : nd A -> res verdict) a s bs,
  shp a = s ++ bs ->
  validate_cells vb a (length s) (indices s) = Ok None <->
  forall i, i < prod s -> vb (mkNd bs (chunk (prod bs) (dat a) i)) = Ok None.
Proof.
  intros. rewrite validate_cells_seq by eauto. split; intros H0.
  - intros i Hi. specialize (H0 (nth i (indices s) []) (nth_indices_in s i [] Hi)).
    rewrite ravel_nth in H0; auto.
  - intros it Hit. apply H0. apply ravel_lt; auto.
Qed.

Lemma validate_items_ok : forall A (vq : pat -> fv A -> res verdict) d its,
  validate_items vq d its = Ok None <->
  all_items (fun k q => exists w, dict_get d k = Some w /\ vq q w = Ok None) its.
Proof.
  induction its as [|[k q] its IH]; simpl; [split; auto|].
  destruct (dict_get d k) as [w|]; simpl.
  - destruct (vq q w) as [[m|]|e] eqn:E; simpl.
    + split; [discriminate|]. intros ((w' & E' & H) & _). inversion E'; subst. congruence.
    + rewrite IH. split; intros H; [|tauto]. split; auto. exists w; auto.
    + split; [discriminate|]. intros ((w' & E' & H) & _). inversion E'; subst. congruence.
  - split; [discriminate|]. intros ((w' & E' & H) & _). discriminate.
Qed.

Lemma num_validate_shape : forall A (sc : scalar A) s lb ub dv a vv,
  num_validate sc s lb ub dv a vv = Ok None -> s <> [] ->
  shp a = s \/ (shp a = [] /\ s = [1]).
Proof.
  intros A sc s lb ub dv a vv H Hs. unfold num_validate in H.
  destruct (shape_eqb (shp (atleast_1d a)) s) eqn:E; simpl in H; [|discriminate].
  apply shape_eqb_true in E. unfold atleast_1d in E. destruct (shp a) eqn:E2; simpl in E; auto.
  left. rewrite E2 in E. auto.
Qed.

Lemma all_items_impl : forall (P Q : key -> pat -> Prop) its,
  all_items P its -> Forall (fun kq => P (fst kq) (snd kq) -> Q (fst kq) (snd kq)) its ->
  all_items Q its.
Proof.
  intros. apply all_items_Forall. apply all_items_Forall in H.
  rewrite Forall_forall in *. auto.
Qed.

Lemma all_items_and : forall (P Q : key -> pat -> Prop) its,
  all_items (fun k q => P k q /\ Q k q) its <-> all_items P its /\ all_items Q its.
Proof. induction its as [|[k q] its IH]; simpl; tauto. Qed.

Lemma validate_shape : forall A (sc : scalar A) vv p v,
  usable p -> validate sc p v vv = Ok None -> shape_fits p v.
Proof.
  intros A sc vv.
  apply (pat_ind' (fun p => forall v, usable p -> validate sc p v vv = Ok None -> shape_fits p v));
    intros; destruct v as [a|dct]; simpl in *; try discriminate.
  - eapply num_validate_shape; eauto. tauto.
  - unfold simplex_validate in H0.
    destruct (shape_eqb (shp a) (s ++ [n])) eqn:E; simpl in H0; [|discriminate].
    apply shape_eqb_true; auto.
  - unfold psd_validate in H0.
    destruct (shape_eqb (shp a) [sz; sz]) eqn:E; [|discriminate].
    apply shape_eqb_true; auto.
  - destruct (ndim a =? length (s ++ folded_shape b)); simpl in H1; [|discriminate].
    destruct (shape_eqb (shp a) (s ++ folded_shape b)) eqn:E; simpl in H1; [|discriminate].
    apply shape_eqb_true; auto.
  - rewrite validate_items_ok in H1. destruct H0 as (_ & _ & _ & _ & Hu).
    assert (all_items (fun k q => usable q /\
        exists w, dict_get dct k = Some w /\ validate sc q w vv = Ok None) items) as H2
      by (apply all_items_and; auto).
    eapply all_items_impl; [exact H2|]. simpl.
    rewrite Forall_forall in *. intros kq Hkq (Hu' & w & Hw & Hv). exists w. split; auto.
Qed.

(** ** Equations for the container methods in terms of linear indices *)
Lemma flatten_arr_eq : forall A (sc : scalar A) s b fd a free vv,
  shp a = s ++ folded_shape b ->
  flatten_ sc (PArr s b fd) (FArr a) free vv =
  (_ <- require_valid sc (PArr s b fd) (FArr a) vv ;;
   parts <- mapM (fun i =>
       flatten_ sc b (FArr (mkNd (folded_shape b) (chunk (prod (folded_shape b)) (dat a) i))) free vv)
       (seq 0 (prod s)) ;;
   hstack parts).
Proof.
  intros. simpl. destruct (require_valid sc (PArr s b fd) (FArr a) vv) as [u|e]; simpl; auto.
  rewrite <- ravel_indices, mapM_map. f_equal.
  apply mapM_ext. intros it _. rewrite (subarr_chunk _ a it s (folded_shape b)); auto.
Qed.

Lemma size_vec : forall A (x : list A), size (vec x) = length x.
Proof. intros. unfold size, vec. simpl. lia. Qed.
Lemma atleast_vec : forall A (x : list A), atleast_1d (vec x) = vec x.
Proof. reflexivity. Qed.
Lemma ndim_vec : forall A (x : list A), ndim (vec x) = 1.
Proof. reflexivity. Qed.

Lemma fold_arr_eq : forall A (sc : scalar A) s b fd x free vv,
  usable (PArr s b fd) -> length x = pl_n (flat_len (PArr s b fd) free) ->
  fold_ sc (PArr s b fd) (vec x) free vv =
  (parts <- mapM (fun i =>
      v <- fold_ sc b (vec (chunk (pl_n (flat_len b free)) x i)) free vv ;; as_arr v)
      (seq 0 (prod s)) ;;
   a <- stack_reshape parts (s ++ folded_shape b) ;;
   if free then Ok (FArr a)
   else _ <- require_valid sc (PArr s b fd) (FArr a) vv ;; Ok (FArr a)).
Proof.
  intros A sc s b fd x free vv Hu Hl.
  pose proof Hu as (Hs & Hp & Hd & Hub).
  cbn [fold_]. rewrite atleast_vec, ndim_vec, size_vec, Hl, !Nat.eqb_refl. cbn [negb Nat.eqb].
  destruct s as [|n s]; [contradiction|].
  rewrite <- (mapM_indices _ (fun i =>
      v <- fold_ sc b (vec (chunk (pl_n (flat_len b free)) x i)) free vv ;; as_arr v)).
  assert (as_index (flat_len b free) = Ok (pl_n (flat_len b free))) as Hi.
  { unfold as_index. rewrite usable_int; auto. }
  rewrite Hi. cbn [bind]. reflexivity.
Qed.

Lemma fold_items_cons : forall A (fq : pat -> nd A -> res (fv A)) free flat k q rest off,
  pl_float (flat_len q free) = false ->
  fold_items fq free flat ((k, q) :: rest) (plint off) =
  (v <- fq q (vec (slice flat off (pl_n (flat_len q free)))) ;;
   r <- fold_items fq free flat rest (plint (off + pl_n (flat_len q free))) ;;
   Ok ((k, v) :: r)).
Proof.
  intros. simpl. unfold as_index, plen_add. simpl. rewrite H. simpl.
  replace (off + pl_n (flat_len q free) - off) with (pl_n (flat_len q free)) by lia. auto.
Qed.

Lemma fold_dict_eq : forall A (sc : scalar A) items l fl fd lk x free vv,
  length x = pl_n (flat_len (PDict items l fl fd lk) free) ->
  fold_ sc (PDict items l fl fd lk) (vec x) free vv =
  (d <- fold_items (fun q y => fold_ sc q y free vv) free x items (plint 0) ;;
   if free then Ok (FDict d)
   else _ <- require_valid sc (PDict items l fl fd lk) (FDict d) vv ;; Ok (FDict d)).
Proof.
  intros. cbn [fold_]. rewrite atleast_vec, ndim_vec, size_vec, H, !Nat.eqb_refl. reflexivity.
Qed.

(** The value part of [fold_ sc p (vec x) false vv] is [layout p x]; what is left is
    the validation. *)
Lemma skipn_skipn' : forall A (l : list A) n m, skipn n (skipn m l) = skipn (m + n) l.
Proof.
  intros A l n m; revert l; induction m; intros; simpl; auto.
  destruct l; auto. rewrite skipn_nil; auto.
Qed.

(** Validation of [layout] in a dictionary, member by member. *)
Lemma bind_assoc : forall A B C (x : res A) (f : A -> res B) (g : B -> res C),
  bind (bind x f) g = bind x (fun a => bind (f a) g).
Proof. intros A B C [a|e] f g; auto. Qed.

Lemma layout_items_get_ne : forall A (f : pat -> list A -> fv A) its x k,
  ~ In k (map fst its) -> dict_get (layout_items f its x) k = None.
Proof.
  induction its as [|[k' q] its IH]; intros x k H; simpl in *; auto.
  rewrite (proj2 (key_eqb_false k k')); auto.
Qed.

Lemma validate_items_ext : forall A (vq : pat -> fv A -> res verdict) d d' its,
  (forall k, In k (map fst its) -> dict_get d k = dict_get d' k) ->
  validate_items vq d its = validate_items vq d' its.
Proof.
  induction its as [|[k q] its IH]; intros H; simpl in *; auto.
  rewrite H by auto. destruct (dict_get d' k); auto.
  destruct (vq q f) as [[m|]|e]; simpl; auto.
Qed.

Definition rv (r : res verdict) : res unit :=
  r <- r ;; match r with None => Ok tt | Some _ => Err ValueError end.

Lemma fold_items_layout : forall A (sc : scalar A) vv x its off,
  NoDup (map fst its) ->
  Forall (fun kq => pl_float (flat_len (snd kq) false) = false /\
     forall y, length y = pl_n (flat_len (snd kq) false) ->
       fold_ sc (snd kq) (vec y) false vv =
       (_ <- require_valid sc (snd kq) (layout (snd kq) y) vv ;; Ok (layout (snd kq) y))) its ->
  off + lsum (map (fun kq => pl_n (flat_len (snd kq) false)) its) = length x ->
  fold_items (fun q y => fold_ sc q y false vv) false x its (plint off) =
  (_ <- rv (validate_items (fun q w => validate sc q w vv)
              (layout_items layout its (skipn off x)) its) ;;
   Ok (layout_items layout its (skipn off x))).
Proof.
  induction its as [|[k q] its IH]; intros off Hnd Hq Hlen.
  - reflexivity.
  - inversion Hnd; subst. inversion Hq; subst. simpl in H3.
    destruct H3 as [Hf Hfold]. simpl in Hlen.
    rewrite fold_items_cons by auto.
    assert (firstn (pl_n (flat_len q false)) (skipn off x)
            = slice x off (pl_n (flat_len q false))) as Esl by reflexivity.
    rewrite Hfold by (apply slice_length; lia).
    rewrite IH by (auto; lia).
    cbn [layout_items]. rewrite Esl, skipn_skipn'.
    set (w := layout q (slice x off (pl_n (flat_len q false)))).
    set (d := layout_items layout its (skipn (off + pl_n (flat_len q false)) x)).
    simpl. rewrite key_eqb_refl. unfold require_valid.
    destruct (validate sc q w vv) as [[m|]|e]; simpl; auto.
    rewrite (validate_items_ext _ _ ((k, w) :: d) d).
    + destruct (validate_items (fun q w => validate sc q w vv) d its) as [[m|]|e]; auto.
    + intros k' Hk'. apply dict_get_cons_ne. intros ->. auto.
Qed.

Lemma fold_nonfree_dict : forall A (sc : scalar A) vv items l fl fd lk,
  usable (PDict items l fl fd lk) ->
  Forall (fun kq =>
     forall y, length y = pl_n (flat_len (snd kq) false) ->
       fold_ sc (snd kq) (vec y) false vv =
       (_ <- require_valid sc (snd kq) (layout (snd kq) y) vv ;; Ok (layout (snd kq) y))) items ->
  forall x, length x = pl_n l ->
  fold_ sc (PDict items l fl fd lk) (vec x) false vv =
  (_ <- require_valid sc (PDict items l fl fd lk) (layout (PDict items l fl fd lk) x) vv ;;
   Ok (layout (PDict items l fl fd lk) x)).
Proof.
  intros A sc vv items l fl fd lk Hu Hq x Hx.
  rewrite fold_dict_eq by auto.
  destruct Hu as (_ & Hnd & Hl & _ & Hu). subst l. simpl in Hx.
  rewrite fold_items_layout; auto.
  - simpl. unfold rv, require_valid. simpl.
    destruct (validate_items (fun q w => validate sc q w vv)
                (layout_items layout items x) items) as [[m|]|e] eqn:E; simpl; auto.
    rewrite E. simpl. auto.
  - apply all_items_Forall in Hu. rewrite Forall_forall in *. intros kq Hkq. split; auto.
    apply usable_int. apply (Hu kq Hkq).
Qed.

(** Cells: the loop of base folds followed by the loop of validations. *)
Lemma fold_cells_layout : forall A (fb : list A -> res (nd A)) (vb : nd A -> res verdict)
    (mk : list A -> nd A) (blk : nat -> list A) (n : nat),
  (forall i, i < n -> fb (blk i) = (_ <- rv (vb (mk (blk i))) ;; Ok (mk (blk i)))) ->
  mapM (fun i => fb (blk i)) (seq 0 n) =
  (_ <- mapM (fun i => rv (vb (mk (blk i)))) (seq 0 n) ;;
   Ok (map (fun i => mk (blk i)) (seq 0 n))).
Proof.
  intros A fb vb mk blk n H.
  assert (forall l, (forall i, In i l -> i < n) ->
    mapM (fun i => fb (blk i)) l =
    (_ <- mapM (fun i => rv (vb (mk (blk i)))) l ;; Ok (map (fun i => mk (blk i)) l))) as E.
  { induction l as [|i l IH]; intros Hl; simpl; auto.
    rewrite H by (apply Hl; left; auto).
    destruct (rv (vb (mk (blk i)))); simpl; auto.
    rewrite IH by (intros; apply Hl; right; auto).
    destruct (mapM (fun i => rv (vb (mk (blk i)))) l); simpl; auto. }
  apply E. intros i Hi. apply in_seq in Hi. lia.
Qed.

Lemma validate_cells_rv : forall A (vb : nd A -> res verdict) a s bs,
  shp a = s ++ bs ->
  rv (validate_cells vb a (length s) (indices s)) =
  (_ <- mapM (fun i => rv (vb (mkNd bs (chunk (prod bs) (dat a) i)))) (seq 0 (prod s)) ;; Ok tt).
Proof.
  intros A vb a s bs Hs.
  rewrite <- (mapM_indices _ (fun i => rv (vb (mkNd bs (chunk (prod bs) (dat a) i))))).
  induction (indices s) as [|it l IH]; simpl; auto.
  rewrite (subarr_chunk _ a it s bs Hs).
  destruct (vb (mkNd bs (chunk (prod bs) (dat a) (ravel it s)))) as [[m|]|e]; simpl; auto.
  rewrite IH.
  destruct (mapM (fun a0 => rv (vb (mkNd bs (chunk (prod bs) (dat a) (ravel a0 s))))) l); auto.
Qed.

Lemma fold_nonfree_arr : forall A (sc : scalar A) vv p,
  usable p -> is_dict p = false ->
  forall x, length x = pl_n (flat_len p false) ->
  fold_ sc p (vec x) false vv =
  (_ <- require_valid sc p (FArr (mkNd (folded_shape p) x)) vv ;;
   Ok (FArr (mkNd (folded_shape p) x))).
Proof.
  intros A sc vv. 
  apply (pat_ind' (fun p => usable p -> is_dict p = false ->
    forall x, length x = pl_n (flat_len p false) ->
    fold_ sc p (vec x) false vv =
    (_ <- require_valid sc p (FArr (mkNd (folded_shape p) x)) vv ;;
     Ok (FArr (mkNd (folded_shape p) x))))); try discriminate.
  - intros k s lb ub dv fd Hu _ x Hx. simpl in Hx.
    cbn [fold_]. rewrite atleast_vec, ndim_vec, size_vec, Hx, !Nat.eqb_refl. cbn [negb Nat.eqb].
    unfold reshape. rewrite size_vec, Hx, !Nat.eqb_refl. reflexivity.
  - intros n s dv fd Hu _ x Hx. cbn [fold_ pylen vec shp bind].
    rewrite Hx. rewrite Nat.eqb_refl. cbn [negb].
    unfold reshape. change (mkNd [length x] x) with (vec x). rewrite size_vec, Hx.
    cbn [flat_len]. rewrite np_prod_int by (destruct s; discriminate).
    cbn [pl_n plint]. rewrite Nat.eqb_refl. reflexivity.
  - intros sz fl d dv fd Hu _ x Hx. simpl in Hx.
    cbn [fold_ flat_len plint pl_n]. rewrite atleast_vec, ndim_vec, size_vec, Hx, !Nat.eqb_refl. cbn [negb Nat.eqb].
    unfold reshape. rewrite size_vec, Hx. cbn [prod fold_right].
    rewrite Nat.mul_1_r, !Nat.eqb_refl. reflexivity.
  - intros s b fd IH Hu _ x Hx. rewrite fold_arr_eq by auto.
    pose proof Hu as (Hs & Hp & Hd & Hub).
    pose proof (flat_len_arr b Hub Hd) as Hbl.
    pose proof (flat_len_arr _ Hu eq_refl) as Hpl.
    assert (length x = prod s * prod (folded_shape b)) as Hx'.
    { rewrite Hx, Hpl. simpl. rewrite prod_app. auto. }
    rewrite Hbl.
    pose proof (fold_cells_layout A (fun y => v <- fold_ sc b (vec y) false vv ;; as_arr v)
       (fun a => validate sc b (FArr a) vv)
       (fun y => mkNd (folded_shape b) y)
       (fun i => chunk (prod (folded_shape b)) x i) (prod s)) as Hc.
    cbv beta in Hc. rewrite Hc; clear Hc.
    2:{ intros i Hi. rewrite IH; auto.
        - unfold require_valid, rv.
          destruct (validate sc b _ vv) as [[m|]|e]; auto.
        - rewrite Hbl. eapply chunk_length; eauto. }
    unfold require_valid. simpl validate. simpl folded_shape.
    unfold ndim. cbn [shp]. rewrite Nat.eqb_refl, shape_eqb_refl. cbn [negb].
    pose proof (validate_cells_rv _ (fun sub => validate sc b (FArr sub) vv)
       (mkNd (s ++ folded_shape b) x) s (folded_shape b) eq_refl) as Hrv.
    unfold rv at 1 in Hrv. cbn [shp dat] in Hrv.
    rewrite bind_assoc.
    destruct (mapM (fun i => rv (validate sc b
        (FArr (mkNd (folded_shape b) (chunk (prod (folded_shape b)) x i))) vv)) (seq 0 (prod s)))
      as [u|e] eqn:Em; cbn [bind] in *.
    + unfold stack_reshape.
      rewrite flat_map_concat, map_map. cbn [dat].
      assert (concat (map (fun i => chunk (prod (folded_shape b)) x i) (seq 0 (prod s))) = x) as ->.
      { apply (concat_chunks _ (prod (folded_shape b)) (prod s)). auto. }
      rewrite Hx', prod_app, !Nat.eqb_refl. cbn [bind].
      unfold ndim. cbn [shp]. rewrite Nat.eqb_refl, shape_eqb_refl. cbn [negb].
      rewrite Hrv. auto.
    + rewrite Hrv. auto.
Qed.

Theorem fold_nonfree : forall A (sc : scalar A) vv p,
  usable p ->
  forall x, length x = pl_n (flat_len p false) ->
  fold_ sc p (vec x) false vv =
  (_ <- require_valid sc p (layout p x) vv ;; Ok (layout p x)).
Proof.
  intros A sc vv.
  apply (pat_ind' (fun p => usable p ->
    forall x, length x = pl_n (flat_len p false) ->
    fold_ sc p (vec x) false vv =
    (_ <- require_valid sc p (layout p x) vv ;; Ok (layout p x))));
    try (intros; apply fold_nonfree_arr; auto; fail).
  intros items l fl fd lk IH Hu x Hx.
  apply fold_nonfree_dict; auto.
  destruct Hu as (_ & _ & _ & _ & Hu). apply all_items_Forall in Hu.
  rewrite Forall_forall in *. intros kq Hkq. apply IH; auto.
Qed.
