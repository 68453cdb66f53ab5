(** * Memory layout of flattened values, and the consequences for writes. *)
From Coq Require Import Lia.
From Verif Require Import Base Num Nd Numeric Simplex Psd Pattern Spec ListFacts PatFacts NonFree Contract Api Alias SpecAlias
  AliasFacts.
Local Open Scope list_scope.
Local Open Scope nat_scope.

Lemma item_ok : forall h a item s t, r_ok h a -> r_shp a = s ++ t -> In item (indices s) ->
  r_ok h (v_item a item (length s)) /\ r_get h (v_item a item (length s)) = subarr (r_get h a) item (length s).
Proof.
  intros h a item s t (H1 & H2) E Hin. pose proof (ravel_lt s item Hin) as Lt.
  assert (F: firstn (length s) (r_shp a) = s).
  { rewrite E, firstn_app, Nat.sub_diag, firstn_all, firstn_O, app_nil_r. reflexivity. }
  assert (K: skipn (length s) (r_shp a) = t).
  { rewrite E, skipn_app, Nat.sub_diag, skipn_all, skipn_O. reflexivity. }
  assert (P: prod (r_shp a) = prod s * prod t) by (rewrite E; apply prod_app).
  assert (Le: ravel item s * prod t + prod t <= prod (r_shp a)) by nia.
  unfold v_item, subarr, r_ok, r_get. cbn [r_buf r_off r_shp shp dat]. rewrite F, K.
  split; [split; auto; lia|]. rewrite slice_slice by lia. reflexivity.
Qed.

Lemma require_arr_shape : forall s b fd a vv u, require_valid snum (PArr s b fd) (FArr a) vv = Ok u ->
  shp a = s ++ folded_shape b.
Proof.
  intros s b fd a vv u H. unfold require_valid in H. cbn [validate] in H.
  destruct (negb (ndim a =? length (folded_shape (PArr s b fd)))); cbn [bind] in H; [discriminate H|].
  destruct (shape_eqb (shp a) (folded_shape (PArr s b fd))) eqn:E; cbn [negb bind] in H; [|discriminate H].
  apply shape_eqb_true in E. exact E.
Qed.

Definition flat_to (h0 h : bufs) (a : aref) (l : list num) : Prop :=
  r_get h a = vec l /\ r_ok h a /\ length h0 <= r_buf a.

Lemma flat_to_grow : forall h0 h ext a l, flat_to h0 h a l -> flat_to h0 (h ++ ext) a l.
Proof. intros h0 h ext a l (G & O & L). repeat split; try apply r_ok_grow; auto. rewrite r_get_grow; auto. Qed.

Lemma sim_vec : forall h0 h l, length h0 <= length h -> sim h (alloc (vec l)) (Ok l) (flat_to h0).
Proof.
  intros h0 h l Le. apply sim_alloc. destruct (alloc_get h (vec l)) as (G & O).
  - cbn [vec dat shp prod fold_right]. lia.
  - split; [exact G|]. split; [exact O|]. exact Le.
Qed.

Lemma sim_hstack : forall h0 h refs parts, length h0 <= length h -> Forall2 (flat_to h0 h) refs parts ->
  sim h (hstack_new refs) (hstack parts) (flat_to h0).
Proof.
  intros h0 h refs parts Le F2. unfold hstack_new.
  assert (E: map (fun r => dat (r_get h r)) refs = parts).
  { induction F2 as [|r a l m (G & _) _ IH]; cbn [map]; auto. rewrite G, IH. reflexivity. }
  rewrite <- E. unfold sim, hbind, look. cbn [fst snd].
  destruct (hstack (map (fun r => dat (r_get h r)) refs)) as [x|e]; cbn [fst snd].
  - apply (sim_vec h0 h x Le).
  - exists []. rewrite app_nil_r. auto.
Qed.

Definition flat_sound (p : pat) : Prop := forall v free vv h0 h, length h0 <= length h -> v_ok h v ->
  sim h (hflatten_ p v free vv) (flatten_ snum p (h_read h v) free vv) (flat_to h0).

Lemma dict_get_read : forall h d k,
  dict_get (map (fun kw => (fst kw, h_read h (snd kw))) d) k = option_map (h_read h) (dict_get d k).
Proof. intros h d k. induction d as [|[k' w] d IH]; cbn [map dict_get fst snd]; auto. destruct (key_eqb k k'); auto. Qed.

Lemma flatten_items_sound : forall free vv h0 d its, Forall (fun kq => flat_sound (snd kq)) its ->
  forall h, length h0 <= length h -> v_ok h (HDict d) ->
  sim h (hflatten_items (fun q w => hflatten_ q w free vv) d its)
    (flatten_items (fun q w => flatten_ snum q w free vv) (map (fun kw => (fst kw, h_read h (snd kw))) d) its)
    (fun h' => Forall2 (flat_to h0 h')).
Proof.
  intros free vv h0 d its F. induction F as [|[k q] its Hq F IH]; intros h Le O.
  - cbn [hflatten_items flatten_items]. apply sim_look. eexists; split; [reflexivity|constructor].
  - cbn [hflatten_items flatten_items]. rewrite dict_get_read.
    destruct (dict_get d k) as [w|] eqn:E; cbn [option_map]; [|apply sim_err].
    assert (Ow: v_ok h w).
    { apply v_ok_dict in O. rewrite Forall_forall in O. apply (O (k, w)). apply dict_get_in; auto. }
    eapply sim_bind; [apply Hq with (h0 := h0); auto|].
    intros ext a l Ha. eapply sim_bind.
    + specialize (IH (h ++ ext) ltac:(rewrite app_length; lia) (v_ok_grow _ _ _ O)).
      replace (map (fun kw => (fst kw, h_read (h ++ ext) (snd kw))) d)
        with (map (fun kw => (fst kw, h_read h (snd kw))) d) in IH; [exact IH|].
      apply map_ext_in. intros kw Hin. rewrite h_read_grow; auto.
      apply v_ok_dict in O. rewrite Forall_forall in O. auto.
    + intros ext2 rs ls Hr. apply sim_look. eexists; split; [reflexivity|].
      constructor; auto. apply flat_to_grow; auto.
Qed.

Theorem hflatten_sound : forall p, flat_sound p.
Proof.
  apply pat_ind'.
  - intros k s lb ub dv fd [r|d] free vv h0 h Le O; cbn [hflatten_ flatten_ h_read]; [|apply sim_err].
    inversion O as [|? ? Or _]; subst. rewrite <- at_get. set (a := v_atleast r).
    eapply (sim_bind _ _ _ _ _ _ _ (fun h' _ _ => h' = h)); [apply sim_look; destruct (require_valid _ _ _ _); eauto|].
    intros ext u u' ->. cbn [to_num of_num snum].
    destruct free.
    + apply (sim_vec h0 h (map (unconstrain1 (pyval lb) (pyval ub)) (dat (r_get h a))) Le).
    + apply (sim_vec h0 h (dat (r_get h a)) Le).
  - intros n s dv fd [r|d] free vv h0 h Le O; cbn [hflatten_ flatten_ h_read]; [|apply sim_err].
    eapply (sim_bind _ _ _ _ _ _ _ (fun h' _ _ => h' = h)); [apply sim_look; destruct (require_valid _ _ _ _); eauto|].
    intros ext u u' ->. cbn [to_num of_num snum]. rewrite !map_same.
    destruct free.
    + apply (sim_vec h0 h (flat_map unconstrain_row (chunks n (prod s) (dat (r_get h r)))) Le).
    + apply (sim_vec h0 h (dat (r_get h r)) Le).
  - intros sz fl dl dv fd [r|d] free vv h0 h Le O; cbn [hflatten_ flatten_ h_read]; [|apply sim_err].
    eapply (sim_bind _ _ _ _ _ _ _ (fun h' _ _ => h' = h)); [apply sim_look; destruct (require_valid _ _ _ _); eauto|].
    intros ext u u' ->. cbn [to_num of_num snum]. rewrite nd_map_same.
    assert (E: (if free then x <- pack_posdef sz (mat_of sz (r_get h r)) (pyval dl);; Ok (map (fun x => x) x)
                else Ok (dat (r_get h r)))
             = (x <- (if free then pack_posdef sz (mat_of sz (r_get h r)) (pyval dl) else Ok (dat (r_get h r))) ;; Ok x)).
    { destruct free; auto. destruct (pack_posdef _ _ _); cbn [bind]; auto. rewrite map_same. reflexivity. }
    rewrite E.
    eapply (sim_bind _ _ _ _ _ _ _ (fun h' x y => h' = h /\ x = y)).
    + apply sim_look. destruct free; [destruct (pack_posdef _ _ _) as [x|e]; [exists x|]; auto|]. eexists; split; [reflexivity|auto].
    + intros ext2 x y (-> & ->). apply sim_vec; auto.
  - intros s b fd IH [r|d] free vv h0 h Le O; cbn [hflatten_ flatten_ h_read]; [|apply sim_err].
    inversion O as [|? ? Or _]; subst.
    eapply (sim_bind _ _ _ _ _ _ _ (fun h' _ _ => h' = h /\ r_shp r = s ++ folded_shape b)).
    { apply sim_look. destruct (require_valid _ _ _ _) eqn:E; auto. apply require_arr_shape in E. eauto. }
    intros ext u u' (-> & Sh).
    eapply sim_bind.
    + apply sim_mapM with (R := flat_to h0).
      * intros. apply flat_to_grow; auto.
      * intros it ext2 Hin. destruct (item_ok (h ++ ext2) r it s (folded_shape b) (r_ok_grow _ _ _ Or) Sh Hin) as (O2 & G2).
        rewrite <- (r_get_grow h ext2 r Or), <- G2.
        change (FArr (r_get (h ++ ext2) (v_item r it (length s)))) with (h_read (h ++ ext2) (HArr (v_item r it (length s)))).
        apply IH; [rewrite app_length; lia|]. repeat constructor; apply O2.
    + intros ext2 refs parts F2. apply sim_hstack; auto. rewrite app_length; lia.
  - intros items l fl fd lk IH [r|d] free vv h0 h Le O; cbn [hflatten_ flatten_ h_read]; [apply sim_err|].
    eapply (sim_bind _ _ _ _ _ _ _ (fun h' _ _ => h' = h)); [apply sim_look; cbn [h_read]; destruct (require_valid _ _ _ _); eauto|].
    intros ext u u' ->. eapply sim_bind; [apply flatten_items_sound with (h0 := h0); auto|].
    intros ext2 refs parts F2. apply sim_hstack; auto. rewrite app_length; lia.
Qed.

(** ** Writes *)

Lemma slice_nth_error : forall A (l : list A) o n i, nth_error (slice l o n) i = if i <? n then nth_error l (o + i) else None.
Proof.
  intros A l o n i. unfold slice. destruct (Nat.ltb_spec i n).
  - transitivity (nth_error (skipn o l) i).
    + generalize (skipn o l) as m. revert i H. induction n as [|n IH]; intros i H m; [lia|].
      destruct m as [|a m]; [destruct i; auto|]. destruct i as [|i]; cbn [firstn nth_error]; auto. apply IH. lia.
    + clear H. revert l. induction o as [|o IH]; intros [|a l]; cbn [skipn nth_error Nat.add]; auto. destruct i; auto.
  - apply nth_error_None. rewrite firstn_length. lia.
Qed.
Lemma nth_error_ext : forall A (l m : list A), (forall i, nth_error l i = nth_error m i) -> l = m.
Proof.
  induction l as [|a l IH]; intros [|b m] H; auto.
  - specialize (H 0). discriminate H.
  - specialize (H 0). discriminate H.
  - f_equal; [specialize (H 0); cbn in H; congruence|]. apply IH. intros i. apply (H (S i)).
Qed.

Lemma wrote_apart : forall l h1 h2 s, wrote l h1 h2 -> (forall r, In r l -> apart r s) -> r_get h2 s = r_get h1 s.
Proof.
  intros l h1 h2 s (_ & W) A. unfold r_get. f_equal. apply nth_error_ext. intros i. rewrite !slice_nth_error.
  destruct (Nat.ltb_spec i (prod (r_shp s))); auto. apply (proj2 (W (r_buf s))).
  intros r Hr (B & L). destruct (A r Hr) as [H1|[H1|H1]]; [congruence|lia|lia].
Qed.
Lemma wrote_read : forall l h1 h2 v, wrote l h1 h2 -> (forall r s, In r l -> In s (arrays v) -> apart r s) ->
  h_read h2 v = h_read h1 v.
Proof.
  intros l h1 h2 v W. revert v.
  apply (hv_ind' (fun v => (forall r s, In r l -> In s (arrays v) -> apart r s) -> h_read h2 v = h_read h1 v)).
  - intros s H. cbn [h_read]. f_equal. apply (wrote_apart l); auto. intros r Hr. apply H; auto. left; auto.
  - intros d F H. cbn [h_read]. f_equal. apply map_ext_in. intros kw Hin. rewrite Forall_forall in F.
    rewrite (F kw Hin); auto. intros r s Hr Hs. apply H; auto. cbn [arrays]. apply in_flat_map. eauto.
Qed.
Lemma apart_sym : forall r s, apart r s -> apart s r.
Proof. unfold apart. intros r s [H|[H|H]]; [left; congruence|right; right; auto|right; left; auto]. Qed.

(** ** The public methods *)

Lemma hfold_free : forall p x f vv h, hfold p x (Some f) vv h = hfold_ p x f vv h.
Proof. intros. reflexivity. Qed.
Lemma hflatten_free : forall p v f vv h, hflatten p v (Some f) vv h = hflatten_ p v f vv h.
Proof. intros. reflexivity. Qed.

Lemma fold_values : forall p x free vv h, usable p -> r_ok h x ->
  exists ext, snd (hfold p x free vv h) = h ++ ext /\
    fold p (r_get h x) free vv =
    match fst (hfold p x free vv h) with Ok v => Ok (h_read (h ++ ext) v) | Err e => Err e end.
Proof.
  intros p x free vv h U O. unfold hfold, fold, fold_gen, hbind, look.
  destruct (free_with_default p free) as [f|e]; cbn [fst snd bind]; [|exists []; rewrite app_nil_r; auto].
  destruct (hfold_sound p x f vv h U O) as (ext & E1 & E2). exists ext. split; auto.
  destruct (fst (hfold_ p x f vv h)); auto. destruct E2 as (b & -> & (R & _)). congruence.
Qed.

Lemma flatten_values : forall p v free vv h, v_ok h v ->
  exists ext, snd (hflatten p v free vv h) = h ++ ext /\
    match fst (hflatten p v free vv h) with
    | Ok a => exists l, r_get (h ++ ext) a = vec l /\ flatten p (h_read h v) free vv = Ok l
    | Err e => flatten p (h_read h v) free vv = Err e
    end.
Proof.
  intros p v free vv h O. unfold hflatten, flatten, flatten_gen, hbind, look.
  destruct (free_with_default p free) as [f|e]; cbn [fst snd bind]; [|exists []; rewrite app_nil_r; auto].
  destruct (hflatten_sound p v f vv h h (le_n _) O) as (ext & E1 & E2). exists ext. split; auto.
  destruct (fst (hflatten_ p v f vv h)); auto. destruct E2 as (b & -> & (R & _)). eauto.
Qed.

(** Where the arrays of a folded value are. *)
Lemma hfold_placed : forall p x f vv h v h', usable p -> r_ok h x -> hfold p x (Some f) vv h = (Ok v, h') ->
  exists ext, h' = h ++ ext /\ placed h x (shares p f) h' (arrays v).
Proof.
  intros p x f vv h v h' U O E. rewrite hfold_free in E.
  destruct (hfold_sound p x f vv h U O) as (ext & E1 & E2). rewrite E in E1, E2. cbn [fst snd] in E1, E2.
  exists ext. split; auto. destruct E2 as (b & _ & (_ & P)). rewrite E1. exact P.
Qed.

Lemma fresh_independent : forall h y l v, r_ok h y -> l = arrays v -> Forall (fun s => length h <= r_buf s) l ->
  (forall h1 h2, wrote [y] h1 h2 -> h_read h2 v = h_read h1 v) /\
  (forall h1 h2, wrote l h1 h2 -> r_get h2 y = r_get h1 y).
Proof.
  intros h y l v (O & _) -> F. rewrite Forall_forall in F. split; intros h1 h2 W.
  - apply (wrote_read [y]); auto. intros r s [<-|[]] Hs. left. specialize (F s Hs). lia.
  - apply (wrote_apart (arrays v)); auto. intros r Hr. left. specialize (F r Hr). lia.
Qed.

(** [free=True]: no memory in common with anything that existed before. *)
Lemma free_fold_independent : forall p x vv h v h', usable p -> r_ok h x ->
  hfold p x (Some true) vv h = (Ok v, h') ->
  forall y, r_ok h y ->
  (forall h2, wrote [y] h' h2 -> h_read h2 v = h_read h' v) /\
  (forall h2, wrote (arrays v) h' h2 -> r_get h2 y = r_get h' y).
Proof.
  intros p x vv h v h' U O E y Oy. destruct (hfold_placed p x true vv h v h' U O E) as (ext & -> & (P1 & P2 & P3)).
  destruct (fresh_independent h y (arrays v) v Oy eq_refl) as (A & B); [|split; intros h2; auto].
  eapply Forall_impl; [|exact P2]. intros s [H|(H & _)]; [auto|]. discriminate H.
Qed.

(** A [PatternArray] copies with either value of [free]. *)
Lemma array_fold_independent : forall s b fd x f vv h v h', usable (PArr s b fd) -> r_ok h x ->
  hfold (PArr s b fd) x (Some f) vv h = (Ok v, h') ->
  forall y, r_ok h y ->
  (forall h2, wrote [y] h' h2 -> h_read h2 v = h_read h' v) /\
  (forall h2, wrote (arrays v) h' h2 -> r_get h2 y = r_get h' y).
Proof.
  intros s b fd x f vv h v h' U O E y Oy. destruct (hfold_placed _ x f vv h v h' U O E) as (ext & -> & (P1 & P2 & P3)).
  destruct (fresh_independent h y (arrays v) v Oy eq_refl) as (A & B); [|split; intros h2; auto].
  eapply Forall_impl; [|exact P2]. intros r [H|(H & _)]; [auto|]. unfold shares in H. rewrite andb_false_r in H. discriminate H.
Qed.

(** [flatten] always copies. *)
Lemma flatten_independent : forall p v f vv h a h', v_ok h v ->
  hflatten p v (Some f) vv h = (Ok a, h') ->
  (forall h2, wrote [a] h' h2 -> h_read h2 v = h_read h' v) /\
  (forall h2, wrote (arrays v) h' h2 -> r_get h2 a = r_get h' a).
Proof.
  intros p v f vv h a h' O E. rewrite hflatten_free in E.
  destruct (hflatten_sound p v f vv h h (le_n _) O) as (ext & E1 & E2). rewrite E in E1, E2. cbn [fst snd] in E1, E2.
  destruct E2 as (l & _ & (_ & _ & Fr)). unfold v_ok in O. rewrite Forall_forall in O. split; intros h2 W.
  - apply (wrote_read [a]); auto. intros r s [<-|[]] Hs. left. destruct (O s Hs) as (L & _). lia.
  - apply (wrote_apart (arrays v)); auto. intros r Hr. left. destruct (O r Hr) as (L & _). lia.
Qed.

(** The arrays of one folded value do not overlap. *)
Lemma members_independent : forall p x f vv h v h', usable p -> r_ok h x ->
  hfold p x (Some f) vv h = (Ok v, h') ->
  forall i j r s, i <> j -> nth_error (arrays v) i = Some r -> nth_error (arrays v) j = Some s ->
  forall h2, wrote [r] h' h2 -> r_get h2 s = r_get h' s.
Proof.
  intros p x f vv h v h' U O E i j r s Hij Hr Hs h2 W.
  destruct (hfold_placed p x f vv h v h' U O E) as (ext & _ & (_ & _ & P)).
  apply (wrote_apart [r]); auto. intros r' [<-|[]]. clear - P Hij Hr Hs.
  revert i j Hij Hr Hs. induction P as [|a l F P IH]; intros i j Hij Hr Hs; [destruct i; discriminate Hr|].
  rewrite Forall_forall in F. destruct i as [|i], j as [|j]; cbn [nth_error] in *.
  - contradiction.
  - injection Hr as ->. apply F. eapply nth_error_In; eauto.
  - injection Hs as ->. apply apart_sym. apply F. eapply nth_error_In; eauto.
  - apply (IH i j); auto.
Qed.

(** ** [free=False] returns views *)

Lemma checked_view_inv : forall p r s vv h v h', checked_view p r s vv h = (Ok v, h') ->
  h' = h /\ exists w, v_reshape r s = Ok w /\ v = HArr w.
Proof.
  intros p r s vv h v h' E. unfold checked_view, look in E.
  destruct (v_reshape r s) as [w|e]; cbn [bind] in E; [|discriminate E].
  destruct (require_valid _ _ _ _); cbn [bind] in E; [|discriminate E]. injection E as <- <-. eauto.
Qed.

Definition same_view (p : pat) : Prop := forall x vv vv2 h h2 v v2 h' h2', no_arrays p ->
  hfold_ p x false vv h = (Ok v, h') -> hfold_ p x false vv2 h2 = (Ok v2, h2') -> v = v2 /\ h' = h.

Lemma items_view : forall its, Forall (fun kq => same_view (snd kq)) its -> all_items (fun _ q => no_arrays q) its ->
  forall vv vv2 flat off h h2 d d2 h' h2',
  hfold_items (fun q y => hfold_ q y false vv) false flat its off h = (Ok d, h') ->
  hfold_items (fun q y => hfold_ q y false vv2) false flat its off h2 = (Ok d2, h2') -> d = d2 /\ h' = h.
Proof.
  intros its F. induction F as [|[k q] its Hq F IH]; intros N vv vv2 flat off h h2 d d2 h' h2' E1 E2.
  - cbn [hfold_items] in *. unfold look in *. injection E1 as <- <-. injection E2 as <- <-. auto.
  - cbn [all_items] in N. destruct N as (Nq & N). cbn [hfold_items] in E1, E2. unfold hbind, look in E1, E2.
    destruct (o <- as_index off ;; _) as [os|e]; [|discriminate E1].
    destruct (hfold_ q (v_slice flat (fst os) (snd os - fst os)) false vv h) as [[v|e] h1] eqn:V1; [|discriminate E1].
    destruct (hfold_ q (v_slice flat (fst os) (snd os - fst os)) false vv2 h2) as [[v2|e] h3] eqn:V2; [|discriminate E2].
    destruct (Hq _ _ _ _ _ _ _ _ _ Nq V1 V2) as (-> & ->).
    destruct (hfold_items _ false flat its _ h) as [[r|e] h4] eqn:R1; [|discriminate E1].
    destruct (hfold_items _ false flat its _ h3) as [[r2|e] h5] eqn:R2; [|discriminate E2].
    destruct (IH N _ _ _ _ _ _ _ _ _ _ R1 R2) as (-> & ->).
    injection E1 as <- <-. injection E2 as <- <-. auto.
Qed.

Lemma view_same : forall p, same_view p.
Proof.
  apply pat_ind'.
  - intros k s lb ub dv fd x vv vv2 h h2 v v2 h' h2' N E1 E2. cbn [hfold_] in E1, E2.
    destruct (negb _); [discriminate E1|]. destruct (negb _); [discriminate E1|].
    apply checked_view_inv in E1. apply checked_view_inv in E2.
    destruct E1 as (-> & w & W1 & ->). destruct E2 as (-> & w2 & W2 & ->). split; congruence.
  - intros n s dv fd x vv vv2 h h2 v v2 h' h2' N E1 E2. cbn [hfold_] in E1, E2. unfold hbind, look in E1, E2.
    destruct (v_len x) as [len|e]; [|discriminate E1]. destruct (negb _); [discriminate E1|].
    apply checked_view_inv in E1. apply checked_view_inv in E2.
    destruct E1 as (-> & w & W1 & ->). destruct E2 as (-> & w2 & W2 & ->). split; congruence.
  - intros sz fl d dv fd x vv vv2 h h2 v v2 h' h2' N E1 E2. cbn [hfold_] in E1, E2.
    destruct (negb _); [discriminate E1|]. destruct (negb _); [discriminate E1|].
    apply checked_view_inv in E1. apply checked_view_inv in E2.
    destruct E1 as (-> & w & W1 & ->). destruct E2 as (-> & w2 & W2 & ->). split; congruence.
  - intros s b fd _ x vv vv2 h h2 v v2 h' h2' N. contradiction.
  - intros items l fl fd lk IH x vv vv2 h h2 v v2 h' h2' N E1 E2. cbn [hfold_] in E1, E2. cbn [no_arrays] in N.
    destruct (negb _); [discriminate E1|]. destruct (negb _); [discriminate E1|].
    unfold hbind, look in E1, E2.
    destruct (hfold_items _ false _ items _ h) as [[d|e] h3] eqn:R1; [|discriminate E1].
    destruct (hfold_items _ false _ items _ h2) as [[d2|e] h4] eqn:R2; [|discriminate E2].
    destruct (items_view items IH N _ _ _ _ _ _ _ _ _ _ R1 R2) as (-> & ->).
    destruct (require_valid _ _ _ vv); cbn [bind] in E1; [|discriminate E1].
    destruct (require_valid _ _ _ vv2); cbn [bind] in E2; [|discriminate E2].
    injection E1 as <- <-. injection E2 as <- <-. auto.
Qed.

Lemma lenient_false : forall p, lenient p (Some false).
Proof.
  apply pat_ind'; intros; cbn [lenient]; auto. apply all_items_Forall. exact H.
Qed.

Lemma get_vec : forall h x n, r_ok h x -> r_shp x = [n] -> r_get h x = vec (dat (r_get h x)) /\ length (dat (r_get h x)) = n.
Proof.
  intros h x n O S. pose proof (r_get_len h x O) as L. rewrite S in L. cbn [prod fold_right] in L.
  split; [|lia]. unfold vec. rewrite L, Nat.mul_1_r. unfold r_get. rewrite S. reflexivity.
Qed.

Lemma fold_view : forall p x n vv h v h', usable p -> no_arrays p -> r_ok h x -> r_shp x = [n] ->
  flat_length p (Some false) = Ok (plint n) -> hfold p x (Some false) vv h = (Ok v, h') ->
  h' = h /\ forall h2, r_ok h2 x -> fold p (r_get h2 x) (Some false) (Some false) = Ok (h_read h2 v).
Proof.
  intros p x n vv h v h' U N O S L E. rewrite hfold_free in E.
  assert (A: forall h2, r_ok h2 x -> exists v2, hfold_ p x false (Some false) h2 = (Ok v2, h2) /\
             fold p (r_get h2 x) (Some false) (Some false) = Ok (h_read h2 v2)).
  { intros h2 O2. destruct (get_vec h2 x n O2 S) as (Ev & El).
    destruct (proj1 (api_lenient _ snum p (Some false) U (lenient_false p)) (dat (r_get h2 x))) as (w & Fw).
    { rewrite El. exact L. }
    rewrite <- Ev in Fw. destruct (fold_values p x (Some false) (Some false) h2 U O2) as (ext & E1 & E2).
    rewrite hfold_free in E1, E2. unfold fold in E2. rewrite Fw in E2.
    destruct (hfold_ p x false (Some false) h2) as [[v2|e] h3] eqn:R; cbn [fst snd] in *; [|discriminate E2].
    destruct (view_same p x _ _ _ _ _ _ _ _ N R R) as (_ & ->).
    exists v2. split; auto. unfold fold. rewrite Fw, E2, <- E1. reflexivity. }
  destruct (A h O) as (v0 & R0 & _). destruct (view_same p x _ _ _ _ _ _ _ _ N E R0) as (_ & ->).
  split; auto. intros h2 O2. destruct (A h2 O2) as (v2 & R2 & F2).
  destruct (view_same p x _ _ _ _ _ _ _ _ N E R2) as (-> & _). exact F2.
Qed.

(** "Never return a reference" fails: a write into the vector is a write into the
    folded value. *)
Lemma nth_upd : forall A (l : list A) i c d, i < length l -> nth i (upd l i c) d = c.
Proof. induction l as [|a l IH]; intros [|i] c d H; cbn in *; try lia; auto. apply IH. lia. Qed.
Lemma len_upd : forall A (l : list A) i c, length (upd l i c) = length l.
Proof. induction l as [|a l IH]; intros [|i] c; cbn; auto. Qed.
Lemma r_set_ok : forall h x i c r, r_ok h r -> r_ok (r_set h x i c) r.
Proof.
  intros h x i c r (H1 & H2). unfold r_set, r_ok. rewrite len_upd. split; auto.
  destruct (Nat.eq_dec (r_buf r) (r_buf x)) as [E|Ne].
  - rewrite E in *. rewrite nth_upd by auto. rewrite len_upd. auto.
  - enough (nth (r_buf r) (upd h (r_buf x) (upd (nth (r_buf x) h []) (r_off x + i) c)) [] = nth (r_buf r) h []) as ->; auto.
    clear - Ne. revert Ne. generalize (upd (nth (r_buf x) h []) (r_off x + i) c) as l. generalize (r_buf r) (r_buf x). 
    induction h as [|a h IH]; intros [|m] [|k] l Ne; cbn; auto; try contradiction.
Qed.
Lemma r_set_entry : forall h x i c, r_ok h x -> i < prod (r_shp x) -> nth i (dat (r_get (r_set h x i c) x)) NaN = c.
Proof.
  intros h x i c (H1 & H2) Hi. unfold r_get, r_set. cbn [dat]. rewrite nth_upd by auto.
  rewrite nth_slice by (auto). apply nth_upd. lia.
Qed.

Lemma fold_reference : forall p x n vv h v h' i c, usable p -> no_arrays p -> r_ok h x -> r_shp x = [n] ->
  flat_length p (Some false) = Ok (plint n) -> hfold p x (Some false) vv h = (Ok v, h') ->
  i < n -> nth i (dat (r_get h x)) NaN <> c ->
  h_read (r_set h' x i c) v <> h_read h' v.
Proof.
  intros p x n vv h v h' i c U N O S L E Hi Hc.
  destruct (fold_view p x n vv h v h' U N O S L E) as (-> & V). intros C.
  pose proof (V h O) as V1. pose proof (V _ (r_set_ok h x i c x O)) as V2. rewrite C in V2.
  destruct (get_vec h x n O S) as (G1 & _). destruct (get_vec _ x n (r_set_ok h x i c x O) S) as (G2 & _).
  rewrite G1 in V1. rewrite G2 in V2.
  apply api_nonfree_flatten_of_fold in V1; auto. apply api_nonfree_flatten_of_fold in V2; auto.
  rewrite V1 in V2. injection V2 as V2. apply Hc.
  assert (P: prod (r_shp x) = n) by (rewrite S; cbn; lia).
  rewrite <- (r_set_entry h x i c O) by lia. unfold r_get in V2 |- *. cbn [dat] in V2 |- *. rewrite V2. reflexivity.
Qed.

Lemma nth_error_upd_other : forall A (l : list A) i j c, i <> j -> nth_error (upd l i c) j = nth_error l j.
Proof. induction l as [|a l IH]; intros [|i] [|j] c H; cbn; auto; try contradiction. Qed.
Lemma nth_upd_other : forall A (l : list A) i j c d, i <> j -> nth j (upd l i c) d = nth j l d.
Proof. induction l as [|a l IH]; intros [|i] [|j] c d H; cbn; auto; try contradiction. Qed.
(** An assignment to an entry writes only into the memory of the array. *)
Lemma r_set_wrote : forall h x i c, r_ok h x -> i < prod (r_shp x) -> wrote [x] h (r_set h x i c).
Proof.
  intros h x i c (H1 & H2) Hi. unfold wrote, r_set. rewrite len_upd. split; auto. intros b.
  destruct (Nat.eq_dec b (r_buf x)) as [->|Ne].
  - rewrite nth_upd, len_upd by auto. split; auto. intros j Hj. apply nth_error_upd_other. intros <-.
    apply (Hj x (or_introl eq_refl)). split; auto. lia.
  - rewrite nth_upd_other by auto. auto.
Qed.
