(** * Facts about the dictionary heap. *)
From Verif Require Import Base Nd Pattern Spec ListFacts PatFacts Build DictHeap SpecDict.

Scheme denotes_mind := Minimality for denotes Sort Prop
  with denotes_items_mind := Minimality for denotes_items Sort Prop.
Combined Scheme denotes_both from denotes_mind, denotes_items_mind.

(** ** lists *)
Lemma upd_length : forall A (l : list A) i x, length (upd l i x) = length l.
Proof. induction l; destruct i; simpl; auto. Qed.

Lemma nth_upd_same : forall A (l : list A) i x, i < length l -> nth_error (upd l i x) i = Some x.
Proof. induction l; destruct i; simpl; intros; auto; try lia. apply IHl. lia. Qed.

Lemma nth_upd_other : forall A (l : list A) i j x, j <> i -> nth_error (upd l i x) j = nth_error l j.
Proof. induction l; destruct i, j; simpl; intros; auto; try lia. Qed.

Lemma upd_upd : forall A (l : list A) i x y, upd (upd l i x) i y = upd l i y.
Proof. induction l; destruct i; simpl; intros; auto. f_equal. auto. Qed.

Lemma nth_ext_error : forall A (l l' : list A), (forall i, nth_error l i = nth_error l' i) -> l = l'.
Proof.
  induction l; destruct l'; intros H; auto; try (specialize (H 0); discriminate).
  pose proof (H 0) as H0. inversion H0; subst. f_equal. apply IHl. intros i. apply (H (S i)).
Qed.

Lemma nth_lt : forall A (l : list A) i x, nth_error l i = Some x -> i < length l.
Proof. intros. apply nth_error_Some. congruence. Qed.

Lemma nth_app_old : forall A (l : list A) x i y,
  nth_error l i = Some y -> nth_error (l ++ [x]) i = Some y.
Proof. intros. rewrite nth_error_app1; auto. eapply nth_lt; eauto. Qed.

Lemma nth_app_inv : forall A (l : list A) x i y,
  nth_error (l ++ [x]) i = Some y -> nth_error l i = Some y \/ (i = length l /\ y = x).
Proof.
  intros A l x i y H. destruct (lt_eq_lt_dec i (length l)) as [[L|E]|G].
  - rewrite nth_error_app1 in H; auto.
  - subst. rewrite nth_error_app2, Nat.sub_diag in H by lia. inversion H. auto.
  - rewrite nth_error_app2 in H by lia. destruct (i - length l) as [|[|m]] eqn:E; simpl in H; try discriminate. lia.
Qed.

Lemma assign_in : forall V (d : list (key * V)) k v k' w,
  In (k', w) (assign d k v) -> w = v \/ In (k', w) d.
Proof.
  induction d as [|[k0 v0] d IH]; simpl; intros k v k' w H.
  - destruct H as [H|[]]. inversion H; auto.
  - destruct (key_eqb k k0); simpl in H; destruct H as [H|H]; auto.
    + inversion H; auto.
    + destruct (IH _ _ _ _ H); auto.
Qed.

Lemma assign_has : forall V (d : list (key * V)) k v, dict_get (assign d k v) k = Some v.
Proof.
  induction d as [|[k0 v0] d IH]; simpl; intros k v.
  - destruct (key_eqb k k) eqn:E; auto. apply key_eqb_false in E. congruence.
  - destruct (key_eqb k k0) eqn:E; simpl; rewrite E; auto.
Qed.

Lemma remove_in : forall V (d : list (key * V)) k kv, In kv (remove_key d k) -> In kv d.
Proof. intros V d k kv H. unfold remove_key in H. apply filter_In in H. tauto. Qed.

Lemma remove_assign : forall V (d : list (key * V)) k v,
  remove_key (assign d k v) k = remove_key d k.
Proof.
  induction d as [|[k0 v0] d IH]; simpl; intros k v.
  - destruct (key_eqb k k) eqn:E; auto. apply key_eqb_false in E. congruence.
  - destruct (key_eqb k k0) eqn:E; simpl; rewrite E; simpl; auto. f_equal. apply IH.
Qed.

Lemma remove_missing : forall V (d : list (key * V)) k, dict_get d k = None -> remove_key d k = d.
Proof.
  induction d as [|[k0 v0] d IH]; simpl; intros k H; auto.
  destruct (key_eqb k k0) eqn:E; [discriminate|]. simpl. f_equal. apply IH. auto.
Qed.

(** ** lengths on the heap *)
Lemma update_len_ext : forall h h' items f,
  (forall k c, In (k, c) items -> ref_len h' c f = ref_len h c f) ->
  update_len h' items f = update_len h items f.
Proof.
  intros h h' items f H. unfold update_len.
  assert (mapM (fun kr => ref_len h' (snd kr) f) items = mapM (fun kr => ref_len h (snd kr) f) items) as ->; auto.
  induction items as [|[k c] items IH]; simpl; auto. rewrite (H k c) by (simpl; auto).
  rewrite IH; auto. intros. apply (H k0). simpl. auto.
Qed.

Lemma update_len_total : forall h items f,
  (forall k c, In (k, c) items -> exists l, ref_len h c f = Ok l) ->
  exists l, update_len h items f = Ok l.
Proof.
  intros h items f H. unfold update_len.
  assert (exists ls, mapM (fun kr => ref_len h (snd kr) f) items = Ok ls) as (ls & ->).
  { induction items as [|[k c] items IH]; simpl; [eauto|].
    destruct (H k c) as (l & ->); [simpl; auto|]. cbn [bind].
    destruct IH as (ls & ->); [intros; apply (H k0); simpl; auto|]. cbn [bind]. eauto. }
  simpl. eauto.
Qed.

Lemma refresh_ok : forall h d ex items len flen fd lk,
  nth_error h d = Some (ODict ex items len flen fd lk) ->
  (forall k c, In (k, c) items -> c <> d) ->
  (forall k c f, In (k, c) items -> exists l, ref_len h c f = Ok l) ->
  exists l fl, update_len h items false = Ok l /\ update_len h items true = Ok fl /\
    refresh h d = (upd h d (ODict ex items l fl fd lk), Ok tt).
Proof.
  intros h d ex items len flen fd lk H Hd Hm. unfold refresh. rewrite H.
  destruct (update_len_total h items true) as (fl & Hfl); [eauto|]. rewrite Hfl.
  destruct (update_len_total h items false) as (l & Hl); [eauto|].
  exists l, fl. split; auto. split; auto. cbv zeta.
  rewrite (update_len_ext h). 2:{ intros k c Hc. unfold ref_len. rewrite nth_upd_other; eauto. }
  rewrite Hl. rewrite upd_upd. auto.
Qed.

(** ** the invariant of plain histories *)
Definition good_obj (h : heap) (o : obj) : Prop :=
  match o with
  | OLeaf p => is_dict p = false
  | OOther => False
  | ODict ex items len flen fd lk =>
      ex = true /\
      (forall k c, In (k, c) items -> c < length h /\ ~ unlocked_at h c) /\
      ((items = [] /\ pl_n len = 0 /\ pl_n flen = 0) \/
       (update_len h items false = Ok len /\ update_len h items true = Ok flen))
  end.
Definition good (h : heap) : Prop := forall r o, nth_error h r = Some o -> good_obj h o.
Definition total (h : heap) : Prop := forall r, r < length h -> exists p, denotes h r p.

Lemma good_reports : forall h, good h -> forall c f, c < length h -> exists l, ref_len h c f = Ok l.
Proof.
  intros h Hg c f Hc. apply nth_error_Some in Hc. unfold ref_len.
  destruct (nth_error h c) as [o|] eqn:E; [|congruence]. specialize (Hg _ _ E).
  destruct o; simpl in *; eauto. tauto.
Qed.

Lemma denotes_det : forall h,
  (forall r p, denotes h r p -> forall q, denotes h r q -> p = q) /\
  (forall its ps, denotes_items h its ps -> forall qs, denotes_items h its qs -> ps = qs).
Proof.
  intros h. apply denotes_both.
  - intros r p H q Hq. inversion Hq; congruence.
  - intros r ex items len flen fd lk qs H Hi IH q Hq. inversion Hq; subst; [congruence|].
    rewrite H in H0. inversion H0; subst. f_equal. auto.
  - intros qs H. inversion H; auto.
  - intros k r q items qs Hq IHq Hi IHi qs' H. inversion H; subst. f_equal; auto. f_equal; auto.
Qed.

(** Changing an object that is nobody's member changes no other tree. *)
Lemma denotes_frame : forall h h' d,
  (forall x, x <> d -> forall o, nth_error h x = Some o -> nth_error h' x = Some o) ->
  (forall r ex items len flen fd lk, nth_error h r = Some (ODict ex items len flen fd lk) ->
     forall k c, In (k, c) items -> c <> d) ->
  (forall r p, denotes h r p -> r <> d -> denotes h' r p) /\
  (forall its ps, denotes_items h its ps -> (forall k c, In (k, c) its -> c <> d) -> denotes_items h' its ps).
Proof.
  intros h h' d Hx Hc. apply denotes_both.
  - intros r p H Hr. apply den_leaf. auto.
  - intros r ex items len flen fd lk qs H Hi IH Hr. eapply den_dict; eauto.
  - intros _. constructor.
  - intros k r q items qs Hq IHq Hi IHi H. constructor; [apply IHq|apply IHi]; simpl in H; eauto.
Qed.

Lemma unlocked_not_member : forall h d, good h -> unlocked_at h d ->
  forall r ex items len flen fd lk, nth_error h r = Some (ODict ex items len flen fd lk) ->
  forall k c, In (k, c) items -> c <> d.
Proof.
  intros h d Hg Hu r ex items len flen fd lk H k c Hin ->. apply Hg in H. simpl in H.
  destruct H as (_ & H & _). apply H in Hin. tauto.
Qed.

Lemma unlocked_nth : forall h d o, nth_error h d = Some o ->
  (unlocked_at h d <-> exists ex items len flen fd, o = ODict ex items len flen fd false).
Proof.
  intros h d o H. unfold unlocked_at. rewrite H. split.
  - intros (a & b & c & e & f & E). inversion E; subst. repeat eexists.
  - intros (a & b & c & e & f & ->). repeat eexists.
Qed.

(** Tree view of a locked member. *)
Definition lock_obj (o : obj) : obj :=
  match o with
  | ODict ex items len flen fd _ => ODict ex items len flen fd true
  | _ => o
  end.

Lemma lock_member_nth : forall h r x, good h ->
  nth_error (lock_member h r) x = if x =? r then option_map lock_obj (nth_error h x) else nth_error h x.
Proof.
  intros h r x Hg. unfold lock_member. destruct (x =? r) eqn:E.
  - apply Nat.eqb_eq in E. subst. destruct (nth_error h r) as [o|] eqn:Er; auto.
    pose proof (Hg _ _ Er) as Ho. destruct o as [p|ex items len flen fd lk|]; simpl; auto.
    destruct Ho as (-> & _). rewrite nth_upd_same; auto. eapply nth_lt; eauto.
  - apply Nat.eqb_neq in E. destruct (nth_error h r) as [o|] eqn:Er; auto.
    destruct o as [p|ex items len flen fd lk|]; auto. destruct ex; auto. apply nth_upd_other. auto.
Qed.

Lemma lock_member_len : forall h r, length (lock_member h r) = length h.
Proof.
  intros. unfold lock_member. destruct (nth_error h r) as [[p|ex i l f fd lk|]|]; auto.
  destruct ex; auto. apply upd_length.
Qed.

(** ** One generic preservation lemma: the object [d] is replaced by a good one
       and some objects get locked. *)
Definition locked_more (h h' : heap) (d : ref) : Prop :=
  length h' = length h /\
  forall x, x <> d -> forall o, nth_error h x = Some o ->
    nth_error h' x = Some o \/ nth_error h' x = Some (lock_obj o).

Lemma obj_len_lock : forall o f, obj_len (lock_obj o) f = obj_len o f.
Proof. intros [p|ex i l fl fd lk|] f; auto. Qed.

Lemma locked_more_len : forall h h' d, locked_more h h' d ->
  forall c f, c <> d -> ref_len h' c f = ref_len h c f.
Proof.
  intros h h' d (HL & H) c f Hc. unfold ref_len. destruct (nth_error h c) as [o|] eqn:E.
  - destruct (H c Hc o E) as [-> | ->]; auto. apply obj_len_lock.
  - apply nth_error_None in E. rewrite <- HL in E. apply nth_error_None in E. rewrite E. auto.
Qed.

Lemma locked_more_unlocked : forall h h' d, locked_more h h' d ->
  forall c, c <> d -> unlocked_at h' c -> unlocked_at h c.
Proof.
  intros h h' d (HL & H) c Hc Hu. destruct (nth_error h c) as [o|] eqn:E.
  - destruct (H c Hc o E) as [E' | E'].
    + apply (unlocked_nth _ _ _ E). apply (unlocked_nth _ _ _ E'). auto.
    + apply (proj1 (unlocked_nth _ _ _ E')) in Hu. destruct Hu as (ex & i & l & fl & fd & Hu).
      destruct o; simpl in Hu; discriminate.
  - destruct Hu as (ex & i & l & fl & fd & Hu). apply nth_error_None in E. rewrite <- HL in E.
    apply nth_error_None in E. congruence.
Qed.

Lemma good_preserved : forall h h' d o',
  good h -> locked_more h h' d -> unlocked_at h d ->
  nth_error h' d = Some o' -> good_obj h' o' ->
  good h'.
Proof.
  intros h h' d o' Hg Hm Hu Hd Ho' x o Hx.
  destruct (Nat.eq_dec x d) as [->|N]; [congruence|].
  assert (exists o0, nth_error h x = Some o0 /\ (o = o0 \/ o = lock_obj o0)) as (o0 & E0 & Ho).
  { destruct (nth_error h x) as [o0|] eqn:E.
    - exists o0. split; auto. destruct (proj2 Hm x N o0 E) as [E'|E']; rewrite E' in Hx; inversion Hx; auto.
    - apply nth_error_None in E. rewrite <- (proj1 Hm) in E. apply nth_error_None in E. congruence. }
  pose proof (Hg _ _ E0) as G0.
  assert (good_obj h' o0) as G.
  { destruct o0 as [p|ex items len flen fd lk|]; simpl in *; auto.
    pose proof (unlocked_not_member h d Hg Hu _ _ _ _ _ _ _ E0) as Hmem.
    destruct G0 as (Hex & Hc & Hlen). split; auto. split.
    - intros k c Hin. destruct (Hc k c Hin) as (H1 & H2). split; [rewrite (proj1 Hm); auto|].
      intros Hu'. apply H2. apply (locked_more_unlocked _ _ _ Hm); eauto.
    - destruct Hlen as [?|(H1 & H2)]; auto. right.
      rewrite <- H1, <- H2. split; apply update_len_ext; intros k c Hin; apply (locked_more_len _ _ _ Hm); eauto. }
  destruct Ho as [-> | ->]; auto. destruct o0; auto.
Qed.

(** ** the operations on good heaps *)
Lemma set_result : forall h d k r ex items len flen fd,
  good h -> nth_error h d = Some (ODict ex items len flen fd false) -> r < length h -> d <> r ->
  exists l fl h',
    step h (SetItem d k r) = (h', Ok tt) /\
    length h' = length h /\
    nth_error h' d = Some (ODict true (assign items k r) l fl fd false) /\
    (forall x, x <> d -> nth_error h' x =
        if x =? r then option_map lock_obj (nth_error h x) else nth_error h x) /\
    update_len h' (assign items k r) false = Ok l /\
    update_len h' (assign items k r) true = Ok fl.
Proof.
  intros h d k r ex items len flen fd Hg Hd Hr Hne.
  pose proof (Hg _ _ Hd) as Gd. simpl in Gd. destruct Gd as (-> & Hc & _).
  assert (unlocked_at h d) as Hu by (repeat eexists; eauto).
  pose proof (unlocked_not_member h d Hg Hu _ _ _ _ _ _ _ Hd) as Hself.
  cbn [step]. rewrite Hd. destruct (nth_error h r) as [or|] eqn:Er.
  2:{ apply nth_error_None in Er. lia. }
  set (h1 := upd h d (ODict true (assign items k r) len flen fd false)).
  assert (forall x, x <> d -> nth_error h1 x = nth_error h x) as E1.
  { intros. apply nth_upd_other. auto. }
  assert (forall x, x <> d -> nth_error (lock_member h1 r) x =
      if x =? r then option_map lock_obj (nth_error h x) else nth_error h x) as E2.
  { intros x Hx. unfold lock_member. rewrite (E1 r) by auto. rewrite Er.
    pose proof (Hg _ _ Er) as Gr. destruct (x =? r) eqn:E.
    - apply Nat.eqb_eq in E. subst x. rewrite Er.
      destruct or as [p|ex' i' l' f' fd' lk'|]; simpl; rewrite ?E1, ?Er by auto; auto.
      destruct Gr as (-> & _). apply nth_upd_same. unfold h1. rewrite upd_length. auto.
    - apply Nat.eqb_neq in E.
      destruct or as [p|ex' i' l' f' fd' lk'|]; simpl; rewrite ?E1 by auto; auto.
      destruct ex'; [rewrite nth_upd_other by auto|]; auto. }
  assert (nth_error (lock_member h1 r) d = Some (ODict true (assign items k r) len flen fd false)) as E3.
  { assert (nth_error h1 d = Some (ODict true (assign items k r) len flen fd false)) as E.
    { apply nth_upd_same. eapply nth_lt; eauto. }
    unfold lock_member. destruct (nth_error h1 r) as [[p|[] i' l' f' fd' lk'|]|]; auto.
    rewrite nth_upd_other; auto. }
  assert (length (lock_member h1 r) = length h) as L1.
  { rewrite lock_member_len. unfold h1. apply upd_length. }
  assert (forall k' c, In (k', c) (assign items k r) -> c <> d /\ c < length h) as Hmem.
  { intros k' c Hin. apply assign_in in Hin. destruct Hin as [->|Hin]; [auto|].
    split; [eapply Hself; eauto|]. apply (Hc _ _ Hin). }
  assert (forall c f, c <> d -> ref_len (lock_member h1 r) c f = ref_len h c f) as Hlen.
  { intros c f Hcd. unfold ref_len. rewrite E2 by auto. destruct (c =? r); auto.
    destruct (nth_error h c) as [o|]; auto. simpl. apply obj_len_lock. }
  destruct (refresh_ok (lock_member h1 r) d true (assign items k r) len flen fd false E3) as (l & fl & Hl & Hfl & Hr').
  { intros k' c Hin. apply Hmem in Hin. tauto. }
  { intros k' c f Hin. apply Hmem in Hin. rewrite Hlen by tauto. apply good_reports; tauto. }
  exists l, fl. eexists. split; [exact Hr'|]. split; [rewrite upd_length; auto|].
  split. { apply nth_upd_same. rewrite L1. eapply nth_lt; eauto. }
  split. { intros x Hx. rewrite nth_upd_other by auto. auto. }
  split.
  - rewrite <- Hl. apply update_len_ext. intros k' c Hin. apply Hmem in Hin. unfold ref_len.
    rewrite nth_upd_other by tauto. auto.
  - rewrite <- Hfl. apply update_len_ext. intros k' c Hin. apply Hmem in Hin. unfold ref_len.
    rewrite nth_upd_other by tauto. auto.
Qed.

Lemma del_result : forall h d k ex items len flen fd c0,
  good h -> nth_error h d = Some (ODict ex items len flen fd false) -> dict_get items k = Some c0 ->
  exists l fl h',
    step h (DelItem d k) = (h', Ok tt) /\
    length h' = length h /\
    nth_error h' d = Some (ODict true (remove_key items k) l fl fd false) /\
    (forall x, x <> d -> nth_error h' x = nth_error h x) /\
    update_len h' (remove_key items k) false = Ok l /\
    update_len h' (remove_key items k) true = Ok fl.
Proof.
  intros h d k ex items len flen fd c0 Hg Hd Hk.
  pose proof (Hg _ _ Hd) as Gd. simpl in Gd. destruct Gd as (-> & Hc & _).
  assert (unlocked_at h d) as Hu by (repeat eexists; eauto).
  pose proof (unlocked_not_member h d Hg Hu _ _ _ _ _ _ _ Hd) as Hself.
  cbn [step]. rewrite Hd, Hk.
  set (h1 := upd h d (ODict true (remove_key items k) len flen fd false)).
  assert (forall x, x <> d -> nth_error h1 x = nth_error h x) as E1.
  { intros. apply nth_upd_other. auto. }
  assert (nth_error h1 d = Some (ODict true (remove_key items k) len flen fd false)) as E3.
  { apply nth_upd_same. eapply nth_lt; eauto. }
  assert (forall k' c, In (k', c) (remove_key items k) -> c <> d /\ c < length h) as Hmem.
  { intros k' c Hin. apply remove_in in Hin. split; [eapply Hself; eauto|]. apply (Hc _ _ Hin). }
  assert (forall c f, c <> d -> ref_len h1 c f = ref_len h c f) as Hlen.
  { intros c f Hcd. unfold ref_len. rewrite E1 by auto. auto. }
  destruct (refresh_ok h1 d true (remove_key items k) len flen fd false E3) as (l & fl & Hl & Hfl & Hr').
  { intros k' c Hin. apply Hmem in Hin. tauto. }
  { intros k' c f Hin. apply Hmem in Hin. rewrite Hlen by tauto. apply good_reports; tauto. }
  exists l, fl. eexists. split; [exact Hr'|]. unfold h1. rewrite !upd_upd. split; [rewrite upd_length; auto|].
  split. { apply nth_upd_same. eapply nth_lt; eauto. }
  split. { intros x Hx. rewrite nth_upd_other by auto. auto. }
  split.
  - rewrite <- Hl. apply update_len_ext. intros k' c Hin. apply Hmem in Hin. unfold ref_len, h1.
    rewrite !nth_upd_other by tauto. auto.
  - rewrite <- Hfl. apply update_len_ext. intros k' c Hin. apply Hmem in Hin. unfold ref_len, h1.
    rewrite !nth_upd_other by tauto. auto.
Qed.

(** ** trees after an operation *)
Lemma denotes_items_map : forall h items qs, denotes_items h items qs -> map fst items = map fst qs.
Proof. intros h. induction items as [|[k r] items IH]; intros qs H; inversion H; subst; simpl; auto. f_equal; auto. Qed.

Lemma denotes_items_get : forall h items qs, denotes_items h items qs ->
  forall k, match dict_get items k, dict_get qs k with
            | Some r, Some q => denotes h r q
            | None, None => True
            | _, _ => False end.
Proof.
  intros h. induction items as [|[k0 r] items IH]; intros qs H; inversion H; subst; simpl; auto.
  intros k. destruct (key_eqb k k0); auto. apply IH. auto.
Qed.

Lemma denotes_items_assign : forall h items qs k r q,
  denotes_items h items qs -> denotes h r q ->
  denotes_items h (assign items k r) (assign qs k q).
Proof.
  intros h. induction items as [|[k0 r0] items IH]; intros qs k r q H Hr; inversion H; subst; simpl.
  - constructor; auto; constructor.
  - destruct (key_eqb k k0); constructor; auto.
Qed.

Lemma denotes_items_remove : forall h items qs k,
  denotes_items h items qs -> denotes_items h (remove_key items k) (remove_key qs k).
Proof.
  intros h. unfold remove_key. induction items as [|[k0 r0] items IH]; intros qs k H; inversion H; subst; simpl.
  - constructor.
  - destruct (key_eqb k k0); simpl; [|constructor]; auto.
Qed.

Lemma denotes_len : forall h r p f, denotes h r p -> ref_len h r f = Ok (flat_len p f).
Proof.
  intros h r p f H. unfold ref_len. inversion H as [r' p' E|r' ex items len flen fd lk qs E Hi]; subst; rewrite E; auto.
Qed.

Lemma update_len_items : forall h items qs f, denotes_items h items qs ->
  update_len h items f = Ok (items_len qs f).
Proof.
  intros h items qs f H. unfold update_len, items_len.
  assert (mapM (fun kr => ref_len h (snd kr) f) items = Ok (map (fun kq => flat_len (snd kq) f) qs)) as ->; auto.
  revert qs H. induction items as [|[k r] items IH]; intros qs H; inversion H; subst; simpl; auto.
  rewrite (denotes_len _ _ _ f H4). cbn [bind]. rewrite (IH _ H5). auto.
Qed.

Lemma denotes_lock : forall h h' r p,
  denotes h r p ->
  (forall o, nth_error h r = Some o -> nth_error h' r = Some (lock_obj o)) ->
  (forall ex items len flen fd lk qs, nth_error h r = Some (ODict ex items len flen fd lk) ->
     denotes_items h items qs -> denotes_items h' items qs) ->
  (forall q, nth_error h r = Some (OLeaf q) -> is_dict q = false) ->
  denotes h' r (lock_pat p).
Proof.
  intros h h' r p H Hn Hi Hl. inversion H as [r' p' E|r' ex items len flen fd lk qs E Hq]; subst.
  - pose proof (Hl _ E). apply Hn in E. simpl in E. destruct p; try discriminate; simpl; constructor; auto.
  - pose proof (Hi _ _ _ _ _ _ _ E Hq). apply Hn in E. simpl in *. eapply den_dict; eauto.
Qed.

(** Locking one object. *)
Lemma lock_trees : forall h h' r, good h -> length h' = length h ->
  (forall x, nth_error h' x = if x =? r then option_map lock_obj (nth_error h x) else nth_error h x) ->
  forall x p, denotes h x p -> denotes h' x (if x =? r then lock_pat p else p).
Proof.
  intros h h' r Hg HL Hn x p Hx.
  destruct (nth_error h r) as [o|] eqn:Er.
  2:{ destruct (x =? r) eqn:E.
      - apply Nat.eqb_eq in E. subst. inversion Hx; congruence.
      - destruct (denotes_frame h h' (length h)) as (F & _).
        + intros y Hy o Ho. rewrite Hn. destruct (y =? r) eqn:Ey; auto. apply Nat.eqb_eq in Ey. congruence.
        + intros r0 ex items len flen fd lk H k c Hin. apply Hg in H. destruct H as (_ & H & _).
          destruct (H _ _ Hin). lia.
        + apply F; auto. inversion Hx as [? ? E'|? ? ? ? ? ? ? ? E' ?]; apply nth_lt in E'; lia. }
  destruct (match o with ODict _ _ _ _ _ false => true | _ => false end) eqn:Eo.
  - (* r unlocked: nobody's member *)
    assert (unlocked_at h r) as Hu.
    { apply (unlocked_nth _ _ _ Er). destruct o as [|ex i l f fd []|]; try discriminate. repeat eexists. }
    pose proof (unlocked_not_member h r Hg Hu) as Hm.
    destruct (denotes_frame h h' r) as (F & FI); auto.
    { intros y Hy o0 Ho0. rewrite Hn. apply Nat.eqb_neq in Hy. rewrite Hy. auto. }
    destruct (x =? r) eqn:E.
    + apply Nat.eqb_eq in E. subst. apply (denotes_lock h); auto.
      * intros o0 Ho0. rewrite Hn, Nat.eqb_refl, Ho0. auto.
      * intros ex items len flen fd lk qs E Hq. apply FI; auto. eapply Hm; eauto.
      * intros q Hq. apply Hg in Hq. auto.
    + apply Nat.eqb_neq in E. auto.
  - (* nothing changes *)
    assert (lock_obj o = o) as Eo'.
    { destruct o as [|ex i l f fd []|]; auto. discriminate. }
    assert (h' = h) as ->.
    { apply nth_ext_error. intros i. rewrite Hn. destruct (i =? r) eqn:E; auto. apply Nat.eqb_eq in E. subst.
      rewrite Er. simpl. congruence. }
    destruct (x =? r) eqn:E; auto. apply Nat.eqb_eq in E. subst.
    assert (lock_pat p = p) as ->; auto.
    inversion Hx as [? ? E'|? ? ? ? ? ? ? ? E' ?]; subst; rewrite Er in E'; inversion E'; subst.
    + apply Hg in Er. destruct p; auto; discriminate.
    + destruct lk; auto. discriminate.
Qed.
