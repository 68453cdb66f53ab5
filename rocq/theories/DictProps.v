(** * Dictionary histories. *)
From Verif Require Import Base Nd Pattern Spec ListFacts PatFacts Build DictHeap SpecDict DictFacts.

Lemma lock_pat_locked : forall h c q, good h -> denotes h c q -> ~ unlocked_at h c -> lock_pat q = q.
Proof.
  intros h c q Hg H Hu. inversion H as [? ? E|? ? ? ? ? ? ? ? E ?]; subst.
  - apply Hg in E. destruct q; auto. discriminate.
  - destruct lk; auto. exfalso. apply Hu. repeat eexists; eauto.
Qed.

Lemma lock_trees_items : forall h h' r, good h -> length h' = length h ->
  (forall x, nth_error h' x = if x =? r then option_map lock_obj (nth_error h x) else nth_error h x) ->
  forall items qs, (forall k c, In (k, c) items -> ~ unlocked_at h c) ->
  denotes_items h items qs -> denotes_items h' items qs.
Proof.
  intros h h' r Hg HL Hn. induction items as [|[k c] items IH]; intros qs Hm H; inversion H; subst.
  - constructor.
  - constructor.
    + pose proof (lock_trees h h' r Hg HL Hn _ _ H4) as Ht.
      destruct (c =? r); auto. rewrite (lock_pat_locked h c q) in Ht; auto.
      apply (Hm k). simpl. auto.
    + apply IH; auto. intros k' c' Hin. apply (Hm k'). simpl. auto.
Qed.

Lemma denotes_lt : forall h r p, denotes h r p -> r < length h.
Proof. intros h r p H. inversion H; eapply nth_lt; eauto. Qed.

(** The heap operations act on the trees as the value operations do. *)
Theorem set_trees : forall h d k r p q,
  good h -> unlocked_at h d -> d <> r -> denotes h d p -> denotes h r q ->
  exists h' p', step h (SetItem d k r) = (h', Ok tt) /\ setitem p k q = Ok p' /\
    denotes h' d p' /\ good h' /\ length h' = length h /\
    (forall x p0, x <> d -> denotes h x p0 -> denotes h' x (if x =? r then lock_pat p0 else p0)).
Proof.
  intros h d k r p q Hg Hu Hne Hp Hq.
  pose proof Hu as (ex & items & len & flen & fd & Hd).
  inversion Hp as [? ? E|? ex' items' len' flen' fd' lk' qs E Hi]; subst; rewrite Hd in E; inversion E; subst.
  pose proof (denotes_lt _ _ _ Hq) as Hr.
  destruct (set_result h d k r ex' items' len' flen' fd' Hg Hd Hr Hne) as (l & fl & h' & Hs & HL & Hd' & Hx & Hl & Hfl).
  pose proof (unlocked_not_member h d Hg Hu) as Hself.
  set (hl := lock_member h r).
  assert (length hl = length h) as HLl by apply lock_member_len.
  assert (forall x, nth_error hl x = if x =? r then option_map lock_obj (nth_error h x) else nth_error h x) as Hnl.
  { intros. apply lock_member_nth. auto. }
  assert (forall r ex items len flen fd lk, nth_error hl r = Some (ODict ex items len flen fd lk) ->
     forall k c, In (k, c) items -> c <> d) as Hself'.
  { intros r0 ex0 it0 l0 f0 fd0 lk0 H0. rewrite Hnl in H0. destruct (r0 =? r).
    - destruct (nth_error h r0) as [[p0|ex1 it1 l1 f1 fd1 lk1|]|] eqn:E0; simpl in H0; inversion H0; subst.
      apply (Hself _ _ _ _ _ _ _ E0).
    - apply (Hself _ _ _ _ _ _ _ H0). }
  destruct (denotes_frame hl h' d) as (F & FI); auto.
  { intros x Hxd o Ho. rewrite Hx by auto. rewrite Hnl in Ho. auto. }
  pose proof (Hg _ _ Hd) as (_ & Hc & _).
  assert (denotes_items h' items' qs) as D1.
  { apply FI; [|eapply Hself; eauto]. apply (lock_trees_items h hl r Hg HLl Hnl); auto.
    intros k' c Hin. apply (Hc k' c Hin). }
  assert (denotes h' r (lock_pat q)) as D2.
  { apply F; auto. pose proof (lock_trees h hl r Hg HLl Hnl _ _ Hq) as Ht. rewrite Nat.eqb_refl in Ht. auto. }
  pose proof (denotes_items_assign h' items' qs k r (lock_pat q) D1 D2) as D3.
  exists h', (PDict (assign qs k (lock_pat q)) l fl fd' false).
  split; [auto|]. rewrite (update_len_items _ _ _ _ D3) in Hl. rewrite (update_len_items _ _ _ _ D3) in Hfl.
  injection Hl as Hl0. injection Hfl as Hfl0. split; [rewrite <- Hl0, <- Hfl0; reflexivity|].
  split; [eapply den_dict; eauto|]. split; [|split; auto].
  - eapply good_preserved; [exact Hg| |exact Hu|exact Hd'|].
    + split; auto. intros x Hxd o Ho. rewrite Hx by auto. destruct (x =? r); rewrite Ho; auto.
    + simpl. split; auto. split; [|right; rewrite !(update_len_items _ _ _ _ D3); split; congruence].
      intros k' c Hin. apply assign_in in Hin. rewrite HL. destruct Hin as [->|Hin].
      * split; auto. intros (e & i & a & b & g & Hc').
        rewrite Hx in Hc' by auto. rewrite Nat.eqb_refl in Hc'.
        destruct (nth_error h r) as [[]|]; simpl in Hc'; discriminate.
      * destruct (Hc k' c Hin) as (H1 & H2). split; auto. intros Hu'. apply H2.
        assert (c <> d) as Hcd by (eapply Hself; eauto).
        destruct Hu' as (e & i & a & b & g & Hc'). rewrite Hx in Hc' by auto. destruct (c =? r).
        -- destruct (nth_error h c) as [[]|]; simpl in Hc'; discriminate.
        -- repeat eexists; eauto.
  - intros x p0 Hxd H0. apply F; auto. apply (lock_trees h hl r Hg HLl Hnl); auto.
Qed.

Theorem del_trees : forall h d k p,
  good h -> unlocked_at h d -> denotes h d p ->
  (exists p' h', delitem p k = Ok p' /\ step h (DelItem d k) = (h', Ok tt) /\
     denotes h' d p' /\ good h' /\ length h' = length h /\
     (forall x p0, x <> d -> denotes h x p0 -> denotes h' x p0)) \/
  (delitem p k = Err KeyError /\ step h (DelItem d k) = (h, Err KeyError)).
Proof.
  intros h d k p Hg Hu Hp.
  pose proof Hu as (ex & items & len & flen & fd & Hd).
  inversion Hp as [? ? E|? ex' items' len' flen' fd' lk' qs E Hi]; subst; rewrite Hd in E; inversion E; subst.
  pose proof (denotes_items_get _ _ _ Hi k) as Hget.
  destruct (dict_get items' k) as [c0|] eqn:Ek.
  2:{ right. cbn [delitem step]. rewrite Hd, Ek. destruct (dict_get qs k); [tauto|]. auto. }
  left. destruct (dict_get qs k) as [q0|] eqn:Eq; [|tauto].
  destruct (del_result h d k ex' items' len' flen' fd' c0 Hg Hd Ek) as (l & fl & h' & Hs & HL & Hd' & Hx & Hl & Hfl).
  pose proof (unlocked_not_member h d Hg Hu) as Hself.
  destruct (denotes_frame h h' d) as (F & FI); auto.
  { intros x Hxd o Ho. rewrite Hx by auto. auto. }
  assert (denotes_items h' items' qs) as D1 by (apply FI; auto; eapply Hself; eauto).
  pose proof (denotes_items_remove h' items' qs k D1) as D3.
  exists (PDict (remove_key qs k) l fl fd' false), h'.
  rewrite (update_len_items _ _ _ _ D3) in Hl. rewrite (update_len_items _ _ _ _ D3) in Hfl.
  injection Hl as Hl0. injection Hfl as Hfl0. split; [cbn [delitem]; rewrite Eq, <- Hl0, <- Hfl0; reflexivity|]. split; [auto|].
  split; [eapply den_dict; eauto|]. split; [|split; auto].
  pose proof (Hg _ _ Hd) as (_ & Hc & _).
  eapply good_preserved; [exact Hg| |exact Hu|exact Hd'|].
  + split; auto. intros x Hxd o Ho. rewrite Hx by auto. auto.
  + simpl. split; auto. split; [|right; rewrite !(update_len_items _ _ _ _ D3); split; congruence].
    intros k' c Hin. apply remove_in in Hin. rewrite HL.
    destruct (Hc k' c Hin) as (H1 & H2). split; auto. intros Hu'. apply H2.
    assert (c <> d) as Hcd by (eapply Hself; eauto).
    destruct Hu' as (e & i & a & b & g & Hc'). rewrite Hx in Hc' by auto. repeat eexists; eauto.
Qed.

(** New objects at the end of the heap. *)
Lemma new_object : forall h o, good h ->
  match o with OLeaf p => is_dict p = false
             | ODict true [] (mkLen 0 _) (mkLen 0 _) _ false => True | _ => False end ->
  good (h ++ [o]) /\ (forall x p, denotes h x p -> denotes (h ++ [o]) x p) /\
  (forall qs, True -> denotes (h ++ [o]) (length h) match o with OLeaf p => p
      | ODict _ _ l fl fd lk => PDict [] l fl fd lk | OOther => qs end).
Proof.
  intros h o Hg Ho.
  assert (forall c, c < length h -> nth_error (h ++ [o]) c = nth_error h c) as E.
  { intros. apply nth_error_app1. auto. }
  split; [|split].
  - intros r o' Hr. apply nth_app_inv in Hr. destruct Hr as [Hr|(-> & ->)].
    + pose proof (Hg _ _ Hr) as G. destruct o' as [p|ex items len flen fd lk|]; simpl in *; auto.
      destruct G as (-> & Hc & Hl). split; auto. rewrite app_length. split.
      * intros k c Hin. destruct (Hc k c Hin) as (H1 & H2). split; [lia|].
        intros (a & b & e & f & g & Hu). rewrite E in Hu by auto. apply H2. repeat eexists; eauto.
      * destruct Hl as [Hl|(H1 & H2)]; auto. right. rewrite <- H1, <- H2.
        split; apply update_len_ext; intros k c Hin; unfold ref_len; rewrite E; auto; apply (Hc k c Hin).
    + destruct o as [p|[] [|] [[|] ?] [[|] ?] fd []|]; simpl; auto; try tauto.
  - destruct (denotes_frame h (h ++ [o]) (length h)) as (F & _).
    + intros x _ o' Hx. apply nth_app_old. auto.
    + intros r ex items len flen fd lk H k c Hin. apply Hg in H. destruct H as (_ & H & _).
      destruct (H _ _ Hin). lia.
    + intros x p H. apply F; auto. pose proof (denotes_lt _ _ _ H). lia.
  - intros qs _.
    assert (nth_error (h ++ [o]) (length h) = Some o) as En.
    { rewrite nth_error_app2, Nat.sub_diag by lia. auto. }
    destruct o as [p|ex items l fl fd lk|]; [constructor; auto| |tauto].
    assert (items = []) as -> by (destruct ex, items; auto; tauto).
    eapply den_dict; eauto. constructor.
Qed.

Lemma locked_or_unlocked : forall h d ex items len flen fd lk,
  nth_error h d = Some (ODict ex items len flen fd lk) ->
  (lk = true /\ ~ unlocked_at h d) \/ (lk = false /\ unlocked_at h d).
Proof.
  intros h d ex items len flen fd [] H.
  - left. split; auto. intros (a & b & c & e & f & E). congruence.
  - right. split; auto. repeat eexists; eauto.
Qed.

(** One plain operation. *)
Theorem plain_step : forall (P : pat -> Prop) h o,
  (forall p, P p -> P (lock_pat p)) ->
  (forall fd, P (new_dict fd)) ->
  (forall p k q p', P p -> P q -> setitem p k q = Ok p' -> P p') ->
  (forall p k p', P p -> delitem p k = Ok p' -> P p') ->
  plain o -> match o with NewLeaf p => P p | _ => True end ->
  good h -> total h -> (forall r p, denotes h r p -> P p) ->
  good (fst (step h o)) /\ total (fst (step h o)) /\
  (forall r p, denotes (fst (step h o)) r p -> P p).
Proof.
  intros P h o Plock Pnew Pset Pdel Ho Hleaf Hg Ht HP.
  assert (forall h', total h' -> (forall r p, denotes h' r p -> exists p0, denotes h' r p0 /\ P p0) ->
            forall r p, denotes h' r p -> P p) as Hdet.
  { intros h' _ H r p Hp. destruct (H r p Hp) as (p0 & H0 & HP0).
    rewrite (proj1 (denotes_det h') _ _ Hp _ H0). auto. }
  destruct o as [p|  |ex fd|d k r|d k|d]; simpl in Ho.
  - simpl. destruct (new_object h (OLeaf p) Hg Ho) as (G & D & N). split; auto.
    assert (total (h ++ [OLeaf p])) as T.
    { intros x Hx. rewrite app_length in Hx. simpl in Hx.
      destruct (Nat.eq_dec x (length h)) as [->|]; [exists p; apply (N p); auto|].
      destruct (Ht x) as (p0 & H0); [lia|]. eauto. }
    split; auto. apply Hdet; auto. intros x p0 Hp0. pose proof (denotes_lt _ _ _ Hp0) as L.
    rewrite app_length in L. simpl in L.
    destruct (Nat.eq_dec x (length h)) as [->|]; [exists p; split; auto; apply (N p); auto|].
    destruct (Ht x) as (p1 & H1); [lia|]. eauto.
  - tauto.
  - subst. simpl. destruct (new_object h (ODict true [] (plint 0) (plint 0) fd false) Hg I) as (G & D & N). split; auto.
    assert (total (h ++ [ODict true [] (plint 0) (plint 0) fd false])) as T.
    { intros x Hx. rewrite app_length in Hx. simpl in Hx.
      destruct (Nat.eq_dec x (length h)) as [->|]; [eexists; apply (N (new_dict fd)); auto|].
      destruct (Ht x) as (p0 & H0); [lia|]. eauto. }
    split; auto. apply Hdet; auto. intros x p0 Hp0. pose proof (denotes_lt _ _ _ Hp0) as L.
    rewrite app_length in L. simpl in L.
    destruct (Nat.eq_dec x (length h)) as [->|]; [eexists; split; [apply (N (new_dict fd)); auto|]; apply Pnew|].
    destruct (Ht x) as (p1 & H1); [lia|]. eauto.
  - cbn [step]. destruct (nth_error h d) as [od|] eqn:Ed; [|simpl; auto].
    destruct od as [p|ex items len flen fd lk|].
    { destruct (nth_error h r); simpl; auto. }
    2:{ apply Hg in Ed. simpl in Ed. tauto. }
    destruct (nth_error h r) as [or|] eqn:Er; [|simpl; auto].
    destruct (locked_or_unlocked _ _ _ _ _ _ _ _ Ed) as [(-> & Hl)|(-> & Hl)]; [simpl; auto|].
    destruct (Ht d ltac:(eapply nth_lt; eauto)) as (p & Hp).
    destruct (Ht r ltac:(eapply nth_lt; eauto)) as (q & Hq).
    destruct (set_trees h d k r p q Hg Hl Ho Hp Hq) as (h' & p' & Hs & Hset & Hd' & G & HL & Hx).
    assert (fst (step h (SetItem d k r)) = h') as E by (rewrite Hs; auto).
    cbn [step] in E. rewrite Ed, Er in E. rewrite E. split; auto.
    assert (total h') as T.
    { intros x L. destruct (Nat.eq_dec x d) as [->|N]; [eauto|]. rewrite HL in L.
      destruct (Ht x L) as (p0 & H0). eauto. }
    split; auto. apply Hdet; auto. intros x p0 Hp0.
    destruct (Nat.eq_dec x d) as [->|N]; [exists p'; split; auto; apply (Pset p k q); auto; [apply (HP d)|apply (HP r)]; auto|].
    destruct (Ht x) as (p1 & H1); [rewrite <- HL; eapply denotes_lt; eauto|].
    exists (if x =? r then lock_pat p1 else p1). split; [apply Hx; auto|].
    destruct (x =? r); [apply Plock|]; apply (HP x); auto.
  - cbn [step]. destruct (nth_error h d) as [od|] eqn:Ed; [|simpl; auto].
    destruct od as [p|ex items len flen fd lk|]; [simpl; auto| |simpl; auto].
    destruct (locked_or_unlocked _ _ _ _ _ _ _ _ Ed) as [(-> & Hl)|(-> & Hl)]; [simpl; auto|].
    destruct (Ht d ltac:(eapply nth_lt; eauto)) as (p & Hp).
    destruct (del_trees h d k p Hg Hl Hp) as [(p' & h' & Hdel & Hs & Hd' & G & HL & Hx)|(Hdel & Hs)].
    + assert (fst (step h (DelItem d k)) = h') as E by (rewrite Hs; auto).
      cbn [step] in E. rewrite Ed in E. rewrite E. split; auto.
      assert (total h') as T.
      { intros x L. destruct (Nat.eq_dec x d) as [->|N]; [eauto|]. rewrite HL in L.
        destruct (Ht x L) as (p0 & H0). eauto. }
      split; auto. apply Hdet; auto. intros x p0 Hp0.
      destruct (Nat.eq_dec x d) as [->|N]; [exists p'; split; auto; apply (Pdel p k); auto; apply (HP d); auto|].
      destruct (Ht x) as (p1 & H1); [rewrite <- HL; eapply denotes_lt; eauto|].
      exists p1. split; [apply Hx; auto|]. apply (HP x); auto.
    + assert (fst (step h (DelItem d k)) = h) as E by (rewrite Hs; auto).
      cbn [step] in E. rewrite Ed in E. rewrite E. auto.
  - cbn [step]. destruct (nth_error h d) as [od|] eqn:Ed; [|simpl; auto].
    destruct od as [p|ex items len flen fd lk|]; [simpl; auto| |simpl; auto]. cbn [fst].
    set (h' := upd h d (ODict ex items len flen fd true)).
    assert (length h' = length h) as HL by apply upd_length.
    assert (forall x, nth_error h' x = if x =? d then option_map lock_obj (nth_error h x) else nth_error h x) as Hn.
    { intros x. destruct (x =? d) eqn:E.
      - apply Nat.eqb_eq in E. subst. unfold h'. rewrite nth_upd_same by (eapply nth_lt; eauto). rewrite Ed. auto.
      - apply Nat.eqb_neq in E. apply nth_upd_other. auto. }
    pose proof (lock_trees h h' d Hg HL Hn) as D.
    assert (total h') as T.
    { intros x L. rewrite HL in L. destruct (Ht x L) as (p0 & H0). eauto. }
    split; [|split; auto].
    + destruct (locked_or_unlocked _ _ _ _ _ _ _ _ Ed) as [(-> & Hl)|(-> & Hl)].
      * assert (h' = h) as ->; auto. apply nth_ext_error. intros i. rewrite Hn.
        destruct (i =? d) eqn:E; auto. apply Nat.eqb_eq in E. subst. rewrite Ed. auto.
      * pose proof (unlocked_not_member h d Hg Hl _ _ _ _ _ _ _ Ed) as Hself.
        pose proof (Hg _ _ Ed) as (He & Hc & Hlen).
        assert (locked_more h h' d) as LM.
        { split; auto. intros x Hx o Ho'. left. unfold h'. rewrite nth_upd_other; auto. }
        eapply (good_preserved h h' d); eauto.
        -- unfold h'. apply nth_upd_same. eapply nth_lt; eauto.
        -- simpl. split; auto. rewrite HL. split.
           ++ intros k c Hin. destruct (Hc k c Hin) as (H1 & H2). split; auto. intros Hu. apply H2.
              apply (locked_more_unlocked h h' d LM); eauto.
           ++ destruct Hlen as [Hlen|(H1 & H2)]; auto. right. rewrite <- H1, <- H2.
              split; apply update_len_ext; intros k c Hin; apply (locked_more_len h h' d LM); eauto.
    + apply Hdet; auto. intros x p0 Hp0. pose proof (denotes_lt _ _ _ Hp0) as L. rewrite HL in L.
      destruct (Ht x L) as (p1 & H1). exists (if x =? d then lock_pat p1 else p1). split; [apply D; auto|].
      destruct (x =? d); [apply Plock|]; apply (HP x); auto.
Qed.
