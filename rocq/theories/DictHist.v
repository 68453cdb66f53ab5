(** * Properties of dictionary histories. *)
From Coq Require Import Reals.
From Verif Require Import Base Num Nd Pattern Spec ListFacts PatFacts NonFree Free Contract Build Api DictHeap SpecDict
  DictFacts DictProps.

Lemma run_app : forall a b h, run h (a ++ b) = run (run h a) b.
Proof. induction a; simpl; auto. Qed.

Lemma good_nil : good [].
Proof. intros [|r] o H; discriminate. Qed.
Lemma total_nil : total [].
Proof. intros r H. simpl in H. lia. Qed.
Lemma denotes_nil : forall r p, ~ denotes [] r p.
Proof. intros r p H. apply denotes_lt in H. simpl in H. lia. Qed.

Lemma plain_run_P : forall (P : pat -> Prop),
  (forall p, P p -> P (lock_pat p)) ->
  (forall fd, P (new_dict fd)) ->
  (forall p k q p', P p -> P q -> setitem p k q = Ok p' -> P p') ->
  (forall p k p', P p -> delitem p k = Ok p' -> P p') ->
  forall ops h, Forall (fun o => plain o /\ match o with NewLeaf p => P p | _ => True end) ops ->
  good h -> total h -> (forall r p, denotes h r p -> P p) ->
  good (run h ops) /\ total (run h ops) /\ (forall r p, denotes (run h ops) r p -> P p).
Proof.
  intros P P1 P2 P3 P4. induction ops as [|o ops IH]; intros h H Hg Ht HP; simpl; auto.
  inversion H as [|? ? (H1 & H2) H3]; subst.
  destruct (plain_step P h o P1 P2 P3 P4 H1 H2 Hg Ht HP) as (A & B & C). auto.
Qed.

Lemma plain_run_from : forall ops h, Forall plain ops -> good h -> total h ->
  good (run h ops) /\ total (run h ops).
Proof.
  intros ops h H Hg Ht.
  destruct (plain_run_P (fun _ => True)) with (ops := ops) (h := h) as (A & B & _); auto.
  eapply Forall_impl; [|exact H]. intros o Ho. split; auto. destruct o; auto.
Qed.

Lemma plain_run : forall ops, Forall plain ops -> good (run [] ops) /\ total (run [] ops).
Proof. intros. apply plain_run_from; auto. apply good_nil. apply total_nil. Qed.

(** ** lengths *)
Lemma reports_fun : forall h r f n m, reports h r f n -> reports h r f m -> n = m.
Proof. intros h r f n m (l & H & <-) (l' & H' & <-). congruence. Qed.

Lemma reports_sum : forall h (items : list (key * ref)) f ls,
  mapM (fun kr => ref_len h (snd kr) f) items = Ok ls ->
  Forall2 (fun kr m => reports h (snd kr) f m) items (map pl_n ls).
Proof.
  intros h. induction items as [|[k r] items IH]; intros f ls H; simpl in H.
  - inversion H. constructor.
  - apply bind_ok in H. destruct H as (l & Hl & H). apply bind_ok in H. destruct H as (ls' & Hls & H).
    inversion H; subst. simpl. constructor; auto. exists l. auto.
Qed.

Lemma plen_sum_n : forall ls, pl_n (plen_sum ls) = lsum (map pl_n ls).
Proof.
  intros ls. assert (pl_n (fold_right plen_add (plint 0) ls) = lsum (map pl_n ls)) as E.
  { induction ls; simpl; auto. }
  destruct ls; auto.
Qed.

Lemma update_len_sum : forall h items f l, update_len h items f = Ok l ->
  exists ns, Forall2 (fun kr m => reports h (snd kr) f m) items ns /\ pl_n l = lsum ns.
Proof.
  intros h items f l H. unfold update_len in H. apply bind_ok in H. destruct H as (ls & Hls & H).
  inversion H; subst. exists (map pl_n ls). split; [apply reports_sum; auto|apply plen_sum_n].
Qed.

Lemma good_len_sum : forall h d ex items len flen fd lk, good h ->
  nth_error h d = Some (ODict ex items len flen fd lk) ->
  forall f, exists ns, Forall2 (fun kr m => reports h (snd kr) f m) items ns /\
     pl_n (if f then flen else len) = lsum ns.
Proof.
  intros h d ex items len flen fd lk Hg Hd f. apply Hg in Hd.
  destruct Hd as (_ & _ & [(-> & H1 & H2)|(H1 & H2)]).
  - exists []. split; [constructor|]. destruct f; auto.
  - destruct f; apply update_len_sum; auto.
Qed.

Lemma forall2_reports_fun : forall h f (items : list (key * ref)) ns ms,
  Forall2 (fun kr m => reports h (snd kr) f m) items ns ->
  Forall2 (fun kr m => reports h (snd kr) f m) items ms -> ns = ms.
Proof.
  intros h f. induction items; intros ns ms H1 H2; inversion H1; inversion H2; subst; auto.
  f_equal; eauto using reports_fun.
Qed.

Lemma good_true_len : forall h f, good h ->
  (forall r p, denotes h r p -> pl_n (flat_len p f) = true_len p f) /\
  (forall its ps, denotes_items h its ps ->
     lsum (map (fun kq => pl_n (flat_len (snd kq) f)) ps) = lsum (map (fun kq => true_len (snd kq) f) ps)).
Proof.
  intros h f Hg. apply denotes_both.
  - intros r p H. apply Hg in H. simpl in H. destruct p; auto; discriminate.
  - intros r ex items len flen fd lk qs H Hi IH. cbn [true_len]. rewrite <- IH.
    pose proof (Hg _ _ H) as (_ & _ & G). cbn [flat_len]. destruct G as [(-> & H1 & H2)|(H1 & H2)].
    + inversion Hi; subst. simpl. destruct f; auto.
    + rewrite (update_len_items _ _ _ _ Hi) in H1. rewrite (update_len_items _ _ _ _ Hi) in H2. inversion H1; inversion H2; subst.
      assert (pl_n (items_len qs f) = lsum (map (fun kq => pl_n (flat_len (snd kq) f)) qs)) as E.
      { unfold items_len. rewrite plen_sum_n, map_map. auto. }
      destruct f; auto.
  - auto.
  - intros k r q items qs Hq IHq Hi IHi. simpl. lia.
Qed.

(** C20 *)
Theorem dict_lengths : forall ops d items f,
  Forall plain ops -> members (run [] ops) d items ->
  (exists n, reports (run [] ops) d f n /\ children_sum (run [] ops) d f n) /\
  (exists p, denotes (run [] ops) d p /\ reports (run [] ops) d f (true_len p f)).
Proof.
  intros ops d items f H (ex & len & flen & fd & lk & Hd).
  destruct (plain_run ops H) as (Hg & Ht). set (h := run [] ops) in *. split.
  - destruct (good_len_sum h d ex items len flen fd lk Hg Hd f) as (ns & Hn & Hl).
    exists (lsum ns). split.
    + exists (if f then flen else len). split; auto. unfold ref_len. rewrite Hd. auto.
    + exists items, ns. split; auto. repeat eexists; eauto.
  - destruct (Ht d) as (p & Hp); [eapply nth_lt; eauto|]. exists p. split; auto.
    exists (flat_len p f). split; [apply denotes_len; auto|]. apply (proj1 (good_true_len h f Hg) d); auto.
Qed.

(** The object graph of a plain history is a forest of trees built by the value
    operations, and the heap operations act on them as the value operations. *)
Theorem tree_view : forall ops,
  Forall plain_built ops ->
  (forall r, r < length (run [] ops) -> exists p, denotes (run [] ops) r p /\ built p) /\
  (forall d k r p q, d <> r -> denotes (run [] ops) d p -> denotes (run [] ops) r q ->
     match setitem p k q with
     | Ok p' => exists h', step (run [] ops) (SetItem d k r) = (h', Ok tt) /\
                  denotes h' d p' /\ denotes h' r (lock_pat q) /\
                  (forall x p0, x <> d -> x <> r -> denotes (run [] ops) x p0 -> denotes h' x p0)
     | Err e => step (run [] ops) (SetItem d k r) = (run [] ops, Err e)
     end) /\
  (forall d k p, denotes (run [] ops) d p ->
     match delitem p k with
     | Ok p' => exists h', step (run [] ops) (DelItem d k) = (h', Ok tt) /\ denotes h' d p' /\
                  (forall x p0, x <> d -> denotes (run [] ops) x p0 -> denotes h' x p0)
     | Err e => step (run [] ops) (DelItem d k) = (run [] ops, Err e)
     end).
Proof.
  intros ops H.
  destruct (plain_run_P built built_lock built_dict) with (ops := ops) (h := @nil obj) as (Hg & Ht & HP).
  - intros. eapply built_set; [exact H0|exact H1|exact H2].
  - intros. eapply built_del; [exact H0|exact H1].
  - eapply Forall_impl; [|exact H]. intros o (H1 & H2). auto.
  - apply good_nil.
  - apply total_nil.
  - intros r p Hp. exfalso. eapply denotes_nil; eauto.
  - set (h := run [] ops) in *. split; [|split].
    + intros r Hr. destruct (Ht r Hr) as (p & Hp). eauto.
    + intros d k r p q Hne Hp Hq.
      pose proof (denotes_lt _ _ _ Hq) as Hr. apply nth_error_Some in Hr.
      inversion Hp as [? ? E|? ex items len flen fd lk qs E Hi]; subst.
      * pose proof (Hg _ _ E) as Hl. destruct p; try discriminate; cbn [setitem step]; rewrite E;
          destruct (nth_error h r); auto; congruence.
      * destruct lk.
        -- cbn [setitem step]. rewrite E. destruct (nth_error h r); auto; congruence.
        -- destruct (set_trees h d k r _ q Hg (ex_intro _ ex (ex_intro _ items (ex_intro _ len (ex_intro _ flen
             (ex_intro _ fd E))))) Hne Hp Hq) as (h' & p' & H1 & H2 & H3 & H4 & H5 & H6).
           rewrite H2. exists h'. split; auto. split; auto. split.
           ++ pose proof (H6 r q ltac:(auto) Hq) as H7. rewrite Nat.eqb_refl in H7. auto.
           ++ intros x p0 Hx Hxr Hx0. pose proof (H6 x p0 Hx Hx0) as H7. apply Nat.eqb_neq in Hxr.
              rewrite Hxr in H7. auto.
    + intros d k p Hp.
      inversion Hp as [? ? E|? ex items len flen fd lk qs E Hi]; subst.
      * pose proof (Hg _ _ E) as Hl. destruct p; try discriminate; cbn [delitem step]; rewrite E; auto.
      * destruct lk; [cbn [delitem step]; rewrite E; auto|].
        destruct (del_trees h d k _ Hg (ex_intro _ ex (ex_intro _ items (ex_intro _ len (ex_intro _ flen
             (ex_intro _ fd E))))) Hp) as [(p' & h' & H1 & H2 & H3 & H4 & H5 & H6)|(H1 & H2)].
        -- rewrite H1. eauto.
        -- rewrite H1. auto.
Qed.

(** C21 *)
Lemma upd_keeps : forall (h : heap) d x o, x <> d -> nth_error (upd h d o) x = nth_error h x.
Proof. intros. apply nth_upd_other. auto. Qed.

Lemma refresh_other : forall h d x, x <> d -> nth_error (fst (refresh h d)) x = nth_error h x.
Proof.
  intros h d x Hx. unfold refresh. destruct (nth_error h d) as [[p|ex items len flen fd lk|]|]; auto.
  destruct (update_len h items true); auto. cbv zeta.
  destruct (update_len _ items false); cbn [fst]; rewrite ?nth_upd_other by auto; auto.
Qed.

Lemma lock_member_locked : forall h r x, locked_at h x -> nth_error (lock_member h r) x = nth_error h x.
Proof.
  intros h r x (ex & i & l & fl & fd & H). unfold lock_member.
  destruct (nth_error h r) as [[p|ex' i' l' fl' fd' lk'|]|] eqn:E; auto. destruct ex'; auto.
  destruct (Nat.eq_dec x r) as [->|N]; [|apply nth_upd_other; auto].
  rewrite nth_upd_same by (eapply nth_lt; eauto). rewrite H in E. inversion E; subst. auto.
Qed.

Lemma step_locked : forall h o d, locked_at h d -> nth_error (fst (step h o)) d = nth_error h d.
Proof.
  intros h o d Hd. pose proof Hd as (ex & i & l & fl & fd & H).
  destruct o as [p| |ex' fd'|d' k r|d' k|d']; cbn [step].
  - simpl. rewrite nth_error_app1; auto. eapply nth_lt; eauto.
  - simpl. rewrite nth_error_app1; auto. eapply nth_lt; eauto.
  - simpl. rewrite nth_error_app1; auto. eapply nth_lt; eauto.
  - destruct (nth_error h d') as [[p|ex' i' l' fl' fd' lk'|]|] eqn:E; destruct (nth_error h r); auto.
    destruct lk'; auto. assert (d <> d') as N by (intros ->; congruence).
    rewrite refresh_other by auto.
    rewrite lock_member_locked; [apply nth_upd_other; auto|].
    repeat eexists. rewrite nth_upd_other by auto. eauto.
  - destruct (nth_error h d') as [[p|ex' i' l' fl' fd' lk'|]|] eqn:E; auto.
    destruct lk'; auto. destruct (dict_get i' k); auto. assert (d <> d') as N by (intros ->; congruence).
    rewrite refresh_other by auto. apply nth_upd_other; auto.
  - destruct (nth_error h d') as [[p|ex' i' l' fl' fd' lk'|]|] eqn:E; auto. cbn [fst].
    destruct (Nat.eq_dec d d') as [->|N]; [|apply nth_upd_other; auto].
    rewrite nth_upd_same by (eapply nth_lt; eauto). rewrite H in E. inversion E; subst. auto.
Qed.

Lemma run_locked : forall ops h d, locked_at h d -> nth_error (run h ops) d = nth_error h d.
Proof.
  induction ops as [|o ops IH]; intros h d H; simpl; auto.
  pose proof (step_locked h o d H) as E. rewrite IH; auto.
  destruct H as (ex & i & l & fl & fd & H). repeat eexists. rewrite E. eauto.
Qed.

(** For every heap whatsoever, including corrupted ones. *)
Theorem lock_forever : forall h d,
  locked_at h d ->
  (forall ops, nth_error (run h ops) d = nth_error h d) /\
  (forall ops k r, r < length (run h ops) ->
     step (run h ops) (SetItem d k r) = (run h ops, Err ValueError)) /\
  (forall ops k, step (run h ops) (DelItem d k) = (run h ops, Err ValueError)).
Proof.
  intros h d H. pose proof (fun ops => run_locked ops h d H) as E. split; auto.
  destruct H as (ex & i & l & fl & fd & H). rewrite H in E. split.
  - intros ops k r Hr. cbn [step]. rewrite E. apply nth_error_Some in Hr.
    destruct (nth_error (run h ops) r); auto. congruence.
  - intros ops k. cbn [step]. rewrite E. auto.
Qed.

Theorem lock_happens : forall h d,
  (forall ex items len flen fd lk, nth_error h d = Some (ODict ex items len flen fd lk) ->
     snd (step h (Lock d)) = Ok tt /\ locked_at (fst (step h (Lock d))) d) /\
  (forall k r items len flen fd lk, unlocked_at h d ->
     nth_error h r = Some (ODict true items len flen fd lk) ->
     locked_at (fst (step h (SetItem d k r))) r).
Proof.
  intros h d. split.
  - intros ex items len flen fd lk H. cbn [step]. rewrite H. cbn [fst snd]. split; auto.
    repeat eexists. apply nth_upd_same. eapply nth_lt; eauto.
  - intros k r items len flen fd lk (ex' & i' & l' & fl' & fd' & H') H. cbn [step]. rewrite H', H.
    set (h1 := upd h d _).
    assert (exists i l f g, nth_error h1 r = Some (ODict true i l f g lk)) as (i & l & f & g & E).
    { unfold h1. destruct (Nat.eq_dec r d) as [->|N].
      - rewrite nth_upd_same by (eapply nth_lt; eauto). rewrite H in H'. inversion H'; subst. repeat eexists.
      - rewrite nth_upd_other by auto. repeat eexists; eauto. }
    assert (nth_error (lock_member h1 r) r = Some (ODict true i l f g true)) as E2.
    { unfold lock_member. rewrite E. apply nth_upd_same. eapply nth_lt; eauto. }
    destruct (Nat.eq_dec r d) as [->|N].
    + unfold refresh. rewrite E2.
      destruct (update_len _ i true); [|cbn [fst]; repeat eexists; eauto]. cbv zeta.
      assert (forall o, nth_error (upd (lock_member h1 d) d o) d = Some o) as E3.
      { intros o. apply nth_upd_same. eapply nth_lt; eauto. }
      destruct (update_len _ i false); cbn [fst].
      * repeat eexists. rewrite upd_upd. apply E3.
      * repeat eexists. apply E3.
    + repeat eexists. rewrite refresh_other by auto. eauto.
Qed.

(** Leaves never change. *)
Lemma run_leaf : forall later h c q, nth_error h c = Some (OLeaf q) -> nth_error (run h later) c = Some (OLeaf q).
Proof.
  intros later. induction later as [|o later IH]; intros h c q Ho; simpl; auto. apply IH.
      destruct o as [p| |ex' fd'|d' k r|d' k|d']; cbn [step]; try (simpl; apply nth_app_old; auto; fail).
  - destruct (nth_error h d') as [[p|ex' i' l' fl' fd' lk'|]|] eqn:E; destruct (nth_error h r); auto.
        destruct lk'; auto. assert (c <> d') as N by (intros ->; congruence).
        rewrite refresh_other by auto. set (h1 := upd h d' _).
        assert (nth_error h1 c = Some (OLeaf q)) as E1 by (unfold h1; rewrite nth_upd_other; auto).
        unfold lock_member. destruct (nth_error h1 r) as [[?|[] ? ? ? ? ?|]|] eqn:E2; auto.
        rewrite nth_upd_other; auto. congruence.
  - destruct (nth_error h d') as [[p|ex' i' l' fl' fd' lk'|]|] eqn:E; auto.
        destruct lk'; auto. destruct (dict_get i' k); auto. assert (c <> d') as N by (intros ->; congruence).
        rewrite refresh_other by auto. rewrite nth_upd_other; auto.
  - destruct (nth_error h d') as [[p|ex' i' l' fl' fd' lk'|]|] eqn:E; auto. cbn [fst].
        rewrite nth_upd_other; auto. congruence.
Qed.

(** The whole tree below a locked dictionary is frozen. *)
Theorem locked_tree : forall ops later d p,
  Forall plain ops -> locked_at (run [] ops) d -> denotes (run [] ops) d p ->
  denotes (run [] (ops ++ later)) d p.
Proof.
  intros ops later d p H Hl Hp. rewrite run_app.
  destruct (plain_run ops H) as (Hg & _). set (h := run [] ops) in *. clearbody h.
  assert (forall c, c < length h -> ~ unlocked_at h c -> forall o, nth_error h c = Some o ->
            nth_error (run h later) c = Some o) as Hfix.
  { intros c Hc Hu o Ho. destruct o as [q|ex items len flen fd lk|].
    - apply run_leaf. auto.
    - rewrite run_locked; auto. destruct lk; [repeat eexists; eauto|]. exfalso. apply Hu. repeat eexists; eauto.
    - apply Hg in Ho. simpl in Ho. tauto. }
  assert ((forall r p, denotes h r p -> ~ unlocked_at h r -> denotes (run h later) r p) /\
    (forall its ps, denotes_items h its ps -> (forall k c, In (k, c) its -> ~ unlocked_at h c) ->
       denotes_items (run h later) its ps)) as (F & _).
  { apply denotes_both.
    - intros r q Hr Hu. constructor. apply Hfix; auto. eapply nth_lt; eauto.
    - intros r ex items len flen fd lk qs Hr Hi IH Hu. eapply den_dict.
      + apply Hfix; eauto. eapply nth_lt; eauto.
      + apply IH. intros k c Hin. apply Hg in Hr. destruct Hr as (_ & Hr & _). apply (Hr k c Hin).
    - intros. constructor.
    - intros k r q items qs Hq IHq Hi IHi Hu. constructor; [apply IHq|apply IHi]; simpl in Hu; eauto. }
  apply F; auto. intros (a & b & c & e & g & Hu). destruct Hl as (a' & b' & c' & e' & g' & Hl). congruence.
Qed.
