(** * Corner cases of dictionary histories: self-insertion, failing assignment,
      emptied dictionaries, subclasses. *)
From Coq Require Import Reals.
From Verif Require Import Base Num Nd Pattern Spec ListFacts PatFacts NonFree Free Contract Build Api DictHeap SpecDict
  DictFacts DictProps DictHist.

(** ** C22: self-insertion *)
Definition keys_nodup (p : pat) : Prop :=
  match p with PDict items _ _ _ _ => NoDup (map fst items) | _ => True end.

Lemma plain_nodup : forall ops, Forall plain ops ->
  forall d items, members (run [] ops) d items -> NoDup (map fst items).
Proof.
  intros ops H d items (ex & len & flen & fd & lk & Hd).
  destruct (plain_run_P keys_nodup) with (ops := ops) (h := @nil obj) as (Hg & Ht & HP).
  - destruct p; auto.
  - intros. simpl. constructor.
  - intros p k q p' Hp Hq Hs. destruct p; try discriminate. simpl in Hs. destruct locked; inversion Hs; subst.
    simpl in *. apply assign_nodup. auto.
  - intros p k p' Hp Hs. destruct p; try discriminate. simpl in Hs. destruct locked; [discriminate|].
    destruct (dict_get items0 k); inversion Hs; subst. simpl in *. apply remove_nodup. auto.
  - eapply Forall_impl; [|exact H]. intros o Ho. split; auto. destruct o; auto. simpl in *. destruct p; simpl in *; auto; discriminate Ho.
  - apply good_nil.
  - apply total_nil.
  - intros r p Hp. exfalso. eapply denotes_nil; eauto.
  - destruct (Ht d) as (p & Hp); [eapply nth_lt; eauto|]. pose proof (HP _ _ Hp) as HK.
    inversion Hp as [? ? E|? ? ? ? ? ? ? ? E Hi]; subst; rewrite Hd in E; inversion E; subst.
    simpl in HK. rewrite (denotes_items_map _ _ _ Hi). auto.
Qed.

Lemma lsum_assign : forall f (v : ref -> nat) (items : list (key * ref)) k r,
  NoDup (map fst items) -> f = (fun kr : key * ref => v (snd kr)) ->
  lsum (map f (assign items k r)) = lsum (map f (remove_key items k)) + v r.
Proof.
  intros f v items k r H ->. induction items as [|[k0 r0] items IH]; simpl; [lia|].
  inversion H; subst. destruct (key_eqb k k0) eqn:E; simpl.
  - apply key_eqb_true in E. subst.
    assert (remove_key items k0 = items) as ->.
    { apply remove_missing. clear - H2. induction items as [|[k1 r1] items IH]; simpl in *; auto.
      destruct (key_eqb k0 k1) eqn:E; [|apply IH; tauto]. apply key_eqb_true in E. subst. tauto. }
    lia.
  - rewrite IH by auto. fold (remove_key items k). lia.
Qed.

Lemma reports_vals : forall h f (items : list (key * ref)) ns,
  Forall2 (fun kr m => reports h (snd kr) f m) items ns ->
  ns = map (fun kr => match ref_len h (snd kr) f with Ok l => pl_n l | Err _ => 0 end) items.
Proof.
  intros h f. induction items as [|kr items IH]; intros ns H; inversion H; subst; simpl; auto.
  destruct H2 as (l & E & <-). rewrite E. f_equal. auto.
Qed.

Lemma vals_reports : forall h f (items : list (key * ref)),
  (forall k c, In (k, c) items -> exists l, ref_len h c f = Ok l) ->
  Forall2 (fun kr m => reports h (snd kr) f m) items
    (map (fun kr => match ref_len h (snd kr) f with Ok l => pl_n l | Err _ => 0 end) items).
Proof.
  intros h f. induction items as [|[k c] items IH]; intros H; simpl; constructor.
  - destruct (H k c) as (l & E); [simpl; auto|]. simpl. rewrite E. exists l. auto.
  - apply IH. intros. apply (H k0). simpl. auto.
Qed.

Fixpoint psize (p : pat) : nat :=
  match p with
  | PDict items _ _ _ _ => S (lsum (map (fun kq => psize (snd kq)) items))
  | _ => 1
  end.

Lemma in_lsum : forall (l : list (key * pat)) f k q, In (k, q) l ->
  f q <= lsum (map (fun kq => f (snd kq)) l).
Proof.
  induction l as [|[k0 q0] l IH]; simpl; intros f k q H; [tauto|].
  destruct H as [H|H]; [inversion H; subst; simpl; lia|]. specialize (IH f _ _ H). lia.
Qed.

(** A dictionary that is its own member has no finite tree. *)
Lemma self_member_no_tree : forall h d items k, members h d items -> In (k, d) items ->
  forall p, ~ denotes h d p.
Proof.
  intros h d items k (ex & len & flen & fd & lk & Hd) Hin p Hp. pose proof Hp as Hp'.
  inversion Hp as [? ? E|? ? ? ? ? ? ? qs E Hi]; subst; rewrite Hd in E; inversion E; subst.
  assert (exists q, denotes h d q /\ In (k, q) qs) as (q & Hq & Hin').
  { clear - Hi Hin. induction Hi; simpl in Hin; [tauto|]. destruct Hin as [Hin|Hin].
    - inversion Hin; subst. exists q. simpl. auto.
    - destruct (IHHi Hin) as (q' & A & B). exists q'. simpl. auto. }
  pose proof (proj1 (denotes_det h) _ _ Hp' _ Hq) as Eq.
  apply (in_lsum qs psize) in Hin'. rewrite <- Eq in Hin'. cbn [psize] in Hin'. lia.
Qed.

Lemma assign_in_new : forall V (d : list (key * V)) k v, In (k, v) (assign d k v).
Proof.
  induction d as [|[k0 v0] d IH]; simpl; intros; auto.
  destruct (key_eqb k k0) eqn:E; simpl; auto. apply key_eqb_true in E. subst. auto.
Qed.

Lemma self_set : forall h d k ex items len flen fd,
  good h -> nth_error h d = Some (ODict ex items len flen fd false) ->
  exists l fl,
    let h' := upd h d (ODict true (assign items k d) l fl fd true) in
    step h (SetItem d k d) = (h', Ok tt) /\
    update_len h (assign items k d) false = Ok l /\ update_len h (assign items k d) true = Ok fl.
Proof.
  intros h d k ex items len flen fd Hg Hd. pose proof (nth_lt _ _ _ _ Hd) as Ld.
  pose proof (Hg _ _ Hd) as (-> & Hc & _).
  cbn [step]. rewrite Hd.
  unfold lock_member. rewrite nth_upd_same by auto. rewrite upd_upd.
  unfold refresh. rewrite nth_upd_same by auto.
  assert (forall f o len flen, obj_len o f = Ok (if f : bool then flen else len) ->
     (len = len -> True) ->
     (if f then flen else len) = (if f then flen else len)) as _ by auto.
  assert (forall f h1, (forall x, x <> d -> nth_error h1 x = nth_error h x) -> ref_len h1 d f = ref_len h d f ->
     update_len h1 (assign items k d) f = update_len h (assign items k d) f) as Hext.
  { intros f h1 H1 H2. apply update_len_ext. intros k' c Hin. destruct (Nat.eq_dec c d) as [->|N]; auto.
    unfold ref_len. rewrite H1; auto. }
  assert (forall f, exists l, update_len h (assign items k d) f = Ok l) as Htot.
  { intros f. apply update_len_total. intros k' c Hin. apply good_reports; auto.
    apply assign_in in Hin. destruct Hin as [->|Hin]; auto. apply (Hc k' c Hin). }
  rewrite Hext.
  2:{ intros. apply nth_upd_other. auto. }
  2:{ unfold ref_len. rewrite nth_upd_same, Hd by auto. auto. }
  destruct (Htot true) as (fl & ->). destruct (Htot false) as (l & Hl).
  rewrite upd_upd. cbv zeta. rewrite Hext.
  2:{ intros. apply nth_upd_other. auto. }
  2:{ unfold ref_len. rewrite nth_upd_same, Hd by auto. auto. }
  rewrite Hl. exists l, fl. rewrite upd_upd. auto.
Qed.

Theorem self_insertion : forall ops d k f n m,
  Forall plain ops -> unlocked_at (run [] ops) d ->
  reports (run [] ops) d f n -> others_sum (run [] ops) d k f m ->
  exists h', step (run [] ops) (SetItem d k d) = (h', Ok tt) /\ locked_at h' d /\
  forall later,
    reports (run h' later) d f (m + n) /\
    children_sum (run h' later) d f (m + (m + n)) /\
    (forall p, ~ denotes (run h' later) d p).
Proof.
  intros ops d k f n m H (ex & items & len & flen & fd & Hd) Hn (items' & ms & (e1 & e2 & e3 & e4 & e5 & Hd') & Hm & Em).
  rewrite Hd in Hd'. inversion Hd'; subst e1 items' e2 e3 e4 e5. clear Hd'.
  destruct (plain_run ops H) as (Hg & Ht).
  pose proof (plain_nodup ops H d items) as Hnd. set (h := run [] ops) in *.
  specialize (Hnd ltac:(repeat eexists; eauto)).
  pose proof (nth_lt _ _ _ _ Hd) as Ld.
  pose proof (Hg _ _ Hd) as (_ & Hc & _).
  assert (unlocked_at h d) as Hu by (repeat eexists; eauto).
  pose proof (unlocked_not_member h d Hg Hu _ _ _ _ _ _ _ Hd) as Hself.
  destruct (self_set h d k ex items len flen fd Hg Hd) as (l & fl & Hs & Hl & Hfl). cbv zeta in Hs.
  set (h' := upd h d (ODict true (assign items k d) l fl fd true)) in *.
  exists h'. split; auto.
  assert (nth_error h' d = Some (ODict true (assign items k d) l fl fd true)) as Hd' by (apply nth_upd_same; auto).
  assert (locked_at h' d) as Hlk by (repeat eexists; eauto). split; auto.
  set (val := fun c => match ref_len h c f with Ok l => pl_n l | Err _ => 0 end).
  assert (val d = n) as Vd. { destruct Hn as (l0 & E & <-). unfold val. rewrite E. auto. }
  assert (m = lsum (map (fun kr : key * ref => val (snd kr)) (remove_key items k))) as Vm.
  { rewrite Em. f_equal. apply reports_vals. auto. }
  assert (forall b, update_len h (assign items k d) f = Ok b -> pl_n b = m + n) as Hb.
  { intros b Eb. apply update_len_sum in Eb. destruct Eb as (ns & H1 & H2). rewrite H2.
    rewrite (reports_vals _ _ _ _ H1). rewrite Vm, <- Vd. apply (lsum_assign _ val); auto. }
  intros later. pose proof (run_locked later h' d Hlk) as Er.
  assert (reports (run h' later) d f (m + n)) as R.
  { exists (if f then fl else l). unfold ref_len. rewrite Er, Hd'. split; auto. destruct f; auto. }
  split; auto. split.
  - exists (assign items k d). eexists. split; [rewrite Hd' in Er; repeat eexists; eauto|].
    assert (forall k' c, In (k', c) items -> c <> d -> ref_len (run h' later) c f = ref_len h c f) as Hfix.
    { intros k' c Hin Hcd. destruct (Hc k' c Hin) as (Lc & Uc).
      assert (nth_error h' c = nth_error h c) as E by (apply nth_upd_other; auto).
      destruct (nth_error h c) as [[q|a1 a2 a3 a4 a5 a6|]|] eqn:Ec.
      - assert (nth_error (run h' later) c = Some (OLeaf q)) as E2 by (apply run_leaf; auto).
        unfold ref_len. rewrite E2, Ec. auto.
      - destruct a6.
        + unfold ref_len. rewrite run_locked; [rewrite E, Ec; auto|]. repeat eexists. eauto.
        + exfalso. apply Uc. repeat eexists. eauto.
      - exfalso. apply Hg in Ec. auto.
      - apply nth_error_None in Ec. lia. }
    set (val' := fun c => match ref_len (run h' later) c f with Ok l => pl_n l | Err _ => 0 end).
    assert (forall k' c, In (k', c) items -> val' c = val c) as Hv.
    { intros k' c Hin. unfold val', val. rewrite (Hfix k' c); auto. eapply Hself; eauto. }
    split.
    + apply (vals_reports (run h' later) f). intros k' c Hin. apply assign_in in Hin.
      destruct R as (l0 & R & _).
      destruct Hin as [->|Hin]; [eauto|]. rewrite (Hfix k' c); auto; [|eapply Hself; eauto].
      apply good_reports; auto. apply (Hc k' c Hin).
    + transitivity (lsum (map (fun kr : key * ref => val' (snd kr)) (assign items k d))).
      2:{ reflexivity. }
      rewrite (lsum_assign _ val') by auto.
      assert (val' d = m + n) as ->.
      { destruct R as (l0 & E & E'). unfold val'. rewrite E. auto. }
      f_equal. rewrite Vm. f_equal. apply map_ext_in. intros [k' c] Hin. simpl. symmetry. apply (Hv k').
      apply remove_in in Hin. auto.
  - apply (self_member_no_tree _ d (assign items k d) k).
    + rewrite Hd' in Er. repeat eexists; eauto.
    + apply assign_in_new.
Qed.

(** ** C23: a failing assignment *)
Theorem failed_assignment : forall h d k r ex items len flen fd,
  nth_error h d = Some (ODict ex items len flen fd false) ->
  nth_error h r = Some OOther ->
  (forall k' c, In (k', c) items -> c <> d /\ exists l fl, ref_len h c false = Ok l /\ ref_len h c true = Ok fl) ->
  exists h1 h2 l fl,
    step h (SetItem d k r) = (h1, Err AttributeError) /\
    nth_error h1 d = Some (ODict ex (assign items k r) len flen fd false) /\
    (forall x, x <> d -> nth_error h1 x = nth_error h x) /\
    step h1 (DelItem d k) = (h2, Ok tt) /\
    nth_error h2 d = Some (ODict ex (remove_key items k) l fl fd false) /\
    (forall x, x <> d -> nth_error h2 x = nth_error h x) /\
    (forall f, exists n, reports h2 d f n /\ children_sum h2 d f n).
Proof.
  intros h d k r ex items len flen fd Hd Hr Hm. pose proof (nth_lt _ _ _ _ Hd) as Ld.
  assert (r <> d) as Hrd by (intros ->; congruence).
  set (h1 := upd h d (ODict ex (assign items k r) len flen fd false)).
  assert (forall x, x <> d -> nth_error h1 x = nth_error h x) as E1 by (intros; apply nth_upd_other; auto).
  assert (nth_error h1 d = Some (ODict ex (assign items k r) len flen fd false)) as E2 by (apply nth_upd_same; auto).
  assert (forall f, ref_len h1 r f = Err AttributeError) as Er.
  { intros f. unfold ref_len. rewrite E1, Hr by auto. auto. }
  assert (forall f, update_len h1 (assign items k r) f = Err AttributeError) as Hu.
  { intros f. unfold update_len.
    assert (mapM (fun kr => ref_len h1 (snd kr) f) (assign items k r) = Err AttributeError) as ->; auto.
    clear E2. clearbody h1. clear Hd. induction items as [|[k0 c0] items IH]; simpl.
    - rewrite Er. auto.
    - destruct (key_eqb k k0); simpl.
      + rewrite Er. auto.
      + destruct (Hm k0 c0) as (H1 & l & fl & H2 & H3); [simpl; auto|].
        assert (exists b, ref_len h1 c0 f = Ok b) as (b & ->).
        { unfold ref_len in *. rewrite E1 by auto. destruct f; eauto. }
        cbn [bind]. rewrite IH; auto. intros. apply (Hm k'). simpl. auto. }
  assert (step h (SetItem d k r) = (h1, Err AttributeError)) as S1.
  { cbn [step]. rewrite Hd, Hr. fold h1.
    assert (lock_member h1 r = h1) as ->. { unfold lock_member. rewrite E1, Hr by auto. auto. }
    unfold refresh. rewrite E2, Hu. auto. }
  set (h1' := upd h1 d (ODict ex (remove_key (assign items k r) k) len flen fd false)).
  assert (nth_error h1' d = Some (ODict ex (remove_key items k) len flen fd false)) as E3.
  { unfold h1'. rewrite remove_assign. apply nth_upd_same. eapply nth_lt; eauto. }
  assert (forall x, x <> d -> nth_error h1' x = nth_error h x) as E4.
  { intros x Hx. unfold h1'. rewrite nth_upd_other by auto. auto. }
  destruct (refresh_ok h1' d ex (remove_key items k) len flen fd false E3) as (l & fl & Hl & Hfl & HR).
  { intros k' c Hin. apply remove_in in Hin. apply (Hm k' c Hin). }
  { intros k' c f Hin. apply remove_in in Hin. destruct (Hm k' c Hin) as (H1 & l & fl & H2 & H3).
    unfold ref_len in *. rewrite E4 by auto. destruct f; eauto. }
  exists h1, (upd h1' d (ODict ex (remove_key items k) l fl fd false)), l, fl.
  assert (nth_error (upd h1' d (ODict ex (remove_key items k) l fl fd false)) d =
     Some (ODict ex (remove_key items k) l fl fd false)) as E5.
  { apply nth_upd_same. eapply nth_lt; eauto. }
  split; auto. split; auto. split; auto. split.
  { cbn [step]. rewrite E2, assign_has. fold h1'. auto. }
  split; auto. split. { intros x Hx. rewrite nth_upd_other by auto. auto. }
  intros f. set (h2 := upd h1' d _) in *.
  assert (update_len h2 (remove_key items k) f = Ok (if f then fl else l)) as EU.
  { transitivity (update_len h1' (remove_key items k) f); [|destruct f; auto].
    apply update_len_ext. intros k' c Hin. unfold ref_len, h2. rewrite nth_upd_other; auto.
    apply remove_in in Hin. apply (Hm k' c Hin). }
  apply update_len_sum in EU. destruct EU as (ns & H1 & H2). exists (lsum ns). split.
  - exists (if f then fl else l). split; auto. unfold ref_len. rewrite E5. auto.
  - exists (remove_key items k), ns. split; auto. repeat eexists; eauto.
Qed.

(** ** C24: emptied dictionaries *)
Theorem emptied_lengths : forall h d k c ex len flen fd,
  nth_error h d = Some (ODict ex [(k, c)] len flen fd false) ->
  exists h', step h (DelItem d k) = (h', Ok tt) /\
    nth_error h' d = Some (ODict ex [] (mkLen 0 true) (mkLen 0 true) fd false).
Proof.
  intros h d k c ex len flen fd H. pose proof (nth_lt _ _ _ _ H) as L. cbn [step]. rewrite H. simpl dict_get.
  assert (key_eqb k k = true) as E by (destruct (key_eqb k k) eqn:E; auto; apply key_eqb_false in E; congruence).
  unfold remove_key. simpl. rewrite E. simpl. unfold refresh. rewrite nth_upd_same by auto.
  cbn [update_len mapM bind]. cbv zeta. rewrite !upd_upd.
  change (update_len (upd h d (ODict ex [] len flen fd false)) [] true) with (Ok (mkLen 0 true)).
  cbv iota. change (update_len (upd h d (ODict ex [] len (mkLen 0 true) fd false)) [] false) with (Ok (mkLen 0 true)).
  cbv iota. eexists. split; [reflexivity|]. apply nth_upd_same. auto.
Qed.

Theorem emptied_empty_bool : forall fd lk b,
  empty_bool (PDict [] (mkLen 0 true) (mkLen 0 true) fd lk) b = Err TypeError /\
  empty_bool (new_dict fd) b = Ok (FDict []).
Proof. intros. split; reflexivity. Qed.

Lemma fold_items_float : forall A (fq : pat -> nd A -> res (fv A)) f flat items off k q,
  In (k, q) items -> pl_float (flat_len q f) = true ->
  forall d, fold_items fq f flat items off <> Ok d.
Proof.
  intros A fq f flat. induction items as [|[k0 q0] items IH]; intros off k q Hin Hf d H; [destruct Hin|].
  cbn [fold_items] in H. cbv zeta in H.
  apply bind_ok in H. destruct H as (o & Ho & H). apply bind_ok in H. destruct H as (s & Hs & H).
  apply bind_ok in H. destruct H as (v & Hv & H). apply bind_ok in H. destruct H as (r & Hr & H).
  destruct Hin as [Hin|Hin].
  - inversion Hin; subst. unfold as_index, plen_add in Hs. simpl in Hs. rewrite Hf, orb_true_r in Hs. discriminate.
  - apply (IH _ _ _ Hin Hf _ Hr).
Qed.

Lemma inside_float : forall e p, inside e p -> wf p ->
  pl_float (flat_len e false) = true -> pl_float (flat_len e true) = true ->
  exists items l fl fd lk, p = PDict items l fl fd lk /\
    (forall f, pl_float (flat_len p f) = true) /\
    exists k q, In (k, q) items /\ forall f, pl_float (flat_len q f) = true.
Proof.
  intros e p H. 
  assert (forall items f k q, In (k, q) items -> pl_float (flat_len q f) = true -> pl_float (items_len items f) = true) as Hsum.
  { intros items f k q Hin Hf. unfold items_len.
    assert (pl_float (fold_right plen_add (plint 0) (map (fun kq => flat_len (snd kq) f) items)) = true) as E.
    { induction items as [|[k0 q0] items IH]; [destruct Hin|]. simpl. destruct Hin as [Hin|Hin].
      - inversion Hin; subst. rewrite Hf. auto.
      - rewrite IH by auto. apply orb_true_r. }
    destruct items; [destruct Hin|]. exact E. }
  induction H as [items l fl fd lk k Hin|items l fl fd lk k q Hin Hi IH]; intros Hwf F1 F2.
  - exists items, l, fl, fd, lk. split; auto. destruct Hwf as (_ & Hl & _).
    destruct Hl as (-> & ->); [destruct items; [destruct Hin|discriminate]|]. split.
    + intros f. cbn [flat_len]. destruct f; eapply Hsum; eauto.
    + exists k, e. split; auto. destruct f; auto.
  - exists items, l, fl, fd, lk. split; auto. destruct Hwf as (_ & Hl & Hw).
    apply all_items_Forall in Hw. rewrite Forall_forall in Hw. specialize (Hw _ Hin). simpl in Hw.
    destruct (IH Hw F1 F2) as (i' & l' & fl' & fd' & lk' & -> & Hf & _).
    destruct Hl as (-> & ->); [destruct items; [destruct Hin|discriminate]|]. split.
    + intros f. cbn [flat_len]. destruct f; (eapply Hsum; [exact Hin|apply Hf]).
    + eexists _, _. split; [exact Hin|auto].
Qed.

(** Whatever contains an emptied dictionary cannot fold anything. *)
Theorem emptied_inside_never_folds : forall A (sc : scalar A) p fd lk,
  built p -> inside (PDict [] (mkLen 0 true) (mkLen 0 true) fd lk) p ->
  forall x free vv v, fold_gen sc p x free vv <> Ok v.
Proof.
  intros A sc p fd lk Hb Hi x free vv v H. apply built_wf in Hb.
  destruct (inside_float _ _ Hi Hb eq_refl eq_refl) as (items & l & fl & fd' & lk' & -> & _ & k & q & Hin & Hq).
  unfold fold_gen in H. apply bind_ok in H. destruct H as (f & _ & H). cbn [fold_] in H.
  destruct (negb _); [discriminate|]. destruct (negb _); [discriminate|].
  apply bind_ok in H. destruct H as (d & Hd & H).
  eapply fold_items_float; [exact Hin|apply (Hq f)|exact Hd].
Qed.

(** With usable siblings in front, folding the right number of finite free values
    raises TypeError. *)
Theorem emptied_fold_type_error : forall pre k fd lk post l fl fd' lk' x vv,
  Forall (fun kq => usable (snd kq)) pre ->
  length x = pl_n fl -> total_len pre true <= length x ->
  fold (PDict (pre ++ (k, PDict [] (mkLen 0 true) (mkLen 0 true) fd lk) :: post) l fl fd' lk')
       (vec (map Fin x)) (Some true) vv = Err TypeError.
Proof.
  intros pre k fd lk post l fl fd' lk' x vv Hu Hx Hpre. unfold fold, fold_gen. cbn [free_with_default bind fold_].
  rewrite atleast_vec, ndim_vec, size_vec, map_length. cbn [Nat.eqb negb flat_len]. rewrite Hx, Nat.eqb_refl.
  cbn [negb].
  assert (forall off, off + total_len pre true <= length x ->
     fold_items (fun q y => fold_ snum q y true vv) true (dat (vec (map Fin x)))
       (pre ++ (k, PDict [] (mkLen 0 true) (mkLen 0 true) fd lk) :: post) (plint off) = Err TypeError) as E.
  { clear Hpre Hx. induction Hu as [|[k0 q0] pre H0 Hu IH]; intros off Hoff; [reflexivity|].
    cbn [app fold_items]. cbv zeta. cbn [as_index plint pl_float bind].
    cbn [snd] in H0. unfold total_len in Hoff. cbn [map snd lsum fold_right] in Hoff.
    pose proof (usable_int q0 true H0) as Hi.
    assert (plen_add (plint off) (flat_len q0 true) = plint (off + pl_n (flat_len q0 true))) as ->.
    { unfold plen_add. cbn [plint pl_n pl_float orb]. rewrite Hi. auto. }
    cbn [as_index plint pl_float pl_n bind].
    replace (off + pl_n (flat_len q0 true) - off) with (pl_n (flat_len q0 true)) by lia.
    cbn [dat vec]. unfold slice.
    rewrite skipn_map, firstn_map.
    destruct (free_flatten_of_fold vv vv q0 (firstn (pl_n (flat_len q0 true)) (skipn off x)) H0) as (v & Hv & _).
    { rewrite firstn_length, skipn_length. change (fold_right Nat.add 0) with lsum in Hoff. lia. }
    unfold fold, fold_gen in Hv. cbn [free_with_default bind] in Hv. rewrite Hv. cbn [bind].
    rewrite IH; auto. change (fold_right Nat.add 0) with lsum in Hoff. unfold total_len. lia. }
  rewrite (E 0) by (simpl; auto). auto.
Qed.

(** ** C66: subclasses are not locked *)
Theorem subclass_not_locked : forall h d k r items len flen fd lk items' len' flen' fd',
  nth_error h d = Some (ODict true items len flen fd lk) -> d <> r ->
  nth_error h r = Some (ODict false items' len' flen' fd' false) ->
  nth_error (fst (step h (SetItem d k r))) r = nth_error h r.
Proof.
  intros h d k r items len flen fd lk items' len' flen' fd' Hd Hne Hr. cbn [step]. rewrite Hd, Hr.
  destruct lk; auto. rewrite refresh_other by auto.
  assert (nth_error (upd h d (ODict true (assign items k r) len flen fd false)) r = nth_error h r) as E.
  { apply nth_upd_other. auto. }
  unfold lock_member. rewrite E, Hr. rewrite E. auto.
Qed.

(** The stale length: [s] has class [Sub(PatternDict)], [d[0] = s], then [s[0] = leaf]. *)
Definition sub_ops (p : pat) : list op :=
  [NewDict true None; NewDict false None; NewLeaf p;
   SetItem 0 (KInt 0) 1; SetItem 1 (KInt 0) 2].
Theorem subclass_stale : forall p free,
  (0 < pl_n (flat_len p free))%nat ->
  reports (run [] (sub_ops p)) 0 free 0 /\
  children_sum (run [] (sub_ops p)) 0 free (pl_n (flat_len p free)).
Proof.
  intros p free H. split.
  - unfold sub_ops. cbn. unfold reports. destruct free; cbn; eexists; split; reflexivity.
  - exists [(KInt 0, 1)], [pl_n (flat_len p free)]. split; [cbn; repeat eexists|]. split; [|simpl; lia].
    constructor; [|constructor]. unfold reports. destruct free; cbn; eexists; (split; [reflexivity|]);
      unfold plen_sum, plen_add, plint; simpl; lia.
Qed.
