(** * JSON properties. *)
From Coq Require Import Reals NArith Ascii String SpecFloat Lra.
From Verif Require Import Base Num Nd Numeric Simplex Psd Pattern Json PatJson Spec SpecJson
  ListFacts PatFacts NumFacts Contract Build JsonFacts PatJsonFacts.
Local Open Scope list_scope.
Local Open Scope nat_scope.

(** ** From [built] *)
Fixpoint classes_ok (p : pat) : Prop :=
  match p with
  | PNum k s _ _ _ _ => class_shape k s
  | PArr _ b _ => classes_ok b
  | PDict items _ _ _ _ => all_items (fun _ q => classes_ok q) items
  | _ => True
  end.
Lemma classes_lock : forall p, classes_ok p -> classes_ok (lock_pat p).
Proof. destruct p; auto. Qed.
Lemma built_classes : forall p, built p -> classes_ok p.
Proof.
  induction 1 as [k s lb ub dv fd p Hk H|n s dv fd p H|n d dv fd p H Hf|s b fd p Hb IH H|fd|
                  p k q p' Hp IHp Hq IHq H|p k p' Hp IHp H|p Hp IHp].
  - apply new_numeric_ok in H. destruct H as (-> & _). exact Hk.
  - unfold new_simplex in H. destruct (n <=? 1)%Z; inversion H. exact I.
  - unfold new_psd in H. destruct (nltb _ _); inversion H. exact I.
  - unfold new_pattern_array in H. destruct b; inversion H; subst; exact IH.
  - exact I.
  - unfold setitem in H. destruct p; try discriminate. destruct locked; [discriminate|].
    inversion H; subst. cbn [classes_ok] in *. apply all_items_of. apply all_items_of in IHp.
    apply assign_forall; auto. apply classes_lock. auto.
  - unfold delitem in H. destruct p; try discriminate. destruct locked; [discriminate|].
    destruct (dict_get items k); [|discriminate].
    inversion H; subst. cbn [classes_ok] in *. apply all_items_of. apply all_items_of in IHp.
    apply remove_forall; auto.
  - apply classes_lock; auto.
Qed.

Lemma jsonable_of : forall p, wf p -> classes_ok p -> python_bounds p -> proper_keys p -> string_keys p ->
  jsonable p.
Proof.
  apply (pat_ind' (fun p => wf p -> classes_ok p -> python_bounds p -> proper_keys p -> string_keys p -> jsonable p));
    cbn [wf classes_ok python_bounds proper_keys string_keys jsonable].
  - tauto.
  - tauto.
  - intros sz fl d dv fd (-> & r & Hr & H0) _ Hp _ _. split; auto. split; auto.
    rewrite Hr. cbn [nltb]. apply Rltb_false. lra.
  - tauto.
  - intros items l fl fd lk IH (H1 & _ & H2) H3 H4 H5 H6. split; auto.
    rewrite all_items_Forall in *. rewrite Forall_forall in *.
    intros [k q] Hin. specialize (H2 _ Hin). specialize (H3 _ Hin). specialize (H4 _ Hin).
    specialize (H5 _ Hin). specialize (H6 _ Hin). specialize (IH _ Hin). cbn [fst snd] in *.
    destruct H6 as [[s ->] H6]. split; [exists s; tauto|]. tauto.
Qed.

Lemma built_jsonable : forall p, built p -> string_keys p -> proper_keys p -> python_bounds p -> jsonable p.
Proof. intros. apply jsonable_of; auto using built_wf, built_classes. Qed.

(** ** The same description *)
Lemma folded_shape_reread : forall p, folded_shape (reread p) = folded_shape p.
Proof.
  induction p; cbn [reread folded_shape]; auto. rewrite IHp. auto.
  destruct (map _ items); auto.
Qed.
Lemma as_dict_lock : forall io p, as_dict io (lock_pat p) = as_dict io p.
Proof. destruct p; auto. Qed.
Lemma as_dict_items : forall io items l fl fd lk l' fl' fd' lk',
  as_dict io (PDict items l fl fd lk) = as_dict io (PDict items l' fl' fd' lk').
Proof. reflexivity. Qed.

Theorem as_dict_reread : forall io p, as_dict io (reread p) = as_dict io p.
Proof.
  intros io. apply (pat_ind' (fun p => as_dict io (reread p) = as_dict io p)); auto.
  - intros s b fd IH. cbn [reread as_dict]. rewrite IH, folded_shape_reread. auto.
  - intros items l fl fd lk IH.
    change (reread (PDict items l fl fd lk)) with
      (dict_of_items (map (fun kq => (fst kq, lock_pat (reread (snd kq)))) items)).
    transitivity (as_dict io (PDict (map (fun kq => (fst kq, lock_pat (reread (snd kq)))) items) l fl fd lk)).
    { unfold dict_of_items. destruct (map _ items); reflexivity. }
    cbn [as_dict]. rewrite !map_map. cbn [fst snd].
    do 4 f_equal.
    assert (E: map (fun x => (fst x, OStr (dumps io (as_dict io (lock_pat (reread (snd x))))))) items
      = map (fun kq => (fst kq, OStr (dumps io (as_dict io (snd kq))))) items).
    { apply map_ext_in. intros kq Hin. rewrite as_dict_lock. rewrite Forall_forall in IH. rewrite (IH _ Hin). auto. }
    rewrite E. reflexivity.
Qed.

Lemma class_reread : forall p, class_of (reread p) = class_of p.
Proof. destruct p; auto. cbn [reread]. destruct (map _ items); auto. Qed.

(** ** Equality *)
Lemma num_eqb_refl : forall x, pyval x <> NaN -> num_eqb x x = true.
Proof.
  intros x H. unfold num_eqb. destruct (pyval x) as [r| | |]; cbn; auto; try congruence.
  apply Reqb_true. auto.
Qed.
Lemma num_eqb_iff : forall x y, num_eqb x y = true <-> pyval x = pyval y /\ pyval x <> NaN.
Proof.
  intros x y. unfold num_eqb. destruct (pyval x), (pyval y); cbn; rewrite ?Reqb_true; intuition congruence.
Qed.
Lemma str_eqb_iff : forall s t, str_eqb s t = true <-> s = t.
Proof. intros. unfold str_eqb. destruct (list_eq_dec N.eq_dec s t); intuition congruence. Qed.

Lemma obj_eqb_seq : forall l m, obj_eqb (OSeq l) (OSeq m) = true <->
  Forall2 (fun x y => obj_eqb x y = true) l m.
Proof.
  induction l as [|x l IH]; intros [|y m]; cbn; split; intros H; auto; try discriminate; try (inversion H; fail).
  - apply Bool.andb_true_iff in H. destruct H. constructor; auto. apply IH. auto.
  - inversion H; subst. apply Bool.andb_true_iff. split; auto. apply IH. auto.
Qed.
Lemma obj_eqb_dict : forall d e, obj_eqb (ODict d) (ODict e) = true <->
  length d = length e /\
  Forall (fun kx => exists y, dict_get e (fst kx) = Some y /\ obj_eqb (snd kx) y = true) d.
Proof.
  intros d e. cbn [obj_eqb]. rewrite Bool.andb_true_iff, Nat.eqb_eq. apply and_iff_compat_l.
  induction d as [|[k x] d IH]; [split; auto|].
  rewrite Bool.andb_true_iff, IH. split.
  - intros [H1 H2]. constructor; auto. cbn [fst snd]. destruct (dict_get e k); [eauto|discriminate].
  - intros H. inversion H as [|? ? (y & H1 & H2) H3]; subst. cbn [fst snd] in *. rewrite H1. auto.
Qed.
Lemma oint_eqb : forall n m, obj_eqb (oint n) (oint m) = true <-> n = m.
Proof.
  intros. change (num_eqb (PyInt (Z.of_nat n)) (PyInt (Z.of_nat m)) = true <-> n = m).
  rewrite num_eqb_iff. cbn [pyval]. split.
  - intros [H _]. injection H as H. apply eq_IZR in H. lia.
  - intros ->. split; congruence.
Qed.
Lemma oshape_eqb : forall s t, obj_eqb (oshape s) (oshape t) = true <-> s = t.
Proof.
  intros. unfold oshape. rewrite obj_eqb_seq. split.
  - revert t. induction s as [|a s IH]; intros [|b t] H; inversion H; subst; auto.
    apply oint_eqb in H3. f_equal; auto.
  - intros ->. induction t; cbn; constructor; auto. apply oint_eqb. auto.
Qed.
Lemma oopt_eqb : forall a b, obj_eqb (oopt a) (oopt b) = true <-> a = b.
Proof. intros [[]|] [[]|]; cbn; intuition congruence. Qed.
Lemma okey_eqb : forall a b, obj_eqb (okey a) (okey b) = true <-> a = b.
Proof.
  intros [s|z] [t|w]; cbn [okey obj_eqb]; try (split; intros; discriminate).
  - rewrite str_eqb_iff. split; congruence.
  - rewrite num_eqb_iff. cbn [pyval]. split.
    + intros [H _]. injection H as H. apply eq_IZR in H. congruence.
    + intros E. injection E as ->. split; congruence.
Qed.
Lemma okeys_eqb : forall l m : list (key * pat),
  obj_eqb (OSeq (map (fun kq => okey (fst kq)) l)) (OSeq (map (fun kq => okey (fst kq)) m)) = true <->
  map fst l = map fst m.
Proof.
  intros. rewrite obj_eqb_seq. revert m. induction l as [|x l IH]; intros [|y m]; cbn [map]; split; intros H;
    try (inversion H; fail); auto.
  - inversion H; subst. apply okey_eqb in H3. f_equal; auto. apply IH; auto.
  - injection H as H1 H2. constructor. apply okey_eqb; auto. apply IH; auto.
Qed.

(** What [==] looks at. *)
Definition looks_same (io : float_io) (p q : pat) : Prop :=
  match p, q with
  | PNum k s lb ub dv fd, PNum k' s' lb' ub' dv' fd' =>
      k = k' /\ pyval lb = pyval lb' /\ pyval ub = pyval ub' /\ pyval lb <> NaN /\ pyval ub <> NaN /\
      dv = dv' /\ fd = fd' /\
      match k with KArray => s = s' | KVector => nth 0 s 0 = nth 0 s' 0 | KScalar => True end
  | PSimplex n s dv _, PSimplex n' s' dv' _ => n = n' /\ s = s' /\ dv = dv'
  | PPsd sz _ d dv _, PPsd sz' _ d' dv' _ => sz = sz' /\ pyval d = pyval d' /\ pyval d <> NaN /\ dv = dv'
  | PArr s b _, PArr s' b' _ => s = s' /\ folded_shape b = folded_shape b' /\ to_json io b = to_json io b'
  | PDict its _ _ _ _, PDict its' _ _ _ _ =>
      map fst its = map fst its' /\
      map (fun kq => to_json io (snd kq)) its = map (fun kq => to_json io (snd kq)) its'
  | _, _ => False
  end.

(** Member dictionaries have distinct keys (true of every Python dict). *)
Definition distinct_keys (p : pat) : Prop :=
  match p with PDict its _ _ _ _ => NoDup (map fst its) | _ => True end.

Lemma fields_eqb : forall d e, NoDup (map fst d) -> map fst d = map fst e ->
  (obj_eqb (ODict d) (ODict e) = true <->
   Forall2 (fun x y => obj_eqb (snd x) (snd y) = true) d e).
Proof.
  intros d e Hnd Hk. rewrite obj_eqb_dict.
  assert (Hl: length d = length e) by (rewrite <- (map_length fst d), Hk, map_length; auto).
  rewrite Forall_forall. split.
  - intros [_ H].
    assert (G: forall post post' pre, e = pre ++ post' -> map fst post = map fst post' ->
       (forall x, In x post -> In x d) -> Forall2 (fun x y => obj_eqb (snd x) (snd y) = true) post post').
    { induction post as [|[k x] post IH]; intros [|[k' y] post'] pre He Hm Hin; try discriminate; constructor.
      - cbn in Hm. injection Hm as <- Hm. destruct (H (k, x)) as (y' & Hy & Ho). apply Hin. left; auto.
        cbn [fst snd] in *. replace y with y'; auto.
        assert (dict_get e k = Some y). { apply dict_get_in_nodup. rewrite <- Hk. auto. rewrite He. apply in_app_iff. right; left; auto. }
        congruence.
      - cbn in Hm. injection Hm as _ Hm. apply (IH post' (pre ++ [(k', y)])); auto.
        rewrite <- app_assoc. auto. intros z Hz. apply Hin. right; auto. }
    apply (G d e []); auto.
  - intros H. split; auto. intros [k x] Hin.
    assert (G: exists y, In (k, y) e /\ obj_eqb x y = true).
    { clear Hl Hnd. revert e Hk H. induction d as [|[k0 x0] d IH]; intros [|[k1 y1] e] Hk H; try contradiction; try discriminate.
      inversion H; subst. cbn in Hk. injection Hk as -> Hk. destruct Hin as [E|Hin].
      - injection E as -> ->. exists y1. split; auto. left; auto.
      - destruct (IH Hin e Hk H5) as (y & H1 & H2). exists y. split; auto. right; auto. }
    destruct G as (y & H1 & H2). exists y. split; auto. apply dict_get_in_nodup; auto. cbn [fst]. rewrite <- Hk. auto.
Qed.

Ltac f2 := repeat match goal with
  | H : Forall2 _ (_ :: _) _ |- _ => inversion H; subst; clear H
  | H : Forall2 _ [] _ |- _ => clear H
  end.

Ltac fields :=
  repeat match goal with
  | H : obj_eqb (ONum _) (ONum _) = true |- _ => apply num_eqb_iff in H; destruct H
  | H : obj_eqb (oshape _) (oshape _) = true |- _ => apply oshape_eqb in H
  | H : obj_eqb (oint _) (oint _) = true |- _ => apply oint_eqb in H
  | H : obj_eqb (oopt _) (oopt _) = true |- _ => apply oopt_eqb in H
  | H : obj_eqb (OBool _) (OBool _) = true |- _ => apply Bool.eqb_prop in H
  | H : obj_eqb (OStr _) (OStr _) = true |- _ => apply str_eqb_iff in H
  end.

Ltac fields_back :=
  repeat (apply Forall2_cons; cbn [snd]); try apply Forall2_nil;
  first [ apply str_eqb_refl | apply oint_eqb; congruence | apply oshape_eqb; congruence
        | apply oopt_eqb; congruence | apply num_eqb_iff; auto | apply str_eqb_iff; congruence
        | apply Bool.eqb_reflx | idtac ].

Lemma pat_eqb_iff : forall io p q, distinct_keys p ->
  (pat_eqb io p q = true <-> looks_same io p q).
Proof.
  intros io p q Hd. unfold pat_eqb. destruct (cls_eq_dec (class_of p) (class_of q)) as [Hc|Hc].
  2:{ split; [discriminate|]. intros H. exfalso. apply Hc.
      destruct p, q; cbn in H; try contradiction; cbn [class_of]; auto. destruct H as (-> & _). auto. }
  destruct p, q; try discriminate Hc; cbn [as_dict looks_same].
  - injection Hc as <-.
    rewrite fields_eqb; [|apply nodupb_ok; destruct k; reflexivity | destruct k; reflexivity].
    split.
    + intros H. destruct k; cbn [app] in H; f2; cbn [snd] in *;
      fields; repeat split; auto; congruence.
    + intros (_ & H1 & H2 & H3 & H4 & -> & -> & H5).
      assert (N1: num_eqb lb lb0 = true) by (apply num_eqb_iff; auto).
      assert (N2: num_eqb ub ub0 = true) by (apply num_eqb_iff; auto).
      destruct k; cbn [app]; fields_back.
  - rewrite fields_eqb; [|apply nodupb_ok; reflexivity | reflexivity]. split.
    + intros H. f2. cbn [snd] in *. fields. auto.
    + intros (-> & -> & ->). fields_back.
  - rewrite fields_eqb; [|apply nodupb_ok; reflexivity | reflexivity]. split.
    + intros H. f2. cbn [snd] in *. fields. auto.
    + intros (-> & H1 & H2 & ->). fields_back.
  - rewrite fields_eqb; [|apply nodupb_ok; reflexivity | reflexivity]. split.
    + intros H. f2. cbn [snd] in *. fields. subst.
      repeat split; auto. eapply app_inv_head; eauto.
    + intros (-> & H1 & H2). fields_back. apply str_eqb_iff. exact H2.
  - rewrite fields_eqb; [|apply nodupb_ok; reflexivity | reflexivity].
    cbn [distinct_keys] in Hd.
    assert (C: map fst items = map fst items0 ->
      (obj_eqb (ODict (map (fun kq => (fst kq, OStr (dumps io (as_dict io (snd kq))))) items))
               (ODict (map (fun kq => (fst kq, OStr (dumps io (as_dict io (snd kq))))) items0)) = true <->
       map (fun kq => to_json io (snd kq)) items = map (fun kq => to_json io (snd kq)) items0)).
    { intros Hk. rewrite fields_eqb; [|rewrite map_map; exact Hd | rewrite !map_map; exact Hk].
      clear. revert items0. induction items as [|x l IH]; intros [|y m]; cbn [map]; split; intros H;
        try (inversion H; fail); auto.
      - inversion H; subst. apply str_eqb_iff in H3. f_equal; auto. apply IH; auto.
      - injection H as H1 H2. constructor. apply str_eqb_iff; auto. apply IH; auto. }
    split.
    + intros H. f2. cbn [snd] in *. match goal with H : obj_eqb (OSeq _) _ = true |- _ => apply okeys_eqb in H; rename H into Hk end.
      split; auto. apply C; auto.
    + intros (H1 & H2). fields_back. apply okeys_eqb; auto. apply C; auto.
Qed.

(** ** C25: the round trip *)
Lemma built_no_nan : forall p, wf p ->
  match p with
  | PNum _ _ lb ub _ _ => pyval lb <> NaN /\ pyval ub <> NaN
  | PPsd _ _ d _ _ => pyval d <> NaN
  | _ => True
  end.
Proof.
  destruct p; auto.
  - intros (_ & H). destruct (pyval lb), (pyval ub); cbn in H; try contradiction; split; congruence.
  - intros (_ & r & -> & _). congruence.
Qed.
Lemma wf_distinct : forall p, wf p -> distinct_keys p.
Proof. destruct p; cbn; tauto. Qed.

Lemma looks_same_refl : forall io p, wf p -> looks_same io p p.
Proof.
  intros io p H. pose proof (built_no_nan p H). destruct p; cbn; intuition.
  destruct k; auto.
Qed.

Lemma pat_eqb_refl : forall io p, wf p -> pat_eqb io p p = true.
Proof. intros. apply pat_eqb_iff. apply wf_distinct; auto. apply looks_same_refl; auto. Qed.

Lemma pat_eqb_of_dict : forall io p q, class_of p = class_of q -> as_dict io p = as_dict io q ->
  pat_eqb io q q = true -> pat_eqb io p q = true.
Proof.
  intros io p q Hc Hd H. unfold pat_eqb in *. rewrite Hc, Hd.
  destruct (cls_eq_dec (class_of q) (class_of q)); auto.
Qed.

Theorem json_reads_back : forall io reg p, float_io_ok io -> registers_builtins reg ->
  built p -> string_keys p -> proper_keys p -> python_bounds p ->
  get_pattern_from_json io reg (to_json io p) = Ok (reread p) /\
  from_json io reg (class_of p) (to_json io p) = Ok (reread p).
Proof.
  intros io reg p Hio Hreg Hb Hs Hp Hn.
  pose proof (from_json_to_json io reg p Hio Hreg (built_jsonable p Hb Hs Hp Hn)) as H.
  unfold get_pattern_from_json, from_json. split.
  - apply H. lia.
  - apply (H (S (2 * length (to_json io p)))). lia.
Qed.

Theorem json_round_trip : forall io reg p, float_io_ok io -> registers_builtins reg ->
  built p -> string_keys p -> proper_keys p -> python_bounds p ->
  exists q, get_pattern_from_json io reg (to_json io p) = Ok q /\
            from_json io reg (class_of p) (to_json io p) = Ok q /\
            pat_eqb io q p = true /\ pat_eqb io p q = true /\ to_json io q = to_json io p.
Proof.
  intros io reg p Hio Hreg Hb Hs Hp Hn. exists (reread p).
  destruct (json_reads_back io reg p Hio Hreg Hb Hs Hp Hn) as [-> ->].
  split; auto. split; auto. pose proof (pat_eqb_refl io p (built_wf p Hb)) as Hr.
  split; [|split].
  - apply pat_eqb_of_dict; auto. apply class_reread. apply as_dict_reread.
  - unfold pat_eqb in *. rewrite class_reread, as_dict_reread. auto.
  - unfold to_json. rewrite as_dict_reread. auto.
Qed.

(** ** C26: the pattern read back behaves like the original *)
Lemma sim_lock : forall p q, sim p q -> sim (lock_pat p) q.
Proof. destruct p; auto. Qed.

Lemma sim_sym : forall p q, sim p q -> sim q p.
Proof.
  apply (pat_ind' (fun p => forall q, sim p q -> sim q p)); intros; destruct q; cbn [sim] in *; try tauto.
  - intuition.
  - intuition.
  - intuition.
  - destruct H0 as [-> H0]. split; auto.
  - destruct H0 as (-> & -> & H0). repeat split; auto. revert items0 H0.
    induction items as [|[k q] items IH]; intros [|[k' q'] items'] Hs; simpl in Hs |- *; try tauto.
    inversion H; subst. destruct Hs as (-> & H1 & H4). auto.
Qed.

Lemma items_len_sim : forall its its' f, sim_items sim its its' -> items_len its f = items_len its' f.
Proof.
  intros its its' f H. unfold items_len. f_equal. revert its' H.
  induction its as [|[k q] its IH]; intros [|[k' q'] its'] H; simpl in H; try tauto; auto.
  destruct H as (-> & H1 & H2). cbn [map]. f_equal; auto. cbn [snd]. apply sim_flat_len; auto.
Qed.

Theorem reread_sim : forall p, wf p -> never_emptied p -> sim (reread p) p.
Proof.
  apply (pat_ind' (fun p => wf p -> never_emptied p -> sim (reread p) p)); cbn [reread sim].
  - tauto.
  - tauto.
  - tauto.
  - intros s b fd IH (_ & H1) H2. auto.
  - intros items l fl fd lk IH (H1 & H2 & H3) (H4 & H5).
    assert (Hs: sim_items sim (map (fun kq => (fst kq, lock_pat (reread (snd kq)))) items) items).
    { clear H1 H2 H4. rewrite all_items_Forall in H3, H5.
      induction items as [|[k q] items IHi]; simpl; auto.
      inversion IH; subst. inversion H3; subst. inversion H5; subst. cbn [fst snd] in *.
      repeat split; auto. apply sim_lock; auto. }
    destruct items as [|x items].
    + destruct H4 as [-> ->]; auto. cbn. auto.
    + destruct (H2 ltac:(discriminate)) as [-> ->].
      change (sim (PDict (map (fun kq => (fst kq, lock_pat (reread (snd kq)))) (x :: items))
         (items_len (map (fun kq => (fst kq, lock_pat (reread (snd kq)))) (x :: items)) false)
         (items_len (map (fun kq => (fst kq, lock_pat (reread (snd kq)))) (x :: items)) true) None false)
        (PDict (x :: items) (items_len (x :: items) false) (items_len (x :: items) true) fd lk)).
      cbn [sim]. rewrite !(items_len_sim _ _ _ Hs). auto.
Qed.

Theorem sim_behaviour : forall p q, sim p q -> same_behaviour p q.
Proof.
  intros p q H. unfold same_behaviour. repeat split; intros.
  - unfold fold_gen. cbn. apply sim_fold; auto.
  - unfold flatten_gen. cbn. apply sim_flatten; auto.
  - apply sim_validate; auto.
  - unfold flat_length. cbn. rewrite (sim_flat_len p q free H). auto.
  - apply sim_flat_indices; auto.
  - apply sim_empty; auto.
  - unfold empty_bool, flat_length. cbn [free_with_default bind]. rewrite (sim_flat_len p q false H).
    destruct (as_index _); auto. cbn [bind]. unfold fold_gen. cbn. apply sim_fold; auto.
Qed.

Theorem json_same_behaviour : forall io reg p q, float_io_ok io -> registers_builtins reg ->
  built p -> string_keys p -> proper_keys p -> python_bounds p -> never_emptied p ->
  get_pattern_from_json io reg (to_json io p) = Ok q -> same_behaviour q p.
Proof.
  intros io reg p q Hio Hreg Hb Hs Hp Hn He Hq.
  rewrite (proj1 (json_reads_back io reg p Hio Hreg Hb Hs Hp Hn)) in Hq. injection Hq as <-.
  apply sim_behaviour. apply reread_sim; auto. apply built_wf; auto.
Qed.

(** ** C27: what is lost *)
Theorem json_loses : forall io reg p q, float_io_ok io -> registers_builtins reg ->
  built p -> string_keys p -> proper_keys p -> python_bounds p ->
  get_pattern_from_json io reg (to_json io p) = Ok q ->
  (match p with PNum _ _ _ _ _ _ => q = p | _ => free_default q = None end) /\
  (match q with PDict _ _ _ _ locked => locked = false | _ => True end).
Proof.
  intros io reg p q Hio Hreg Hb Hs Hp Hn Hq.
  rewrite (proj1 (json_reads_back io reg p Hio Hreg Hb Hs Hp Hn)) in Hq. injection Hq as <-.
  destruct p; cbn [reread]; try (split; [reflexivity|exact I]).
  cbv zeta. destruct (map _ items); split; reflexivity.
Qed.

Theorem json_unlocks : forall io reg p q, float_io_ok io -> registers_builtins reg ->
  built p -> string_keys p -> proper_keys p -> python_bounds p -> is_dict p = true ->
  get_pattern_from_json io reg (to_json io p) = Ok q ->
  (forall k r, setitem (lock_pat p) k r = Err ValueError) /\
  (forall k r, exists q', setitem q k r = Ok q').
Proof.
  intros io reg p q Hio Hreg Hb Hs Hp Hn Hd Hq.
  destruct (json_loses io reg p q Hio Hreg Hb Hs Hp Hn Hq) as [_ Hl].
  rewrite (proj1 (json_reads_back io reg p Hio Hreg Hb Hs Hp Hn)) in Hq. injection Hq as <-.
  destruct p; try discriminate. split; [reflexivity|].
  intros k r. cbn [reread] in *. destruct (map _ items); cbn; eauto.
Qed.

(** ** C28: equality *)
Lemma looks_same_sym : forall io p q, looks_same io p q -> looks_same io q p.
Proof.
  intros io p q H. destruct p, q; cbn in *; try contradiction; intuition; subst; auto; try congruence.
  destruct k0; auto.
Qed.
Lemma looks_same_trans : forall io p q r, looks_same io p q -> looks_same io q r -> looks_same io p r.
Proof.
  intros io p q r H1 H2. destruct p, q; cbn in *; try contradiction; destruct r; try contradiction;
    intuition; subst; auto; try congruence.
  destruct k1; congruence.
Qed.
Lemma looks_same_distinct : forall io p q, looks_same io p q -> distinct_keys p -> distinct_keys q.
Proof. intros io p q H. destruct p, q; cbn in *; try contradiction; auto. destruct H as [<- _]. auto. Qed.

Theorem eq_equivalence : forall io,
  (forall p, built p -> pat_eqb io p p = true) /\
  (forall p q, built p -> built q -> pat_eqb io p q = pat_eqb io q p) /\
  (forall p q r, built p -> built q -> built r ->
     pat_eqb io p q = true -> pat_eqb io q r = true -> pat_eqb io p r = true).
Proof.
  intros io.
  assert (W: forall p, built p -> distinct_keys p) by (intros; apply wf_distinct, built_wf; auto).
  repeat split.
  - intros. apply pat_eqb_refl. apply built_wf; auto.
  - intros p q Hp Hq. apply Bool.eq_iff_eq_true. rewrite !pat_eqb_iff by auto.
    split; apply looks_same_sym.
  - intros p q r Hp Hq Hr. rewrite !pat_eqb_iff by auto. apply looks_same_trans.
Qed.

(** Equal texts describe equal members. *)
Lemma to_json_inj : forall io p q, float_io_ok io -> python_bounds p -> proper_keys p ->
  python_bounds q -> proper_keys q -> to_json io p = to_json io q ->
  str_keys (as_dict io p) = str_keys (as_dict io q).
Proof.
  intros io p q Hio H1 H2 H3 H4 E. unfold to_json in E.
  pose proof (parse_dumps io _ Hio (as_dict_readable io p Hio H1 H2)) as Ep.
  pose proof (parse_dumps io _ Hio (as_dict_readable io q Hio H3 H4)) as Eq.
  rewrite E in Ep. congruence.
Qed.

Lemma str_keys_oshape : forall s, str_keys (oshape s) = oshape s.
Proof. intros. unfold oshape. cbn. rewrite map_map. auto. Qed.
Lemma oshape_inj : forall s t, oshape s = oshape t -> s = t.
Proof.
  intros s t H. apply oshape_eqb. rewrite H. apply oshape_eqb. auto.
Qed.
Lemma okey_map_inj : forall l m : list (key * pat),
  map (fun kq => okey (fst kq)) l = map (fun kq => okey (fst kq)) m -> map fst l = map fst m.
Proof.
  induction l as [|[k q] l IH]; intros [|[k' q'] m] H; try discriminate; auto.
  cbn in *. injection H as H1 H2. f_equal; auto. destruct k, k'; cbn in H1; congruence.
Qed.

Theorem text_sim : forall io p q, float_io_ok io -> wf p -> wf q -> classes_ok p -> classes_ok q ->
  python_bounds p -> proper_keys p -> python_bounds q -> proper_keys q ->
  never_emptied p -> never_emptied q ->
  to_json io p = to_json io q -> sim p q.
Proof.
  intros io p q Hio. revert p q.
  apply (pat_ind' (fun p => forall q, wf p -> wf q -> classes_ok p -> classes_ok q ->
    python_bounds p -> proper_keys p -> python_bounds q -> proper_keys q ->
    never_emptied p -> never_emptied q -> to_json io p = to_json io q -> sim p q)).
  - intros k s lb ub dv fd q Hp Hq Cp Cq B1 K1 B2 K2 E1 E2 E.
    apply to_json_inj in E; auto.
    destruct q as [k' s' lb' ub' dv' fd'| | | |]; try (exfalso; destruct k; discriminate E).
    assert (k = k') as <-.
    { destruct k, k'; auto; exfalso; discriminate E. }
    cbn [classes_ok class_shape] in *. cbn [sim].
    destruct k; cbn [as_dict str_keys map app fst snd key_text] in E; rewrite ?str_keys_oshape in E;
      injection E; intros; subst; repeat split; auto.
    + apply oshape_inj. unfold oshape. congruence.
    + cbn in Cp, Cq. destruct s as [|a [|]]; try discriminate Cp. destruct s' as [|a' [|]]; try discriminate Cq.
      cbn in *. f_equal. lia.
    + cbn in Cp, Cq. congruence.
  - intros n s dv fd q Hp Hq Cp Cq B1 K1 B2 K2 E1 E2 E.
    apply to_json_inj in E; auto.
    destruct q as [[] | n' s' dv' fd' | | | ]; try (exfalso; discriminate E).
    cbn [as_dict str_keys map fst snd key_text] in E. rewrite !str_keys_oshape in E. injection E as H1 H2 H3.
    cbn [sim]. repeat split; auto. lia. apply oshape_inj. unfold oshape. congruence.
  - intros sz fl d dv fd q Hp Hq Cp Cq B1 K1 B2 K2 E1 E2 E.
    apply to_json_inj in E; auto.
    destruct q as [[] | | sz' fl' d' dv' fd' | | ]; try (exfalso; discriminate E).
    cbn [as_dict str_keys map fst snd key_text] in E. injection E as H1 H2 H3.
    cbn [sim wf] in *. destruct Hp as (-> & _), Hq as (-> & _). assert (sz = sz') by lia. subst. auto.
  - intros s b fd IH q Hp Hq Cp Cq B1 K1 B2 K2 E1 E2 E.
    apply to_json_inj in E; auto.
    destruct q as [[] | | | s' b' fd' | ]; try (exfalso; discriminate E).
    cbn [as_dict str_keys map fst snd key_text] in E. rewrite !str_keys_oshape in E. injection E as H1 H2 H3.
    cbn [sim wf classes_ok python_bounds proper_keys never_emptied] in *. split.
    + apply oshape_inj. unfold oshape. congruence.
    + apply IH; tauto.
  - intros items l fl fd lk IH q Hp Hq Cp Cq B1 K1 B2 K2 E1 E2 E.
    apply to_json_inj in E; auto.
    destruct q as [[] | | | | items' l' fl' fd' lk']; try (exfalso; discriminate E).
    cbn [as_dict str_keys map fst snd key_text] in E. injection E as H1 H2.
    cbn [wf classes_ok python_bounds proper_keys never_emptied] in *.
    rewrite !map_map in H1. rewrite !map_map in H2. cbn [fst snd str_keys] in *.
    assert (Hk: map fst items = map fst items').
    { apply okey_map_inj.
      assert (M: forall l : list (key * pat), map (fun x => str_keys (okey (fst x))) l = map (fun x => okey (fst x)) l).
      { intros. apply map_ext. intros [[] ?]; reflexivity. }
      rewrite !M in H1. auto. }
    destruct Hp as (P1 & P2 & P3), Hq as (Q1 & Q2 & Q3), E1 as (E1 & E1'), E2 as (E2 & E2').
    assert (Hs: sim_items sim items items').
    { clear P1 P2 Q1 Q2 E1 E2 H1.
      rewrite all_items_Forall in *. revert items' Hk H2 Q3 Cq B2 K2 E2'.
      induction items as [|[k q] items IHi]; intros [|[k' q'] items'] Hk H2 Q3 Cq B2 K2 E2'; try discriminate; cbn; auto.
      cbn in Hk, H2. injection Hk as <- Hk. injection H2 as H2 H3.
      inversion IH; subst. inversion P3; subst. inversion Cp; subst. inversion B1; subst. inversion K1; subst.
      inversion E1'; subst. inversion Q3; subst. inversion Cq; subst. inversion B2; subst. inversion K2; subst.
      inversion E2'; subst. cbn [fst snd] in *. repeat split; auto.
      apply H1; try tauto. }
    cbn [sim].
    destruct items as [|x items], items' as [|x' items']; try discriminate.
    + destruct E1 as [-> ->], E2 as [-> ->]; auto.
    + destruct (P2 ltac:(discriminate)) as [-> ->], (Q2 ltac:(discriminate)) as [-> ->].
      rewrite !(items_len_sim _ _ _ Hs). auto.
Qed.

Theorem looks_same_sim : forall io p q, float_io_ok io -> wf p -> wf q -> classes_ok p -> classes_ok q ->
  python_bounds p -> proper_keys p -> python_bounds q -> proper_keys q ->
  never_emptied p -> never_emptied q -> looks_same io p q -> sim p q.
Proof.
  intros io p q Hio Hp Hq Cp Cq B1 K1 B2 K2 E1 E2 H.
  destruct p, q; cbn [looks_same] in H; try contradiction.
  - destruct H as (<- & H1 & H2 & _ & _ & -> & _ & H3). cbn [sim]. repeat split; auto.
    cbn in Cp, Cq. destruct k; cbn in *; auto; [|congruence].
    destruct shape as [|a [|]]; try discriminate Cp. destruct shape0 as [|a' [|]]; try discriminate Cq.
    cbn in H3. congruence.
  - cbn [sim]. tauto.
  - destruct H as (-> & H1 & _ & ->). cbn in Hp, Hq. destruct Hp as [-> _], Hq as [-> _]. cbn [sim]. auto.
  - destruct H as (-> & _ & H). cbn [sim]. split; auto.
    cbn [wf classes_ok python_bounds proper_keys never_emptied] in *.
    apply (text_sim io); tauto.
  - destruct H as (Hk & Ht). cbn [wf classes_ok python_bounds proper_keys never_emptied] in *.
    destruct Hp as (P1 & P2 & P3), Hq as (Q1 & Q2 & Q3), E1 as (E1 & E1'), E2 as (E2 & E2').
    assert (Hs: sim_items sim items items0).
    { clear P1 P2 Q1 Q2 E1 E2.
      rewrite all_items_Forall in *. revert items0 Hk Ht Q3 Cq B2 K2 E2'.
      induction items as [|[k q] items IHi]; intros [|[k' q'] items'] Hk Ht Q3 Cq B2 K2 E2'; try discriminate; cbn; auto.
      cbn in Hk, Ht. injection Hk as <- Hk. injection Ht as H2 H3.
      inversion P3; subst. inversion Cp; subst. inversion B1; subst. inversion K1; subst.
      inversion E1'; subst. inversion Q3; subst. inversion Cq; subst. inversion B2; subst. inversion K2; subst.
      inversion E2'; subst. cbn [fst snd] in *. repeat split; auto.
      apply (text_sim io); tauto. }
    cbn [sim].
    destruct items as [|x items], items0 as [|x' items']; try discriminate.
    + destruct E1 as [-> ->], E2 as [-> ->]; auto.
    + destruct (P2 ltac:(discriminate)) as [-> ->], (Q2 ltac:(discriminate)) as [-> ->].
      rewrite !(items_len_sim _ _ _ Hs). auto.
Qed.

Theorem eq_same_behaviour : forall io p q, float_io_ok io -> built p -> built q ->
  python_bounds p -> proper_keys p -> python_bounds q -> proper_keys q ->
  never_emptied p -> never_emptied q ->
  pat_eqb io p q = true -> same_behaviour p q.
Proof.
  intros io p q Hio Hp Hq B1 K1 B2 K2 E1 E2 H. apply sim_behaviour.
  apply (looks_same_sim io); auto using built_wf, built_classes.
  apply pat_eqb_iff; auto. apply wf_distinct, built_wf. auto.
Qed.

Lemma pat_reread_eq : forall io p, built p ->
  pat_eqb io p p = true /\ pat_eqb io (reread p) p = true /\ pat_eqb io p (reread p) = true.
Proof.
  intros io p Hb. pose proof (pat_eqb_refl io p (built_wf p Hb)) as Hr. split; auto.
  unfold pat_eqb in *. rewrite class_reread, as_dict_reread. auto.
Qed.
