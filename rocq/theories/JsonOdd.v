(** * Equality through texts, integer keys, wrong types, the registry. *)
From Coq Require Import Reals NArith Ascii String SpecFloat Lra.
From Verif Require Import Base Num Nd Numeric Simplex Psd Pattern Json PatJson Spec SpecJson
  ListFacts PatFacts NumFacts Contract Build JsonFacts PatJsonFacts JsonProps.
Local Open Scope list_scope.
Local Open Scope nat_scope.

(** ** C29 *)
Lemma num_text_differs : forall io k s lb lb' ub dv fd, float_io_ok io ->
  python_num lb -> python_num lb' -> python_num ub -> lb <> lb' ->
  to_json io (PNum k s lb ub dv fd) <> to_json io (PNum k s lb' ub dv fd).
Proof.
  intros io k s lb lb' ub dv fd Hio H1 H2 H3 Hne E.
  apply to_json_inj in E; cbn; auto.
  destruct k; cbn [as_dict str_keys map app fst snd key_text] in E; injection E; intros; auto.
Qed.

Lemma assign_text : forall io (its : list (key * pat)) k p q,
  map (fun kq => to_json io (snd kq)) (assign its k p)
  = map (fun kq => to_json io (snd kq)) (assign its k q) -> to_json io p = to_json io q.
Proof.
  induction its as [|[k' r] its IH]; intros k p q H; cbn [assign map snd] in H.
  - injection H as H. exact H.
  - destruct (key_eqb k k'); cbn [map snd] in H.
    + injection H as H. exact H.
    + injection H as H. eauto.
Qed.
Lemma pat_eqb_text : forall io p q, distinct_keys p -> pat_eqb io p q = true -> looks_same io p q.
Proof. intros. apply pat_eqb_iff; auto. Qed.

Theorem eq_not_congruence : forall io k s z f ub dv fd p q, float_io_ok io -> finite64 f ->
  pyval (PyFloat f) = pyval (PyInt z) -> python_num ub -> class_shape k s ->
  new_numeric_kind k s (PyInt z) ub dv fd = Ok p ->
  new_numeric_kind k s (PyFloat f) ub dv fd = Ok q ->
  pat_eqb io p q = true /\
  (forall sh fd', exists P Q, new_pattern_array sh p fd' = Ok P /\ new_pattern_array sh q fd' = Ok Q /\
     pat_eqb io P Q = false) /\
  (forall d key D E, built d -> setitem d key p = Ok D -> setitem d key q = Ok E ->
     pat_eqb io D E = false).
Proof.
  intros io k s z f ub dv fd p q Hio [Hf1 Hf2] Hv Hu Hk Hp Hq.
  apply new_numeric_ok in Hp, Hq. destruct Hp as (-> & Hs & Hlt), Hq as (-> & _ & Hlt').
  assert (Ht: to_json io (PNum k s (PyInt z) ub dv fd) <> to_json io (PNum k s (PyFloat f) ub dv fd)).
  { apply num_text_differs; cbn; auto. discriminate. }
  split; [|split].
  - apply pat_eqb_iff; [exact I|]. cbn [looks_same]. rewrite Hv. repeat split; auto; try (cbn; discriminate).
    + intros E. rewrite E in Hlt. cbn in Hlt. auto.
    + destruct k; auto.
  - intros sh fd'. do 2 eexists. split; [reflexivity|]. split; [reflexivity|].
    apply Bool.not_true_iff_false. intros E. apply pat_eqb_text in E; [|exact I].
    cbn [looks_same] in E. tauto.
  - intros d key D E Hd H1 H2. apply Bool.not_true_iff_false. intros H.
    assert (HD: built D).
    { apply (built_set d key (PNum k s (PyInt z) ub dv fd)); auto. apply (built_num k s (PyInt z) ub dv fd); auto. apply new_numeric_ok; auto. }
    apply pat_eqb_text in H; [|apply wf_distinct, built_wf; auto].
    unfold setitem in H1, H2. destruct d; try discriminate. destruct locked; try discriminate.
    injection H1 as <-. injection H2 as <-. cbn [looks_same] in H. destruct H as [_ H].
    apply assign_text in H. cbn in H. auto.
Qed.

(** ** C30 *)
Fixpoint skb (p : pat) : bool :=
  match p with
  | PArr _ b _ => skb b
  | PDict items _ _ _ _ =>
      forallb (fun kq => match fst kq with KStr _ => true | KInt _ => false end && skb (snd kq)) items
  | _ => true
  end.
Lemma skb_iff : forall p, skb p = true <-> string_keys p.
Proof.
  apply (pat_ind' (fun p => skb p = true <-> string_keys p)); cbn [skb string_keys]; try tauto.
  intros items l fl fd lk IH. rewrite all_items_Forall, forallb_forall, Forall_forall.
  rewrite Forall_forall in IH. split; intros H [k q] Hin; specialize (H _ Hin); specialize (IH _ Hin);
    cbn [fst snd] in *.
  - destruct k; try discriminate. split; eauto. apply IH; auto.
  - destruct H as [[s ->] H]. apply IH in H. auto.
Qed.

(** What the [contents] entry becomes. *)
Lemma assign_all_values : forall V (P : V -> Prop) (Q : key -> Prop) (l acc : list (key * V)),
  Forall (fun kv => Q (fst kv) /\ P (snd kv)) l -> Forall (fun kv => Q (fst kv) /\ P (snd kv)) acc ->
  Forall (fun kv => Q (fst kv) /\ P (snd kv))
    (fold_left (fun acc kv => assign acc (fst kv) (snd kv)) l acc).
Proof.
  induction l as [|[k v] l IH]; intros acc Hl Ha; auto. cbn [fold_left fst snd]. inversion Hl; subst.
  apply IH; auto. clear IH Hl H2. induction acc as [|[k' v'] acc IHa]; cbn.
  - repeat constructor; apply H1.
  - inversion Ha; subst. destruct (key_eqb k k'); constructor; auto. cbn in *. tauto.
Qed.

Definition read_member io reg n (cs : list (key * pyobj)) (acc : res pat) (k : pyobj) : res pat :=
  p <- acc ;;
  k <- match k with
       | OStr s => Ok (KStr s)
       | ONum (PyInt z) => Ok (KInt z)
       | _ => Err Unmodelled
       end ;;
  t <- match dict_get cs k with Some t => Ok t | None => Err KeyError end ;;
  match t with
  | OStr t => q <- get_pattern io reg n t ;; setitem p k q
  | _ => Err TypeError
  end.

Lemma str_keys_okeys : forall items : list (key * pat),
  map (fun x => to_dicts (str_keys (okey (fst x)))) items = map (fun x => okey (fst x)) items.
Proof. intros. apply map_ext. intros [[] ?]; reflexivity. Qed.

Definition contents_of (io : float_io) (items : list (key * pat)) : list (key * pyobj) :=
  fold_left (fun acc kv => assign acc (fst kv) (snd kv))
    (map (fun kq => (KStr (key_text (fst kq)), OStr (to_json io (snd kq)))) items) [].

Lemma loads_dict : forall io items l fl fd lk, float_io_ok io ->
  python_bounds (PDict items l fl fd lk) -> proper_keys (PDict items l fl fd lk) ->
  loads io (to_json io (PDict items l fl fd lk)) =
  Ok (ODict [(fld "pattern", OStr (typename CDict));
             (fld "keys", OSeq (map (fun kq => okey (fst kq)) items));
             (fld "contents", ODict (contents_of io items))]).
Proof.
  intros io items l fl fd lk Hio H1 H2. rewrite loads_to_json; auto. f_equal.
  cbn [as_dict str_keys map fst snd key_text fld]. rewrite !map_map. cbn [fst snd].
  transitivity (ODict [(fld "pattern", OStr (typename CDict));
             (fld "keys", OSeq (map to_dicts (map (fun x => str_keys (okey (fst x))) items)));
             (fld "contents", to_dicts (ODict (map (fun x => (KStr (key_text (fst x)), str_keys (OStr (dumps io (as_dict io (snd x)))))) items)))]);
    [reflexivity|].
  rewrite map_map, str_keys_okeys. cbn [to_dicts str_keys]. rewrite map_map. reflexivity.
Qed.

Lemma contents_texts : forall io items,
  Forall (fun kv => (exists s, fst kv = KStr s) /\ exists k q, In (k, q) items /\ snd kv = OStr (to_json io q))
    (contents_of io items).
Proof.
  intros. unfold contents_of.
  apply (assign_all_values pyobj (fun o => exists k q, In (k, q) items /\ o = OStr (to_json io q)) (fun k => exists s, k = KStr s)).
  - apply Forall_map. apply Forall_forall. intros [k q] Hin. cbn. split; eauto.
  - constructor.
Qed.

Lemma dict_get_forall : forall V (P : key * V -> Prop) d k v, Forall P d -> dict_get d k = Some v -> P (k, v).
Proof. intros V P d k v H E. rewrite Forall_forall in H. apply H. apply dict_get_in. auto. Qed.

Theorem int_keys_fail : forall io reg p, float_io_ok io -> registers_builtins reg ->
  wf p -> classes_ok p -> python_bounds p -> proper_keys p -> ~ string_keys p ->
  forall n, 2 * length (to_json io p) <= n ->
  from_json_ io reg (S n) (class_of p) (to_json io p) = Err KeyError /\
  get_pattern io reg (S (S n)) (to_json io p) = Err KeyError.
Proof.
  intros io reg p Hio Hreg. revert p.
  assert (G: forall p, python_bounds p -> proper_keys p -> forall n,
    from_json_ io reg (S n) (class_of p) (to_json io p) = Err KeyError ->
    get_pattern io reg (S (S n)) (to_json io p) = Err KeyError).
  { intros p H1 H2 n H. remember (S n) as m. cbn [get_pattern].
    assert (E: exists d, loads io (to_json io p) = Ok d /\ item d "pattern" = Ok (OStr (typename (class_of p)))).
    { destruct p; try (eexists; split; [apply loads_to_json; auto|]; try reflexivity).
      destruct k; reflexivity. }
    destruct E as (d & -> & E). cbn [bind]. rewrite E. cbn [bind]. rewrite Hreg. auto. }
  apply (pat_ind' (fun p => wf p -> classes_ok p -> python_bounds p -> proper_keys p -> ~ string_keys p ->
    forall n, 2 * length (to_json io p) <= n ->
    from_json_ io reg (S n) (class_of p) (to_json io p) = Err KeyError /\
    get_pattern io reg (S (S n)) (to_json io p) = Err KeyError)); cbn [string_keys].
  - intros; tauto.
  - intros; tauto.
  - intros; tauto.
  - intros s b fd IH Hw Hc Hp Hk Hn n Hl.
    cbn [wf classes_ok python_bounds proper_keys] in Hw, Hc.
    assert (E: from_json_ io reg (S n) CArr (to_json io (PArr s b fd)) = Err KeyError).
    { pose proof (base_text_length io s b fd) as Hl'.
      cbn [from_json_]. rewrite (loads_to_json io _ Hio Hp Hk). cbn [bind].
      rewrite (to_dicts_clean (as_dict io (PArr s b fd))) by (apply as_dict_clean; exact I).
      rewrite item_pattern. cbn [bind class_of].
      change (obj_eqb (OStr (typename CArr)) (OStr (typename CArr))) with (str_eqb (typename CArr) (typename CArr)).
      rewrite str_eqb_refl. cbn [negb].
      transitivity (base <- get_pattern io reg n (to_json io b) ;; sh <- arg_shape (oshape s) ;; new_pattern_array sh base None);
        [reflexivity|].
      destruct n as [|[|n]]; [lia|lia|].
      rewrite (proj2 (IH ltac:(tauto) Hc Hp Hk Hn n ltac:(lia))). reflexivity. }
    split; [exact E|]. apply G; auto.
  - intros items l fl fd lk IH Hw Hc Hp Hk Hn n Hl.
    assert (E: from_json_ io reg (S n) CDict (to_json io (PDict items l fl fd lk)) = Err KeyError).
    { assert (Hlen: forall k q, In (k, q) items -> 2 * length (to_json io q) + 2 <= n).
      { intros k q Hin. pose proof (member_text_length io items l fl fd lk k q Hin). lia. }
      clear Hl. cbn [from_json_]. rewrite loads_dict; auto. cbn [bind].
      transitivity (fold_left (read_member io reg n (contents_of io items))
        (map (fun kq => okey (fst kq)) items) (Ok (new_dict None))); [reflexivity|].
      pose proof (contents_texts io items) as Hcs.
      cbn [wf classes_ok python_bounds proper_keys] in Hw, Hc, Hp, Hk.
      destruct Hw as (Hnd & _ & Hw).
      rewrite all_items_Forall in Hw, Hc, Hp, Hk, Hn. rewrite Forall_forall in IH, Hw, Hc, Hp, Hk.
      (* a member reads as a pattern, or fails on an integer key *)
      assert (Hm: forall k q, In (k, q) items ->
        (string_keys q -> exists r, get_pattern io reg n (to_json io q) = Ok r) /\
        (~ string_keys q -> get_pattern io reg n (to_json io q) = Err KeyError)).
      { intros k q Hin. destruct n as [|[|n']]; [specialize (Hlen _ _ Hin); lia|specialize (Hlen _ _ Hin); lia|].
        pose proof (Hw _ Hin) as W. pose proof (Hc _ Hin) as C. pose proof (Hp _ Hin) as B. pose proof (Hk _ Hin) as K.
        cbn [snd fst] in W, C, B, K. destruct K as [_ K]. split; intros Hs.
        - exists (reread q). apply from_json_to_json; auto. apply jsonable_of; auto. specialize (Hlen _ _ Hin). lia.
        - apply (IH _ Hin); auto. specialize (Hlen _ _ Hin). cbn [snd]. lia. }
      (* the accumulator is an unlocked dictionary or KeyError *)
      assert (Hstep: forall acc k q, In (k, q) items ->
        (acc = Err KeyError \/ exists its l fl, acc = Ok (PDict its l fl None false)) ->
        (read_member io reg n (contents_of io items) acc (okey k) = Err KeyError \/
         exists its l fl, read_member io reg n (contents_of io items) acc (okey k) = Ok (PDict its l fl None false))).
      { intros acc k q Hin [-> | (its & l' & fl' & ->)]; [left; reflexivity|].
        unfold read_member. cbn [bind].
        destruct k as [ks|z]; cbn [okey bind].
        - destruct (dict_get (contents_of io items) (KStr ks)) as [t|] eqn:Et; [|left; reflexivity].
          destruct (dict_get_forall _ _ _ _ _ Hcs Et) as [_ (k' & q' & Hin' & Hq')]. cbn [snd] in Hq'. subst t. cbn [bind].
          destruct (Hm _ _ Hin') as [M1 M2].
          destruct (skb q') eqn:Eq.
          + apply skb_iff in Eq. destruct (M1 Eq) as [r ->]. right. cbn. eauto.
          + left. rewrite M2; [reflexivity|]. rewrite <- skb_iff. congruence.
        - destruct (dict_get (contents_of io items) (KInt z)) as [t|] eqn:Et; [|left; reflexivity].
          destruct (dict_get_forall _ _ _ _ _ Hcs Et) as [[s Hs] _]. discriminate. }
      assert (Hdead: forall ks, fold_left (read_member io reg n (contents_of io items)) ks (Err KeyError) = Err KeyError).
      { induction ks; auto. }
      (* the first bad member *)
      assert (Hbad: exists pre k q post, items = pre ++ (k, q) :: post /\
                forall its l fl, read_member io reg n (contents_of io items) (Ok (PDict its l fl None false)) (okey k) = Err KeyError).
      { destruct (existsb (fun kq => match fst kq with KStr _ => false | KInt _ => true end) items) eqn:Ei.
        - apply existsb_exists in Ei. destruct Ei as ([k q] & Hin & Ei). cbn in Ei. destruct k as [|z]; try discriminate.
          apply in_split in Hin. destruct Hin as (pre & post & Hi). exists pre, (KInt z), q, post. split; auto.
          intros. unfold read_member. cbn [okey bind].
          destruct (dict_get (contents_of io items) (KInt z)) as [t|] eqn:Et; [|reflexivity].
          destruct (dict_get_forall _ _ _ _ _ Hcs Et) as [[s Hs] _]. discriminate.
        - assert (Hstr: forall k q, In (k, q) items -> exists s, k = KStr s).
          { intros k q Hin. destruct k as [s|z]; eauto. exfalso.
            enough (existsb (fun kq : key * pat => match fst kq with KStr _ => false | KInt _ => true end) items = true) by congruence.
            apply existsb_exists. exists (KInt z, q). auto. }
          destruct (existsb (fun kq => negb (skb (snd kq))) items) eqn:Es.
          + apply existsb_exists in Es. destruct Es as ([k q] & Hin & Es). cbn [snd] in Es.
            apply negb_true_iff in Es. destruct (Hstr _ _ Hin) as [s ->].
            assert (Hg: dict_get (contents_of io items) (KStr s) = Some (OStr (to_json io q))).
            { unfold contents_of. rewrite assign_all.
              - apply dict_get_in_nodup.
                + cbn. rewrite map_map. cbn [fst].
                  rewrite (map_ext_in _ fst). auto. intros [k' q'] Hin'. destruct (Hstr _ _ Hin') as [s' ->]. reflexivity.
                + cbn. apply (in_map (fun kq => (KStr (key_text (fst kq)), OStr (to_json io (snd kq)))) _ _ Hin).
              - cbn. rewrite map_map. cbn [fst].
                rewrite (map_ext_in _ fst). auto. intros [k' q'] Hin'. destruct (Hstr _ _ Hin') as [s' ->]. reflexivity. }
            pose proof (in_split _ _ Hin) as (pre & post & Hi). exists pre, (KStr s), q, post. split; auto.
            intros. unfold read_member. cbn [okey bind]. rewrite Hg. cbn [bind].
            rewrite (proj2 (Hm _ _ Hin)). reflexivity. rewrite <- skb_iff. congruence.
          + exfalso. apply Hn. apply Forall_forall. intros [k q] Hin. split; [apply (Hstr _ _ Hin)|].
            cbn [snd]. apply skb_iff. destruct (skb q) eqn:Eq; auto.
            enough (existsb (fun kq : key * pat => negb (skb (snd kq))) items = true) by congruence.
            apply existsb_exists. exists (k, q). cbn. rewrite Eq. auto. }
      destruct Hbad as (pre & k & q & post & Hi & Hbad).
      assert (Hrun: forall ms acc, (forall k q, In (k, q) ms -> In (k, q) items) ->
        (acc = Err KeyError \/ exists its l fl, acc = Ok (PDict its l fl None false)) ->
        let r := fold_left (read_member io reg n (contents_of io items)) (map (fun kq => okey (fst kq)) ms) acc in
        r = Err KeyError \/ exists its l fl, r = Ok (PDict its l fl None false)).
      { induction ms as [|[k' q'] ms IHm]; intros acc Hin Hacc; auto. cbn [map fold_left fst]. apply IHm.
        - intros. apply Hin. right. auto.
        - apply (Hstep acc k' q'); auto. apply Hin. left. auto. }
      rewrite Hi at 2. rewrite map_app, fold_left_app. cbn [map fold_left fst].
      destruct (Hrun pre (Ok (new_dict None))) as [E | (its & l' & fl' & E)].
      - intros k' q' Hin. rewrite Hi. apply in_app_iff. auto.
      - right. do 3 eexists. reflexivity.
      - rewrite E. apply Hdead.
      - rewrite E, Hbad. apply Hdead. }
    split; [exact E|]. apply G; auto.
Qed.

Theorem int_keys_do_not_survive : forall io reg p, float_io_ok io -> registers_builtins reg ->
  built p -> python_bounds p -> proper_keys p -> ~ string_keys p ->
  get_pattern_from_json io reg (to_json io p) = Err KeyError /\
  from_json io reg (class_of p) (to_json io p) = Err KeyError.
Proof.
  intros io reg p Hio Hreg Hb Hn Hk Hs.
  pose proof (int_keys_fail io reg p Hio Hreg (built_wf p Hb) (built_classes p Hb) Hn Hk Hs) as H.
  unfold get_pattern_from_json, from_json. split.
  - apply H. lia.
  - apply (H (S (2 * length (to_json io p)))). lia.
Qed.

(** ** C31 *)
Theorem reject_no_pattern : forall io reg text d, loads io text = Ok (ODict d) ->
  dict_get d (KStr (str "pattern")) = None ->
  get_pattern_from_json io reg text = Err KeyError /\
  forall c, from_json io reg c text = Err KeyError.
Proof.
  intros io reg text d H1 H2. unfold get_pattern_from_json, from_json.
  split; [|intros c]; cbn [get_pattern from_json_]; rewrite H1; cbn [bind item]; unfold fld; rewrite H2; reflexivity.
Qed.
Theorem reject_unregistered : forall io reg text d name, loads io text = Ok (ODict d) ->
  dict_get d (KStr (str "pattern")) = Some (OStr name) -> dict_get reg (KStr name) = None ->
  get_pattern_from_json io reg text = Err KeyError.
Proof.
  intros io reg text d name H1 H2 H3. unfold get_pattern_from_json.
  cbn [get_pattern]; rewrite H1; cbn [bind item]; unfold fld; rewrite H2; cbn [bind]; rewrite H3; reflexivity.
Qed.
Theorem reject_other_name : forall io reg text d name c, loads io text = Ok (ODict d) ->
  dict_get d (KStr (str "pattern")) = Some (OStr name) -> name <> typename c ->
  from_json io reg c text = Err ValueError.
Proof.
  intros io reg text d name c H1 H2 H3. unfold from_json.
  cbn [from_json_]; rewrite H1; cbn [bind item]; unfold fld; rewrite H2; cbn [bind].
  change (obj_eqb (OStr name) (OStr (typename c))) with (str_eqb name (typename c)).
  destruct (str_eqb name (typename c)) eqn:E; auto. apply str_eqb_iff in E. contradiction.
Qed.
Theorem reject_not_object : forall io reg text,
  (loads io text = Err ValueError -> get_pattern_from_json io reg text = Err ValueError) /\
  (forall o, loads io text = Ok o -> (forall d, o <> ODict d) ->
     get_pattern_from_json io reg text = Err TypeError).
Proof.
  intros io reg text. unfold get_pattern_from_json. split.
  - intros H. cbn [get_pattern]. rewrite H. reflexivity.
  - intros o H Ho. cbn [get_pattern]. rewrite H. cbn [bind].
    destruct o; try reflexivity. exfalso. eapply Ho. reflexivity.
Qed.
Lemma typename_inj : forall a b, typename a = typename b -> a = b.
Proof.
  intros a b H.
  destruct a as [[]| | | |], b as [[]| | | |]; try reflexivity; exfalso; vm_compute in H; discriminate H.
Qed.
Theorem reject_other_class : forall io reg p c, float_io_ok io ->
  python_bounds p -> proper_keys p -> class_of p <> c ->
  from_json io reg c (to_json io p) = Err ValueError.
Proof.
  intros io reg p c Hio H1 H2 Hc.
  assert (E: exists d, loads io (to_json io p) = Ok (ODict d) /\
             dict_get d (KStr (str "pattern")) = Some (OStr (typename (class_of p)))).
  { destruct p; try (eexists; split; [rewrite loads_to_json by auto; reflexivity|reflexivity]).
    destruct k; (eexists; split; [rewrite loads_to_json by auto; reflexivity|reflexivity]). }
  destruct E as (d & E1 & E2). eapply reject_other_name; eauto. intros E. apply typename_inj in E. auto.
Qed.
