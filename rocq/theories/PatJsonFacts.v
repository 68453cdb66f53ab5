(** * Reading the JSON text of a pattern. *)
From Coq Require Import Reals NArith Ascii String SpecFloat Lra.
From Verif Require Import Base Num Nd Numeric Simplex Psd Pattern Json PatJson Spec SpecJson
  ListFacts PatFacts NumFacts Contract Build JsonFacts.
Local Open Scope list_scope.
Local Open Scope nat_scope.

(** ** Every text is ASCII *)
Definition ascii_text (s : pystr) : Prop := Forall (fun c => (c < 128)%N) s.

Lemma ascii_proper : forall s, ascii_text s -> proper_text s.
Proof.
  induction s as [|c s IH]; intros H; cbn; auto. inversion H; subst. split; [lia|]. split; auto.
  destruct s; auto. lia.
Qed.
Lemma ascii_app : forall a b, ascii_text (a ++ b) <-> ascii_text a /\ ascii_text b.
Proof. intros. apply Forall_app. Qed.
Definition asciib (s : pystr) : bool := forallb (fun c => N.ltb c 128) s.
Lemma asciib_ok : forall s, asciib s = true -> ascii_text s.
Proof.
  intros s H. unfold asciib in H. rewrite forallb_forall in H. apply Forall_forall. intros c Hc.
  apply N.ltb_lt. auto.
Qed.

Lemma hexdig_ascii : forall n, (n < 16)%N -> (hexdig n < 128)%N.
Proof. intros n H. unfold hexdig. destruct (n <? 10)%N; lia. Qed.
Lemma hex4_ascii : forall n, ascii_text (hex4 n).
Proof. intros n. unfold hex4. repeat constructor; apply hexdig_ascii; apply N.mod_lt; lia. Qed.
Lemma esc_ascii : forall c, ascii_text (esc_char c).
Proof.
  intros c. unfold esc_char.
  repeat match goal with |- context [if ?b then _ else _] => destruct b eqn:? end;
    try (apply asciib_ok; reflexivity).
  - repeat constructor. apply Bool.andb_true_iff in Heqb6. destruct Heqb6 as [_ H]. apply N.leb_le in H. lia.
  - do 2 (constructor; [lia|]). apply hex4_ascii.
  - do 2 (constructor; [lia|]). apply ascii_app. split; [apply hex4_ascii|].
    do 2 (constructor; [lia|]). apply hex4_ascii.
Qed.
Lemma quote_ascii : forall s, ascii_text (quote s).
Proof.
  intros s. unfold quote. constructor; [lia|]. apply ascii_app. split; [|repeat constructor; lia].
  induction s; cbn; [constructor|]. apply ascii_app. split; auto using esc_ascii.
Qed.
Lemma digits_ascii : forall s, digits s -> ascii_text s.
Proof. intros s H. eapply Forall_impl; [|exact H]. cbn; intros; lia. Qed.
Lemma int_text_ascii : forall z, ascii_text (int_text z).
Proof.
  intros z. unfold int_text. destruct (Z.to_int z).
  - apply digits_ascii, uint_text_digits.
  - constructor; [lia|]. apply digits_ascii, uint_text_digits.
Qed.
Lemma float_text_ascii : forall s, float_text s -> ascii_text s.
Proof.
  intros s (neg & ip & fp & ep & -> & Hn & (Hd & _) & Hf & He & _).
  repeat (apply ascii_app; split).
  - destruct Hn as [-> | ->]; repeat constructor; lia.
  - apply digits_ascii; auto.
  - destruct Hf as [-> | (d & _ & H & ->)]; [constructor|]. constructor; [lia|]. apply digits_ascii; auto.
  - destruct He as [-> | (e & sg & d & H1 & H2 & _ & H & ->)]; [constructor|].
    constructor; [lia|]. apply ascii_app. split; [|apply digits_ascii; auto].
    destruct H2 as [-> | [-> | ->]]; repeat constructor; lia.
Qed.
Lemma join_ascii : forall sep l, ascii_text sep -> Forall ascii_text l -> ascii_text (join sep l).
Proof.
  intros sep l Hs H. induction H as [|x l Hx Hl IH]; [constructor|].
  destruct l as [|y l]; auto. cbn [join] in *. apply ascii_app. split; auto. apply ascii_app. auto.
Qed.
Lemma dumps_ascii : forall io o, float_io_ok io -> readable o -> ascii_text (dumps io o).
Proof.
  intros io o Hio. revert o.
  apply (pyobj_ind' (fun o => readable o -> ascii_text (dumps io o))); cbn [dumps].
  - intros _. apply asciib_ok; reflexivity.
  - intros [] _; apply asciib_ok; reflexivity.
  - intros x Hx. destruct x as [z|f]; cbn [num_text].
    + apply int_text_ascii.
    + cbn in Hx. destruct f as [s|s| |s m e].
      * apply float_text_ascii. apply Hio. split; auto.
      * destruct s; apply asciib_ok; reflexivity.
      * apply asciib_ok; reflexivity.
      * apply float_text_ascii. apply Hio. split; auto.
  - intros s _. apply quote_ascii.
  - intros l IH H. apply readable_seq in H. constructor; [lia|]. apply ascii_app. split; [|repeat constructor; lia].
    apply join_ascii. apply asciib_ok; reflexivity.
    apply Forall_map. rewrite Forall_forall in *. auto.
  - intros l IH H. apply readable_dict in H. constructor; [lia|]. apply ascii_app. split; [|repeat constructor; lia].
    apply join_ascii. apply asciib_ok; reflexivity.
    apply Forall_map. rewrite Forall_forall in *. intros [k v] Hin. apply ascii_app. split; [apply quote_ascii|].
    apply ascii_app. split. apply asciib_ok; reflexivity. apply IH; auto. apply (H (k, v)); auto.
Qed.

(** ** What [as_dict] contains *)
Lemma readable_oshape : forall s, readable (oshape s).
Proof. intros. unfold oshape. apply readable_seq. apply Forall_map. apply Forall_forall. intros; exact I. Qed.
Lemma readable_typename : forall c, readable (OStr (typename c)).
Proof. intros c. apply ascii_proper, asciib_ok. destruct c as [[]| | | |]; vm_compute; reflexivity. Qed.
Lemma readable_oopt : forall b, readable (oopt b).
Proof. destruct b; exact I. Qed.
Lemma proper_fld : forall s, asciib (str s) = true -> proper_text (key_text (fld s)).
Proof. intros. apply ascii_proper, asciib_ok. auto. Qed.

Lemma as_dict_readable : forall io p, float_io_ok io -> python_bounds p -> proper_keys p ->
  readable (as_dict io p).
Proof.
  intros io p Hio. revert p.
  apply (pat_ind' (fun p => python_bounds p -> proper_keys p -> readable (as_dict io p))).
  - intros k s lb ub dv fd (H1 & H2) _. cbn [as_dict].
    apply readable_dict.
    destruct k; cbn [app]; repeat (apply Forall_cons; [split; cbn [fst snd]; [apply proper_fld; reflexivity|]|]);
      auto using readable_typename, readable_oshape, readable_oopt; try exact I; try exact H1; try exact H2.
  - intros n s dv fd _ _. apply readable_dict.
    repeat (apply Forall_cons; [split; cbn [fst snd]; [apply proper_fld; reflexivity|]|]);
      auto using readable_typename, readable_oshape; exact I.
  - intros sz fl d dv fd H _. apply readable_dict.
    repeat (apply Forall_cons; [split; cbn [fst snd]; [apply proper_fld; reflexivity|]|]);
      auto using readable_typename; try exact I.
  - intros s b fd IH H1 H2. apply readable_dict.
    repeat (apply Forall_cons; [split; cbn [fst snd]; [apply proper_fld; reflexivity|]|]);
      auto using readable_typename, readable_oshape.
    cbn [readable]. apply ascii_proper. apply dumps_ascii; auto.
  - intros items l fl fd lk IH H1 H2. cbn [python_bounds proper_keys] in *.
    rewrite all_items_Forall in H1, H2. apply readable_dict. rewrite Forall_forall in IH, H1, H2.
    repeat (apply Forall_cons; [split; cbn [fst snd]; [apply proper_fld; reflexivity|]|]);
      auto using readable_typename.
    + apply readable_seq. apply Forall_map. apply Forall_forall. intros [k q] Hin. cbn [fst].
      destruct k; cbn; auto. apply (H2 _ Hin).
    + apply readable_dict. apply Forall_map. apply Forall_forall. intros [k q] Hin. cbn [fst snd]. split.
      * destruct k; cbn [key_text]. apply (H2 _ Hin). apply ascii_proper, int_text_ascii.
      * cbn [readable]. apply ascii_proper. apply dumps_ascii; auto. apply (IH _ Hin).
        apply (H1 _ Hin). apply (H2 _ Hin).
Qed.

(** ** Dictionaries with distinct string keys are what is read back *)
Fixpoint clean (o : pyobj) : Prop :=
  match o with
  | OSeq l => (fix go l := match l with [] => True | x :: r => clean x /\ go r end) l
  | ODict d => NoDup (map fst d) /\
      (fix go d := match d with [] => True
                 | (k, x) :: r => (exists s, k = KStr s) /\ clean x /\ go r end) d
  | _ => True
  end.
Lemma clean_seq : forall l, clean (OSeq l) <-> Forall clean l.
Proof.
  induction l as [|x l IH]; cbn. split; auto. cbn in IH. rewrite IH. split.
  intros []; constructor; auto. inversion 1; auto.
Qed.
Lemma clean_dict : forall d, clean (ODict d) <->
  NoDup (map fst d) /\ Forall (fun kv => (exists s, fst kv = KStr s) /\ clean (snd kv)) d.
Proof.
  intros d. cbn. apply and_iff_compat_l.
  induction d as [|[k x] l IH]; cbn. split; auto. rewrite IH. split.
  intros (? & ? & ?); constructor; auto. inversion 1; subst; simpl in *; tauto.
Qed.

Lemma assign_fresh : forall V (d : list (key * V)) k v, ~ In k (map fst d) -> assign d k v = d ++ [(k, v)].
Proof.
  induction d as [|[k' v'] d IH]; intros k v H; cbn in *; auto.
  destruct (key_eqb k k') eqn:E. apply key_eqb_true in E. subst; tauto. rewrite IH; auto.
Qed.
Lemma assign_all : forall V (l acc : list (key * V)), NoDup (map fst (acc ++ l)) ->
  fold_left (fun acc kv => assign acc (fst kv) (snd kv)) l acc = acc ++ l.
Proof.
  induction l as [|[k v] l IH]; intros acc H; cbn [fold_left fst snd].
  - rewrite app_nil_r. auto.
  - rewrite assign_fresh. rewrite IH. rewrite <- app_assoc. auto. rewrite <- app_assoc. auto.
    rewrite map_app in H. cbn in H. apply NoDup_remove_2 in H. rewrite in_app_iff in H. tauto.
Qed.

Lemma to_dicts_clean : forall o, clean o -> to_dicts (str_keys o) = o.
Proof.
  apply (pyobj_ind' (fun o => clean o -> to_dicts (str_keys o) = o)); auto.
  - intros l IH H. apply clean_seq in H. cbn [str_keys to_dicts]. f_equal. rewrite map_map.
    rewrite <- (map_id l) at 2. apply map_ext_in. rewrite Forall_forall in *. auto.
  - intros d IH H. apply clean_dict in H. destruct H as [H1 H2]. cbn [str_keys to_dicts]. f_equal.
    rewrite map_map. cbn [fst snd].
    replace (map (fun x => (KStr (key_text (fst x)), to_dicts (str_keys (snd x)))) d) with d.
    + apply assign_all. auto.
    + rewrite <- (map_id d) at 1. apply map_ext_in. intros [k x] Hin. cbn [fst snd].
      rewrite Forall_forall in *. destruct (H2 _ Hin) as [[s Hs] Hc]. cbn in Hs. subst k.
      pose proof (IH _ Hin Hc) as E. cbn [snd] in E. cbn [key_text]. rewrite E. auto.
Qed.

Fixpoint nodupb (l : list key) : bool :=
  match l with [] => true | k :: r => negb (existsb (key_eqb k) r) && nodupb r end.
Lemma nodupb_ok : forall l, nodupb l = true -> NoDup l.
Proof.
  induction l as [|k l IH]; intros H; constructor; cbn in H; apply Bool.andb_true_iff in H; destruct H as [H1 H2].
  - apply negb_true_iff in H1. intros Hin.
    assert (existsb (key_eqb k) l = true). { apply existsb_exists. exists k. split; auto. apply key_eqb_true; auto. }
    congruence.
  - auto.
Qed.

Lemma clean_oshape : forall s, clean (oshape s).
Proof. intros. apply clean_seq. apply Forall_map. apply Forall_forall. intros; exact I. Qed.
Lemma clean_oopt : forall b, clean (oopt b).
Proof. destruct b; exact I. Qed.

Ltac clean_fields :=
  repeat (apply Forall_cons; [split; cbn [fst snd]; [eexists; reflexivity|]|]);
      auto using clean_oshape, clean_oopt; try exact I.

Lemma as_dict_clean : forall io p,
  match p with PDict items _ _ _ _ => NoDup (map fst items) /\ all_items (fun k _ => exists s, k = KStr s) items
          | _ => True end -> clean (as_dict io p).
Proof.
  intros io p Hp. destruct p; cbn [as_dict]; apply clean_dict.
  - split. apply nodupb_ok; destruct k; reflexivity. destruct k; cbn [app]; clean_fields.
  - split. apply nodupb_ok; reflexivity. clean_fields.
  - split. apply nodupb_ok; reflexivity. clean_fields.
  - split. apply nodupb_ok; reflexivity. clean_fields.
  - split. apply nodupb_ok; reflexivity. clean_fields.
    + apply clean_seq. apply Forall_map. apply Forall_forall. intros [[] q] _; exact I.
    + apply clean_dict. destruct Hp as [H1 H2]. rewrite map_map. cbn [fst].
      split; [exact H1|]. apply Forall_map. cbn [fst snd].
      rewrite all_items_Forall in H2. eapply Forall_impl; [|exact H2]. cbn; auto.
Qed.

Lemma loads_to_json : forall io p, float_io_ok io -> python_bounds p -> proper_keys p ->
  loads io (to_json io p) = Ok (to_dicts (str_keys (as_dict io p))).
Proof. intros. unfold loads, to_json. rewrite parse_dumps; auto. apply as_dict_readable; auto. Qed.

(** ** Reading a pattern back *)

Fixpoint jsonable (p : pat) : Prop :=
  match p with
  | PNum k s lb ub _ _ =>
      class_shape k s /\ s <> [] /\ nlt (pyval lb) (pyval ub) /\ python_num lb /\ python_num ub
  | PSimplex n _ _ _ => 2 <= n
  | PPsd sz flen d _ _ =>
      flen = sz * (sz + 1) / 2 /\ nltb (pyval d) (Fin 0) = false /\ python_num d
  | PArr _ b _ => is_dict b = false /\ jsonable b
  | PDict items _ _ _ _ =>
      NoDup (map fst items) /\
      all_items (fun k q => (exists s, k = KStr s /\ proper_text s) /\ jsonable q) items
  end.

Lemma jsonable_parts : forall p, jsonable p -> python_bounds p /\ proper_keys p.
Proof.
  apply (pat_ind' (fun p => jsonable p -> python_bounds p /\ proper_keys p)); cbn [jsonable python_bounds proper_keys].
  - tauto.
  - tauto.
  - tauto.
  - tauto.
  - intros items l fl fd lk IH (_ & H). rewrite !all_items_Forall in *. rewrite !Forall_forall in *.
    split; intros [k q] Hin; destruct (H _ Hin) as [(s & Hs & Hp) Hj]; cbn [fst snd] in *; subst;
      destruct (IH _ Hin Hj); auto.
Qed.

Lemma loads_jsonable : forall io p, float_io_ok io -> jsonable p ->
  loads io (to_json io p) = Ok (as_dict io p).
Proof.
  intros io p Hio H. destruct (jsonable_parts p H). rewrite loads_to_json; auto. f_equal.
  apply to_dicts_clean. apply as_dict_clean. destruct p; auto. destruct H as [H2 H3]. split; auto.
  rewrite all_items_Forall in *. eapply Forall_impl; [|exact H3]. intros [k q] [(s & Hs & _) _]. eauto.
Qed.

Lemma arg_nat_back : forall n, arg_nat (oint n) = Ok n.
Proof.
  intros. unfold arg_nat, oint. replace (0 <=? Z.of_nat n)%Z with true by (symmetry; apply Z.leb_le; lia).
  rewrite Nat2Z.id. auto.
Qed.
Lemma arg_shape_back : forall s, arg_shape (oshape s) = Ok s.
Proof.
  intros. unfold arg_shape, oshape. induction s as [|n s IH]; auto.
  transitivity (b <- arg_nat (oint n) ;; bs <- mapM arg_nat (map oint s) ;; Ok (b :: bs)); [reflexivity|].
  rewrite arg_nat_back, IH. reflexivity.
Qed.
Lemma arg_obool_back : forall b, arg_obool (oopt b) = Ok b.
Proof. destruct b; auto. Qed.

Lemma item_pattern : forall io p, item (as_dict io p) "pattern" = Ok (OStr (typename (class_of p))).
Proof. intros. destruct p as [[]| | | |]; reflexivity. Qed.

Lemma str_eqb_refl : forall s, str_eqb s s = true.
Proof. intros. unfold str_eqb. destruct (list_eq_dec N.eq_dec s s); congruence. Qed.

(** The JSON text of a member is shorter than the whole text. *)
Lemma flat_map_esc_length : forall s, length s <= length (flat_map esc_char s).
Proof.
  induction s as [|c s IH]; auto. cbn [flat_map length]. rewrite app_length.
  assert (1 <= length (esc_char c)).
  { unfold esc_char. repeat match goal with |- context [if ?b then _ else _] => destruct b end; cbn; lia. }
  lia.
Qed.
Lemma quote_length : forall s, length s + 2 <= length (quote s).
Proof. intros. unfold quote. cbn. rewrite app_length. cbn. pose proof (flat_map_esc_length s). lia. Qed.
Lemma join_length : forall sep l x, In x l -> length x <= length (join sep l).
Proof.
  induction l as [|y l IH]; intros x H; [contradiction|].
  destruct l as [|z l]; cbn [join] in *.
  - destruct H as [->|[]]. auto.
  - rewrite !app_length. destruct H as [->|H]. lia. specialize (IH x H). lia.
Qed.
Lemma dumps_member_length : forall io d k v, In (k, v) d -> length (dumps io v) + 2 <= length (dumps io (ODict d)).
Proof.
  intros io d k v H. cbn [dumps length]. rewrite app_length. cbn [length].
  pose proof (join_length (str ", ") _ _ (in_map (fun kv => quote (key_text (fst kv)) ++ str ": " ++ dumps io (snd kv)) _ _ H)) as L.
  cbn [fst snd] in L. rewrite !app_length in L. lia.
Qed.

Lemma base_text_length : forall io s b fd,
  length (to_json io b) + 4 <= length (to_json io (PArr s b fd)).
Proof.
  intros. unfold to_json. cbn [as_dict].
  set (t := dumps io (as_dict io b)).
  match goal with |- _ <= length (dumps io (ODict ?d)) =>
    pose proof (dumps_member_length io d (fld "base_pattern") (OStr t)) as H end.
  specialize (H ltac:(do 3 right; left; reflexivity)). change (dumps io (OStr t)) with (quote t) in H.
  pose proof (quote_length t). lia.
Qed.
Lemma member_text_length : forall io items l fl fd lk k q, In (k, q) items ->
  length (to_json io q) + 4 <= length (to_json io (PDict items l fl fd lk)).
Proof.
  intros io items l fl fd lk k q Hin. unfold to_json. cbn [as_dict].
  set (cs := map (fun kq => (fst kq, OStr (dumps io (as_dict io (snd kq))))) items).
  match goal with |- _ <= length (dumps io (ODict ?d)) =>
    pose proof (dumps_member_length io d (fld "contents") (ODict cs)) as H end.
  specialize (H ltac:(do 2 right; left; reflexivity)).
  pose proof (dumps_member_length io cs k (OStr (dumps io (as_dict io q)))
    (in_map (fun kq => (fst kq, OStr (dumps io (as_dict io (snd kq))))) _ _ Hin)) as H'.
  change (dumps io (OStr (dumps io (as_dict io q)))) with (quote (dumps io (as_dict io q))) in H'.
  pose proof (quote_length (dumps io (as_dict io q))). lia.
Qed.

Definition dict_of_items (items : list (key * pat)) : pat :=
  match items with
  | [] => new_dict None
  | _ => PDict items (items_len items false) (items_len items true) None false
  end.

Lemma setitem_fresh : forall pre k q, ~ In k (map fst pre) ->
  setitem (dict_of_items pre) k q = Ok (dict_of_items (pre ++ [(k, lock_pat q)])).
Proof.
  intros pre k q H. unfold dict_of_items. destruct pre as [|x pre].
  - reflexivity.
  - cbn [setitem]. rewrite assign_fresh; auto.
Qed.

Lemma reread_not_dict : forall p, is_dict p = false -> is_dict (reread p) = false.
Proof. destruct p; auto. discriminate. Qed.

Theorem from_json_to_json : forall io reg p, float_io_ok io -> registers_builtins reg -> jsonable p ->
  forall n, 2 * length (to_json io p) <= n ->
  from_json_ io reg (S n) (class_of p) (to_json io p) = Ok (reread p) /\
  get_pattern io reg (S (S n)) (to_json io p) = Ok (reread p).
Proof.
  intros io reg p Hio Hreg. revert p.
  assert (G: forall p, jsonable p -> forall n,
    from_json_ io reg (S n) (class_of p) (to_json io p) = Ok (reread p) ->
    get_pattern io reg (S (S n)) (to_json io p) = Ok (reread p)).
  { intros p Hj n H. change (S (S n)) with (S (S n)). remember (S n) as m.
    cbn [get_pattern]. rewrite (loads_jsonable io p Hio Hj). cbn [bind]. rewrite item_pattern. cbn [bind].
    rewrite Hreg. auto. }
  apply (pat_ind' (fun p => jsonable p -> forall n, 2 * length (to_json io p) <= n ->
    from_json_ io reg (S n) (class_of p) (to_json io p) = Ok (reread p) /\
    get_pattern io reg (S (S n)) (to_json io p) = Ok (reread p))).
  - intros k s lb ub dv fd Hj n _. split; [|apply G; auto];
    cbn [from_json_]; rewrite (loads_jsonable io _ Hio Hj); cbn [bind]; rewrite item_pattern; cbn [bind class_of];
    change (obj_eqb (OStr (typename (CNum k))) (OStr (typename (CNum k)))) with (str_eqb (typename (CNum k)) (typename (CNum k)));
    rewrite str_eqb_refl; cbn [negb];
    destruct Hj as (Hk & Hs & Hlt & _);
    pose proof (proj2 (new_numeric_ok k s lb ub dv fd _) (conj eq_refl (conj Hs Hlt))) as Hnew;
    assert (ngeb (pyval lb) NInf = true) as Hge
      by (destruct (ngeb (pyval lb) NInf) eqn:Q; [reflexivity|unfold new_numeric_kind in Hnew; rewrite Q in Hnew; discriminate]);
    cbn [reread]; rewrite <- Hnew;
    destruct k; cbn [class_shape] in Hk.
    + transitivity (shape <- arg_shape (oshape s) ;; _ <- (if ngeb (pyval lb) NInf then Ok tt else Err AssertionError) ;; fd' <- arg_obool (oopt fd) ;;
         new_numeric_kind KArray shape lb ub dv fd'); [reflexivity|].
      rewrite arg_shape_back, arg_obool_back, Hge. reflexivity.
    + destruct s as [|m [|]]; try discriminate Hk.
      transitivity (shape <- (n <- arg_nat (oint m) ;; Ok [n]) ;; _ <- (if ngeb (pyval lb) NInf then Ok tt else Err AssertionError) ;; fd' <- arg_obool (oopt fd) ;;
         new_numeric_kind KVector shape lb ub dv fd'); [reflexivity|].
      rewrite arg_nat_back, arg_obool_back, Hge. reflexivity.
    + subst s. transitivity (_ <- (if ngeb (pyval lb) NInf then Ok tt else Err AssertionError) ;; fd' <- arg_obool (oopt fd) ;;
         new_numeric_kind KScalar [1] lb ub dv fd'); [reflexivity|].
      rewrite arg_obool_back, Hge. reflexivity.
    + transitivity (shape <- arg_shape (oshape s) ;; _ <- (if ngeb (pyval lb) NInf then Ok tt else Err AssertionError) ;; fd' <- arg_obool (oopt fd) ;;
         new_numeric_kind KArray shape lb ub dv fd'); [reflexivity|].
      rewrite arg_shape_back, arg_obool_back, Hge. reflexivity.
    + destruct s as [|m [|]]; try discriminate Hk.
      transitivity (shape <- (n <- arg_nat (oint m) ;; Ok [n]) ;; _ <- (if ngeb (pyval lb) NInf then Ok tt else Err AssertionError) ;; fd' <- arg_obool (oopt fd) ;;
         new_numeric_kind KVector shape lb ub dv fd'); [reflexivity|].
      rewrite arg_nat_back, arg_obool_back, Hge. reflexivity.
    + subst s. transitivity (_ <- (if ngeb (pyval lb) NInf then Ok tt else Err AssertionError) ;; fd' <- arg_obool (oopt fd) ;;
         new_numeric_kind KScalar [1] lb ub dv fd'); [reflexivity|].
      rewrite arg_obool_back, Hge. reflexivity.
  - intros m s dv fd Hj n _.
    assert (E: forall n, from_json_ io reg (S n) CSimplex (to_json io (PSimplex m s dv fd)) = Ok (PSimplex m s dv None)).
    { clear n. intros n. cbn [from_json_]. rewrite (loads_jsonable io _ Hio Hj). cbn [bind]. rewrite item_pattern.
      cbn [bind class_of].
      change (obj_eqb (OStr (typename CSimplex)) (OStr (typename CSimplex))) with (str_eqb (typename CSimplex) (typename CSimplex)).
      rewrite str_eqb_refl. cbn [negb].
      transitivity (sh <- arg_shape (oshape s) ;; new_simplex (Z.of_nat m) sh dv None); [reflexivity|].
      rewrite arg_shape_back. cbn [bind]. unfold new_simplex. cbn [jsonable] in Hj.
      replace (Z.of_nat m <=? 1)%Z with false by (symmetry; apply Z.leb_gt; lia). rewrite Nat2Z.id. auto. }
    split; [apply E|]. apply G; auto.
  - intros sz fl d dv fd Hj n _.
    assert (E: forall n, from_json_ io reg (S n) CPsd (to_json io (PPsd sz fl d dv fd)) = Ok (PPsd sz fl d dv None)).
    { clear n. intros n. cbn [from_json_]. rewrite (loads_jsonable io _ Hio Hj). cbn [bind]. rewrite item_pattern.
      cbn [bind class_of].
      change (obj_eqb (OStr (typename CPsd)) (OStr (typename CPsd))) with (str_eqb (typename CPsd) (typename CPsd)).
      rewrite str_eqb_refl. cbn [negb].
      transitivity (sz' <- arg_nat (oint sz) ;; new_psd sz' 1 d dv None); [reflexivity|].
      rewrite arg_nat_back. cbn [bind]. unfold new_psd. cbn [jsonable] in Hj. destruct Hj as (-> & -> & _).
      change (Pos.to_nat 1) with 1. rewrite Nat.div_1_r. reflexivity. }
    split; [apply E|]. apply G; auto.
  - intros s b fd IH Hj n Hn.
    assert (E: from_json_ io reg (S n) CArr (to_json io (PArr s b fd)) = Ok (reread (PArr s b fd))).
    { pose proof (base_text_length io s b fd) as Hl.
      remember (to_json io (PArr s b fd)) as t eqn:Et.
      cbn [from_json_]. rewrite Et. rewrite (loads_jsonable io _ Hio Hj). cbn [bind]. rewrite item_pattern.
      cbn [bind class_of].
      change (obj_eqb (OStr (typename CArr)) (OStr (typename CArr))) with (str_eqb (typename CArr) (typename CArr)).
      rewrite str_eqb_refl. cbn [negb].
      transitivity (base <- get_pattern io reg n (to_json io b) ;; sh <- arg_shape (oshape s) ;; new_pattern_array sh base None);
        [reflexivity|].
      destruct Hj as [Hd Hj]. destruct n as [|[|n]]; [lia|lia|].
      rewrite (proj2 (IH Hj n ltac:(lia))). cbn [bind]. rewrite arg_shape_back. cbn [bind reread].
      pose proof (reread_not_dict b Hd). destruct (reread b); try reflexivity. discriminate. }
    split; [exact E|]. apply G; auto.
  - intros items l fl fd lk IH Hj n Hn.
    assert (E: from_json_ io reg (S n) CDict (to_json io (PDict items l fl fd lk)) = Ok (reread (PDict items l fl fd lk))).
    { assert (Hl: forall k q, In (k, q) items -> 2 * length (to_json io q) + 2 <= n).
      { intros k q Hin. pose proof (member_text_length io items l fl fd lk k q Hin). lia. }
      clear Hn. cbn [from_json_]. rewrite (loads_jsonable io _ Hio Hj). cbn [bind]. rewrite item_pattern.
      cbn [bind class_of].
      change (obj_eqb (OStr (typename CDict)) (OStr (typename CDict))) with (str_eqb (typename CDict) (typename CDict)).
      rewrite str_eqb_refl. cbn [negb].
      set (cs := map (fun kq => (fst kq, OStr (dumps io (as_dict io (snd kq))))) items).
      match goal with |- ?L = _ => 
      transitivity (fold_left
                  (fun acc k =>
                     p <- acc ;;
                     k <- match k with
                          | OStr s => Ok (KStr s)
                          | ONum (PyInt z) => Ok (KInt z)
                          | _ => Err Unmodelled
                          end ;;
                     t <- match dict_get cs k with Some t => Ok t | None => Err KeyError end ;;
                     match t with
                     | OStr t => q <- get_pattern io reg n t ;; setitem p k q
                     | _ => Err TypeError
                     end)
                  (map (fun kq => okey (fst kq)) items) (Ok (new_dict None))) end; [reflexivity|].
      destruct Hj as [Hnd Hj].
      change (reread (PDict items l fl fd lk)) with
        (dict_of_items (map (fun kq => (fst kq, lock_pat (reread (snd kq)))) items)).
      set (rr := fun kq : key * pat => (fst kq, lock_pat (reread (snd kq)))).
      assert (Hcs: forall k q, In (k, q) items -> dict_get cs k = Some (OStr (to_json io q))).
      { intros k q Hin. apply dict_get_in_nodup.
        - unfold cs. rewrite map_map. cbn [fst]. exact Hnd.
        - unfold cs. apply (in_map (fun kq => (fst kq, OStr (dumps io (as_dict io (snd kq))))) _ _ Hin). }
      clearbody cs.
      rewrite all_items_Forall in Hj. rewrite Forall_forall in Hj, IH.
      change (new_dict None) with (dict_of_items (map rr [])).
      assert (Gen: forall post pre, items = pre ++ post ->
        fold_left (fun acc k =>
                     p <- acc ;;
                     k <- match k with
                          | OStr s => Ok (KStr s)
                          | ONum (PyInt z) => Ok (KInt z)
                          | _ => Err Unmodelled
                          end ;;
                     t <- match dict_get cs k with Some t => Ok t | None => Err KeyError end ;;
                     match t with
                     | OStr t => q <- get_pattern io reg n t ;; setitem p k q
                     | _ => Err TypeError
                     end)
          (map (fun kq => okey (fst kq)) post) (Ok (dict_of_items (map rr pre)))
        = Ok (dict_of_items (map rr (pre ++ post)))).
      { induction post as [|[k q] post IHp]; intros pre Hi.
        - rewrite app_nil_r. reflexivity.
        - assert (Hin: In (k, q) items) by (rewrite Hi; apply in_app_iff; right; left; auto).
          destruct (Hj _ Hin) as [(ks & Hks & Hpr) Hjq]. cbn [fst snd] in *. subst k.
          cbn [map fold_left fst okey bind]. rewrite (Hcs _ _ Hin). cbn [bind].
          destruct n as [|[|n']]; [specialize (Hl _ _ Hin); lia|specialize (Hl _ _ Hin); lia|].
          pose proof (proj2 (IH _ Hin Hjq n' ltac:(specialize (Hl _ _ Hin); cbn [snd]; lia))) as Eq.
          cbn [snd] in Eq. rewrite Eq. cbn [bind]. rewrite setitem_fresh.
          + specialize (IHp (pre ++ [(KStr ks, q)])). rewrite map_app in IHp. cbn [map] in IHp.
            rewrite <- app_assoc in IHp. cbn [app] in IHp. apply IHp. auto.
          + rewrite map_map. cbn [fst]. rewrite Hi, map_app in Hnd. cbn in Hnd.
            apply NoDup_remove_2 in Hnd. rewrite in_app_iff in Hnd. tauto. }
      apply (Gen items []). reflexivity. }
    split; [exact E|]. apply G; auto.
Qed.
