(** * Reading descriptions of patterns that were written by hand. *)
From Coq Require Import Reals NArith Ascii String SpecFloat Lia.
From Verif Require Import Base Num Nd Numeric Simplex Psd Pattern Json PatJson SpecJson SpecGrammar
  JsonFacts JsonFuel ListFacts PatFacts.
Local Open Scope list_scope.
Local Open Scope nat_scope.

Lemma class_name_typename : forall c, str (class_name c) = typename c.
Proof. intros [[]| | | |]; reflexivity. Qed.

Lemma describes_read : forall io reg text c d, registers_builtins reg -> describes io text c d ->
  get_pattern_from_json io reg text = from_json io reg c text /\
  exists n, from_json io reg c text = from_json_ io reg (S n) c text /\ n = 2 * length text + 1.
Proof.
  intros io reg text c d Hreg [Hl Hp]. rewrite class_name_typename in Hp. split.
  - unfold get_pattern_from_json. cbn [get_pattern]. rewrite Hl. cbn [bind item]. unfold fld. rewrite Hp. cbn [bind].
    rewrite Hreg. unfold from_json. apply get_pattern_fuel; lia.
  - eexists. split; [|reflexivity]. unfold from_json. apply get_pattern_fuel; lia.
Qed.

Lemma describes_step : forall io reg text c d n, describes io text c d ->
  from_json_ io reg (S n) c text =
  match c with
  | CNum k => num_from_args k (remove_key d (fld "pattern"))
  | CPsd => psd_from_args (remove_key d (fld "pattern"))
  | _ => from_json_ io reg (S n) c text
  end.
Proof.
  intros io reg text c d n [Hl Hp]. rewrite class_name_typename in Hp.
  destruct c; try reflexivity; cbn [from_json_]; rewrite Hl; cbn [bind item]; unfold fld; rewrite Hp; cbn [bind];
    cbn [obj_eqb]; unfold str_eqb; (destruct (list_eq_dec _ _ _); [reflexivity|congruence]).
Qed.

Lemma get_removed : forall V (d : list (key * V)) k k', k' <> k -> dict_get (remove_key d k) k' = dict_get d k'.
Proof.
  intros V d k k' H. unfold remove_key. induction d as [|[k0 v] d IH]; [reflexivity|]. cbn [filter fst dict_get].
  destruct (key_eqb k k0) eqn:E; cbn [negb dict_get]; destruct (key_eqb k' k0) eqn:E'; auto.
  apply key_eqb_true in E, E'. congruence.
Qed.
Lemma in_removed : forall V (d : list (key * V)) k kv, In kv (remove_key d k) <-> In kv d /\ fst kv <> k.
Proof.
  intros V d k kv. unfold remove_key. rewrite filter_In, Bool.negb_true_iff, key_eqb_false. intuition congruence.
Qed.

Lemma known_args_iff : forall names d,
  known_args names (remove_key d (fld "pattern")) = true <->
  only_entries d names.
Proof.
  intros names d. unfold known_args, only_entries. rewrite forallb_forall. split.
  - intros H k x Hin. destruct (key_eq_dec k (fld "pattern")) as [->|N].
    + exists "pattern"%string. split; [left; auto|reflexivity].
    + specialize (H (k, x)). rewrite in_removed in H. specialize (H (conj Hin N)).
      apply existsb_exists in H. destruct H as (n & Hn & E). apply key_eqb_true in E. exists n. split; [right; auto|auto].
  - intros H [k x] Hin. apply in_removed in Hin. destruct Hin as [Hin N]. destruct (H k x Hin) as (n & [<-|Hn] & ->).
    + exfalso. apply N. reflexivity.
    + apply existsb_exists. exists n. split; auto. apply key_eqb_true. reflexivity.
Qed.

Lemma optional_arg : forall A d name (f : A -> pyobj) (g : pyobj -> res A) default v,
  str name <> str "pattern" -> (forall x, g (f x) = Ok x) -> optional d name f default v ->
  arg_def (remove_key d (fld "pattern")) name g (Ok default) = Ok v.
Proof.
  intros A d name f g default v Hn Hg H. unfold arg_def. rewrite get_removed by (unfold fld; congruence).
  destruct H as [H|[H ->]]; unfold entry in H; unfold fld; rewrite H; auto.
Qed.
Lemma required_arg : forall A d name o (g : pyobj -> res A) e,
  str name <> str "pattern" -> entry d name o ->
  arg_def (remove_key d (fld "pattern")) name g (Err e) = match o with Some x => g x | None => Err e end.
Proof.
  intros A d name o g e Hn H. unfold arg_def. rewrite get_removed by (unfold fld; congruence).
  unfold entry in H; unfold fld; rewrite H. destruct o; auto.
Qed.
Lemma arg_nat_obj : forall n, arg_nat (int_obj n) = Ok n.
Proof. intros n. cbn. destruct (Z.leb_spec 0 (Z.of_nat n)); [|lia]. rewrite Nat2Z.id. reflexivity. Qed.
Lemma arg_shape_obj : forall s, arg_shape (shape_obj s) = Ok s.
Proof.
  intros s. cbn [arg_shape shape_obj]. induction s as [|n s IH]; [reflexivity|]. cbn [map mapM].
  rewrite arg_nat_obj. cbn [bind]. rewrite IH. reflexivity.
Qed.
Lemma arg_obool_obj : forall b, arg_obool (flag_obj b) = Ok b.
Proof. intros [[]|]; reflexivity. Qed.

(** Numeric patterns: missing entries get the constructor's defaults. *)
Theorem numeric_description : forall io reg text d lb ub dv fd, registers_builtins reg ->
  optional d "lb" ONum py_ninf lb -> optional d "ub" ONum py_inf ub ->
  optional d "default_validate" OBool true dv -> optional d "free_default" flag_obj None fd ->
  (forall shape, describes io text (CNum KArray) d -> only_entries d ("shape" :: common_names)%string ->
     entry d "shape" (Some (shape_obj shape)) ->
     get_pattern_from_json io reg text = new_numeric_array shape lb ub dv fd) /\
  (forall n, describes io text (CNum KVector) d -> only_entries d ("length" :: common_names)%string ->
     entry d "length" (Some (int_obj n)) ->
     get_pattern_from_json io reg text = new_numeric_vector n lb ub dv fd) /\
  (describes io text (CNum KScalar) d -> only_entries d common_names ->
     get_pattern_from_json io reg text = new_numeric_scalar lb ub dv fd).
Proof.
  intros io reg text d lb ub dv fd Hreg Hlb Hub Hdv Hfd.
  pose proof (optional_arg _ d "lb" ONum arg_num _ _ ltac:(discriminate) (fun x => eq_refl) Hlb) as E1.
  pose proof (optional_arg _ d "ub" ONum arg_num _ _ ltac:(discriminate) (fun x => eq_refl) Hub) as E2.
  pose proof (optional_arg _ d "default_validate" OBool arg_bool _ _ ltac:(discriminate) (fun x => eq_refl) Hdv) as E3.
  pose proof (optional_arg _ d "free_default" flag_obj arg_obool _ _ ltac:(discriminate) arg_obool_obj Hfd) as E4.
  split; [|split].
  - intros shape Hd Ho Hs. destruct (describes_read _ _ _ _ _ Hreg Hd) as (-> & n' & -> & _).
    rewrite (describes_step _ _ _ _ _ n' Hd). unfold num_from_args. apply known_args_iff in Ho.
    unfold common_names in Ho. cbn [app]. rewrite Ho. cbn [negb].
    rewrite (fun K => required_arg _ _ _ _ _ _ K Hs) by discriminate; rewrite arg_shape_obj. cbn [bind].
    rewrite E1. cbn [bind]. unfold new_numeric_array, new_numeric_vector, new_numeric_scalar.
    destruct (ngeb (pyval lb) NInf) eqn:G; [|unfold new_numeric_kind; rewrite G; reflexivity].
    rewrite E2, E3, E4. reflexivity.
  - intros n Hd Ho Hs. destruct (describes_read _ _ _ _ _ Hreg Hd) as (-> & n' & -> & _).
    rewrite (describes_step _ _ _ _ _ n' Hd). unfold num_from_args. apply known_args_iff in Ho.
    unfold common_names in Ho. cbn [app]. rewrite Ho. cbn [negb].
    rewrite (fun K => required_arg _ _ _ _ _ _ K Hs) by discriminate; rewrite arg_nat_obj. cbn [bind].
    rewrite E1. cbn [bind]. unfold new_numeric_array, new_numeric_vector, new_numeric_scalar.
    destruct (ngeb (pyval lb) NInf) eqn:G; [|unfold new_numeric_kind; rewrite G; reflexivity].
    rewrite E2, E3, E4. reflexivity.
  - intros Hd Ho. destruct (describes_read _ _ _ _ _ Hreg Hd) as (-> & n' & -> & _).
    rewrite (describes_step _ _ _ _ _ n' Hd). unfold num_from_args. apply known_args_iff in Ho.
    unfold common_names in Ho. cbn [app]. rewrite Ho. cbn [negb bind].
    rewrite E1. cbn [bind]. unfold new_numeric_array, new_numeric_vector, new_numeric_scalar.
    destruct (ngeb (pyval lb) NInf) eqn:G; [|unfold new_numeric_kind; rewrite G; reflexivity].
    rewrite E2, E3, E4. reflexivity.
Qed.

Theorem psd_description : forall io reg text d n lb dv fd, registers_builtins reg ->
  describes io text CPsd d -> only_entries d ["size"; "diag_lb"; "default_validate"; "free_default"]%string ->
  entry d "size" (Some (int_obj n)) -> optional d "diag_lb" ONum (PyFloat (S754_zero false)) lb ->
  optional d "default_validate" OBool true dv -> optional d "free_default" flag_obj None fd ->
  get_pattern_from_json io reg text = new_psd n 1 lb dv fd.
Proof.
  intros io reg text d n lb dv fd Hreg Hd Ho Hn Hlb Hdv Hfd.
  pose proof (optional_arg _ d "diag_lb" ONum arg_num _ _ ltac:(discriminate) (fun x => eq_refl) Hlb) as E1.
  pose proof (optional_arg _ d "default_validate" OBool arg_bool _ _ ltac:(discriminate) (fun x => eq_refl) Hdv) as E3.
  pose proof (optional_arg _ d "free_default" flag_obj arg_obool _ _ ltac:(discriminate) arg_obool_obj Hfd) as E4.
  destruct (describes_read _ _ _ _ _ Hreg Hd) as (-> & n' & -> & _).
  rewrite (describes_step _ _ _ _ _ n' Hd). unfold psd_from_args. apply known_args_iff in Ho. rewrite Ho. cbn [negb].
  rewrite (fun K => required_arg _ _ _ _ _ _ K Hn) by discriminate; rewrite arg_nat_obj. cbn [bind].
  rewrite E1, E3, E4. reflexivity.
Qed.

(** Entries the constructor does not know, or a missing shape, length or size, are
    TypeErrors. *)
Theorem description_refused : forall io reg text c d names needed, registers_builtins reg ->
  describes io text c d ->
  In (c, names, needed)
    [(CNum KArray, "shape" :: common_names, Some "shape");
     (CNum KVector, "length" :: common_names, Some "length");
     (CNum KScalar, common_names, None);
     (CPsd, ["size"; "diag_lb"; "default_validate"; "free_default"], Some "size")]%string ->
  ~ only_entries d names \/ (exists n, needed = Some n /\ entry d n None) ->
  get_pattern_from_json io reg text = Err TypeError /\ from_json io reg c text = Err TypeError.
Proof.
  intros io reg text c d names needed Hreg Hd Hin H.
  assert (from_json io reg c text = Err TypeError) as E;
    [|destruct (describes_read _ _ _ _ _ Hreg Hd) as (-> & _); auto].
  destruct (describes_read _ _ _ _ _ Hreg Hd) as (_ & n' & -> & _).
  rewrite (describes_step _ _ _ _ _ n' Hd).
  assert (known_args names (remove_key d (fld "pattern")) = false \/ (exists n, needed = Some n /\ entry d n None)) as H'.
  { destruct H as [H|H]; [|auto]. left. apply Bool.not_true_is_false. intros E. apply H. apply known_args_iff. exact E. }
  clear H. cbn [In] in Hin. unfold common_names in Hin.
  destruct Hin as [E|[E|[E|[E|[]]]]]; injection E as <- <- <-; unfold num_from_args, psd_from_args; cbn [app].
  - destruct (known_args _ _) eqn:K; [|reflexivity]. destruct H' as [?|(n & En & Hn)]; [discriminate|]. injection En as <-.
    cbn [negb]. rewrite (fun K => required_arg _ _ _ _ _ _ K Hn) by discriminate. reflexivity.
  - destruct (known_args _ _) eqn:K; [|reflexivity]. destruct H' as [?|(n & En & Hn)]; [discriminate|]. injection En as <-.
    cbn [negb]. rewrite (fun K => required_arg _ _ _ _ _ _ K Hn) by discriminate. reflexivity.
  - destruct (known_args _ _) eqn:K; [|reflexivity]. destruct H' as [?|(n & En & Hn)]; discriminate.
  - destruct (known_args _ _) eqn:K; [|reflexivity]. destruct H' as [?|(n & En & Hn)]; [discriminate|]. injection En as <-.
    cbn [negb]. rewrite (fun K => required_arg _ _ _ _ _ _ K Hn) by discriminate. reflexivity.
Qed.

(** Bounds that are no numbers are TypeErrors; a NaN lower bound is noticed first. *)
Lemma bad_arg : forall d name o dflt, str name <> str "pattern" -> entry d name (Some o) -> no_number o ->
  arg_def (remove_key d (fld "pattern")) name arg_num dflt = Err TypeError.
Proof.
  intros d name o dflt Hn H B. unfold arg_def. rewrite get_removed by (unfold fld; congruence).
  unfold entry in H; unfold fld; rewrite H. destruct o; cbn in B; try contradiction; reflexivity.
Qed.
Lemma size_arg : forall k d, size_given (CNum k) d -> exists shape,
  match k with
  | KArray => arg_def (remove_key d (fld "pattern")) "shape" arg_shape (Err TypeError)
  | KVector => n <- arg_def (remove_key d (fld "pattern")) "length" arg_nat (Err TypeError) ;; Ok [n]
  | KScalar => Ok [1]
  end = Ok shape.
Proof.
  intros [| |] d H; cbn [size_given] in H.
  - destruct H as (s & H). exists s. rewrite (fun K => required_arg _ _ _ _ _ _ K H) by discriminate. apply arg_shape_obj.
  - destruct H as (n & H). exists [n]. rewrite (fun K => required_arg _ _ _ _ _ _ K H) by discriminate. rewrite arg_nat_obj. reflexivity.
  - eauto.
Qed.
Theorem bounds_refused : forall io reg text d, registers_builtins reg ->
  (forall c names, In (c, names) [(CNum KArray, "shape" :: common_names); (CNum KVector, "length" :: common_names);
                                  (CNum KScalar, common_names)]%string ->
   describes io text c d -> only_entries d names -> size_given c d ->
   (forall o, no_number o -> entry d "lb" (Some o) -> get_pattern_from_json io reg text = Err TypeError) /\
   (forall lb o, optional d "lb" ONum py_ninf lb -> no_number o -> entry d "ub" (Some o) ->
      get_pattern_from_json io reg text = Err (if ngeb (pyval lb) NInf then TypeError else AssertionError))) /\
  (forall o, describes io text CPsd d -> only_entries d ["size"; "diag_lb"; "default_validate"; "free_default"]%string ->
   size_given CPsd d -> no_number o -> entry d "diag_lb" (Some o) -> get_pattern_from_json io reg text = Err TypeError).
Proof.
  intros io reg text d Hreg. split.
  - intros c names Hin Hd Ho Hs.
    assert (exists k own, c = CNum k /\ names = own ++ common_names /\
              own = match k with KArray => ["shape"] | KVector => ["length"] | KScalar => [] end%string) as (k & own & -> & -> & ->).
    { cbn [In] in Hin. destruct Hin as [E|[E|[E|[]]]]; injection E as <- <-; do 2 eexists; (split; [reflexivity|]); (split; [|reflexivity]); reflexivity. }
    clear Hin. destruct (size_arg k d Hs) as (shape & Es).
    destruct (describes_read _ _ _ _ _ Hreg Hd) as (-> & n' & -> & _). rewrite (describes_step _ _ _ _ _ n' Hd).
    unfold num_from_args. apply known_args_iff in Ho. unfold common_names in Ho. rewrite Ho. cbn [negb]. rewrite Es. cbn [bind].
    split.
    + intros o Hb He. rewrite (bad_arg d "lb" o) by (auto; discriminate). reflexivity.
    + intros lb o Hlb Hb He.
      rewrite (optional_arg _ d "lb" ONum arg_num _ _ ltac:(discriminate) (fun x => eq_refl) Hlb). cbn [bind].
      destruct (ngeb (pyval lb) NInf); [|reflexivity]. cbn [bind]. rewrite (bad_arg d "ub" o) by (auto; discriminate). reflexivity.
  - intros o Hd Ho (n & Hs) Hb He. destruct (describes_read _ _ _ _ _ Hreg Hd) as (-> & n' & -> & _).
    rewrite (describes_step _ _ _ _ _ n' Hd). unfold psd_from_args. apply known_args_iff in Ho. rewrite Ho. cbn [negb].
    rewrite (fun K => required_arg _ _ _ _ _ _ K Hs) by discriminate; rewrite arg_nat_obj. cbn [bind].
    rewrite (bad_arg d "diag_lb" o) by (auto; discriminate). reflexivity.
Qed.

Lemma entry_item : forall d name o, entry d name o ->
  item (ODict d) name = match o with Some x => Ok x | None => Err KeyError end.
Proof. intros d name o H. unfold entry in H. cbn [item]. unfold fld. rewrite H. destruct o; reflexivity. Qed.
Lemma describes_head : forall io text c d, describes io text c d ->
  loads io text = Ok (ODict d) /\ item (ODict d) "pattern" = Ok (OStr (typename c)) /\
  obj_eqb (OStr (typename c)) (OStr (typename c)) = true.
Proof.
  intros io text c d [Hl Hp]. rewrite class_name_typename in Hp. split; auto. split.
  - cbn [item]. unfold fld. rewrite Hp. reflexivity.
  - cbn [obj_eqb]. unfold str_eqb. destruct (list_eq_dec _ _ _); congruence.
Qed.

(** Simplexes: three entries are needed, all others (also "free_default") ignored. *)
Theorem simplex_description : forall io reg text d, registers_builtins reg -> describes io text CSimplex d ->
  (forall z s dv, entry d "simplex_size" (Some (ONum (PyInt z))) -> entry d "array_shape" (Some (shape_obj s)) ->
     entry d "default_validate" (Some (OBool dv)) ->
     get_pattern_from_json io reg text = new_simplex z s dv None) /\
  (entry d "simplex_size" None -> get_pattern_from_json io reg text = Err KeyError) /\
  (forall z, entry d "simplex_size" (Some (ONum (PyInt z))) -> entry d "array_shape" None ->
     get_pattern_from_json io reg text = Err KeyError) /\
  (forall z s, entry d "simplex_size" (Some (ONum (PyInt z))) -> entry d "array_shape" (Some (shape_obj s)) ->
     entry d "default_validate" None -> get_pattern_from_json io reg text = Err KeyError).
Proof.
  intros io reg text d Hreg Hd. destruct (describes_read _ _ _ _ _ Hreg Hd) as (-> & n' & -> & _).
  destruct (describes_head _ _ _ _ Hd) as (Hl & Hi & Ht).
  cbn [from_json_]. rewrite Hl. cbn [bind]. rewrite Hi. cbn [bind]. rewrite Ht. cbn [negb].
  repeat split.
  - intros z s dv H1 H2 H3. rewrite (entry_item _ _ _ H1). cbn [bind]. rewrite (entry_item _ _ _ H2). cbn [bind].
    rewrite arg_shape_obj. cbn [bind]. rewrite (entry_item _ _ _ H3). reflexivity.
  - intros H1. rewrite (entry_item _ _ _ H1). reflexivity.
  - intros z H1 H2. rewrite (entry_item _ _ _ H1). cbn [bind]. rewrite (entry_item _ _ _ H2). reflexivity.
  - intros z s H1 H2 H3. rewrite (entry_item _ _ _ H1). cbn [bind]. rewrite (entry_item _ _ _ H2). cbn [bind].
    rewrite arg_shape_obj. cbn [bind]. rewrite (entry_item _ _ _ H3). reflexivity.
Qed.

Lemma inner_read : forall io reg text d name t, loads io text = Ok (ODict d) -> entry d name (Some (OStr t)) ->
  get_pattern io reg (2 * length text + 1) t = get_pattern_from_json io reg t.
Proof.
  intros io reg text d name t Hl He. pose proof (loads_shorter _ _ _ Hl) as L.
  assert (item (ODict d) name = Ok (OStr t)) as Hi by (rewrite (entry_item _ _ _ He); reflexivity).
  pose proof (item_strs _ _ _ _ L Hi) as L'. cbn in L'. pose proof (loads_nonempty _ _ _ Hl).
  apply reader_any_bound. lia.
Qed.

(** Pattern arrays: the text of the base and "array_shape"; the entry "shape", which
    [to_json] writes, is not read, so it may contradict them. *)
Theorem array_description : forall io reg text d t, registers_builtins reg -> describes io text CArr d ->
  (entry d "base_pattern" (Some (OStr t)) ->
   (forall e, get_pattern_from_json io reg t = Err e -> get_pattern_from_json io reg text = Err e) /\
   (forall base s, get_pattern_from_json io reg t = Ok base -> entry d "array_shape" (Some (shape_obj s)) ->
      get_pattern_from_json io reg text = new_pattern_array s base None) /\
   (forall base, get_pattern_from_json io reg t = Ok base -> entry d "array_shape" None ->
      get_pattern_from_json io reg text = Err KeyError)) /\
  (entry d "base_pattern" None -> get_pattern_from_json io reg text = Err KeyError).
Proof.
  intros io reg text d t Hreg Hd. destruct (describes_read _ _ _ _ _ Hreg Hd) as (-> & n' & -> & En).
  destruct (describes_head _ _ _ _ Hd) as (Hl & Hi & Ht).
  cbn [from_json_]. rewrite Hl. cbn [bind]. rewrite Hi. cbn [bind]. rewrite Ht. cbn [negb]. split.
  - intros Hb. rewrite (entry_item _ _ _ Hb). cbn [bind]. rewrite En, (inner_read _ _ _ _ _ _ Hl Hb).
    split; [|split].
    + intros e ->. reflexivity.
    + intros base s -> Hs. cbn [bind]. rewrite (entry_item _ _ _ Hs). cbn [bind]. rewrite arg_shape_obj. reflexivity.
    + intros base -> Hs. cbn [bind]. rewrite (entry_item _ _ _ Hs). reflexivity.
  - intros Hb. rewrite (entry_item _ _ _ Hb). reflexivity.
Qed.

(** Dictionaries: the members named in "keys", in that order; "contents" may have
    further entries, which are not even parsed. *)
Theorem dict_description : forall io reg text d names, registers_builtins reg -> describes io text CDict d ->
  entry d "keys" (Some (OSeq (map OStr names))) ->
  (names = [] -> get_pattern_from_json io reg text = Ok (new_dict None)) /\
  (forall cs qs, entry d "contents" (Some (ODict cs)) ->
     Forall2 (fun name q => exists t, dict_get cs (KStr name) = Some (OStr t) /\
                            get_pattern_from_json io reg t = Ok q) names qs ->
     get_pattern_from_json io reg text =
     fold_left (fun acc kq => p <- acc ;; setitem p (KStr (fst kq)) (snd kq)) (combine names qs) (Ok (new_dict None))) /\
  (forall cs pre name post qs, entry d "contents" (Some (ODict cs)) -> names = pre ++ name :: post ->
     Forall2 (fun name q => exists t, dict_get cs (KStr name) = Some (OStr t) /\
                            get_pattern_from_json io reg t = Ok q) pre qs ->
     dict_get cs (KStr name) = None -> get_pattern_from_json io reg text = Err KeyError).
Proof.
  intros io reg text d names Hreg Hd Hk. destruct (describes_read _ _ _ _ _ Hreg Hd) as (-> & n' & -> & En).
  destruct (describes_head _ _ _ _ Hd) as (Hl & Hi & Ht).
  cbn [from_json_]. rewrite Hl. cbn [bind]. rewrite Hi. cbn [bind]. rewrite Ht. cbn [negb].
  rewrite (entry_item _ _ _ Hk). cbn [bind].
  match goal with |- context [fold_left ?F _ _] => set (step := F) end.
  assert (forall cs name t p q, entry d "contents" (Some (ODict cs)) -> dict_get cs (KStr name) = Some (OStr t) ->
    get_pattern_from_json io reg t = Ok q -> step (Ok p) (OStr name) = setitem p (KStr name) q) as Hstep.
  { intros cs name t p q Hc Hn Hq. unfold step. cbn [bind]. rewrite (entry_item _ _ _ Hc). cbn [bind]. rewrite Hn. cbn [bind].
    assert (get_pattern io reg n' t = get_pattern_from_json io reg t) as ->.
    { rewrite En. pose proof (loads_shorter _ _ _ Hl) as L.
      assert (item (ODict d) "contents" = Ok (ODict cs)) as Hic by (rewrite (entry_item _ _ _ Hc); reflexivity).
      pose proof (item_strs _ _ _ _ L Hic) as L'. apply strs_le_dict in L'. rewrite Forall_forall in L'.
      apply dict_get_in in Hn. apply L' in Hn. cbn in Hn. pose proof (loads_nonempty _ _ _ Hl).
      apply reader_any_bound. lia. }
    rewrite Hq. reflexivity. }
  assert (forall e names, fold_left step (map OStr names) (Err e) = Err e) as Herr.
  { intros e l. induction l; cbn; auto. }
  assert (forall cs (pre : list pystr) qs post p, entry d "contents" (Some (ODict cs)) ->
    Forall2 (fun name q => exists t, dict_get cs (KStr name) = Some (OStr t) /\
                            get_pattern_from_json io reg t = Ok q) pre qs ->
    fold_left step (map OStr (pre ++ post)) (Ok p) =
    fold_left step (map OStr post)
      (fold_left (fun acc kq => p <- acc ;; setitem p (KStr (fst kq)) (snd kq)) (combine pre qs) (Ok p))) as Hpre.
  { intros cs pre qs post p Hc HF. revert p. induction HF as [|name q pre qs (t & Hn & Hq) _ IH]; intros p; [reflexivity|].
    cbn [map app combine fold_left fst snd]. rewrite (Hstep _ _ _ _ _ Hc Hn Hq). cbn [bind].
    destruct (setitem p (KStr name) q) as [p'|e]; [apply IH|]. rewrite Herr.
    replace (fold_left _ (combine pre qs) (Err e)) with (@Err pat e).
    - rewrite Herr. reflexivity.
    - clear. induction (combine pre qs); cbn; auto. }
  split; [intros ->; reflexivity|]. split.
  - intros cs qs Hc HF. rewrite <- (app_nil_r names). rewrite (Hpre _ _ _ _ _ Hc HF). rewrite app_nil_r. reflexivity.
  - intros cs pre name post qs Hc -> HF Hn. rewrite (Hpre _ _ _ _ _ Hc HF).
    assert (forall kqs p, (exists items l fl fd, p = PDict items l fl fd false) ->
      exists p', fold_left (fun acc kq => p <- acc ;; setitem p (KStr (fst kq)) (snd kq)) kqs (Ok p) = Ok p') as Hok.
    { clear. induction kqs as [|[k q] kqs IHk]; intros p (items & l & fl & fd & ->); [cbn; eauto|].
      cbn [fold_left bind setitem fst snd]. apply IHk. do 4 eexists. reflexivity. }
    destruct (Hok (combine pre qs) (new_dict None)) as (p' & ->).
    { do 4 eexists. reflexivity. }
    cbn [map fold_left]. replace (step (Ok p') (OStr name)) with (@Err pat KeyError); [apply Herr|].
    unfold step. cbn [bind]. rewrite (entry_item _ _ _ Hc). cbn [bind]. rewrite Hn. reflexivity.
Qed.
