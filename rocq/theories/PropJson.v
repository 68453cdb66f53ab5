(** * Property theorems C25-C32: JSON, equality and the class registry. *)
From Coq Require Import Reals NArith String SpecFloat.
From Verif Require Import Base Num Nd Pattern Json PatJson Spec SpecJson JsonFacts JsonProps JsonOdd
  JsonInst JsonFuel RegProps Demo DemoJson.
Local Open Scope list_scope.
Local Open Scope nat_scope.

Theorem C25_round_trip : forall io reg p, float_io_ok io -> registers_builtins reg ->
  built p -> string_keys p -> proper_keys p -> python_bounds p ->
  exists q, get_pattern_from_json io reg (to_json io p) = Ok q /\
            from_json io reg (class_of p) (to_json io p) = Ok q /\
            pat_eqb io q p = true /\ pat_eqb io p q = true /\ to_json io q = to_json io p.
Proof. exact json_round_trip. Qed.
Print Assumptions C25_round_trip.

Theorem C25_reads_back : forall io reg p, float_io_ok io -> registers_builtins reg ->
  built p -> string_keys p -> proper_keys p -> python_bounds p ->
  get_pattern_from_json io reg (to_json io p) = Ok (reread p) /\
  from_json io reg (class_of p) (to_json io p) = Ok (reread p).
Proof. exact json_reads_back. Qed.
Print Assumptions C25_reads_back.

Example C25_case : float_io_ok demo_io /\ registers_builtins builtin_registry /\ built j_demo /\
  string_keys j_demo /\ proper_keys j_demo /\ python_bounds j_demo /\ never_emptied j_demo /\
  get_pattern_from_json demo_io builtin_registry (to_json demo_io j_demo) = Ok (reread j_demo) /\
  reread j_demo <> j_demo.
Proof. exact j_demo_case. Qed.

(** Without [proper_keys] the statement is false: a leading surrogate directly
    followed by a trailing one comes back as one character. *)
Theorem C25_any_string_key_refuted : forall io, exists q,
  built (one_dict pair_key u_scalar) /\ string_keys (one_dict pair_key u_scalar) /\
  get_pattern_from_json io builtin_registry (to_json io (one_dict pair_key u_scalar)) = Ok q /\
  q = one_dict merged_key u_scalar /\
  pat_eqb io q (one_dict pair_key u_scalar) = false.
Proof. exact surrogate_pair_key. Qed.
Print Assumptions C25_any_string_key_refuted.

(** The recursion bounds in the model of the reader do not matter. *)
Theorem C25_parse_any_bound : forall io s o,
  parse io s = Some o <->
  exists n r, scan io n (skip_ws s) = Some (o, r) /\ skip_ws r = [].
Proof. exact parse_any_bound. Qed.
Print Assumptions C25_parse_any_bound.

Theorem C25_reader_any_bound : forall io reg text n, 2 * length text + 2 <= n ->
  get_pattern io reg n text = get_pattern_from_json io reg text /\
  forall c, from_json_ io reg n c text = from_json io reg c text.
Proof. exact reader_any_bound. Qed.
Print Assumptions C25_reader_any_bound.

Theorem C26_same_behaviour : forall io reg p q, float_io_ok io -> registers_builtins reg ->
  built p -> string_keys p -> proper_keys p -> python_bounds p -> never_emptied p ->
  get_pattern_from_json io reg (to_json io p) = Ok q -> same_behaviour q p.
Proof. exact json_same_behaviour. Qed.
Print Assumptions C26_same_behaviour.

Example C26_case : built j_demo /\ string_keys j_demo /\ proper_keys j_demo /\ python_bounds j_demo /\
  never_emptied j_demo.
Proof. exact (conj j_demo_built j_demo_keys). Qed.

(** Without [never_emptied] the statement is false. *)
Theorem C26_emptied_refuted : forall io,
  built emptied /\
  get_pattern_from_json io builtin_registry (to_json io emptied) = Ok (new_dict None) /\
  pat_eqb io emptied (new_dict None) = true /\
  empty_bool emptied true = Err TypeError /\ empty_bool (new_dict None) true = Ok (FDict []).
Proof. exact emptied_json. Qed.
Print Assumptions C26_emptied_refuted.

Theorem C27_json_loses : forall io reg p q, float_io_ok io -> registers_builtins reg ->
  built p -> string_keys p -> proper_keys p -> python_bounds p ->
  get_pattern_from_json io reg (to_json io p) = Ok q ->
  (match p with PNum _ _ _ _ _ _ => q = p | _ => free_default q = None end) /\
  (match q with PDict _ _ _ _ locked => locked = false | _ => True end).
Proof. exact json_loses. Qed.
Print Assumptions C27_json_loses.

Theorem C27_json_unlocks : forall io reg p q, float_io_ok io -> registers_builtins reg ->
  built p -> string_keys p -> proper_keys p -> python_bounds p -> is_dict p = true ->
  get_pattern_from_json io reg (to_json io p) = Ok q ->
  (forall k r, setitem (lock_pat p) k r = Err ValueError) /\
  (forall k r, exists q', setitem q k r = Ok q').
Proof. exact json_unlocks. Qed.
Print Assumptions C27_json_unlocks.

Example C27_case : free_default j_demo = Some false /\ is_dict j_demo = true /\
  free_default (reread j_demo) = None.
Proof. repeat split. Qed.

Theorem C28_eq_equivalence : forall io,
  (forall p, built p -> pat_eqb io p p = true) /\
  (forall p q, built p -> built q -> pat_eqb io p q = pat_eqb io q p) /\
  (forall p q r, built p -> built q -> built r ->
     pat_eqb io p q = true -> pat_eqb io q r = true -> pat_eqb io p r = true).
Proof. exact eq_equivalence. Qed.
Print Assumptions C28_eq_equivalence.

Theorem C28_eq_same_behaviour : forall io p q, float_io_ok io -> built p -> built q ->
  python_bounds p -> proper_keys p -> python_bounds q -> proper_keys q ->
  never_emptied p -> never_emptied q ->
  pat_eqb io p q = true -> same_behaviour p q.
Proof. exact eq_same_behaviour. Qed.
Print Assumptions C28_eq_same_behaviour.

Example C28_case : pat_eqb demo_io (reread j_demo) j_demo = true.
Proof. exact (proj1 (proj2 (pat_reread_eq demo_io j_demo j_demo_built))). Qed.

(** Without [proper_keys], [never_emptied] or an integer size the statement is
    false. *)
Theorem C28_surrogate_refuted : forall io,
  let p := one_dict (ks "a") (one_dict pair_key u_scalar) in
  let q := one_dict (ks "a") (one_dict merged_key u_scalar) in
  let v := FDict [(ks "a", FDict [(merged_key, FArr (mkNd [1] [Fin 0]))])] in
  built p /\ built q /\ pat_eqb io p q = true /\
  validate snum q v (Some false) = Ok None /\
  exists m, validate snum p v (Some false) = Ok (Some m).
Proof. exact surrogate_pair_nested. Qed.
Print Assumptions C28_surrogate_refuted.

Theorem C28_fractional_size_refuted : forall io dv fd, exists p q,
  new_psd 5 2 (PyInt 0) dv fd = Ok p /\ new_psd 2 1 (PyInt 0) dv fd = Ok q /\
  pat_eqb io p q = true /\
  flat_length p (Some true) = Ok (plint 4) /\ flat_length q (Some true) = Ok (plint 3).
Proof. exact fractional_psd_equal. Qed.
Print Assumptions C28_fractional_size_refuted.

Theorem C29_eq_not_congruence : forall io k s z f ub dv fd p q, float_io_ok io -> finite64 f ->
  pyval (PyFloat f) = pyval (PyInt z) -> python_num ub -> class_shape k s ->
  new_numeric_kind k s (PyInt z) ub dv fd = Ok p ->
  new_numeric_kind k s (PyFloat f) ub dv fd = Ok q ->
  pat_eqb io p q = true /\
  (forall sh fd', exists P Q, new_pattern_array sh p fd' = Ok P /\ new_pattern_array sh q fd' = Ok Q /\
     pat_eqb io P Q = false) /\
  (forall d key D E, built d -> setitem d key p = Ok D -> setitem d key q = Ok E ->
     pat_eqb io D E = false).
Proof. exact eq_not_congruence. Qed.
Print Assumptions C29_eq_not_congruence.

Example C29_case : finite64 f_one /\ pyval (PyFloat f_one) = pyval (PyInt 1) /\ exists p q,
  new_numeric_kind KScalar [1] (PyInt 1) py_inf true None = Ok p /\
  new_numeric_kind KScalar [1] (PyFloat f_one) py_inf true None = Ok q.
Proof. exact (conj f_one_ok (conj f_one_value bounds_case)). Qed.

Theorem C30_int_keys : forall io reg p, float_io_ok io -> registers_builtins reg ->
  built p -> python_bounds p -> proper_keys p -> ~ string_keys p ->
  get_pattern_from_json io reg (to_json io p) = Err KeyError /\
  from_json io reg (class_of p) (to_json io p) = Err KeyError.
Proof. exact int_keys_do_not_survive. Qed.
Print Assumptions C30_int_keys.

Example C30_case : built int_dict /\ python_bounds int_dict /\ proper_keys int_dict /\ ~ string_keys int_dict.
Proof. exact int_dict_case. Qed.

Theorem C31_no_pattern_entry : forall io reg text d, loads io text = Ok (ODict d) ->
  dict_get d (KStr (str "pattern")) = None ->
  get_pattern_from_json io reg text = Err KeyError /\
  forall c, from_json io reg c text = Err KeyError.
Proof. exact reject_no_pattern. Qed.
Print Assumptions C31_no_pattern_entry.

Example C31_no_pattern_case : exists d,
  loads demo_io (str "{""a"": 1, ""b"": [true, null, -2.5]}") = Ok (ODict d) /\
  dict_get d (KStr (str "pattern")) = None.
Proof. exact no_pattern_case. Qed.

Theorem C31_unregistered : forall io reg text d name, loads io text = Ok (ODict d) ->
  dict_get d (KStr (str "pattern")) = Some (OStr name) -> dict_get reg (KStr name) = None ->
  get_pattern_from_json io reg text = Err KeyError.
Proof. exact reject_unregistered. Qed.
Print Assumptions C31_unregistered.

Example C31_unregistered_case : exists d,
  loads demo_io (str " { ""pattern"" : ""x.Y"" } ") = Ok (ODict d) /\
  dict_get d (KStr (str "pattern")) = Some (OStr (str "x.Y")) /\
  dict_get builtin_registry (KStr (str "x.Y")) = None.
Proof. exact unregistered_case. Qed.

Theorem C31_not_object : forall io reg text,
  (loads io text = Err ValueError -> get_pattern_from_json io reg text = Err ValueError) /\
  (forall o, loads io text = Ok o -> (forall d, o <> ODict d) ->
     get_pattern_from_json io reg text = Err TypeError).
Proof. exact reject_not_object. Qed.
Print Assumptions C31_not_object.

Example C31_not_object_case : loads demo_io (str "[1, 2") = Err ValueError /\ loads demo_io (str "[1, 2]") = Ok (OSeq [ONum (PyInt 1); ONum (PyInt 2)]).
Proof. exact not_object_case. Qed.

Theorem C31_other_name : forall io reg text d name c, loads io text = Ok (ODict d) ->
  dict_get d (KStr (str "pattern")) = Some (OStr name) -> name <> typename c ->
  from_json io reg c text = Err ValueError.
Proof. exact reject_other_name. Qed.
Print Assumptions C31_other_name.

Theorem C31_other_class : forall io reg p c, float_io_ok io ->
  python_bounds p -> proper_keys p -> class_of p <> c ->
  from_json io reg c (to_json io p) = Err ValueError.
Proof. exact reject_other_class. Qed.
Print Assumptions C31_other_class.

Example C31_other_class_case : class_of j_demo <> CArr.
Proof. discriminate. Qed.

Theorem C32_registry_resolves : forall C (reg : list (key * C)) h name c,
  dict_get (fst (register_run reg h)) (KStr name) = Some c <->
  resolves (dict_get reg (KStr name)) h name c.
Proof. exact registry_resolves. Qed.
Print Assumptions C32_registry_resolves.

Theorem C32_registry_refuses : forall C (reg : list (key * C)) h1 name c allow h2,
  let before := fst (register_run reg h1) in
  let after := fst (register_run reg (h1 ++ [(name, c, allow)])) in
  (nth_error (snd (register_run reg (h1 ++ (name, c, allow) :: h2))) (length h1) = Some (Some ValueError) <->
     allow = false /\ (dict_get reg (KStr name) <> None \/ exists c' a', In (name, c', a') h1)) /\
  (nth_error (snd (register_run reg (h1 ++ (name, c, allow) :: h2))) (length h1) <> Some (Some ValueError) ->
     nth_error (snd (register_run reg (h1 ++ (name, c, allow) :: h2))) (length h1) = Some None /\
     dict_get after (KStr name) = Some c) /\
  (nth_error (snd (register_run reg (h1 ++ (name, c, allow) :: h2))) (length h1) = Some (Some ValueError) ->
     after = before).
Proof. exact registry_refuses. Qed.
Print Assumptions C32_registry_refuses.

Theorem C32_builtins_registered : forall h : list (pystr * cls * bool),
  (forall c, no_overwrite (typename c) h) ->
  registers_builtins (fst (register_run builtin_registry h)).
Proof. exact builtins_registered. Qed.
Print Assumptions C32_builtins_registered.

Example C32_case : register_run [] reg_calls =
    ([(KStr (str "f"), 4); (KStr (str "g"), 3)], [None; Some ValueError; None; None; Some ValueError]).
Proof. exact reg_case. Qed.
