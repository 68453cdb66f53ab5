(** * Property theorems C79 to C81: texts, messages and accessors. *)
From Coq Require Import Reals NArith ZArith String.
From Verif Require Import Base Num Nd Numeric Simplex Psd Pattern Spec Json PatJson SpecJson Names SpecNames
  JsonInst Demo DemoNames Text SpecText TextFacts TextProps TextMsg Access AccessFacts DemoText.
Local Open Scope list_scope.
Local Open Scope nat_scope.

Theorem C79_succeeds : forall io p,
  (string_keys p -> exists t, pat_text io p = Ok t) /\
  (~ string_keys p -> pat_text io p = Err TypeError).
Proof. exact text_succeeds. Qed.
Print Assumptions C79_succeeds.

Example C79_succeeds_case : string_keys demo /\ ~ string_keys d_int /\ pat_text demo_io d_int = Err TypeError.
Proof. exact demo_text_case. Qed.

Theorem C79_leaf_texts : forall io,
  (forall k s lb ub dv fd, exists st, tuple_of s st /\
     pat_text io (PNum k s lb ub dv fd) =
     Ok (str "NumericArrayPattern " ++ st ++ str " (lb=" ++ value_text io lb ++
         str ", ub=" ++ value_text io ub ++ str ")")) /\
  (forall n s dv fd, exists st nt, tuple_of s st /\ numeral_of n nt /\
     pat_text io (PSimplex n s dv fd) =
     Ok (str "SimplexArrayPattern " ++ st ++ str " of " ++ nt ++ str "-d simplices")) /\
  (forall n fl d dv fd, exists nt, numeral_of n nt /\
     pat_text io (PPsd n fl d dv fd) =
     Ok (str "PDMatrix " ++ nt ++ str "x" ++ nt ++ str " (diag_lb = " ++ value_text io d ++ str ")")) /\
  (forall s b fd t, pat_text io b = Ok t -> exists st, tuple_of s st /\
     pat_text io (PArr s b fd) = Ok (str "PatternArray " ++ st ++ str " of " ++ t)).
Proof. exact leaf_texts. Qed.
Print Assumptions C79_leaf_texts.

Example C79_leaf_texts_case : pat_text demo_io demo = Ok (
  str "OrderedDict:" ++ newline ++
  tab ++ str "[num] = NumericArrayPattern (2,) (lb=0, ub=1)" ++ newline ++
  tab ++ str "[simp] = SimplexArrayPattern (2,) of 2-d simplices" ++ newline ++
  tab ++ str "[cov] = PDMatrix 2x2 (diag_lb = 1)" ++ newline ++
  tab ++ str "[arr] = PatternArray (2,) of NumericArrayPattern (1,) (lb=-3, ub=inf)" ++ newline ++
  tab ++ str "[sub] = OrderedDict:" ++ newline ++
  tab ++ str "[x] = NumericArrayPattern (1,) (lb=-inf, ub=inf)").
Proof. exact demo_text. Qed.

Theorem C79_dict_text : forall io items l fl fd lk t,
  pat_text io (PDict items l fl fd lk) = Ok t ->
  exists kts lines, member_lines kts lines /\ t = str "OrderedDict:" ++ 10%N :: lines /\
    Forall2 (fun kq kt => fst kq = KStr (fst kt) /\ pat_text io (snd kq) = Ok (snd kt)) items kts.
Proof. exact dict_text. Qed.
Print Assumptions C79_dict_text.

Example C79_dict_text_case : exists t, pat_text demo_io demo = Ok t.
Proof. exact (ex_intro _ _ demo_text). Qed.

(** The text of a pattern without dictionaries shows its kind, shape, size and
    bounds, and nothing else: not [default_validate], not [free_default], not
    which numeric class it is. *)
Theorem C79_determines : forall io p q, float_io_ok io -> no_dict p -> no_dict q ->
  python_bounds p -> python_bounds q ->
  (pat_text io p = pat_text io q <-> same_shown p q).
Proof. exact text_determines. Qed.
Print Assumptions C79_determines.

Example C79_determines_case : float_io_ok demo_io /\ no_dict d_arr /\ python_bounds d_arr /\
  let one lb := PArr [2] (PNum KScalar [1] lb py_inf false (Some true)) None in
  same_shown d_arr (PArr [2] (PNum KArray [1] (PyInt (-3)) py_inf false (Some true)) (Some false)) /\
  ~ same_shown d_arr (one (PyInt 3)) /\ ~ same_shown d_arr (PArr [3] (PNum KArray [1] (PyInt (-3)) py_inf false (Some true)) None).
Proof. exact shown_case. Qed.

(** Refuted: "patterns with equal texts are equal up to the settings not shown". *)
Theorem C79_nesting_refuted : forall io a b c x y l1 fl1 fd1 lk1 l2 fl2 fd2 lk2 l3 fl3 fd3 lk3 l4 fl4 fd4 lk4,
  let p := PDict [(KStr a, PDict [(KStr b, x)] l1 fl1 fd1 lk1); (KStr c, y)] l2 fl2 fd2 lk2 in
  let q := PDict [(KStr a, PDict [(KStr b, x); (KStr c, y)] l3 fl3 fd3 lk3)] l4 fl4 fd4 lk4 in
  pat_text io p = pat_text io q /\ pat_eqb io p q = false.
Proof. exact nesting_not_shown. Qed.
Print Assumptions C79_nesting_refuted.

Theorem C80_empty_iff_valid : forall A io (sc : scalar A) p v vv,
  (validate sc p v vv = Ok None <-> validate_text io sc p v vv = Ok (true, [])) /\
  ((exists m, validate sc p v vv = Ok (Some m)) <->
   (exists t, t <> [] /\ validate_text io sc p v vv = Ok (false, t))) /\
  (forall e, validate sc p v vv = Err e <-> validate_text io sc p v vv = Err e).
Proof. exact message_empty_iff_valid. Qed.
Print Assumptions C80_empty_iff_valid.

Example C80_empty_iff_valid_case : validate snum d_arr (FArr arr_good) (Some true) = Ok None /\
  validate snum (PNum KScalar [1] py_ninf py_inf true None) (FArr (mkNd [] [Fin 7])) (Some true) = Ok None.
Proof. exact valid_shape_case. Qed.

Theorem C80_leaf : forall A io (sc : scalar A),
  (forall k s lb ub dv fd a vv t, shp (atleast_1d a) = s ->
     validate_text io sc (PNum k s lb ub dv fd) (FArr a) vv = Ok (false, t) ->
     ((exists x, In x (dat a) /\ nltb (to_num sc x) (pyval lb) = true) /\ t = str "Value beneath lower bound.") \/
     (~ (exists x, In x (dat a) /\ nltb (to_num sc x) (pyval lb) = true) /\
      (exists x, In x (dat a) /\ ngtb (to_num sc x) (pyval ub) = true) /\ t = str "Value above upper bound.")) /\
  (forall n s dv fd a vv t,
     validate_text io sc (PSimplex n s dv fd) (FArr a) vv = Ok (false, t) ->
     shp a = s ++ [n] /\
     (((exists x, In x (dat a) /\ nltb (to_num sc x) (Fin 0) = true) /\ t = str "Some values are negative.") \/
      (~ (exists x, In x (dat a) /\ nltb (to_num sc x) (Fin 0) = true) /\
       t = str "The simplexes do not sum to one."))) /\
  (forall n fl d dv fd a vv t,
     validate_text io sc (PPsd n fl d dv fd) (FArr a) vv = Ok (false, t) ->
     shp a = [n; n] /\
     let low := exists i, i < n /\ nltb (mat_of n (nd_map (to_num sc) a) i i) (pyval d) = true in
     ((low /\ t = str "Diagonal is less than the lower bound " ++ value_text io d ++ str ".") \/
      (~ low /\ (exists i j, i < n /\ j < n /\
         neqb (mat_of n (nd_map (to_num sc) a) j i) (mat_of n (nd_map (to_num sc) a) i j) = false) /\
       t = str "Matrix is not symmetric."))).
Proof. exact leaf_messages. Qed.
Print Assumptions C80_leaf.

Example C80_leaf_case : validate_text demo_io snum d_cov (FArr (mkNd [2; 2] [Fin 3; Fin 1; Fin 2; Fin 3])) None =
    Ok (false, str "Matrix is not symmetric.") /\
  validate_text demo_io snum d_cov (FArr (mkNd [2; 2] [Fin 3; Fin 1; Fin 2; Fin 0])) None =
    Ok (false, str "Diagonal is less than the lower bound 1.") /\
  validate_text demo_io snum d_num (FArr (mkNd [2] [Fin 3; Fin 1])) None =
    Ok (false, str "Value above upper bound.").
Proof. exact leaf_message_case. Qed.

Theorem C80_numeric_shape : forall A io (sc : scalar A) k s lb ub dv fd a vv,
  shp (atleast_1d a) <> s ->
  exists want got, tuple_of s want /\ tuple_of (shp (atleast_1d a)) got /\
    validate_text io sc (PNum k s lb ub dv fd) (FArr a) vv =
    Ok (false, str "Wrong size for array. Expected shape: " ++ want ++ str " Got shape: " ++ got).
Proof. exact numeric_shape_message. Qed.
Print Assumptions C80_numeric_shape.

Example C80_numeric_shape_case : validate_text demo_io snum d_num (FArr (mkNd [3; 1] [Fin 0; Fin 0; Fin 0])) None =
    Ok (false, str "Wrong size for array. Expected shape: (2,) Got shape: (3, 1)") /\
  validate_text demo_io snum d_arr (FArr (mkNd [2] [Fin 0; Fin 0])) None =
    Ok (false, str "Wrong number of dimensions.  Expected 1, got 2.") /\
  validate_text demo_io snum d_arr (FArr (mkNd [3; 1] [Fin 0; Fin 0; Fin 0])) None =
    Ok (false, str "Wrong shape.  Expected (3, 1), got (2, 1).").
Proof. exact shape_messages. Qed.

(** Refuted: "the shape the message of a PatternArray calls expected is the
    pattern's". *)
Theorem C80_array_swapped_refuted : forall A io (sc : scalar A) s b fd a vv,
  (ndim a <> length (folded_shape (PArr s b fd)) ->
   exists want got, numeral_of (length (folded_shape (PArr s b fd))) want /\ numeral_of (ndim a) got /\
     want <> got /\
     validate_text io sc (PArr s b fd) (FArr a) vv =
     Ok (false, str "Wrong number of dimensions.  Expected " ++ got ++ str ", got " ++ want ++ str ".")) /\
  (ndim a = length (folded_shape (PArr s b fd)) -> shp a <> folded_shape (PArr s b fd) ->
   exists want got, tuple_of (folded_shape (PArr s b fd)) want /\ tuple_of (shp a) got /\
     want <> got /\
     validate_text io sc (PArr s b fd) (FArr a) vv =
     Ok (false, str "Wrong shape.  Expected " ++ got ++ str ", got " ++ want ++ str ".")).
Proof. exact array_message_swapped. Qed.
Print Assumptions C80_array_swapped_refuted.

Theorem C80_array_first : forall A io (sc : scalar A) s b fd a vv t,
  shp a = folded_shape (PArr s b fd) ->
  validate_text io sc (PArr s b fd) (FArr a) vv = Ok (false, t) ->
  exists it m st, In it (indices s) /\ tuple_of it st /\
    validate_text io sc b (FArr (subarr a it (length s))) vv = Ok (false, m) /\
    t = str "Bad value in location " ++ st ++ str ": " ++ m /\
    forall it', In it' (indices s) -> row_major it' s < row_major it s ->
      validate_text io sc b (FArr (subarr a it' (length s))) vv = Ok (true, []).
Proof. exact array_message_first. Qed.
Print Assumptions C80_array_first.

Example C80_array_first_case : nltb (Fin (-4)) (pyval (PyInt (-3))) = true /\
  shp arr_low = folded_shape d_arr /\
  validate_text demo_io snum d_arr (FArr arr_low) (Some true) =
    Ok (false, str "Bad value in location (1,): Value beneath lower bound.").
Proof. exact low_message. Qed.

Theorem C80_dict : forall A io (sc : scalar A) items l fl fd lk d vv t,
  validate_text io sc (PDict items l fl fd lk) (FDict d) vv = Ok (false, t) ->
  exists pre k q post, items = pre ++ (k, q) :: post /\
    Forall (fun kq => exists w, dict_get d (fst kq) = Some w /\
                      validate_text io sc (snd kq) w vv = Ok (true, [])) pre /\
    match dict_get d k with
    | None => exists kt, (forall s, k = KStr s -> kt = s) /\
        t = kt ++ str " not in folded_val dictionary."
    | Some w => exists m, validate_text io sc q w vv = Ok (false, m) /\ t = m ++ str " is not valid."
    end.
Proof. exact dict_message. Qed.
Print Assumptions C80_dict.

Example C80_dict_case : validate_text demo_io snum two (FDict [(ks "a", FArr arr_low); (ks "b", FArr arr_good)]) (Some true) =
    Ok (false, str "Bad value in location (1,): Value beneath lower bound. is not valid.") /\
  validate_text demo_io snum two (FDict [(ks "a", FArr arr_good); (ks "b", FArr arr_low)]) (Some true) =
    Ok (false, str "Bad value in location (1,): Value beneath lower bound. is not valid.") /\
  validate_text demo_io snum two (FDict [(ks "a", FArr arr_good)]) (Some true) =
    Ok (false, str "b not in folded_val dictionary.").
Proof. exact dict_messages. Qed.

(** Refuted: "the message of a dictionary names the invalid member". *)
Theorem C80_member_not_named_refuted : forall A io (sc : scalar A) q good bad vv a b l fl fd lk m,
  a <> b -> validate_text io sc q good vv = Ok (true, []) -> validate_text io sc q bad vv = Ok (false, m) ->
  validate_text io sc (PDict [(a, q); (b, q)] l fl fd lk) (FDict [(a, bad); (b, good)]) vv =
    Ok (false, m ++ str " is not valid.") /\
  validate_text io sc (PDict [(a, q); (b, q)] l fl fd lk) (FDict [(a, good); (b, bad)]) vv =
    Ok (false, m ++ str " is not valid.").
Proof. exact invalid_member_not_named. Qed.
Print Assumptions C80_member_not_named_refuted.

(** Refuted: "the errors about missing results state the function's name, the
    number of results and the positions wanted". *)
Theorem C80_wrapper_refuted : forall name retnums n,
  one_result_text name retnums =
    Ok (str "{} returned only one value, but multipleretnums were specified: " ++ name) /\
  missing_result_text name retnums n =
    Ok (str "Not enough return values in {} ({}) forspecified retnums " ++ name ++ str ".").
Proof. exact wrapper_messages. Qed.
Print Assumptions C80_wrapper_refuted.

Theorem C81_constructors : (forall s lb ub dv fd p, new_numeric_array s lb ub dv fd = Ok p ->
     shape_of p = Ok s /\ bounds p = Ok (lb, ub) /\ free_default p = fd /\
     flat_len p true = plint (prod s) /\ flat_len p false = plint (prod s)) /\
  (forall n lb ub dv fd p, new_numeric_vector n lb ub dv fd = Ok p ->
     shape_of p = Ok [n] /\ vector_length p = Ok n /\ bounds p = Ok (lb, ub) /\ free_default p = fd /\
     flat_len p true = plint n /\ flat_len p false = plint n) /\
  (forall lb ub dv fd p, new_numeric_scalar lb ub dv fd = Ok p ->
     shape_of p = Ok [1] /\ bounds p = Ok (lb, ub) /\ free_default p = fd /\
     vector_length p = Err AttributeError /\
     flat_len p true = plint 1 /\ flat_len p false = plint 1) /\
  (forall n s dv fd p, new_simplex (Z.of_nat n) s dv fd = Ok p ->
     shape_of p = Ok (s ++ [n]) /\ array_shape p = Ok s /\ simplex_size p = Ok n /\ free_default p = fd /\
     flat_len p true = plint (prod s * (n - 1)) /\ flat_len p false = plint (prod s * n)) /\
  (forall n lb dv fd p, new_psd n 1 lb dv fd = Ok p ->
     shape_of p = Ok [n; n] /\ psd_size p = Ok n /\ psd_diag_lb p = Ok lb /\ free_default p = fd /\
     flat_len p true = plint (n * (n + 1) / 2) /\ flat_len p false = plint (n * n)) /\
  (forall s b fd p sb, new_pattern_array s b fd = Ok p -> shape_of b = Ok sb ->
     shape_of p = Ok (s ++ sb) /\ array_shape p = Ok s /\ base_pattern p = Ok b /\ free_default p = fd) /\
  (forall fd, dict_keys (new_dict fd) = Ok [] /\ shape_of (new_dict fd) = Err AttributeError /\
     free_default (new_dict fd) = fd).
Proof. exact constructor_accessors. Qed.
Print Assumptions C81_constructors.

Example C81_constructors_case : new_numeric_vector 3 py_ninf py_inf true None = Ok (PNum KVector [3] py_ninf py_inf true None) /\
  new_numeric_scalar py_ninf py_inf true None = Ok (PNum KScalar [1] py_ninf py_inf true None) /\
  new_simplex (Z.of_nat 3) [2] true None = Ok (PSimplex 3 [2] true None) /\
  new_psd 3 1 (PyInt 0) true None = Ok (PPsd 3 6 (PyInt 0) true None) /\
  new_pattern_array [2; 2] d_num None = Ok (PArr [2; 2] d_num None).
Proof. exact constructed_case. Qed.

Theorem C81_classes : forall p,
  (lacks (shape_of p) <-> exists items l fl fd lk, p = PDict items l fl fd lk) /\
  (lacks (array_shape p) <-> ~ ((exists n s dv fd, p = PSimplex n s dv fd) \/ (exists s b fd, p = PArr s b fd))) /\
  (lacks (bounds p) <-> ~ exists k s lb ub dv fd, p = PNum k s lb ub dv fd) /\
  (lacks (vector_length p) <-> ~ exists s lb ub dv fd, p = PNum KVector s lb ub dv fd) /\
  (lacks (simplex_size p) <-> ~ exists n s dv fd, p = PSimplex n s dv fd) /\
  (lacks (psd_size p) <-> ~ exists sz fl lb dv fd, p = PPsd sz fl lb dv fd) /\
  (lacks (psd_diag_lb p) <-> ~ exists sz fl lb dv fd, p = PPsd sz fl lb dv fd) /\
  (lacks (base_pattern p) <-> ~ exists s b fd, p = PArr s b fd) /\
  (lacks (dict_keys p) <-> ~ exists items l fl fd lk, p = PDict items l fl fd lk) /\
  (forall k, dict_getitem p k = Err TypeError <-> ~ exists items l fl fd lk, p = PDict items l fl fd lk).
Proof. exact accessor_classes. Qed.
Print Assumptions C81_classes.

Theorem C81_shape : forall p, usable p -> is_dict p = false ->
  exists s, shape_of p = Ok s /\ pl_n (flat_len p false) = prod s /\
    (forall A (sc : scalar A) x free vv v, length (dat x) = prod (shp x) ->
       fold_ sc p x free vv = Ok v -> exists a, v = FArr a /\ shp a = s) /\
    (exists a, empty_valid p = Ok (FArr a) /\ shp a = s).
Proof. exact shape_is_shape. Qed.
Print Assumptions C81_shape.

Example C81_shape_case : usable d_arr /\ is_dict d_arr = false /\
  exists x v, fold_ snum d_arr x true None = Ok v /\ length (dat x) = prod (shp x).
Proof. exact shape_case. Qed.

Theorem C81_valid_shape : forall A (sc : scalar A) p a vv, is_dict p = false ->
  validate sc p (FArr a) vv = Ok None ->
  shape_of p = Ok (shp a) \/ (exists k lb ub dv fd, p = PNum k [1] lb ub dv fd /\ shp a = []).
Proof. exact valid_has_shape. Qed.
Print Assumptions C81_valid_shape.

Example C81_valid_shape_case : validate snum d_arr (FArr arr_good) (Some true) = Ok None /\
  validate snum (PNum KScalar [1] py_ninf py_inf true None) (FArr (mkNd [] [Fin 7])) (Some true) = Ok None.
Proof. exact valid_shape_case. Qed.

Theorem C81_keys : forall A (sc : scalar A) p x free vv d ks, usable p -> dict_keys p = Ok ks ->
  fold_ sc p x free vv = Ok (FDict d) -> map fst d = ks.
Proof. exact keys_are_keys. Qed.
Print Assumptions C81_keys.

Example C81_keys_case : usable demo /\ dict_keys demo = Ok (map ks ["num"; "simp"; "cov"; "arr"; "sub"])%string /\
  exists d, fold demo (vec demo_flat) (Some false) (Some true) = Ok (FDict d) /\
    map fst d = map ks ["num"; "simp"; "cov"; "arr"; "sub"]%string.
Proof. exact keys_case. Qed.

Theorem C81_set : forall p k q p' ks, dict_keys p = Ok ks -> setitem p k q = Ok p' ->
  dict_keys p' = Ok (if existsb (key_eqb k) ks then ks else ks ++ [k]) /\
  dict_getitem p' k = Ok (lock_pat q) /\
  forall k', k' <> k -> dict_getitem p' k' = dict_getitem p k'.
Proof. exact keys_after_set. Qed.
Print Assumptions C81_set.

Example C81_set_case : exists p', setitem demo (ks "cov") d_num = Ok p' /\
  dict_keys p' = dict_keys demo /\ dict_getitem p' (ks "cov") = Ok d_num.
Proof. exact set_case. Qed.

Theorem C81_del : forall p k p', delitem p k = Ok p' ->
  exists ks, dict_keys p = Ok ks /\ In k ks /\
    dict_keys p' = Ok (filter (fun k' => negb (key_eqb k k')) ks) /\
    dict_getitem p' k = Err KeyError /\
    forall k', k' <> k -> dict_getitem p' k' = dict_getitem p k'.
Proof. exact keys_after_del. Qed.
Print Assumptions C81_del.

Example C81_del_case : exists p', delitem demo (ks "cov") = Ok p' /\
  dict_keys p' = Ok (map ks ["num"; "simp"; "arr"; "sub"])%string.
Proof. exact del_case. Qed.
