(** * Property theorems C82 and C83: which texts are read, and as what. *)
From Coq Require Import Reals NArith ZArith String SpecFloat.
From Verif Require Import Base Num Nd Numeric Simplex Psd Pattern Json PatJson SpecJson SpecGrammar JsonInst
  DemoJson GrammarFacts GrammarDict GrammarRead DemoGrammar.
Local Open Scope list_scope.
Local Open Scope N_scope.

Theorem C82_grammar : forall io s o, parse io s = Some o <-> json_text io s o.
Proof. exact parse_grammar. Qed.
Print Assumptions C82_grammar.

Theorem C82_loads : forall io s v,
  loads io s = Ok v <-> exists o, json_text io s o /\ as_dicts o v.
Proof. exact loads_grammar. Qed.
Print Assumptions C82_loads.

Theorem C82_refuses : forall io s,
  (exists o v, json_text io s o /\ loads io s = Ok v) \/
  ((forall o, ~ json_text io s o) /\ loads io s = Err ValueError).
Proof. exact loads_refuses. Qed.
Print Assumptions C82_refuses.

Theorem C82_unambiguous : forall io s o o', json_text io s o -> json_text io s o' -> o = o'.
Proof. exact json_text_unique. Qed.
Print Assumptions C82_unambiguous.

Theorem C82_written : forall c, c < 1114112 ->
  (In c [34; 92; 10; 13; 9; 12; 8] -> exists e, In (e, c) short_escapes /\ esc_char c = [92; e]) /\
  (32 <= c <= 126 -> c <> 34 -> c <> 92 -> esc_char c = [c]) /\
  (~ In c [34; 92; 10; 13; 9; 12; 8] -> ~ 32 <= c <= 126 ->
   (c < 65536 -> exists h, esc_char c = 92 :: 117 :: h /\ hex4_of h c /\
      Forall (fun x => 48 <= x <= 57 \/ 97 <= x <= 102) h) /\
   (65536 <= c -> exists h u h' u', esc_char c = 92 :: 117 :: h ++ 92 :: 117 :: h' /\
      hex4_of h u /\ leading u /\ hex4_of h' u' /\ trailing u' /\
      c = 65536 + (u - 55296) * 1024 + (u' - 56320) /\
      Forall (fun x => 48 <= x <= 57 \/ 97 <= x <= 102) (h ++ h'))).
Proof. exact escapes_written. Qed.
Print Assumptions C82_written.

Local Open Scope nat_scope.

Example C82_loads_case : loads demo_io read_odd_text =
    Ok (OSeq [OStr [233; 47; 128512]%N;
              ODict [(KStr (str "a"), ONum (PyInt (-20))); (KStr (str "b"), ONone)]]) /\
  loads demo_io (str "[1, 02]") = Err ValueError /\ loads demo_io (str "{""a"": 1,}") = Err ValueError /\
  (exists o, json_text demo_io read_odd_text o).
Proof. exact read_odd_case. Qed.

Theorem C83_numeric : forall io reg text d lb ub dv fd, registers_builtins reg ->
  optional d "lb" ONum py_ninf lb -> optional d "ub" ONum py_inf ub ->
  optional d "default_validate" OBool true dv -> optional d "free_default" flag_obj None fd ->
  (forall shape, describes io text (CNum KArray) d -> only_entries d ("shape" :: common_names)%string ->
     entry d "shape" (Some (shape_obj shape)) ->
     get_pattern_from_json io reg text = new_numeric_array shape lb ub dv fd) /\
  (forall n, describes io text (CNum KVector) d -> only_entries d ("length" :: common_names)%string ->
     entry d "length" (Some (int_obj n)) ->
     get_pattern_from_json io reg text = new_numeric_vector n lb ub dv fd) /\
  (describes io text (CNum KScalar) d -> only_entries d common_names ->
     get_pattern_from_json io reg text = new_numeric_scalar lb ub dv fd).
Proof. exact numeric_description. Qed.
Print Assumptions C83_numeric.

Example C83_numeric_case : describes demo_io read_vector_text (CNum KVector) vector_entries /\
  only_entries vector_entries ("length" :: common_names)%string /\
  get_pattern_from_json demo_io builtin_registry read_vector_text =
    Ok (PNum KVector [3] py_ninf (PyInt 2) true None).
Proof. exact read_vector_case. Qed.

Theorem C83_psd : forall io reg text d n lb dv fd, registers_builtins reg ->
  describes io text CPsd d -> only_entries d ["size"; "diag_lb"; "default_validate"; "free_default"]%string ->
  entry d "size" (Some (int_obj n)) -> optional d "diag_lb" ONum (PyFloat (S754_zero false)) lb ->
  optional d "default_validate" OBool true dv -> optional d "free_default" flag_obj None fd ->
  get_pattern_from_json io reg text = new_psd n 1 lb dv fd.
Proof. exact psd_description. Qed.
Print Assumptions C83_psd.

Theorem C83_refused : forall io reg text c d names needed, registers_builtins reg ->
  describes io text c d ->
  In (c, names, needed)
    [(CNum KArray, "shape" :: common_names, Some "shape");
     (CNum KVector, "length" :: common_names, Some "length");
     (CNum KScalar, common_names, None);
     (CPsd, ["size"; "diag_lb"; "default_validate"; "free_default"], Some "size")]%string ->
  ~ only_entries d names \/ (exists n, needed = Some n /\ entry d n None) ->
  get_pattern_from_json io reg text = Err TypeError /\ from_json io reg c text = Err TypeError.
Proof. exact description_refused. Qed.
Print Assumptions C83_refused.

Example C83_refused_case : get_pattern_from_json demo_io builtin_registry
    (str "{""pattern"": ""paragami.psdmatrix_patterns.PSDSymmetricMatrixPattern"", ""diag_lb"": 0}") = Err TypeError /\
  get_pattern_from_json demo_io builtin_registry
    (str "{""pattern"": ""paragami.psdmatrix_patterns.PSDSymmetricMatrixPattern"", ""size"": 2, ""dim"": 2}") = Err TypeError /\
  get_pattern_from_json demo_io builtin_registry
    (str "{""pattern"": ""paragami.simplex_patterns.SimplexArrayPattern"", ""simplex_size"": 2, ""array_shape"": []}") = Err KeyError /\
  get_pattern_from_json demo_io builtin_registry
    (str "{""pattern"": ""paragami.simplex_patterns.SimplexArrayPattern"", ""simplex_size"": 2, ""array_shape"": [], ""default_validate"": false, ""free_default"": true}") =
    Ok (PSimplex 2 [] false None) /\
  get_pattern_from_json demo_io builtin_registry
    (str "{""pattern"": ""paragami.pattern_containers.PatternDict"", ""keys"": [""a""], ""contents"": {""b"": 7}}") = Err KeyError /\
  get_pattern_from_json demo_io builtin_registry
    (str "{""pattern"": ""paragami.pattern_containers.PatternDict"", ""keys"": [], ""contents"": {""b"": 7}}") = Ok (new_dict None).
Proof. exact read_refused_case. Qed.

Theorem C83_bounds_refused : forall io reg text d, registers_builtins reg ->
  (forall c names, In (c, names) [(CNum KArray, "shape" :: common_names); (CNum KVector, "length" :: common_names);
                                  (CNum KScalar, common_names)]%string ->
   describes io text c d -> only_entries d names -> size_given c d ->
   (forall o, no_number o -> entry d "lb" (Some o) -> get_pattern_from_json io reg text = Err TypeError) /\
   (forall lb o, optional d "lb" ONum py_ninf lb -> no_number o -> entry d "ub" (Some o) ->
      get_pattern_from_json io reg text = Err (if ngeb (pyval lb) NInf then TypeError else AssertionError))) /\
  (forall o, describes io text CPsd d -> only_entries d ["size"; "diag_lb"; "default_validate"; "free_default"]%string ->
   size_given CPsd d -> no_number o -> entry d "diag_lb" (Some o) -> get_pattern_from_json io reg text = Err TypeError).
Proof. exact bounds_refused. Qed.
Print Assumptions C83_bounds_refused.

Example C83_bounds_refused_case :
  get_pattern_from_json demo_io builtin_registry
    (str "{""pattern"": ""paragami.numeric_array_patterns.NumericScalarPattern"", ""lb"": null}") = Err TypeError /\
  get_pattern_from_json demo_io builtin_registry
    (str "{""pattern"": ""paragami.numeric_array_patterns.NumericVectorPattern"", ""length"": 2, ""ub"": ""1""}") = Err TypeError /\
  get_pattern_from_json demo_io builtin_registry
    (str "{""pattern"": ""paragami.numeric_array_patterns.NumericScalarPattern"", ""lb"": NaN, ""ub"": ""1""}") = Err AssertionError /\
  get_pattern_from_json demo_io builtin_registry
    (str "{""pattern"": ""paragami.psdmatrix_patterns.PSDSymmetricMatrixPattern"", ""size"": 2, ""diag_lb"": [0]}") = Err TypeError.
Proof. exact bad_bounds_case. Qed.

Theorem C83_simplex : forall io reg text d, registers_builtins reg -> describes io text CSimplex d ->
  (forall z s dv, entry d "simplex_size" (Some (ONum (PyInt z))) -> entry d "array_shape" (Some (shape_obj s)) ->
     entry d "default_validate" (Some (OBool dv)) ->
     get_pattern_from_json io reg text = new_simplex z s dv None) /\
  (entry d "simplex_size" None -> get_pattern_from_json io reg text = Err KeyError) /\
  (forall z, entry d "simplex_size" (Some (ONum (PyInt z))) -> entry d "array_shape" None ->
     get_pattern_from_json io reg text = Err KeyError) /\
  (forall z s, entry d "simplex_size" (Some (ONum (PyInt z))) -> entry d "array_shape" (Some (shape_obj s)) ->
     entry d "default_validate" None -> get_pattern_from_json io reg text = Err KeyError).
Proof. exact simplex_description. Qed.
Print Assumptions C83_simplex.

Theorem C83_array : forall io reg text d t, registers_builtins reg -> describes io text CArr d ->
  (entry d "base_pattern" (Some (OStr t)) ->
   (forall e, get_pattern_from_json io reg t = Err e -> get_pattern_from_json io reg text = Err e) /\
   (forall base s, get_pattern_from_json io reg t = Ok base -> entry d "array_shape" (Some (shape_obj s)) ->
      get_pattern_from_json io reg text = new_pattern_array s base None) /\
   (forall base, get_pattern_from_json io reg t = Ok base -> entry d "array_shape" None ->
      get_pattern_from_json io reg text = Err KeyError)) /\
  (entry d "base_pattern" None -> get_pattern_from_json io reg text = Err KeyError).
Proof. exact array_description. Qed.
Print Assumptions C83_array.

Example C83_array_case : exists d t, describes demo_io read_array_text CArr d /\ entry d "base_pattern" (Some (OStr t)) /\
  entry d "shape" (Some (shape_obj [7; 7; 7])) /\ entry d "array_shape" (Some (shape_obj [2])) /\
  get_pattern_from_json demo_io builtin_registry read_array_text =
    Ok (PArr [2] (PNum KScalar [1] py_ninf py_inf true None) None).
Proof. exact read_array_case. Qed.

Theorem C83_dict : forall io reg text d names, registers_builtins reg -> describes io text CDict d ->
  entry d "keys" (Some (OSeq (map OStr names))) ->
  (names = [] -> get_pattern_from_json io reg text = Ok (new_dict None)) /\
  (forall cs qs, entry d "contents" (Some (ODict cs)) ->
     Forall2 (fun name q => exists t, dict_get cs (KStr name) = Some (OStr t) /\
                            get_pattern_from_json io reg t = Ok q) names qs ->
     get_pattern_from_json io reg text =
     fold_left (fun acc kq => p <- acc ;; setitem p (KStr (fst kq)) (snd kq)) (combine names qs) (Ok (new_dict None))) /\
  (forall cs pre name post qs, entry d "contents" (Some (ODict cs)) -> names = pre ++ name :: post ->
     Forall2 (fun name q => exists t, dict_get cs (KStr name) = Some (OStr t) /\
                            get_pattern_from_json io reg t = Ok q) pre qs ->
     dict_get cs (KStr name) = None -> get_pattern_from_json io reg text = Err KeyError).
Proof. exact dict_description. Qed.
Print Assumptions C83_dict.
