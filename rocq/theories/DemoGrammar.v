(** * Texts written by hand. *)
From Coq Require Import Reals NArith Ascii String SpecFloat Lra.
From Verif Require Import Base Num Nd Numeric Simplex Psd Pattern Json PatJson SpecJson SpecGrammar
  GrammarFacts GrammarDict GrammarRead Build JsonInst JsonProps PatJsonFacts PatFacts NumFacts Demo DemoJson.
Local Open Scope list_scope.
Local Open Scope nat_scope.

(** White space, upper-case escapes, a character outside the first plane, a repeated key. *)
Definition read_odd_text : pystr := str " [ ""\u00E9\/\uD83D\ude00"" ,{ ""a"" : 1, ""b"":null , ""a"" : -20 } ] ".
Lemma read_odd_case : loads demo_io read_odd_text =
    Ok (OSeq [OStr [233; 47; 128512]%N;
              ODict [(KStr (str "a"), ONum (PyInt (-20))); (KStr (str "b"), ONone)]]) /\
  loads demo_io (str "[1, 02]") = Err ValueError /\ loads demo_io (str "{""a"": 1,}") = Err ValueError /\
  (exists o, json_text demo_io read_odd_text o).
Proof.
  split; [vm_compute; reflexivity|]. split; [vm_compute; reflexivity|]. split; [vm_compute; reflexivity|].
  eexists. apply parse_grammar. vm_compute. reflexivity.
Qed.

Definition read_vector_text : pystr :=
  str "{""ub"": 2, ""length"": 3, ""pattern"": ""paragami.numeric_array_patterns.NumericVectorPattern""}".
Definition vector_entries : list (key * pyobj) :=
  [(KStr (str "ub"), ONum (PyInt 2)); (KStr (str "length"), ONum (PyInt 3));
   (KStr (str "pattern"), OStr (str "paragami.numeric_array_patterns.NumericVectorPattern"))].
Lemma read_vector_case : describes demo_io read_vector_text (CNum KVector) vector_entries /\
  only_entries vector_entries ("length" :: common_names)%string /\
  get_pattern_from_json demo_io builtin_registry read_vector_text =
    Ok (PNum KVector [3] py_ninf (PyInt 2) true None).
Proof.
  assert (describes demo_io read_vector_text (CNum KVector) vector_entries) as Hd by (split; vm_compute; reflexivity).
  assert (only_entries vector_entries ("length" :: common_names)%string) as Ho.
  { intros k x [E|[E|[E|[]]]]; injection E as <- <-; eexists; (split; [|reflexivity]); cbn; tauto. }
  split; [exact Hd|]. split; [exact Ho|].
  destruct (numeric_description demo_io builtin_registry read_vector_text vector_entries py_ninf (PyInt 2) true None) as (_ & H & _).
  - exact builtin_ok.
  - right. split; reflexivity.
  - left. reflexivity.
  - right. split; reflexivity.
  - right. split; reflexivity.
  - rewrite (H 3 Hd Ho eq_refl). apply new_numeric_ok. split; [reflexivity|]. split; [discriminate|]. reflexivity.
Qed.

(** "shape" contradicts "array_shape". *)
Definition read_array_text : pystr := str
  "{""pattern"": ""paragami.pattern_containers.PatternArray"", ""shape"": [7, 7, 7], ""array_shape"": [2], ""base_pattern"": ""{\""pattern\"": \""paragami.numeric_array_patterns.NumericScalarPattern\""}""}".
Lemma read_array_case : exists d t, describes demo_io read_array_text CArr d /\ entry d "base_pattern" (Some (OStr t)) /\
  entry d "shape" (Some (shape_obj [7; 7; 7])) /\ entry d "array_shape" (Some (shape_obj [2])) /\
  get_pattern_from_json demo_io builtin_registry read_array_text =
    Ok (PArr [2] (PNum KScalar [1] py_ninf py_inf true None) None).
Proof.
  do 2 eexists. split; [split; vm_compute; reflexivity|]. split; [vm_compute; reflexivity|].
  split; [vm_compute; reflexivity|]. split; [vm_compute; reflexivity|].
  vm_compute. reflexivity.
Qed.
Lemma bad_bounds_case :
  get_pattern_from_json demo_io builtin_registry
    (str "{""pattern"": ""paragami.numeric_array_patterns.NumericScalarPattern"", ""lb"": null}") = Err TypeError /\
  get_pattern_from_json demo_io builtin_registry
    (str "{""pattern"": ""paragami.numeric_array_patterns.NumericVectorPattern"", ""length"": 2, ""ub"": ""1""}") = Err TypeError /\
  get_pattern_from_json demo_io builtin_registry
    (str "{""pattern"": ""paragami.numeric_array_patterns.NumericScalarPattern"", ""lb"": NaN, ""ub"": ""1""}") = Err AssertionError /\
  get_pattern_from_json demo_io builtin_registry
    (str "{""pattern"": ""paragami.psdmatrix_patterns.PSDSymmetricMatrixPattern"", ""size"": 2, ""diag_lb"": [0]}") = Err TypeError.
Proof.
  repeat split; try (vm_compute; reflexivity).
Qed.
Lemma read_refused_case :
  get_pattern_from_json demo_io builtin_registry
    (str "{""pattern"": ""paragami.psdmatrix_patterns.PSDSymmetricMatrixPattern"", ""diag_lb"": 0}") = Err TypeError /\
  get_pattern_from_json demo_io builtin_registry
    (str "{""pattern"": ""paragami.psdmatrix_patterns.PSDSymmetricMatrixPattern"", ""size"": 2, ""dim"": 2}") = Err TypeError /\
  get_pattern_from_json demo_io builtin_registry
    (str "{""pattern"": ""paragami.simplex_patterns.SimplexArrayPattern"", ""simplex_size"": 2, ""array_shape"": []}") = Err KeyError /\
  get_pattern_from_json demo_io builtin_registry
    (str "{""pattern"": ""paragami.simplex_patterns.SimplexArrayPattern"", ""simplex_size"": 2, ""array_shape"": [], ""default_validate"": false, ""free_default"": true}") =
    Ok (PSimplex 2 [] false None) /\
  get_pattern_from_json demo_io builtin_registry
    (str "{""pattern"": ""paragami.pattern_containers.PatternDict"", ""keys"": [""a""], ""contents"": {""b"": 7}}") = Err KeyError /\
  get_pattern_from_json demo_io builtin_registry
    (str "{""pattern"": ""paragami.pattern_containers.PatternDict"", ""keys"": [], ""contents"": {""b"": 7}}") = Ok (new_dict None).
Proof. repeat split; vm_compute; reflexivity. Qed.
