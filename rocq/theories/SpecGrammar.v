(** * The grammar of JSON texts (RFC 8259, with Python's NaN and Infinity), and
    what they denote. *)
From Coq Require Import Reals NArith Ascii String SpecFloat.
From Verif Require Import Base Num Pattern Json PatJson SpecJson.
Local Open Scope list_scope.
Local Open Scope N_scope.

Definition blanks (s : pystr) : Prop := Forall (fun c => In c [32; 9; 10; 13]) s.

(** Hexadecimal digits in both cases. *)
Definition hex_of (c v : N) : Prop :=
  (48 <= c <= 57 /\ v = c - 48) \/ (97 <= c <= 102 /\ v = c - 97 + 10) \/
  (65 <= c <= 70 /\ v = c - 65 + 10).
Definition hex4_of (t : pystr) (u : N) : Prop :=
  exists a b c d x y z w, t = [a; b; c; d] /\
    hex_of a x /\ hex_of b y /\ hex_of c z /\ hex_of d w /\ u = ((x * 16 + y) * 16 + z) * 16 + w.
Definition leading (u : N) : Prop := 55296 <= u <= 56319.
Definition trailing (u : N) : Prop := 56320 <= u <= 57343.

(** The character behind the backslash and what the two denote. *)
Definition short_escapes : list (N * N) :=
  [(34, 34); (92, 92); (47, 47); (98, 8); (102, 12); (110, 10); (114, 13); (116, 9)].

(** What is between the quotes, and the string it denotes. *)
Inductive chars : pystr -> pystr -> Prop :=
| chars_none : chars [] []
| chars_plain c s t : 32 <= c -> c <> 34 -> c <> 92 -> chars s t -> chars (c :: s) (c :: t)
| chars_short e x s t : In (e, x) short_escapes -> chars s t -> chars (92 :: e :: s) (x :: t)
| chars_pair h u h' u' s t :
    hex4_of h u -> leading u -> hex4_of h' u' -> trailing u' -> chars s t ->
    chars (92 :: 117 :: h ++ 92 :: 117 :: h' ++ s)
          (65536 + (u - 55296) * 1024 + (u' - 56320) :: t)
| chars_unit h u s t :
    hex4_of h u ->
    (leading u -> forall h' u' s', s = 92 :: 117 :: h' ++ s' -> hex4_of h' u' -> ~ trailing u') ->
    chars s t ->
    chars (92 :: 117 :: h ++ s) (u :: t).

(** The value of a decimal numeral. *)
Definition dec_value (s : pystr) : Z :=
  fold_left (fun acc c => 10 * acc + (Z.of_N c - 48))%Z s 0%Z.

(** Values, without white space around; objects denote their list of pairs. *)
Inductive json (io : float_io) : pystr -> pyobj -> Prop :=
| json_null : json io (str "null") ONone
| json_true : json io (str "true") (OBool true)
| json_false : json io (str "false") (OBool false)
| json_nan : json io (str "NaN") (ONum (PyFloat S754_nan))
| json_inf : json io (str "Infinity") (ONum (PyFloat (S754_infinity false)))
| json_ninf : json io (str "-Infinity") (ONum (PyFloat (S754_infinity true)))
| json_nat s : numeral s -> json io s (ONum (PyInt (dec_value s)))
| json_neg s : numeral s -> json io (45 :: s) (ONum (PyInt (- dec_value s)))
| json_float s : float_text s -> json io s (ONum (PyFloat (f_read io s)))
| json_string s t : chars s t -> json io (34 :: s ++ [34]) (OStr t)
| json_empty_array w : blanks w -> json io (91 :: w ++ [93]) (OSeq [])
| json_array w s l : blanks w -> elements io s l -> json io (91 :: w ++ s ++ [93]) (OSeq l)
| json_empty_object w : blanks w -> json io (123 :: w ++ [125]) (ODict [])
| json_object w s d : blanks w -> members io s d -> json io (123 :: w ++ s ++ [125]) (ODict d)
with elements (io : float_io) : pystr -> list pyobj -> Prop :=
| elements_one s x w : json io s x -> blanks w -> elements io (s ++ w) [x]
| elements_more s x w w' t l :
    json io s x -> blanks w -> blanks w' -> elements io t l ->
    elements io (s ++ w ++ 44 :: w' ++ t) (x :: l)
with members (io : float_io) : pystr -> list (key * pyobj) -> Prop :=
| members_one k kt w w' s x v :
    chars k kt -> blanks w -> blanks w' -> json io s x -> blanks v ->
    members io (34 :: k ++ 34 :: w ++ 58 :: w' ++ s ++ v) [(KStr kt, x)]
| members_more k kt w w' s x v v' t d :
    chars k kt -> blanks w -> blanks w' -> json io s x -> blanks v -> blanks v' -> members io t d ->
    members io (34 :: k ++ 34 :: w ++ 58 :: w' ++ s ++ v ++ 44 :: v' ++ t) ((KStr kt, x) :: d).

(** A text: a value with white space around. *)
Definition json_text (io : float_io) (s : pystr) (o : pyobj) : Prop :=
  exists w t w', s = w ++ t ++ w' /\ blanks w /\ blanks w' /\ json io t o.

(** Pairs read into a dictionary: every key once, in the order of first
    occurrence, with the value of its last occurrence. *)
Inductive last_of {A} (k : key) (x : A) : list (key * A) -> Prop :=
| last_here d : (forall y, ~ In (k, y) d) -> last_of k x ((k, x) :: d)
| last_later k' y d : last_of k x d -> last_of k x ((k', y) :: d).
Fixpoint first_keys {A} (d : list (key * A)) : list key :=
  match d with
  | [] => []
  | (k, _) :: r => k :: filter (fun k' => negb (key_eqb k k')) (first_keys r)
  end.
Inductive as_dicts : pyobj -> pyobj -> Prop :=
| dicts_none : as_dicts ONone ONone
| dicts_bool b : as_dicts (OBool b) (OBool b)
| dicts_num x : as_dicts (ONum x) (ONum x)
| dicts_str s : as_dicts (OStr s) (OStr s)
| dicts_seq l l' : as_dicts_list l l' -> as_dicts (OSeq l) (OSeq l')
| dicts_dict d d' : map fst d' = first_keys d -> as_dicts_pairs d d' -> as_dicts (ODict d) (ODict d')
with as_dicts_list : list pyobj -> list pyobj -> Prop :=
| dicts_list_nil : as_dicts_list [] []
| dicts_list_cons x y l l' : as_dicts x y -> as_dicts_list l l' -> as_dicts_list (x :: l) (y :: l')
with as_dicts_pairs : list (key * pyobj) -> list (key * pyobj) -> Prop :=
| dicts_pairs_nil d : as_dicts_pairs d []
| dicts_pairs_cons d k x y d' : last_of k x d -> as_dicts x y -> as_dicts_pairs d d' ->
    as_dicts_pairs d ((k, y) :: d').

(** ** Descriptions of patterns written by hand *)
Definition class_name (c : cls) : string :=
  match c with
  | CNum KArray => "paragami.numeric_array_patterns.NumericArrayPattern"
  | CNum KVector => "paragami.numeric_array_patterns.NumericVectorPattern"
  | CNum KScalar => "paragami.numeric_array_patterns.NumericScalarPattern"
  | CSimplex => "paragami.simplex_patterns.SimplexArrayPattern"
  | CPsd => "paragami.psdmatrix_patterns.PSDSymmetricMatrixPattern"
  | CArr => "paragami.pattern_containers.PatternArray"
  | CDict => "paragami.pattern_containers.PatternDict"
  end.
(** [text] is an object whose entries are [d] and whose "pattern" is the class. *)
Definition describes (io : float_io) (text : pystr) (c : cls) (d : list (key * pyobj)) : Prop :=
  loads io text = Ok (ODict d) /\
  dict_get d (KStr (str "pattern")) = Some (OStr (str (class_name c))).
Definition entry (d : list (key * pyobj)) (name : string) (o : option pyobj) : Prop :=
  dict_get d (KStr (str name)) = o.

(** The value of an optional entry, and what it is when the entry is missing. *)
Definition optional {A} (d : list (key * pyobj)) (name : string) (f : A -> pyobj) (default v : A) : Prop :=
  entry d name (Some (f v)) \/ (entry d name None /\ v = default).
Definition int_obj (n : nat) : pyobj := ONum (PyInt (Z.of_nat n)).
Definition shape_obj (s : list nat) : pyobj := OSeq (map int_obj s).
Definition flag_obj (b : option bool) : pyobj :=
  match b with None => ONone | Some b => OBool b end.
(** What json reads that is no number ([true] and [false] are numbers in Python). *)
Definition no_number (o : pyobj) : Prop := match o with ONum _ | OBool _ => False | _ => True end.
(** The entry giving the size of a numeric or PSD pattern is as the constructor expects. *)
Definition size_given (c : cls) (d : list (key * pyobj)) : Prop :=
  match c with
  | CNum KArray => exists s, entry d "shape" (Some (shape_obj s))
  | CNum KVector => exists n, entry d "length" (Some (int_obj n))
  | CNum KScalar => True
  | CPsd => exists n, entry d "size" (Some (int_obj n))
  | _ => False
  end.
Definition only_entries (d : list (key * pyobj)) (names : list string) : Prop :=
  forall k x, In (k, x) d -> exists n, In n ("pattern" :: names)%string /\ k = KStr (str n).
Definition common_names : list string := ["lb"; "ub"; "default_validate"; "free_default"]%string.
