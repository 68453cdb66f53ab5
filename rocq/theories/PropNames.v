(** * Property theorems C58: names of the flat entries. *)
From Coq Require Import Reals NArith String.
From Verif Require Import Base Num Nd Pattern Spec Names SpecNames NamesFacts Demo DemoNames.
Local Open Scope list_scope.
Local Open Scope nat_scope.

Theorem C58_count : forall p f d, usable p -> string_keys p ->
  exists names, flat_names_delim p (Some f) d = Ok names /\
    flat_length p (Some f) = Ok (plint (length names)).
Proof. exact names_count. Qed.
Print Assumptions C58_count.

Example C58_count_case : usable demo /\ string_keys demo.
Proof. exact (conj demo_usable demo_string_keys). Qed.

(** Without the restriction to string keys the only other outcome is a TypeError. *)
Theorem C58_int_keys : forall p f d, usable p ->
  (exists names, flat_names_delim p (Some f) d = Ok names /\
     flat_length p (Some f) = Ok (plint (length names))) \/
  (flat_names_delim p (Some f) d = Err TypeError /\ ~ string_keys p).
Proof. exact names_int_keys. Qed.
Print Assumptions C58_int_keys.

Example C58_int_keys_case : usable d_int /\ ~ string_keys d_int /\ flat_names d_int (Some true) = Err TypeError.
Proof. exact d_int_case. Qed.

(** Numeric patterns: whatever [free] is, also without a default. *)
Theorem C58_numeric : forall k shape lb ub dv fd free d,
  exists names, flat_names_delim (PNum k shape lb ub dv fd) free d = Ok names /\
    length names = prod shape /\ NoDup names /\
    forall i, i < prod shape -> exists item name,
      nth_error names i = Some name /\ bracketed item name /\
      Forall2 lt item shape /\ row_major item shape = i.
Proof. exact names_numeric. Qed.
Print Assumptions C58_numeric.

Theorem C58_numeric_entry : forall A (sc : scalar A) k shape lb ub dv fd free d names vv x a i name item,
  usable (PNum k shape lb ub dv fd) ->
  flat_names_delim (PNum k shape lb ub dv fd) free d = Ok names ->
  fold_gen sc (PNum k shape lb ub dv fd) (vec x) (Some false) vv = Ok (FArr a) ->
  nth_error names i = Some name -> bracketed item name ->
  nth_error (dat a) (row_major item (shp a)) = nth_error x i.
Proof. exact names_numeric_entry. Qed.
Print Assumptions C58_numeric_entry.

(** A bracketed name denotes one multi-index only. *)
Theorem C58_numeric_unique : forall a b s, bracketed a s -> bracketed b s -> a = b.
Proof. exact bracketed_unique. Qed.
Print Assumptions C58_numeric_unique.

Example C58_numeric_case : usable d_wide /\
  (exists names, flat_names d_wide None = Ok names /\ nth_error names 67 = Some (str "[11,0,1]")) /\
  bracketed [11; 0; 1] (str "[11,0,1]") /\ row_major [11; 0; 1] [12; 2; 3] = 67.
Proof. exact d_wide_case. Qed.

(** Simplexes, PSD matrices and arrays of patterns. *)
Theorem C58_plain : forall p f d, usable p ->
  match p with PNum _ _ _ _ _ _ | PDict _ _ _ _ _ => False | _ => True end ->
  exists names, flat_names_delim p (Some f) d = Ok names /\
    flat_length p (Some f) = Ok (plint (length names)) /\ NoDup names /\
    forall i name, nth_error names i = Some name -> numeral_of i name.
Proof. exact names_plain. Qed.
Print Assumptions C58_plain.

Example C58_plain_case : usable d_cov /\
  flat_names d_cov (Some true) = Ok (texts ["0"; "1"; "2"]%string) /\ numeral_of 2 (str "2").
Proof. exact demo_plain_case. Qed.

(** Dictionaries: layout order, key, delimiter, the member's names with the
    default delimiter. *)
Theorem C58_dict : forall before s q after l fl fd lk f d names,
  usable (PDict (before ++ (KStr s, q) :: after) l fl fd lk) ->
  flat_names_delim (PDict (before ++ (KStr s, q) :: after) l fl fd lk) (Some f) d = Ok names ->
  exists child, flat_names q (Some f) = Ok child /\
    flat_length q (Some f) = Ok (plint (length child)) /\
    slice names (total_len before f) (length child) = map (fun t => s ++ d ++ t) child.
Proof. exact names_dict. Qed.
Print Assumptions C58_dict.

Example C58_dict_case : flat_names demo (Some false) = Ok (texts
    ["num_[0]"; "num_[1]"; "simp_0"; "simp_1"; "simp_2"; "simp_3"; "cov_0"; "cov_1"; "cov_2";
     "cov_3"; "arr_0"; "arr_1"; "sub_x_[0]"]%string) /\
  flat_names_delim demo (Some true) (str "/") = Ok (texts
    ["num/[0]"; "num/[1]"; "simp/0"; "simp/1"; "cov/0"; "cov/1"; "cov/2"; "arr/0"; "arr/1";
     "sub/x_[0]"]%string).
Proof. exact demo_names. Qed.

Theorem C58_distinct : forall p f d names, usable p -> clear_keys d p ->
  flat_names_delim p (Some f) d = Ok names -> NoDup names.
Proof. exact names_distinct. Qed.
Print Assumptions C58_distinct.

Example C58_distinct_case : usable demo /\ clear_keys (str "/") demo.
Proof. exact (conj demo_usable demo_clear). Qed.

Theorem C58_distinct_plain : forall p f names, usable p -> no_underscore p ->
  flat_names p (Some f) = Ok names -> NoDup names.
Proof. exact names_distinct_plain. Qed.
Print Assumptions C58_distinct_plain.

Example C58_distinct_plain_case : usable demo /\ no_underscore demo.
Proof. exact (conj demo_usable demo_no_underscore). Qed.

(** Distinctness fails in general. *)
Theorem C58_distinct_refuted : exists p names i j name, built p /\ usable p /\ string_keys p /\
    flat_names p (Some false) = Ok names /\ i <> j /\
    nth_error names i = Some name /\ nth_error names j = Some name.
Proof. exact names_collide. Qed.
Print Assumptions C58_distinct_refuted.

(** [free=None] is not resolved by a dictionary: the number of names can differ
    from [flat_length(None)], or the call raises. *)
Theorem C58_default_refuted : exists p names l, built p /\ usable p /\ string_keys p /\
    flat_names p None = Ok names /\ flat_length p None = Ok l /\ pl_n l <> List.length names.
Proof. exact names_default_ignored. Qed.
Print Assumptions C58_default_refuted.

Theorem C58_default_error_refuted : exists p l, built p /\ usable p /\ string_keys p /\
    flat_length p None = Ok l /\ flat_names p None = Err ValueError.
Proof. exact names_default_missing. Qed.
Print Assumptions C58_default_error_refuted.

(** It is right when all defaults in the tree agree. *)
Theorem C58_default_agree : forall g p d,
  flat_names_delim (set_fd (Some g) p) None d = flat_names_delim p (Some g) d.
Proof. exact names_none. Qed.
Print Assumptions C58_default_agree.

Example C58_default_agree_case :
  flat_names (set_fd (Some true) (d_mixed None)) None = Ok (texts ["s_0"; "s_1"]%string).
Proof. reflexivity. Qed.
