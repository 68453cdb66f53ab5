(** * Names of the entries of a flat vector.

    Models [flat_names]: base_patterns.py:372-375,
    numeric_array_patterns.py:308-314, pattern_containers.py:408-416. *)
From Coq Require Import NArith.
From Verif Require Import Base Num Nd Pattern Json.
Local Open Scope list_scope.
Local Open Scope nat_scope.

(** [str(i)] of a non-negative int. *)
Definition nat_text (i : nat) : pystr := int_text (Z.of_nat i).

(** The elements of a numpy array of strings have lost their trailing NULs. *)
Fixpoint drop_nul (s : pystr) : pystr :=
  match s with c :: r => if N.eqb c 0 then drop_nul r else s | [] => [] end.
Definition np_text (s : pystr) : pystr := rev (drop_nul (rev s)).

(** numeric_array_patterns.py:313: ['[' + ','.join([str(i) for i in item]) + ']']. *)
Definition item_text (item : list nat) : pystr :=
  [91%N] ++ join [44%N] (map nat_text item) ++ [93%N].

(** [pattern_name + delim + t]: an int key cannot be added to a string. *)
Definition key_plus (k : key) (delim t : pystr) : res pystr :=
  match k with KStr s => Ok (s ++ delim ++ t) | KInt _ => Err TypeError end.

(** The default of [delim]. *)
Definition underscore : pystr := [95%N].

(** [flat_names(free)], for a dictionary [flat_names(free, delim)].
    - numeric arrays (and vectors, scalars) ignore [free];
    - simplexes, PSD matrices and pattern arrays inherit the base method, where
      [range] rejects a float length;
    - a dictionary hands [free] on unchanged, without its own default, and never
      hands on [delim]; [np.hstack] raises IndexError for an empty list.
    Simplification: the result is a list, whether the code returns a list or a
    numpy array ([np.hstack] of members that are all empty is an empty float
    array, which is the empty list here). *)
Fixpoint flat_names_delim (p : pat) (free : option bool) (delim : pystr) : res (list pystr) :=
  match p with
  | PNum _ shape _ _ _ _ => Ok (map item_text (indices shape))
  | PDict items _ _ _ _ =>
      parts <- mapM (fun kq =>
          names <- flat_names_delim (snd kq) free underscore ;;
          mapM (key_plus (fst kq) delim) names) items ;;
      l <- hstack parts ;;
      Ok (map np_text l)
  | _ =>
      l <- flat_length p free ;;
      n <- as_index l ;;
      Ok (map nat_text (seq 0 n))
  end.
Definition flat_names (p : pat) (free : option bool) : res (list pystr) :=
  flat_names_delim p free underscore.
