(** * Property theorems C78: which results share memory with the arguments. *)
From Coq Require Import Reals String.
From Verif Require Import Base Num Nd Pattern Spec Alias SpecAlias AliasFacts AliasFlat Demo DemoAlias.
Local Open Scope list_scope.
Local Open Scope nat_scope.

(** C78.  The methods with memory compute the values of [fold] and [flatten] and write
    into no memory that existed before. *)
Theorem C78_fold_values : forall p x free vv h, usable p -> r_ok h x ->
  exists ext, snd (hfold p x free vv h) = h ++ ext /\
    fold p (r_get h x) free vv =
    match fst (hfold p x free vv h) with Ok v => Ok (h_read (h ++ ext) v) | Err e => Err e end.
Proof. exact fold_values. Qed.
Print Assumptions C78_fold_values.
Theorem C78_flatten_values : forall p v free vv h, v_ok h v ->
  exists ext, snd (hflatten p v free vv h) = h ++ ext /\
    match fst (hflatten p v free vv h) with
    | Ok a => exists l, r_get (h ++ ext) a = vec l /\ flatten p (h_read h v) free vv = Ok l
    | Err e => flatten p (h_read h v) free vv = Err e
    end.
Proof. exact flatten_values. Qed.
Print Assumptions C78_flatten_values.
Example C78_fold_case : usable demo /\ r_ok (alias_heap 13) (alias_x 13) /\
  exists h', hfold demo (alias_x 13) (Some false) (Some false) (alias_heap 13) = (Ok refs_view, h').
Proof. exact fold_view_case. Qed.
Example C78_flatten_case : v_ok (alias_heap 3) (HDict [(ks "num", HArr (mkRef 1 1 [2]));
      (ks "sub", HDict [(ks "x", HArr (mkRef 1 3 [1]))])]) /\
  exists h', hflatten d_plain (HDict [(ks "num", HArr (mkRef 1 1 [2]));
      (ks "sub", HDict [(ks "x", HArr (mkRef 1 3 [1]))])]) (Some false) (Some false) (alias_heap 3)
    = (Ok (mkRef 5 0 [3]), h').
Proof. exact flatten_alias_case. Qed.

(** A free value is a copy: writes into it or into older arrays do not meet. *)
Theorem C78_free_fold_copies : forall p x vv h v h', usable p -> r_ok h x ->
  hfold p x (Some true) vv h = (Ok v, h') ->
  forall y, r_ok h y ->
  (forall h2, wrote [y] h' h2 -> h_read h2 v = h_read h' v) /\
  (forall h2, wrote (arrays v) h' h2 -> r_get h2 y = r_get h' y).
Proof. exact free_fold_independent. Qed.
Print Assumptions C78_free_fold_copies.
Example C78_free_fold_case : usable demo /\ r_ok (alias_heap 10) (alias_x 10) /\
  exists h', hfold demo (alias_x 10) (Some true) None (alias_heap 10) = (Ok refs_free, h').
Proof. exact fold_free_case. Qed.
Theorem C78_array_fold_copies : forall s b fd x f vv h v h', usable (PArr s b fd) -> r_ok h x ->
  hfold (PArr s b fd) x (Some f) vv h = (Ok v, h') ->
  forall y, r_ok h y ->
  (forall h2, wrote [y] h' h2 -> h_read h2 v = h_read h' v) /\
  (forall h2, wrote (arrays v) h' h2 -> r_get h2 y = r_get h' y).
Proof. exact array_fold_independent. Qed.
Print Assumptions C78_array_fold_copies.
Example C78_array_fold_case : usable d_arr2 /\ r_ok (alias_heap 12) (alias_x 12) /\
  exists h', hfold d_arr2 (alias_x 12) (Some false) None (alias_heap 12) = (Ok (HArr (mkRef 2 0 [2; 3; 2])), h').
Proof. exact array_case. Qed.
Theorem C78_flatten_copies : forall p v f vv h a h', v_ok h v ->
  hflatten p v (Some f) vv h = (Ok a, h') ->
  (forall h2, wrote [a] h' h2 -> h_read h2 v = h_read h' v) /\
  (forall h2, wrote (arrays v) h' h2 -> r_get h2 a = r_get h' a).
Proof. exact flatten_independent. Qed.
Print Assumptions C78_flatten_copies.

(** The arrays of one folded value do not overlap. *)
Theorem C78_members_apart : forall p x f vv h v h', usable p -> r_ok h x ->
  hfold p x (Some f) vv h = (Ok v, h') ->
  forall i j r s, i <> j -> nth_error (arrays v) i = Some r -> nth_error (arrays v) j = Some s ->
  forall h2, wrote [r] h' h2 -> r_get h2 s = r_get h' s.
Proof. exact members_independent. Qed.
Print Assumptions C78_members_apart.
Example C78_members_case : nth_error (arrays refs_view) 0 = Some (mkRef 1 1 [2]) /\
  nth_error (arrays refs_view) 4 = Some (mkRef 1 13 [1]) /\ apart (mkRef 1 1 [2]) (mkRef 1 13 [1]).
Proof. exact members_case. Qed.

(** With [free=False] the folded value is a view: it stays the fold of the current
    contents of the vector, so "never return a reference" is false. *)
Theorem C78_nonfree_view : forall p x n vv h v h', usable p -> no_arrays p -> r_ok h x -> r_shp x = [n] ->
  flat_length p (Some false) = Ok (plint n) -> hfold p x (Some false) vv h = (Ok v, h') ->
  h' = h /\ forall h2, r_ok h2 x -> fold p (r_get h2 x) (Some false) (Some false) = Ok (h_read h2 v).
Proof. exact fold_view. Qed.
Print Assumptions C78_nonfree_view.
Theorem C78_nonfree_reference : forall p x n vv h v h' i c, usable p -> no_arrays p -> r_ok h x -> r_shp x = [n] ->
  flat_length p (Some false) = Ok (plint n) -> hfold p x (Some false) vv h = (Ok v, h') ->
  i < n -> nth i (dat (r_get h x)) NaN <> c ->
  h_read (r_set h' x i c) v <> h_read h' v.
Proof. exact fold_reference. Qed.
Print Assumptions C78_nonfree_reference.
Example C78_reference_case : usable d_plain /\ no_arrays d_plain /\ r_ok (alias_heap 3) (alias_x 3) /\
  flat_length d_plain (Some false) = Ok (plint 3) /\
  hfold d_plain (alias_x 3) (Some false) (Some false) (alias_heap 3) =
    (Ok (HDict [(ks "num", HArr (mkRef 1 1 [2])); (ks "sub", HDict [(ks "x", HArr (mkRef 1 3 [1]))])]), alias_heap 3) /\
  nth 1 (dat (r_get (alias_heap 3) (alias_x 3))) NaN <> Fin 1 /\
  h_read (r_set (alias_heap 3) (alias_x 3) 1 (Fin 1)) (HArr (mkRef 1 1 [2])) = FArr (mkNd [2] [Fin 0; Fin 1]).
Proof. exact reference_case. Qed.
Theorem C78_never_a_reference_refuted : ~ (forall p x f vv h v h', usable p -> r_ok h x ->
  hfold p x (Some f) vv h = (Ok v, h') -> forall h2, wrote [x] h' h2 -> h_read h2 v = h_read h' v).
Proof. exact fold_copies_refuted. Qed.
Print Assumptions C78_never_a_reference_refuted.
Theorem C78_assignment : forall h x i c, r_ok h x -> i < prod (r_shp x) -> wrote [x] h (r_set h x i c).
Proof. exact r_set_wrote. Qed.
Print Assumptions C78_assignment.
