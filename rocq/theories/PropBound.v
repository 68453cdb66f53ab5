(** * Property theorems C85: infinite free values and values on the boundary. *)
From Coq Require Import Reals List.
From Verif Require Import Base Num Nd Numeric Simplex Psd Pattern Spec SpecBound BoundFacts BoundTree
  BoundLost Demo DemoBound.
Import ListNotations.
Local Open Scope nat_scope.

(** A free vector with infinities that stand for a boundary the transform attains folds to a
    value on that boundary, which validates and flattens back to the same vector. *)
Theorem C85_fold : forall p x vv vv', usable p -> boundary_free p x ->
  flat_length p (Some true) = Ok (plint (length x)) /\
  exists v, fold p (vec x) (Some true) vv = Ok v /\ boundary_value p v /\
    validate snum p v vv' = Ok None /\ flatten p v (Some true) vv' = Ok x.
Proof. exact api_boundary_fold. Qed.
Print Assumptions C85_fold.

Example C85_fold_case : usable demo /\ boundary_free demo edge_free.
Proof. exact edge_free_case. Qed.

Example C85_fold_result :
  fold (PNum KScalar [1] (PyInt 0) py_inf true None) (vec [NInf]) (Some true) None
  = Ok (FArr (mkNd [1] [Fin 0])).
Proof. exact fold_on_bound. Qed.

(** And a value on the boundary flattens to such a vector and folds back. *)
Theorem C85_flatten : forall p v vv vv', usable p -> boundary_value p v ->
  exists x, flatten p v (Some true) vv = Ok x /\ boundary_free p x /\
    fold p (vec x) (Some true) vv' = Ok (canon p v).
Proof. exact api_boundary_flatten. Qed.
Print Assumptions C85_flatten.

Example C85_flatten_case :
  usable demo /\ boundary_value demo edge_value /\ ~ interior demo edge_value.
Proof. exact edge_value_case. Qed.

(** Both extend the finite case. *)
Theorem C85_interior : forall p, usable p ->
  (forall v, interior p v -> boundary_value p v) /\
  (forall x, length x = pl_n (flat_len p true) -> boundary_free p (map Fin x)).
Proof. exact boundary_extends. Qed.
Print Assumptions C85_interior.

Example C85_interior_case : usable demo /\ interior demo demo_value.
Proof. exact demo_interior_case. Qed.

(** [inf] between two finite bounds folds to NaN. *)
Theorem C85_numeric_nan : forall k shape lb ub dv fd x vv, usable (PNum k shape lb ub dv fd) ->
  finite (pyval lb) -> finite (pyval ub) -> length x = prod shape ->
  exists a, fold (PNum k shape lb ub dv fd) (vec x) (Some true) vv = Ok (FArr a) /\ shp a = shape /\
    forall i, nth_error x i = Some PInf \/ nth_error x i = Some NaN -> nth_error (dat a) i = Some NaN.
Proof. exact numeric_lost. Qed.
Print Assumptions C85_numeric_nan.

(** [inf] in a simplex turns the whole simplex, and no other one, into NaN. *)
Theorem C85_simplex_nan : forall n ashape dv fd x vv, usable (PSimplex n ashape dv fd) ->
  length x = prod ashape * (n - 1) ->
  exists a, fold (PSimplex n ashape dv fd) (vec x) (Some true) vv = Ok (FArr a) /\ shp a = ashape ++ [n] /\
    forall i, i < prod ashape ->
      (In PInf (slice x (i * (n - 1)) (n - 1)) \/ In NaN (slice x (i * (n - 1)) (n - 1)) ->
       slice (dat a) (i * n) n = repeat NaN n) /\
      (Forall low (slice x (i * (n - 1)) (n - 1)) ->
       exists r, slice (dat a) (i * n) n = map Fin r /\ ext_simplex n r).
Proof. exact simplex_lost. Qed.
Print Assumptions C85_simplex_nan.

(** An infinite entry on the diagonal of the free form of a PSD matrix makes the row and
    the column NaN; unlike the two above, this does not validate. *)
Theorem C85_psd_nan : forall sz flen dlb dv fd x vv i, usable (PPsd sz flen dlb dv fd) ->
  length x = flen -> i < sz ->
  (exists y, nth_error x (i * (i + 1) / 2 + i) = Some y /\ ~ finite y) ->
  exists a, fold (PPsd sz flen dlb dv fd) (vec x) (Some true) vv = Ok (FArr a) /\ shp a = [sz; sz] /\
    (forall j, j < sz -> mat_of sz a i j = NaN /\ mat_of sz a j i = NaN) /\
    exists m, validate snum (PPsd sz flen dlb dv fd) (FArr a) (Some true) = Ok (Some m).
Proof. exact psd_lost. Qed.
Print Assumptions C85_psd_nan.

Example C85_nan_cases : usable d_num /\ finite (pyval (PyInt 0)) /\ finite (pyval (PyInt 1)) /\
  nth_error [PInf; Fin 0] 0 = Some PInf /\ usable d_simp /\
  In PInf (slice [Fin 0; PInf] (1 * (2 - 1)) (2 - 1)) /\
  usable d_cov /\ nth_error [Fin 0; Fin 1; NInf] (1 * (1 + 1) / 2 + 1) = Some NInf /\ ~ finite NInf.
Proof. exact lost_cases. Qed.

(** A non-finite entry below the diagonal, in column [j], makes the entries of its row and
    column up to [j] NaN; from the second column on this does not validate. *)
Theorem C85_psd_off_diagonal : forall sz flen dlb dv fd x vv i j, usable (PPsd sz flen dlb dv fd) -> length x = flen ->
  i < sz -> j < i ->
  (exists y, nth_error x (i * (i + 1) / 2 + j) = Some y /\ ~ finite y) ->
  exists a, fold (PPsd sz flen dlb dv fd) (vec x) (Some true) vv = Ok (FArr a) /\ shp a = [sz; sz] /\
    (forall k, k < j -> mat_of sz a i k = NaN /\ mat_of sz a k i = NaN) /\
    (0 < j -> exists m, validate snum (PPsd sz flen dlb dv fd) (FArr a) (Some true) = Ok (Some m)).
Proof. exact psd_off_diagonal. Qed.
Print Assumptions C85_psd_off_diagonal.

Example C85_psd_off_diagonal_case : usable (PPsd 3 6 (PyInt 0) true None) /\
  length [Fin 0; Fin 0; Fin 0; Fin 0; PInf; Fin 0] = 6 /\
  nth_error [Fin 0; Fin 0; Fin 0; Fin 0; PInf; Fin 0] (2 * (2 + 1) / 2 + 1) = Some PInf /\ ~ finite PInf.
Proof. exact off_diagonal_case. Qed.

(** In the first column no entry need become NaN: the value is infinite, validates, and
    cannot be flattened. *)
Theorem C85_psd_first_column_refuted : exists a, fold (PPsd 2 3 (PyInt 0) true None) (vec [Fin 0; PInf; Fin 0]) (Some true) None = Ok (FArr a) /\
    dat a = [Fin 1; PInf; PInf; PInf] /\
    validate snum (PPsd 2 3 (PyInt 0) true None) (FArr a) (Some true) = Ok None /\
    flatten (PPsd 2 3 (PyInt 0) true None) (FArr a) (Some true) None = Err LinAlgError.
Proof. exact psd_infinite_column. Qed.
Print Assumptions C85_psd_first_column_refuted.

(** [logsumexp] with infinite entries. *)
Theorem C85_logsumexp : forall x l,
  (Forall low (x :: l) -> Exists finite (x :: l) ->
   logsumexp x l = Fin (ln (Rlsum (map ex (x :: l))))) /\
  (Forall (eq NInf) (x :: l) -> logsumexp x l = NaN) /\
  (In PInf (x :: l) \/ In NaN (x :: l) -> logsumexp x l = NaN).
Proof. exact lse_edges. Qed.
Print Assumptions C85_logsumexp.

Example C85_logsumexp_case : Forall low [NInf; Fin 0; Fin 1] /\ Exists finite [NInf; Fin 0; Fin 1].
Proof. exact lse_case. Qed.

(** "Whatever a free vector without NaN folds to is rejected by validation or flattens back
    to it": [inf] between two bounds folds to NaN, which validates and flattens to NaN. *)
Theorem C85_every_infinity_refuted : ~ (forall p x vv, usable p ->
  flat_length p (Some true) = Ok (plint (length x)) -> ~ In NaN x ->
  exists v, fold p (vec x) (Some true) vv = Ok v /\
    (validate snum p v (Some true) = Ok None -> flatten p v (Some true) (Some true) = Ok x)).
Proof. exact infinite_fold_refuted. Qed.
Print Assumptions C85_every_infinity_refuted.
