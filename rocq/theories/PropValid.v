(** * Property theorems C07, C08, C10, C17. *)
From Coq Require Import Reals.
From Verif Require Import Base Num Nd Pattern Spec SpecValid Valid Empty Demo DemoValid.

Theorem C07_validate_iff : forall p v, usable p -> fv_ok v ->
  (validate snum p v (Some true) = Ok None <-> valid p v).
Proof. exact validate_iff. Qed.
Print Assumptions C07_validate_iff.

(** A numeric value equal to a bound everywhere, or NaN everywhere, validates. *)
Theorem C07_bounds_and_nan_validate : forall k s lb ub dv fd x,
  usable (PNum k s lb ub dv fd) -> x = pyval lb \/ x = pyval ub \/ x = NaN ->
  validate snum (PNum k s lb ub dv fd) (FArr (mkNd s (repeat x (prod s)))) (Some true) = Ok None.
Proof. exact bound_validates. Qed.
Print Assumptions C07_bounds_and_nan_validate.

Example C07_case : usable demo /\ fv_ok demo_value /\ valid demo demo_value /\
  fv_ok demo_invalid /\ ~ valid demo demo_invalid.
Proof. exact demo_valid_case. Qed.

Theorem C08_upper_bound_lost : forall k s lb ub dv fd a l u,
  usable (PNum k s lb ub dv fd) -> pyval lb = Fin l -> pyval ub = Fin u ->
  nd_ok a -> validate snum (PNum k s lb ub dv fd) (FArr a) (Some true) = Ok None ->
  exists x b, flatten (PNum k s lb ub dv fd) (FArr a) (Some true) (Some true) = Ok x /\
    fold (PNum k s lb ub dv fd) (vec x) (Some true) (Some true) = Ok (FArr b) /\
    forall i, i < prod s -> nth i (dat a) NaN = Fin u ->
      nth i x NaN = PInf /\ nth i (dat b) NaN = NaN.
Proof. exact upper_bound_lost. Qed.
Print Assumptions C08_upper_bound_lost.

Theorem C08_other_bounds_kept : forall k s lb ub dv fd a,
  usable (PNum k s lb ub dv fd) ->
  nd_ok a -> validate snum (PNum k s lb ub dv fd) (FArr a) (Some true) = Ok None ->
  exists x b, flatten (PNum k s lb ub dv fd) (FArr a) (Some true) (Some true) = Ok x /\
    fold (PNum k s lb ub dv fd) (vec x) (Some true) (Some true) = Ok (FArr b) /\
    (forall i r, i < prod s -> nth i (dat a) NaN = Fin r -> pyval lb = Fin r ->
      nth i x NaN = NInf /\ nth i (dat b) NaN = Fin r) /\
    (forall i r, i < prod s -> nth i (dat a) NaN = Fin r -> pyval ub = Fin r -> pyval lb = NInf ->
      nth i x NaN = PInf /\ nth i (dat b) NaN = Fin r).
Proof. exact other_bounds_kept. Qed.
Print Assumptions C08_other_bounds_kept.

Example C08_case : usable d_two /\
  validate snum d_two (FArr (mkNd [3] [Fin 5; Fin 2; Fin 3])) (Some true) = Ok None.
Proof. exact d_two_case. Qed.

Theorem C10_array_validation_answers : forall A (sc : scalar A) vv s b fd a,
  usable (PArr s b fd) ->
  (exists r, validate sc (PArr s b fd) (FArr a) vv = Ok r) /\
  (shp a <> s ++ folded_shape b -> exists m, validate sc (PArr s b fd) (FArr a) vv = Ok (Some m)).
Proof. exact array_validation_answers. Qed.
Print Assumptions C10_array_validation_answers.

Theorem C10_numeric_validation_answers : forall A (sc : scalar A) vv k s lb ub dv fd a,
  (exists r, validate sc (PNum k s lb ub dv fd) (FArr a) vv = Ok r) /\
  (shp (atleast_1d a) <> s ->
     validate sc (PNum k s lb ub dv fd) (FArr a) vv = Ok (Some MsgShape)).
Proof. exact numeric_validation_answers. Qed.
Print Assumptions C10_numeric_validation_answers.

Theorem C10_simplex_psd_validation_raises : forall A (sc : scalar A) vv p a,
  (exists n s dv fd, p = PSimplex n s dv fd) \/ (exists sz fl d dv fd, p = PPsd sz fl d dv fd) ->
  shp a <> folded_shape p ->
  validate sc p (FArr a) vv = Err ValueError.
Proof. exact simplex_psd_validation_raises. Qed.
Print Assumptions C10_simplex_psd_validation_raises.

Theorem C10_dict_validation_raises : forall A (sc : scalar A) vv before k q after l fl fd lk d w e,
  (forall k' q', In (k', q') before -> exists w', dict_get d k' = Some w' /\ validate sc q' w' vv = Ok None) ->
  dict_get d k = Some w -> validate sc q w vv = Err e ->
  validate sc (PDict (before ++ (k, q) :: after) l fl fd lk) (FDict d) vv = Err e /\
  (forall f, flatten_gen sc (PDict (before ++ (k, q) :: after) l fl fd lk) (FDict d) (Some f) vv = Err e).
Proof. exact dict_validation_raises. Qed.
Print Assumptions C10_dict_validation_raises.

Example C10_case : exists d w,
  validate snum d_num (FArr (mkNd [2] [Fin (1/2); Fin (1/4)])) (Some true) = Ok None /\
  validate snum d_simp (FArr w) (Some true) = Err ValueError /\
  validate snum demo (FDict d) (Some true) = Err ValueError /\
  validate snum d_arr (FArr (mkNd [5] (repeat (Fin 0) 5))) (Some true) = Ok (Some MsgDims).
Proof. exact demo_raises_case. Qed.

Theorem C17_empty_valid : forall p, usable p ->
  exists v, empty_valid p = Ok v /\ interior p v /\ canon p v = v /\
    (forall vv, validate snum p v vv = Ok None) /\
    forall vv vv', exists x, flatten p v (Some true) vv = Ok (map Fin x) /\
      fold p (vec (map Fin x)) (Some true) vv' = Ok v.
Proof. exact empty_valid_spec. Qed.
Print Assumptions C17_empty_valid.

Example C17_case : usable demo /\ usable d_two.
Proof. exact (conj demo_usable d_two_usable). Qed.
