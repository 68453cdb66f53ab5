(** * Total derivatives and second-order behaviour. *)
From Coq Require Import Reals.
From Verif Require Import Base Num Nd Pattern Spec Jac SpecJac SpecDir.
Local Open Scope list_scope.
Local Open Scope nat_scope.

(** How far [z] is from [x], and the way from [x] to [z]. *)
Definition distance (x z : list R) : R := Rsum (length x) (fun i => Rabs (nth i z 0 - nth i x 0))%R.
Definition step (x z : list R) : list R := map2 (fun a b => b - a)%R x z.

(** [F] is defined near [x], its value there is [y], and the product of [J] with the step is
    the change of value up to an error that is small against the distance. *)
Definition total_derivative (F : list num -> res (list num)) (x y : list R) (J : matrix) : Prop :=
  F (map Fin x) = Ok (map Fin y) /\
  m_rows J = length y /\ m_cols J = length x /\
  forall eps, (0 < eps)%R -> exists delta, (0 < delta)%R /\
    forall z, length z = length x -> (distance x z < delta)%R ->
      exists u h, F (map Fin z) = Ok (map Fin u) /\ length u = length y /\
        matrix_times J (step x z) h /\
        forall i, i < length y -> (Rabs (nth i u 0 - nth i y 0 - nth i h 0) <= eps * distance x z)%R.

(** The quadratic form of [M] at [h]. *)
Definition quadratic (n : nat) (M : nat -> nat -> R) (h : list R) : R :=
  Rsum n (fun i => Rsum n (fun j => M i j * nth i h 0 * nth j h 0)%R).

(** The second-order expansion of [Phi] at [x]: gradient [gr], Hessian [M]. *)
Definition has_hessian (Phi : list R -> R) (x gr : list R) (M : nat -> nat -> R) : Prop :=
  length gr = length x /\
  forall eps, (0 < eps)%R -> exists delta, (0 < delta)%R /\
    forall z, length z = length x -> (distance x z < delta)%R ->
      (Rabs (Phi z - Phi x - dot gr (step x z) - quadratic (length x) M (step x z) / 2)
       <= eps * (distance x z * distance x z))%R.

(** [K] is the product of the transpose of [J], [M] and [J]. *)
Definition pulled_form (J : matrix) (M K : nat -> nat -> R) : Prop :=
  exists c : nat -> nat -> R,
    (forall i j, i < m_rows J -> j < m_cols J -> m_at J i j = Fin (c i j)) /\
    forall a b, a < m_cols J -> b < m_cols J ->
      K a b = Rsum (m_rows J) (fun i => Rsum (m_rows J) (fun j => c i a * M i j * c j b)%R).

(** [Phi] is larger than at [x] everywhere else nearby in [P]. *)
Definition strict_local_minimum_on (P : list R -> Prop) (Phi : list R -> R) (x : list R) : Prop :=
  exists r, (0 < r)%R /\
    forall z, P z -> (distance x z < r)%R -> z <> x -> (Phi x < Phi z)%R.
