(** * Specification vocabulary for matrices. *)
From Coq Require Import Reals.
From Verif Require Import Base Num Nd Spec.

(** [L] is a lower triangular matrix with positive diagonal and [L L' = m] on the
    first [n] indices. *)
Definition chol_factor (n : nat) (m L : nat -> nat -> R) : Prop :=
  (forall i j, i < j -> L i j = 0%R) /\
  (forall i, i < n -> (0 < L i i)%R) /\
  (forall i j, i < n -> j < n -> Rsum n (fun k => L i k * L j k)%R = m i j).

(** The triangular numbers. *)
Definition triangular (len n : nat) : Prop := 2 * len = n * (n + 1).

(** Inner product of two vectors. *)
Definition dot (u v : list R) : R := Rlsum (map2 Rmult u v).
