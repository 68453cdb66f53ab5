(** * Free simplex coordinates of up to a given size. *)
From Coq Require Import Reals ZArith List.
From Flocq Require Import IEEE754.BinarySingleNaN.
From Verif Require Import Base Flt SpecFlt.
Local Open Scope R_scope.

(** Up to 2^20 - 1 finite numbers between [-B] and [B]. *)
Definition wide (B : R) (x : list f64) : Prop :=
  0 <= B <= pow2 50 /\ (length x < Z.to_nat 1048576)%nat /\ Forall (fun v => fin v /\ Rabs (val v) <= B) x.

(** The finite numbers of a row. *)
Definition finite (row : list f64) : list f64 := filter (fun v : f64 => is_finite v) row.
(** The same, where some of the numbers may be -inf. *)
Definition wide_or_gone (B : R) (x : list f64) : Prop :=
  0 <= B <= pow2 50 /\ (length x < Z.to_nat 1048576)%nat /\
  Forall (fun v => v = fninf \/ (fin v /\ Rabs (val v) <= B)) x.
