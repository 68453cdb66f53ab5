(** * What the float64 sums are compared with. *)
From Coq Require Import Reals ZArith List Arith.
From Verif Require Import Base Nd Flt SpecFlt SpecAd.
Import ListNotations.
Local Open Scope nat_scope.

(** The entries of column [j] whose label names group [k], first to last. *)
Definition members (K : nat) (zs : list Z) (m : nat) (xs : list f64) (k j : nat) : list f64 :=
  map (fun n => nth (n * m + j) xs fnan) (filter (fun n => belongs K (nth n zs 0%Z) k) (seq 0 (length zs))).
(** Added to zero one after the other, rounding every time. *)
Definition running (l : list f64) : f64 := fold_left fadd l fzero.
Definition total (l : list f64) : R := fold_right Rplus 0%R (map val l).
Definition mass (l : list f64) : R := fold_right Rplus 0%R (map (fun v => Rabs (val v)) l).
(** A double that is a whole number. *)
Definition whole (v : f64) : Prop := fin v /\ exists z, val v = IZR z.
(** [log(sum(exp(row)))] in real numbers. *)
Definition real_lse (row : list f64) : R := ln (fold_right Rplus 0%R (map (fun v => exp (val v)) row)).
