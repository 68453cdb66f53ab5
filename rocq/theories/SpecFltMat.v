(** * What is assumed of [np.matmul(l, l.T)] on float64. *)
From Coq Require Import Reals ZArith Permutation.
From Verif Require Import Base Flt SpecFlt FltMat.
Local Open Scope R_scope.

(** [r] is obtained by multiplying the pairs and adding up, in some order and with or
    without fused multiply-adds. *)
Inductive dot_of : list (f64 * f64) -> f64 -> Prop :=
| dot_none : dot_of [] fzero
| dot_mul x y : dot_of [(x, y)] (fmul x y)
| dot_fma x y l a : dot_of l a -> dot_of ((x, y) :: l) (ffma x y a)
| dot_add l m a b : dot_of l a -> dot_of m b -> dot_of (l ++ m) (fadd a b)
| dot_perm l m a : Permutation l m -> dot_of l a -> dot_of m a.

(** Every entry is such a sum over two rows of [l], and entries mirrored at the diagonal
    are the same: numpy hands the product of an array with its own transpose to the BLAS
    routine [syrk], which computes one triangle. *)
Record gram_contract (g : gram64) : Prop := {
  gram_entry : forall n l i j, (i < n)%nat -> (j < n)%nat ->
    dot_of (map (fun k => (l i k, l j k)) (seq 0 n)) (g n l i j);
  gram_mirror : forall n l i j, g n l i j = g n l j i }.

(** Free vectors of [n x n] matrices without overflow: entry [(i, j)] of the factor is at
    position [i (i + 1) / 2 + j]. *)
Definition tame (n : nat) (x : list f64) : Prop :=
  (n <= Z.to_nat 1000000)%nat /\
  forall i j, (j <= i < n)%nat ->
    exists v, nth_error x (i * (i + 1) / 2 + j) = Some v /\ fin v /\
      Rabs (val v) <= pow2 400 /\ (i = j -> val v <= 250).

(** The exact factor and the size of what is computed with. *)
Definition entry64 (x : list f64) (i j : nat) : R := val (nth (i * (i + 1) / 2 + j) x fnan).
Definition exact_factor (x : list f64) (i j : nat) : R :=
  if Nat.ltb i j then 0 else if Nat.eqb i j then exp (entry64 x i i) else entry64 x i j.
Definition magnitude (x : list f64) (i j : nat) : R :=
  if Nat.ltb i j then 0 else if Nat.eqb i j then exp (entry64 x i i) + Rabs (entry64 x i i)
  else Rabs (entry64 x i j).
Definition sum_to (n : nat) (f : nat -> R) : R := rsum (map f (seq 0 n)).
