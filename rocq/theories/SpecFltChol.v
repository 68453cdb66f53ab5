(** * What is assumed of [np.linalg.cholesky] on float64. *)
From Coq Require Import Reals ZArith Permutation.
From Verif Require Import Base Flt SpecFlt FltMat SpecFltMat FltChol.
Local Open Scope R_scope.

(** [r] is [a] minus the products of the pairs, subtracted in some order, one by one or in
    groups, with or without fused multiply-adds. *)
Inductive less_of (a : f64) : list (f64 * f64) -> f64 -> Prop :=
| less_none : less_of a [] a
| less_group l m r d : less_of a l r -> dot_of m d -> less_of a (m ++ l) (fsub r d)
| less_fma x y l r : less_of a l r -> less_of a ((x, y) :: l) (ffma (fneg x) y r)
| less_perm l m r : Permutation l m -> less_of a l r -> less_of a m r.

(** What is left of entry [i, j] when the columns before [j] are done. *)
Definition remainder (b l : nat -> nat -> f64) (i j : nat) (s : f64) : Prop :=
  less_of (b i j) (map (fun k => (l i k, l j k)) (seq 0 j)) s.

(** Column [j] of the factor: the root of a positive pivot, and below it quotients by the
    root (or products with its reciprocal). *)
Definition column (n : nat) (b l : nat -> nat -> f64) (j : nat) : Prop :=
  (exists s, remainder b l j j s /\ flt fzero s = true /\ l j j = fsqrt s) /\
  forall i, (j < i < n)%nat -> exists s, remainder b l i j s /\
    (l i j = fdiv s (l j j) \/ l i j = fmul s (fdiv fone (l j j))).

(** LAPACK's [potrf] builds the columns one after the other until a pivot is not positive
    (or NaN); only the lower triangle is read. *)
Record chol_contract (chol : chol64) : Prop := {
  chol_done : forall n b l, chol n b = Some l ->
    (forall j, (j < n)%nat -> column n b l j) /\ forall i j, (i < j < n)%nat -> l i j = fzero;
  chol_stop : forall n b, chol n b = None ->
    exists l j s, (j < n)%nat /\ (forall k, (k < j)%nat -> column n b l k) /\
      remainder b l j j s /\ flt fzero s = false }.

(** Matrices without overflow: the diagonal minus [lb] is not tiny or huge. *)
Definition decent (n : nat) (lb : f64) (m : nat -> nat -> f64) : Prop :=
  (n <= Z.to_nat 1000000)%nat /\ fin lb /\
  (forall i j, (i < n)%nat -> (j < n)%nat -> fin (m i j)) /\
  (forall i j, (i < n)%nat -> (j < n)%nat -> i <> j -> Rabs (val (m i j)) <= pow2 400) /\
  forall i, (i < n)%nat -> pow2 (-800) <= val (m i i) - val lb <= pow2 400.
(** The size of entry [i, j]: the root of the product of the diagonal entries minus [lb]. *)
Definition scale (lb : f64) (m : nat -> nat -> f64) (i j : nat) : R :=
  sqrt ((val (m i i) - val lb) * (val (m j j) - val lb)).

(** The matrix minus [lb] on the diagonal, its quadratic form, and the size of a vector. *)
Definition shifted (lb : f64) (m : nat -> nat -> f64) (i j : nat) : R :=
  val (m i j) - (if Nat.eqb i j then val lb else 0).
Definition form (n : nat) (f : nat -> nat -> R) (z : nat -> R) : R :=
  sum_to n (fun i => sum_to n (fun j => z i * f i j * z j)).
Definition reach (n : nat) (lb : f64) (m : nat -> nat -> f64) (z : nat -> R) : R :=
  sum_to n (fun i => Rabs (z i) * sqrt (val (m i i) - val lb)).
