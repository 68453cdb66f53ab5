(** * When a free vector survives folding and flattening in float64. *)
From Coq Require Import Reals ZArith.
From Flocq Require Import IEEE754.BinarySingleNaN.
From Verif Require Import Base Num Nd Pattern Flt SpecFlt SpecFltMat FltPat.
Local Open Scope R_scope.

(** The derivative of the two-sided transform between 0 and 1 at [v]: up to a factor of 2 the
    smaller of the distances to 0 and 1. *)
Definition room (v : R) : R := exp v / ((1 + exp v) * (1 + exp v)).

(** The free value [v] of a numeric entry with the given bounds, and the error allowed. *)
Definition num_allows (lb ub : f64) (v e : R) : Prop :=
  match is_ninf lb, is_pinf ub with
  | true, true => 0 <= e
  | false, true =>
      Rabs (val lb) <= pow2 40 * exp v /\
      pow2 (-49) * (1 + Rabs v + Rabs (val lb) / exp v) <= e
  | true, false =>
      Rabs (val ub) <= pow2 40 * exp (- v) /\
      pow2 (-49) * (1 + Rabs v + Rabs (val ub) / exp (- v)) <= e
  | false, false =>
      let d := (val ub - val lb) * room v in
      pow2 (-95) <= d /\ Rabs (val lb) + Rabs (val ub) <= pow2 40 * d /\
      pow2 (-45) * (1 + Rabs v + Rabs (ln (val ub - val lb)) + (Rabs (val lb) + Rabs (val ub)) / d) <= e
  end.

(** The size of row [i] of what is computed with when an [n x n] matrix is folded. *)
Definition row_size (n : nat) (lb : f64) (x : list f64) (i : nat) : R :=
  sum_to n (magnitude x i) + sqrt (Rabs (val lb)).
(** The condition number of the factor with its rows scaled to size 1 is at most [K]: [W] is
    its inverse. *)
Definition conditioned (n : nat) (lb : f64) (x : list f64) (K : R) : Prop :=
  exists W : nat -> nat -> R,
    (forall i j, (i < n)%nat -> (j < n)%nat ->
       sum_to n (fun k => W i k * exact_factor x k j) = if Nat.eqb i j then 1 else 0) /\
    forall i, (i < n)%nat -> sum_to n (fun k => Rabs (W i k) * row_size n lb x k) <= K.

(** [e] holds an error bound for every entry of the free vector [x]: what rounding costs
    with the constraints of [p]. *)
Fixpoint allows (p : pat) (x : list f64) (e : list R) : Prop :=
  match p with
  | PNum _ _ lb ub _ _ =>
      forall k, (k < length x)%nat -> num_allows (bound64 lb) (bound64 ub) (val (nth k x fnan)) (nth k e 0)
  | PSimplex _ _ _ _ => forall k, (k < length x)%nat -> / 1000000000000 <= nth k e 0
  | PPsd sz _ dlb _ _ =>
      exists K, conditioned sz (bound64 dlb) x K /\ INR sz * INR (sz + 20) * (K * K) <= pow2 46 /\
      forall i j, (j <= i < sz)%nat ->
        pow2 (-46) * INR (sz + 20) * (K * K) * row_size sz (bound64 dlb) x i <= nth (i * (i + 1) / 2 + j) e 0
  | PArr s base _ =>
      let n := pl_n (flat_len base true) in
      forall i, (i < prod s)%nat -> allows base (slice x (i * n) n) (slice e (i * n) n)
  | PDict items _ _ _ _ =>
      (fix go (items : list (key * pat)) (x : list f64) (e : list R) : Prop :=
         match items with
         | nil => True
         | (_, q) :: r =>
             let n := pl_n (flat_len q true) in
             allows q (firstn n x) (firstn n e) /\ go r (skipn n x) (skipn n e)
         end) items x e
  end.

(** [y] is finite and within [e] of [x], entry by entry. *)
Definition within (e : list R) (x y : list f64) : Prop :=
  length y = length x /\
  forall k, (k < length x)%nat ->
    fin (nth k y fnan) /\ Rabs (val (nth k y fnan) - val (nth k x fnan)) <= nth k e 0.
