(** * Specification vocabulary for the autograd supplements. *)
From Coq Require Import Reals.
From Verif Require Import Base Num Nd Spec Jac Optim SpecOptim AdSupp.
Local Open Scope list_scope.
Local Open Scope nat_scope.

(** The array of shape [s] whose entry at flat position [i] is [f i]. *)
Definition farr (s : list nat) (f : nat -> R) : nd num := mkNd s (fvec (prod s) f).

(** [J] is the derivative of [F], from shape [s] to shape [s'], at every point in every
    direction: as the maps are linear, the difference quotient is exact. *)
Definition exact_derivative (s s' : list nat) (F J : nd num -> res (nd num)) : Prop :=
  forall x u, exists y d,
    F (farr s x) = Ok (farr s' y) /\ J (farr s u) = Ok (farr s' d) /\
    forall t, F (farr s (fun i => x i + t * u i)%R) = Ok (farr s' (fun i => y i + t * d i)%R).
(** [G] is the adjoint of [J]: [<J u, v> = <u, G v>]. *)
Definition adjoint (s s' : list nat) (J G : nd num -> res (nd num)) : Prop :=
  forall u v, exists d w,
    J (farr s u) = Ok (farr s' d) /\ G (farr s' v) = Ok (farr s w) /\
    Rsum (prod s') (fun i => d i * v i)%R = Rsum (prod s) (fun i => u i * w i)%R.

(** Label [z] stands for group [k] of [K]; negative labels count from the end. *)
Definition belongs (K : nat) (z : Z) (k : nat) : bool :=
  ((z =? Z.of_nat k) || (z =? Z.of_nat k - Z.of_nat K))%Z.
Definition in_range (K : nat) (z : Z) : Prop := (- Z.of_nat K <= z < Z.of_nat K)%Z.
(** The number of groups is [K]: given, or one more than the largest label. *)
Definition group_count (K : nat) (zs : list Z) (num : option Z) : Prop :=
  num = Some (Z.of_nat K) \/ (num = None /\ In (Z.of_nat K - 1)%Z zs).

(** [p] is the last position of [l] at which label [z] stands for row [k] of [n]. *)
Definition last_at (n : nat) (l : list Z) (k p : nat) : Prop :=
  p < length l /\ belongs n (nth p l 0%Z) k = true /\
  forall q, p < q -> q < length l -> belongs n (nth q l 0%Z) k = false.
(** Every row of [n] is selected at most once. *)
Definition distinct_rows (n : nat) (l : list Z) : Prop :=
  forall p q k, p < length l -> q < length l -> belongs n (nth p l 0%Z) k = true ->
    belongs n (nth q l 0%Z) k = true -> p = q.

(** Which primitive a derivative of some order evaluates: forward and reverse steps. *)
Inductive step : Type := Forward | Reverse.
Definition derived (p : prim) (path : list step) : prim :=
  fold_left (fun p s => match s with Forward => p | Reverse => other p end) path p.
(** [f] on shape [(n,)] is a solver for [m]: it returns a solution of [m x = b]. *)
Definition solves (n : nat) (m : nat -> nat -> R) (f : nd num -> res (nd num)) : Prop :=
  forall b, exists x, f (farr [n] b) = Ok (farr [n] x) /\
    forall i, i < n -> Rmatvec n m x i = b i.

(** ** Matrix functions *)
(** [P] holds for all small [t]. *)
Definition near0 (P : R -> Prop) : Prop := exists d, (0 < d)%R /\ forall t, (Rabs t < d)%R -> P t.
(** [Q t] determines a vector (matrix) for small [t], and every choice of such vectors
    (matrices) is differentiable at [0] with derivative [D]. *)
Definition vector_derivative (n : nat) (Q : R -> (nat -> R) -> Prop) (D : nat -> R) : Prop :=
  near0 (fun t => exists x, Q t x) /\
  forall x : R -> nat -> R, near0 (fun t => Q t (x t)) ->
    forall i, i < n -> derivable_pt_lim (fun t => x t i) 0 (D i).
Definition matrix_derivative (n m : nat) (Q : R -> (nat -> nat -> R) -> Prop) (D : nat -> nat -> R) : Prop :=
  near0 (fun t => exists x, Q t x) /\
  forall x : R -> nat -> nat -> R, near0 (fun t => Q t (x t)) ->
    forall i j, i < n -> j < m -> derivable_pt_lim (fun t => x t i j) 0 (D i j).
Definition invertible (n : nat) (a : nat -> nat -> R) : Prop := exists b, inverse_matrices n a b.
(** [a + t g] *)
Definition moved (a g : nat -> nat -> R) (t : R) : nat -> nat -> R := fun i j => (a i j + t * g i j)%R.
(** [a x = b] for vectors of length [n] and for [n] by [m] matrices. *)
Definition solution1 (n : nat) (a : nat -> nat -> R) (b x : nat -> R) : Prop :=
  forall i, i < n -> Rsum n (fun k => a i k * x k)%R = b i.
Definition solution2 (n m : nat) (a b x : nat -> nat -> R) : Prop :=
  forall i j, i < n -> j < m -> Rsum n (fun k => a i k * x k j)%R = b i j.

(** Contracts of the linear algebra routines, for invertible matrices of finite
    numbers. *)
Definition inverter (inv : matrix -> res matrix) : Prop :=
  forall n a s, is_array n n a s -> invertible n a ->
    exists b r, inv s = Ok r /\ is_array n n b r /\ inverse_matrices n a b.
Definition linear_solver (solve : matrix -> arr12 -> res arr12) : Prop :=
  forall n a s, is_array n n a s -> invertible n a ->
    (forall b, exists x, solve s (A1 (fvec n b)) = Ok (A1 (fvec n x)) /\ solution1 n a b x) /\
    (forall m b bs, is_array n m b bs ->
       exists x r, solve s (A2 bs) = Ok (A2 r) /\ is_array n m x r /\ solution2 n m a b x).

(** ** Special functions *)
(** On the open set [ok], [ga] is differentiable without zeros, [po 0] is its
    logarithmic derivative, and [po (n+1)] is the derivative of [po n]. *)
Definition gamma_family (ok : R -> Prop) (ga : R -> R) (po : nat -> R -> R) : Prop :=
  (forall x, ok x -> exists d, (0 < d)%R /\ forall y, (Rabs (y - x) < d)%R -> ok y) /\
  (forall x, ok x -> ga x <> 0%R /\ derivable_pt_lim ga x (ga x * po 0%nat x)%R) /\
  (forall n x, ok x -> derivable_pt_lim (po n) x (po (S n) x)).
Definition computes (ok : R -> Prop) (f : num -> num) (F : R -> R) : Prop :=
  forall x, ok x -> f (Fin x) = Fin (F x).
(** [d] is the derivative of [F] at [x] in direction [u]. *)
Definition directional (F : R -> R) (x u d : R) : Prop := derivable_pt_lim (fun s => F (x + s * u)%R) 0 d.
