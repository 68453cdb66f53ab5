(** * Specification vocabulary for reverse mode differentiation. *)
From Coq Require Import Reals.
From Verif Require Import Base Num Nd Psd Pattern Spec.
Local Open Scope list_scope.
Local Open Scope nat_scope.

(** What is asked of [np.linalg.solve]: for an upper triangular real matrix with no
    zero on the diagonal, [solve n a b] is a real matrix whose product with [a] is
    [b]. *)
Definition solves (solve : nat -> mat -> mat -> res mat) : Prop :=
  forall n (a b : mat) (ra rb : nat -> nat -> R),
    (forall i j, i < n -> j < n -> a i j = Fin (ra i j)) ->
    (forall i j, i < n -> j < n -> b i j = Fin (rb i j)) ->
    (forall i j, i < n -> j < i -> ra i j = 0%R) ->
    (forall i, i < n -> ra i i <> 0%R) ->
    exists (x : mat) (rx : nat -> nat -> R),
      solve n a b = Ok x /\
      (forall i j, i < n -> j < n -> x i j = Fin (rx i j)) /\
      forall i j, i < n -> j < n -> Rsum n (fun k => ra i k * rx k j)%R = rb i j.

(** No PSD pattern of the tree has size zero; the constructor makes none. *)
Fixpoint psds_nonempty (p : pat) : Prop :=
  match p with
  | PPsd n _ _ _ _ => 0 < n
  | PArr _ b _ => psds_nonempty b
  | PDict items _ _ _ _ => all_items (fun _ q => psds_nonempty q) items
  | _ => True
  end.

(** Entries mirrored in the diagonal have equal columns. *)
Definition mirrored_columns (n : nat) (at_ : nat -> nat -> num) : Prop :=
  forall k i j, i < n -> j < n -> at_ k (i * n + j) = at_ k (j * n + i).
