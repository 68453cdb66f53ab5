(** * Vocabulary for curvature in preconditioned coordinates. *)
From Coq Require Import Reals.
From Verif Require Import Base Num Nd Pattern Spec SpecValid Jac FunWrap Optim SpecOptim.
Local Open Scope list_scope.
Local Open Scope nat_scope.

(** The product of the [n] by [n] matrix [A] with the list [z]. *)
Definition times (n : nat) (A : nat -> nat -> R) (z : list R) : list R :=
  map (fun i => Rsum n (fun j => A i j * nth j z 0)%R) (seq 0 n).

(** Calling [f] with a finite vector of length [n] gives the number [H] of it, presented by
    [ret], whatever the state. *)
Definition computes {S Y} (n : nat) (f : list num -> S -> res Y * S) (ret : R -> Y) (H : list R -> R) : Prop :=
  forall x st, length x = n -> exists st', f (map Fin x) st = (Ok (ret (H x)), st').

(** A function of one argument as a function of vectors. *)
Definition on_vectors {S} (g : callable (obj R) S) (x : list num) (st : S) : res (pyret (obj R)) * S :=
  c_call g [OVal (FArr (vec x))] [] st.
