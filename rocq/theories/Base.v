(** * Exceptions as values, and list utilities.

    Python exceptions are modelled as values of [exn]; a call that may raise
    returns [res].  Exception messages are not modelled (the messages returned
    by [validate_folded] are, see Pattern.v). *)
From Coq Require Export List Arith ZArith Bool Lia.
Export ListNotations.

(** The exception classes the modelled code can raise.  [Unmodelled] marks
    results that this model does not determine (each use says why). *)
Inductive exn : Type :=
| ValueError | KeyError | TypeError | AttributeError | AssertionError
| NotImplementedError | IndexError | LinAlgError | FileNotFound | Unmodelled.

Inductive res (A : Type) : Type :=
| Ok (a : A)
| Err (e : exn).
Arguments Ok {A} _.
Arguments Err {A} _.

Definition bind {A B} (x : res A) (f : A -> res B) : res B :=
  match x with Ok a => f a | Err e => Err e end.

Declare Scope res_scope.
Delimit Scope res_scope with res.
Notation "x <- e ;; k" := (bind e (fun x => k))
  (at level 61, e at next level, right associativity) : res_scope.
Open Scope res_scope.

(** A Python [for] loop or list comprehension whose body may raise. *)
Definition mapM {A B} (f : A -> res B) : list A -> res (list B) :=
  fix mapM l :=
    match l with
    | [] => Ok []
    | a :: l' => b <- f a ;; bs <- mapM l' ;; Ok (b :: bs)
    end.

(** Elementwise combination of two vectors; stops at the shorter one. *)
Fixpoint map2 {A B C} (f : A -> B -> C) (l : list A) (m : list B) : list C :=
  match l, m with
  | a :: l', b :: m' => f a b :: map2 f l' m'
  | _, _ => []
  end.

(** [l[off : off+len]] for integer bounds (Python slices truncate). *)
Definition slice {A} (l : list A) (off len : nat) : list A :=
  firstn len (skipn off l).

(** [l[mask]] for a boolean mask of the same length. *)
Fixpoint select {A} (l : list A) (mask : list bool) : list A :=
  match l, mask with
  | a :: l', b :: m' => if b then a :: select l' m' else select l' m'
  | _, _ => []
  end.

(** Replace position [i] of [l] by [x] (no effect when out of range). *)
Fixpoint upd {A} (l : list A) (i : nat) (x : A) : list A :=
  match l, i with
  | [], _ => []
  | _ :: l', O => x :: l'
  | a :: l', S i' => a :: upd l' i' x
  end.

Definition anyb (l : list bool) : bool := existsb (fun b => b) l.

(** Sum of a list of naturals. *)
Definition lsum (l : list nat) : nat := fold_right Nat.add 0 l.
