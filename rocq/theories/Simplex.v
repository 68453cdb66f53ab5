(** * Transforms of paragami/simplex_patterns.py, one simplex (last axis) at a
    time. *)
From Coq Require Import Reals.
From Verif Require Import Base Num Nd.

(** simplex_patterns.py:15-23 [logsumexp] along the last axis of one row.
    numpy's max of an empty row raises ValueError; the library only calls it on
    rows of length >= 2, so the head is passed separately.  The [type(axis) is
    int] guard (18-20) is not modelled: the axis is fixed to the last one. *)
Definition logsumexp (x : num) (l : list num) : num :=
  let m := nmaxl x l in
  nadd (nlog (nsum (map (fun y => nexp (nsub y m)) (x :: l)))) m.

(** simplex_patterns.py:26-36 [_constrain_simplex_matrix], one row. *)
Definition constrain_row (free : list num) : list num :=
  let aug := Fin 0 :: free in
  let log_norm := logsumexp (Fin 0) free in
  map (fun x => nexp (nsub x log_norm)) aug.

(** simplex_patterns.py:46-48 [_unconstrain_simplex_matrix], one row. *)
Definition unconstrain_row (s : list num) : list num :=
  match s with
  | [] => []
  | s0 :: rest => map (fun x => nsub (nlog x) (nlog s0)) rest
  end.

(** simplex_patterns.py:39-43 [_constrain_simplex_jacobian]: entry (i,j) of
    the [n x (n-1)] matrix ([jac[:, 1:]]). *)
Definition constrain_row_jac (s : list num) (i j : nat) : num :=
  nadd (nmul (Fin (-1)) (nmul (nth i s NaN) (nth (S j) s NaN)))
       (if i =? S j then nth i s NaN else Fin 0).

(** simplex_patterns.py:51-56 [_unconstrain_simplex_jacobian]: entry (i,j) of
    the [(n-1) x n] matrix. *)
Definition unconstrain_row_jac (s : list num) (i j : nat) : num :=
  match j with
  | O => ndiv (Fin (-1)) (nth 0 s NaN)
  | S j' => if i =? j' then ndiv (Fin 1) (nth (S j') s NaN) else Fin 0
  end.

(** simplex_patterns.py:157: the tolerance literal [1e-12] (as the exact
    decimal number). *)
Definition simplex_tol : num := Fin (/ 1000000000000).

(** simplex_patterns.py:156-157: is the sum of this row off by more than the
    tolerance? *)
Definition row_sum_bad (row : list num) : bool :=
  ngtb (nabs (nsub (nsum row) (Fin 1))) simplex_tol.
