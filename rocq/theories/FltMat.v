(** * PSD matrices of any size in binary64 arithmetic.

    Continues Flt.v: paragami/psdmatrix_patterns.py:66-99, 123-131, 149-154, 280-289 as numpy
    evaluates them on float64 arrays.  [np.matmul(l, l.T)] is a parameter (SpecFltMat.v
    says what is assumed of it). *)
From Coq Require Import ZArith.
From Flocq Require Import IEEE754.BinarySingleNaN.
From Verif Require Import Base Flt.
Local Open Scope list_scope.

(** [a * b + c] with one rounding, which BLAS uses where the processor has it. *)
Definition ffma : f64 -> f64 -> f64 -> f64 := @Bfma 53 1024 prec64 emax64 mode_NE.

(** Entry [i, j] of [np.matmul(l, l.T)] for an [n x n] array [l]. *)
Definition gram64 : Type := nat -> (nat -> nat -> f64) -> nat -> nat -> f64.

(** psdmatrix_patterns.py:66-99 [_unvectorize_ld_matrix] of a vector of the right length:
    zeros, then the lower triangle row by row. *)
Definition lower64 (x : list f64) (i j : nat) : f64 :=
  if Nat.leb j i then nth (i * (i + 1) / 2 + j) x fnan else fzero.

(** psdmatrix_patterns.py:149-154 [_unpack_posdef_matrix], entry [i, j]. *)
Definition unpack64 (np : np64) (gram : gram64) (n : nat) (diag_lb : f64) (x : list f64)
    (i j : nat) : f64 :=
  fadd (gram n (exp_diag64 np (lower64 x)) i j) (if Nat.eqb i j then diag_lb else fzero).

(** psdmatrix_patterns.py:280-289: the value part of [validate_folded]. *)
Definition psd64_valid (n : nat) (diag_lb : f64) (m : nat -> nat -> f64) : bool :=
  negb (existsb (fun i => flt (m i i) diag_lb) (seq 0 n)) &&
  forallb (fun i => forallb (fun j => feq (m j i) (m i j)) (seq 0 n)) (seq 0 n).
