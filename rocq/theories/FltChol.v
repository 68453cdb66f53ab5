(** * Flattening PSD matrices of any size in binary64 arithmetic.

    Continues FltMat.v: paragami/psdmatrix_patterns.py:35-63, 132-138, 141-146 and 291-299 as
    numpy evaluates them on float64 arrays.  [np.linalg.cholesky] is a parameter
    (SpecFltChol.v says what is assumed of it). *)
From Coq Require Import ZArith.
From Flocq Require Import IEEE754.BinarySingleNaN.
From Verif Require Import Base Flt FltMat.
Local Open Scope list_scope.

Definition fneg : f64 -> f64 := @Bopp 53 1024.

(** [np.linalg.cholesky] of an [n x n] array: the factor, or LinAlgError. *)
Definition chol64 : Type := nat -> (nat -> nat -> f64) -> option (nat -> nat -> f64).

(** psdmatrix_patterns.py:35-63 [_vectorize_ld_matrix]: the lower triangle row by row. *)
Definition triangle64 (n : nat) (m : nat -> nat -> f64) : list f64 :=
  flat_map (fun i => map (m i) (seq 0 (i + 1))) (seq 0 n).

(** psdmatrix_patterns.py:143-144: [mat_lb], entry [i, j]. *)
Definition less_diag64 (diag_lb : f64) (m : nat -> nat -> f64) (i j : nat) : f64 :=
  fsub (m i j) (if Nat.eqb i j then diag_lb else fzero).

(** psdmatrix_patterns.py:141-146 [_pack_posdef_matrix]. *)
Definition pack64 (np : np64) (chol : chol64) (n : nat) (diag_lb : f64) (m : nat -> nat -> f64)
  : res (list f64) :=
  match chol n (less_diag64 diag_lb m) with
  | Some l => Ok (triangle64 n (log_diag64 np l))
  | None => Err LinAlgError
  end.

(** psdmatrix_patterns.py:291-299: [flatten(free=True)] with validation of an [n x n]
    array. *)
Definition flatten64 (np : np64) (chol : chol64) (n : nat) (diag_lb : f64) (m : nat -> nat -> f64)
  : res (list f64) :=
  if psd64_valid n diag_lb m then pack64 np chol n diag_lb m else Err ValueError.
