(** * Transforms of paragami/psdmatrix_patterns.py.

    A square matrix is a function of two indices together with its side
    length [n]; [mat_of] / [to_nd] convert from and to arrays. *)
From Coq Require Import Reals.
From Verif Require Import Base Num Nd.

Definition mat := nat -> nat -> num.

Definition mat_of (n : nat) (a : nd num) : mat :=
  fun i j => nth (i * n + j) (dat a) NaN.
Definition to_nd (n : nat) (m : mat) : nd num :=
  mkNd [n; n] (flat_map (fun i => map (fun j => m i j) (seq 0 n)) (seq 0 n)).

(** psdmatrix_patterns.py:11-32 [_sym_index]; the division by two is exact. *)
Definition ld_ind (k1 k2 : nat) : nat := k2 + k1 * (k1 + 1) / 2.
Definition sym_index (k1 k2 : nat) : nat :=
  if k2 <=? k1 then ld_ind k1 k2 else ld_ind k2 k1.

(** [np.tril_indices(n)]: positions of the lower triangle, row by row. *)
Definition tril (n : nat) : list (nat * nat) :=
  flat_map (fun i => map (fun j => (i, j)) (seq 0 (S i))) (seq 0 n).

(** psdmatrix_patterns.py:35-63 [_vectorize_ld_matrix] on an array. *)
Definition vectorize_ld (n : nat) (m : mat) : list num :=
  map (fun ij => m (fst ij) (snd ij)) (tril n).
Definition vectorize_ld_nd (a : nd num) : res (list num) :=
  match shp a with
  | [r; c] => if r =? c then Ok (vectorize_ld r (mat_of r a)) else Err ValueError
  | _ => Err ValueError   (* unpacking np.shape(mat) into two names fails *)
  end.

(** psdmatrix_patterns.py:66-99 [_unvectorize_ld_matrix].  The size is
    [int(0.5 * (math.sqrt(1 + 8 * n) - 1))]; the real square root is truncated
    by [int] so the integer square root gives the same number (no rounding). *)
Definition unvec_size (len : nat) : nat := (Nat.sqrt (1 + 8 * len) - 1) / 2.
Definition unvec_entry (v : list num) : mat :=
  fun k1 k2 => if k2 <=? k1 then nth (sym_index k1 k2) v NaN else Fin 0.
Definition unvectorize_ld (v : list num) : res (nat * mat) :=
  let n := unvec_size (length v) in
  if n * (n + 1) / 2 =? length v then Ok (n, unvec_entry v) else Err ValueError.

(** psdmatrix_patterns.py:106-112 registered vjp, 115-120 registered jvp. *)
Definition unvectorize_vjp (g : nd num) : res (list num) := 
  match shp g with
  | r :: c :: _ => if r =? c then vectorize_ld_nd g else Err AssertionError
  | _ => Err IndexError   (* g.shape[1] of an array with fewer than two axes *)
  end.
Definition unvectorize_jvp (g : list num) : res (nat * mat) := unvectorize_ld g.

(** [np.make_diagonal(d, offset=0, axis1=-1, axis2=-2)]. *)
Definition make_diagonal (d : nat -> num) : mat :=
  fun i j => if i =? j then d i else Fin 0.

(** psdmatrix_patterns.py:123-129 [_exp_matrix_diagonal]. *)
Definition exp_diag (m : mat) : mat :=
  fun i j => nsub (nadd (make_diagonal (fun k => nexp (m k k)) i j) (m i j))
                  (make_diagonal (fun k => m k k) i j).
(** psdmatrix_patterns.py:132-138 [_log_matrix_diagonal]. *)
Definition log_diag (m : mat) : mat :=
  fun i j => nsub (nadd (make_diagonal (fun k => nlog (m k k)) i j) (m i j))
                  (make_diagonal (fun k => m k k) i j).

(** [np.linalg.cholesky]: LAPACK potrf on the lower triangle.  Row-by-row
    factorisation; the rows computed so far are [rows] (row i has i+1 entries).
    A pivot that is not positive (or NaN) raises LinAlgError. *)
Definition dotn (u v : list num) : num := nsum (map2 nmul u v).

(** Off-diagonal entries of row [i]: [(A[i,j] - sum_{k<j} L[i,k] L[j,k]) / L[j,j]]. *)
Fixpoint chol_off (arow : nat -> num) (rows : list (list num)) (acc : list num)
  : list num :=
  match rows with
  | [] => acc
  | r :: rows' =>
      let j := length acc in
      chol_off arow rows' (acc ++ [ndiv (nsub (arow j) (dotn acc r)) (nth j r NaN)])
  end.

Definition chol_row (A : mat) (rows : list (list num)) : res (list num) :=
  let i := length rows in
  let off := chol_off (A i) rows [] in
  let pivot := nsub (A i i) (dotn off off) in
  if ngtb pivot (Fin 0) then Ok (off ++ [nsqrt pivot]) else Err LinAlgError.

Fixpoint chol_rows (A : mat) (n : nat) : res (list (list num)) :=
  match n with
  | O => Ok []
  | S n' => rows <- chol_rows A n' ;; r <- chol_row A rows ;; Ok (rows ++ [r])
  end.

Definition cholesky (n : nat) (A : mat) : res mat :=
  rows <- chol_rows A n ;;
  Ok (fun i j => if j <=? i then nth j (nth i rows []) NaN else Fin 0).

(** psdmatrix_patterns.py:141-146 [_pack_posdef_matrix]. *)
Definition pack_posdef (n : nat) (m : mat) (diag_lb : num) : res (list num) :=
  let mat_lb := fun i j => nsub (m i j) (make_diagonal (fun _ => diag_lb) i j) in
  c <- cholesky n mat_lb ;;
  Ok (vectorize_ld n (log_diag c)).

(** [np.matmul(c, c.T)] of an [n x n] matrix. *)
Definition mul_transpose (n : nat) (c : mat) : mat :=
  fun i j => nsum (map (fun k => nmul (c i k) (c j k)) (seq 0 n)).

(** psdmatrix_patterns.py:149-154 [_unpack_posdef_matrix]. *)
Definition unpack_posdef (v : list num) (diag_lb : num) : res (nd num) :=
  nm <- unvectorize_ld v ;;
  let n := fst nm in
  let m := mul_transpose n (exp_diag (snd nm)) in
  Ok (to_nd n (fun i j => nadd (m i j) (make_diagonal (fun _ => diag_lb) i j))).

(** psdmatrix_patterns.py:161-169 [_unvectorize_symmetric_matrix] (not used by
    the library itself). *)
Definition unvectorize_symmetric (v : list num) : res (nat * mat) :=
  nm <- unvectorize_ld v ;;
  let ld := snd nm in
  Ok (fst nm, fun i j => nsub (nadd (ld i j) (ld j i))
                              (make_diagonal (fun k => ld k k) i j)).
