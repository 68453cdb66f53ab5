(** * Reverse mode differentiation of the PSD transforms.

    [PSDSymmetricMatrixPattern] inherits [_freeing_jacobian] and
    [_unfreeing_jacobian], which are [autograd.jacobian] of [_freeing_transform]
    and [_unfreeing_transform] (base_patterns.py:26-27, 182-190).  In [Jac] what
    [autograd.jacobian] returns is a parameter; here it is computed by reverse
    mode.  Every primitive the transforms call has a
    vector-Jacobian product (vjp) taking the cotangent [g] of its value to that of
    its argument; the products are composed backwards through the code of
    psdmatrix_patterns.py, cotangents of a value used several times are added up,
    and a Jacobian is the stack of the results for the standard basis of
    cotangents.  The library's own vjp of [_unvectorize_ld_matrix]
    (psdmatrix_patterns.py:106-112) is [Psd.unvectorize_vjp].

    Autograd is not part of the repository and its source was not available: the
    vjps below of [+], [-], [exp], [log], [diag], [make_diagonal], [matmul],
    [transpose], [reshape], indexing and [cholesky] are the author's recollection
    of autograd's rules, not checked against its code.  They are assumptions about
    a dependency, like the models of numpy's functions.

    Not modelled: the tape and its topological order (the functions have no
    branches that depend on values), the order in which several cotangents are
    added, float64. *)
From Coq Require Import Reals.
From Verif Require Import Base Num Nd Psd Pattern Jac.

Definition mat_transpose (a : mat) : mat := fun i j => a j i.
Definition mat_add (a b : mat) : mat := fun i j => nadd (a i j) (b i j).
Definition mat_mul (n : nat) (a b : mat) : mat :=
  fun i j => nsum (map (fun k => nmul (a i k) (b k j)) (seq 0 n)).

(** psdmatrix_patterns.py:123-129 [_exp_matrix_diagonal], whose value is
    [make_diagonal(exp(diag(m))) + m - make_diagonal(diag(m))]: three cotangents of
    [m].  The vjp of [make_diagonal] takes the diagonal, the one of [diag] makes a
    diagonal matrix, the one of [exp] is [g * ans]. *)
Definition exp_diag_vjp (m g : mat) : mat :=
  mat_add (mat_add (make_diagonal (fun k => nmul (g k k) (nexp (m k k)))) g)
          (make_diagonal (fun k => nneg (g k k))).

(** psdmatrix_patterns.py:132-138 [_log_matrix_diagonal]; the vjp of [log] is
    [g / x]. *)
Definition log_diag_vjp (m g : mat) : mat :=
  mat_add (mat_add (make_diagonal (fun k => ndiv (g k k) (m k k))) g)
          (make_diagonal (fun k => nneg (g k k))).

(** [np.matmul(c, c.T)] (psdmatrix_patterns.py:152): [g @ (c.T).T] for the first
    argument, [c.T @ g] for the second, which is then transposed. *)
Definition matmul_transpose_vjp (n : nat) (c g : mat) : mat :=
  mat_add (mat_mul n g (mat_transpose (mat_transpose c)))
          (mat_transpose (mat_mul n (mat_transpose c) g)).

(** [mat[np.tril_indices(nrow)]] (psdmatrix_patterns.py:63): the entries of [g] are
    added into a matrix of zeros at the positions they were read from. *)
Definition untake (n : nat) (g : list num) : mat :=
  fun i j => nsum (map2 (fun ab y => if (fst ab =? i) && (snd ab =? j) then y else Fin 0)
                        (tril n) g).

(** autograd's [grad_cholesky], as recalled: with [phi(X) = tril(X) / (1 + eye)],
    [S = L^-T phi(L^T g) L^-1] by two calls of [np.linalg.solve] with the matrix
    [L^T], and the result is [(S + S^T) / 2].  [solve n a b] stands for
    [np.linalg.solve(a, b)]. *)
Definition phi (x : mat) : mat :=
  fun i j => ndiv (if j <=? i then x i j else Fin 0)
                  (nadd (Fin 1) (if i =? j then Fin 1 else Fin 0)).
Definition cholesky_vjp (solve : nat -> mat -> mat -> res mat) (n : nat) (l g : mat) : res mat :=
  let x := phi (mat_mul n (mat_transpose l) g) in
  y <- solve n (mat_transpose l) (mat_transpose x) ;;
  s <- solve n (mat_transpose l) (mat_transpose y) ;;
  Ok (fun i j => ndiv (nadd (s i j) (s j i)) (Fin 2)).

(** Backwards through psdmatrix_patterns.py:149-154 [_unpack_posdef_matrix] at the
    free vector [x]; [g] is the cotangent of the matrix.  Adding the diagonal of
    lower bounds passes [g] on. *)
Definition unpack_vjp (x : list num) (g : mat) : res (list num) :=
  nm <- unvectorize_ld x ;;
  let n := fst nm in
  let c := exp_diag (snd nm) in
  unvectorize_vjp (to_nd n (exp_diag_vjp (snd nm) (matmul_transpose_vjp n c g))).

(** Backwards through psdmatrix_patterns.py:141-146 [_pack_posdef_matrix] at the
    matrix [m]; [g] is the cotangent of the free vector. *)
Definition pack_vjp (solve : nat -> mat -> mat -> res mat) (n : nat) (m : mat) (diag_lb : num)
    (g : list num) : res mat :=
  c <- cholesky n (fun i j => nsub (m i j) (make_diagonal (fun _ => diag_lb) i j)) ;;
  cholesky_vjp solve n c (log_diag_vjp c (untake n g)).

(** The standard basis of the cotangents of a vector of length [len], and
    [np.stack] of the vjp at each of them: it raises ValueError if there are
    none. *)
Definition basis (len : nat) : list (list num) :=
  map (fun i => map (fun j => if j =? i then Fin 1 else Fin 0) (seq 0 len)) (seq 0 len).
Definition stack_rows (cols : nat) (rows : list (list num)) : res matrix :=
  match rows with
  | [] => Err ValueError
  | _ => Ok (mkMat (length rows) cols (fun i j => nth j (nth i rows []) NaN))
  end.

(** [autograd.jacobian(self._freeing_transform)(x)] and
    [autograd.jacobian(self._unfreeing_transform)(x)] of a PSD pattern
    (base_patterns.py:182-190, through psdmatrix_patterns.py:246-316 [validate_folded],
    [flatten] and [fold]): the forward pass with its checks, then the
    backward pass for each basis vector.  [fold] and [flatten] of the non-free
    value reshape, and so do their vjps. *)
Definition reverse_ad (solve : nat -> mat -> mat -> res mat) (freeing : bool) (p : pat)
    (x : list num) : res matrix :=
  match p with
  | PPsd n _ dlb _ _ =>
      v <- fold_ snum p (vec x) (negb freeing) None ;;
      y <- flatten_ snum p v freeing None ;;
      rows <- mapM (fun g =>
                if freeing then
                  b <- pack_vjp solve n (mat_of n (mkNd [n; n] x)) (pyval dlb) g ;;
                  Ok (dat (to_nd n b))
                else unpack_vjp x (mat_of n (mkNd [n; n] g)))
              (basis (length y)) ;;
      stack_rows (length x) rows
  | _ => Err Unmodelled
  end.
