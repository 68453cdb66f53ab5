(** * Jacobians and log determinants of the freeing transforms. *)
From Coq Require Import Reals NArith.
From Verif Require Import Base Num Nd Numeric Simplex Psd Pattern.
Local Open Scope list_scope.
Local Open Scope nat_scope.

(** A matrix: its shape and its entries.  Simplification: the storage format
    (scipy.sparse dia or coo, [numpy.matrix] or array), which is all that the
    argument [sparse] selects, is left out. *)
Record matrix : Type := mkMat { m_rows : nat; m_cols : nat; m_at : nat -> nat -> num }.

(** [osp.sparse.diags(d)] and [np.diag(d)] of a vector. *)
Definition diags (d : list num) : matrix :=
  mkMat (length d) (length d) (fun i j => if i =? j then nth i d NaN else Fin 0).

(** [scipy.sparse.block_diag] of two matrices. *)
Definition block2 (a b : matrix) : matrix :=
  mkMat (m_rows a + m_rows b) (m_cols a + m_cols b)
    (fun i j =>
       if i <? m_rows a then (if j <? m_cols a then m_at a i j else Fin 0)
       else if j <? m_cols a then Fin 0 else m_at b (i - m_rows a) (j - m_cols a)).

(** [scipy.sparse.block_diag(mats)]: ValueError for an empty list (there is
    nothing to concatenate). *)
Definition block_diag (ms : list matrix) : res matrix :=
  match ms with
  | [] => Err ValueError
  | _ => Ok (fold_right block2 (mkMat 0 0 (fun _ _ => Fin 0)) ms)
  end.

(** numeric_array_patterns.py:276-294: the vector [jac_array].  [_lb] and [_ub]
    are numbers; [folded_val] is an array of any shape (it is not validated).
    Simplification: a division by zero gives what it gives on numpy arrays, also
    when [folded_val] is a Python float. *)
Definition num_jac_array (freeing : bool) (lb ub : num) (a : nd num) : list num :=
  if freeing then map (unconstrain1_jac lb ub) (dat a)
  else map (fun x => constrain1_jac lb ub (unconstrain1 lb ub x)) (dat a).

(** simplex_patterns.py:39-43 and 51-56 as matrices. *)
Definition simplex_jac (freeing : bool) (s : list num) : matrix :=
  if freeing then mkMat (length s - 1) (length s) (unconstrain_row_jac s)
  else mkMat (length s) (length s - 1) (constrain_row_jac s).

(** pattern_containers.py:329-333 and 343-347: the loop over the members. *)
Definition jac_items (jq : pat -> fv num -> res matrix) (d : list (key * fv num))
  : list (key * pat) -> res (list matrix) :=
  fix loop its :=
    match its with
    | [] => Ok []
    | (k, q) :: rest =>
        match dict_get d k with
        | None => Err KeyError
        | Some w => m <- jq q w ;; r <- loop rest ;; Ok (m :: r)
        end
    end.

(** [freeing_jacobian] ([freeing = true]) and [unfreeing_jacobian]:
    numeric_array_patterns.py:276-294, simplex_patterns.py:186-210,
    pattern_containers.py:328-353 and 598-628.  PSDSymmetricMatrixPattern
    inherits base_patterns.py:244-313, which flattens the value (with the
    default validation) and hands the transform to [autograd.jacobian]
    (base_patterns.py:26-27, 182-190); [ad freeing p x] stands for what
    [autograd.jacobian] returns for the transform of [p] at the flat vector [x].
    Simplification: an array whose shape is not the pattern's (numpy indexing
    might still succeed), and an array for a dictionary or the other way round,
    are not modelled. *)
Fixpoint jacobian (ad : bool -> pat -> list num -> res matrix) (freeing : bool) (p : pat)
    (v : fv num) : res matrix :=
  match p, v with
  | PNum _ _ lb ub _ _, FArr a => Ok (diags (num_jac_array freeing (pyval lb) (pyval ub) a))
  | PSimplex n ashape _ _, FArr a =>
      if negb (shape_eqb (shp a) (ashape ++ [n])) then Err Unmodelled
      else block_diag (map (fun item =>
             simplex_jac freeing (dat (subarr a item (length ashape)))) (indices ashape))
  | PPsd _ _ _ _ _, FArr a =>
      x <- flatten_ snum p v (negb freeing) None ;; ad freeing p x
  | PArr ashape base _, FArr a =>
      if negb (shape_eqb (shp a) (ashape ++ folded_shape base)) then Err Unmodelled
      else
        js <- mapM (fun item =>
                jacobian ad freeing base (FArr (subarr a item (length ashape))))
                (indices ashape) ;;
        block_diag js
  | PDict items _ _ _ _, FDict d =>
      js <- jac_items (jacobian ad freeing) d items ;; block_diag js
  | _, _ => Err Unmodelled
  end.

(** numeric_array_patterns.py:296-306. *)
Definition num_log_det (freeing : bool) (lb ub : num) (a : nd num) : num :=
  nsum (map (fun x => nlog (nabs x)) (num_jac_array freeing lb ub a)).

(** pattern_containers.py:355-367: the running total over the members. *)
Definition log_det_items (lq : pat -> fv num -> res num) (d : list (key * fv num))
  : list (key * pat) -> num -> res num :=
  fix loop its acc :=
    match its with
    | [] => Ok acc
    | (k, q) :: rest =>
        match dict_get d k with
        | None => Err KeyError
        | Some w => x <- lq q w ;; loop rest (nadd acc x)
        end
    end.

(** [log_abs_det_freeing_jacobian] and [log_abs_det_unfreeing_jacobian]:
    numeric_array_patterns.py:296-306, pattern_containers.py:355-367; the other
    patterns inherit base_patterns.py:315-363, which raises. *)
Fixpoint log_abs_det (freeing : bool) (p : pat) (v : fv num) : res num :=
  match p, v with
  | PNum _ _ lb ub _ _, FArr a => Ok (num_log_det freeing (pyval lb) (pyval ub) a)
  | PDict items _ _ _ _, FDict d => log_det_items (log_abs_det freeing) d items (Fin 0)
  | PSimplex _ _ _ _, _ | PPsd _ _ _ _ _, _ | PArr _ _ _, _ => Err NotImplementedError
  | _, _ => Err Unmodelled
  end.
