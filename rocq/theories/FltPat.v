(** * Whole patterns in binary64 arithmetic.

    [fold(free=True)], [validate_folded] and [flatten(free=True)] on float64 arrays.  The
    leaves are those of Flt.v, FltMat.v and FltChol.v; containers only cut and join arrays,
    as in Pattern.v.

    Simplifications: the flat vector is one-dimensional; the size of a matrix is the
    pattern's, not recomputed from the length of the vector; [np.ravel_multi_index] on a
    0-dimensional [array_shape] is not modelled. *)
From Coq Require Import ZArith Floats.SpecFloat.
From Flocq Require Import IEEE754.BinarySingleNaN.
From Verif Require Import Base Num Nd Pattern Flt FltMat FltChol.
Local Open Scope list_scope.
Local Open Scope nat_scope.

(** A bound as numpy uses it together with a float64 array. *)
Definition bound64 (b : pynum) : f64 :=
  match b with
  | PyInt z => flit z 0
  | PyFloat (S754_zero s) => B754_zero s
  | PyFloat (S754_infinity s) => B754_infinity s
  | PyFloat S754_nan => B754_nan
  | PyFloat (S754_finite s m e) => flit (if s then Zneg m else Zpos m) e
  end.

(** An [n x n] array. *)
Definition mat64 (n : nat) (a : list f64) (i j : nat) : f64 := nth (i * n + j) a fnan.
Definition arr64 (n : nat) (m : nat -> nat -> f64) : nd f64 :=
  mkNd [n; n] (flat_map (fun i => map (fun j => m i j) (seq 0 n)) (seq 0 n)).

(** [fold(x, free=True)]: numeric_array_patterns.py:210-228, simplex_patterns.py:161-168,
    psdmatrix_patterns.py:301-310, pattern_containers.py:265-290 and 555-575. *)
Fixpoint pfold64 (np : np64) (gram : gram64) (p : pat) (x : list f64) : res (fv f64) :=
  match p with
  | PNum _ shape lb ub _ _ =>
      if negb (length x =? prod shape) then Err ValueError
      else Ok (FArr (mkNd shape (num64_fold np (bound64 lb) (bound64 ub) x)))
  | PSimplex n ashape _ _ =>
      if negb (length x =? prod (ashape ++ [n - 1])) then Err ValueError
      else Ok (FArr (mkNd (ashape ++ [n])
                       (flat_map (simplex64_fold np) (chunks (n - 1) (prod ashape) x))))
  | PPsd sz flen dlb _ _ =>
      if negb (length x =? flen) then Err ValueError
      else Ok (FArr (arr64 sz (unpack64 np gram sz (bound64 dlb) x)))
  | PArr ashape base _ =>
      if negb (length x =? pl_n (flat_len p true)) then Err ValueError
      else
        match ashape with
        | [] => Err Unmodelled
        | _ =>
          parts <- mapM (fun item =>
              n <- as_index (flat_len base true) ;;
              v <- pfold64 np gram base (slice x (ravel item ashape * n) n) ;;
              as_arr v) (indices ashape) ;;
          a <- stack_reshape parts (folded_shape p) ;;
          Ok (FArr a)
        end
  | PDict items _ _ _ _ =>
      if negb (length x =? pl_n (flat_len p true))
      then Err (if str_ok p then ValueError else TypeError)
      else
        d <- fold_items (fun q y => pfold64 np gram q (dat y)) true x items (plint 0) ;;
        Ok (FDict d)
  end.

(** numeric_array_patterns.py:187-208, simplex_patterns.py:141-159,
    psdmatrix_patterns.py:238-289 and pattern_containers.py:252-263, 507-524:
    [validate_folded]. *)
Fixpoint pvalid64 (np : np64) (p : pat) (v : fv f64) (vv : option bool) : res verdict :=
  match p, v with
  | PNum _ shape lb ub dv _, FArr a0 =>
      let a := atleast_1d a0 in
      if negb (shape_eqb (shp a) shape) then Ok (Some MsgShape)
      else if vv_or vv dv then
        if existsb (fun x => flt x (bound64 lb)) (dat a) then Ok (Some MsgLower)
        else if existsb (fun x => flt (bound64 ub) x) (dat a) then Ok (Some MsgUpper)
        else Ok None
      else Ok None
  | PSimplex n ashape dv _, FArr a =>
      if negb (shape_eqb (shp a) (ashape ++ [n])) then Err ValueError
      else if vv_or vv dv then
        if existsb (fun x => flt x fzero) (dat a) then Ok (Some MsgNegative)
        else if existsb (fun r => flt tol64 (fabs (fsub (np_sum np r) fone)))
                  (chunks n (prod ashape) (dat a))
        then Ok (Some MsgSum)
        else Ok None
      else Ok None
  | PPsd sz _ dlb dv _, FArr a =>
      if negb (shape_eqb (shp a) [sz; sz]) then Err ValueError
      else
        let m := mat64 sz (dat a) in
        if vv_or vv dv then
          if existsb (fun i => flt (m i i) (bound64 dlb)) (seq 0 sz) then Ok (Some MsgDiag)
          else if negb (forallb (fun i => forallb (fun j => feq (m j i) (m i j)) (seq 0 sz))
                                (seq 0 sz))
          then Ok (Some MsgNotSym)
          else Ok None
        else Ok None
  | PArr ashape base _, FArr a =>
      let s := folded_shape p in
      if negb (ndim a =? length s) then Ok (Some MsgDims)
      else if negb (shape_eqb (shp a) s) then Ok (Some MsgShape)
      else
        validate_cells (fun sub => pvalid64 np base (FArr sub) vv) a (length ashape)
          (indices ashape)
  | PDict items _ _ _ _, FDict d => validate_items (fun q w => pvalid64 np q w vv) d items
  | _, _ => Err TypeError
  end.

(** simplex_patterns.py:46-48 [_unconstrain_simplex_matrix] on one row. *)
Definition simplex64_row (np : np64) (a : list f64) : list f64 :=
  match a with
  | [] => []
  | a0 :: r => map (fun v => fsub (np_log np v) (np_log np a0)) r
  end.

(** [flatten(v, free=True)]: numeric_array_patterns.py:236-244, simplex_patterns.py:176-182,
    psdmatrix_patterns.py:291-297, pattern_containers.py:298-320 and 582-592. *)
Fixpoint pflatten64 (np : np64) (chol : chol64) (p : pat) (v : fv f64) (vv : option bool)
  : res (list f64) :=
  r <- pvalid64 np p v vv ;;
  match r with
  | Some _ => Err ValueError
  | None =>
    match p, v with
    | PNum _ _ lb ub _ _, FArr a =>
        Ok (map (unconstrain64 np (bound64 lb) (bound64 ub)) (dat a))
    | PSimplex n ashape _ _, FArr a =>
        Ok (flat_map (simplex64_row np) (chunks n (prod ashape) (dat a)))
    | PPsd sz _ dlb _ _, FArr a => pack64 np chol sz (bound64 dlb) (mat64 sz (dat a))
    | PArr ashape base _, FArr a =>
        parts <- mapM (fun item =>
            pflatten64 np chol base (FArr (subarr a item (length ashape))) vv)
            (indices ashape) ;;
        hstack parts
    | PDict items _ _ _ _, FDict d =>
        parts <- flatten_items (fun q w => pflatten64 np chol q w vv) d items ;;
        hstack parts
    | _, _ => Err TypeError
    end
  end.
