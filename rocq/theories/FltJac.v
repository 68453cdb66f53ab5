(** * Jacobians and log determinants of the freeing transforms in binary64.

    PSD members, whose Jacobians autograd computes, are left out. *)
From Coq Require Import ZArith.
From Verif Require Import Base Num Nd Pattern Jac Flt FltPat.
Local Open Scope list_scope.
Local Open Scope nat_scope.

Record matrix64 : Type := mkMat64 { r64 : nat; c64 : nat; at64 : nat -> nat -> f64 }.

(** numeric_array_patterns.py:28-40 [_unconstrain_array_jacobian], one entry. *)
Definition unconstrain64_jac (lb ub a : f64) : f64 :=
  if is_pinf ub then
    if is_ninf lb then fone else fdiv fone (fsub a lb)
  else
    if is_ninf lb then fdiv fone (fsub ub a)
    else fadd (fdiv fone (fsub a lb)) (fdiv fone (fsub ub a)).

(** numeric_array_patterns.py:61-77 [_constrain_array_jacobian], one entry. *)
Definition constrain64_jac (np : np64) (lb ub x : f64) : f64 :=
  if is_pinf ub then
    if is_ninf lb then fone else np_exp np x
  else
    if is_ninf lb then np_exp np (fmul fminus1 x)
    else
      let e := np_exp np x in
      let ratio := fdiv e (fadd fone e) in
      fmul (fmul (fsub ub lb) ratio) (fsub fone ratio).

(** numeric_array_patterns.py:276-294: the vector [jac_array]. *)
Definition num64_jac (np : np64) (freeing : bool) (lb ub : f64) (a : list f64) : list f64 :=
  if freeing then map (unconstrain64_jac lb ub) a
  else map (fun x => constrain64_jac np lb ub (unconstrain64 np lb ub x)) a.

(** [osp.sparse.diags(d)] and [np.diag(d)] of a vector. *)
Definition diags64 (d : list f64) : matrix64 :=
  mkMat64 (length d) (length d) (fun i j => if i =? j then nth i d fnan else fzero).

(** simplex_patterns.py:39-43 [_constrain_simplex_jacobian] and 51-56
    [_unconstrain_simplex_jacobian] on one simplex. *)
Definition simplex64_jac (freeing : bool) (s : list f64) : matrix64 :=
  if freeing then
    mkMat64 (length s - 1) (length s)
      (fun i j => match j with
                  | O => fdiv fminus1 (nth 0 s fnan)
                  | S j' => if i =? j' then fdiv fone (nth (S j') s fnan) else fzero
                  end)
  else
    mkMat64 (length s) (length s - 1)
      (fun i j => fadd (fmul fminus1 (fmul (nth i s fnan) (nth (S j) s fnan)))
                       (if i =? S j then nth i s fnan else fzero)).

(** [scipy.sparse.block_diag]. *)
Definition block64 (a b : matrix64) : matrix64 :=
  mkMat64 (r64 a + r64 b) (c64 a + c64 b)
    (fun i j =>
       if i <? r64 a then (if j <? c64 a then at64 a i j else fzero)
       else if j <? c64 a then fzero else at64 b (i - r64 a) (j - c64 a)).
Definition block_diag64 (ms : list matrix64) : res matrix64 :=
  match ms with
  | [] => Err ValueError
  | _ => Ok (fold_right block64 (mkMat64 0 0 (fun _ _ => fzero)) ms)
  end.

(** pattern_containers.py:329-333 and 343-347: the loop over the members. *)
Definition jac64_items (jq : pat -> fv f64 -> res matrix64) (d : list (key * fv f64))
  : list (key * pat) -> res (list matrix64) :=
  fix loop its :=
    match its with
    | [] => Ok []
    | (k, q) :: rest =>
        match dict_get d k with
        | None => Err KeyError
        | Some w => m <- jq q w ;; r <- loop rest ;; Ok (m :: r)
        end
    end.

(** [freeing_jacobian] ([freeing = true]) and [unfreeing_jacobian]:
    numeric_array_patterns.py:276-294, simplex_patterns.py:186-210,
    pattern_containers.py:328-353 and 598-628, with the simplifications of Jac.v. *)
Fixpoint pjac64 (np : np64) (freeing : bool) (p : pat) (v : fv f64) : res matrix64 :=
  match p, v with
  | PNum _ _ lb ub _ _, FArr a =>
      Ok (diags64 (num64_jac np freeing (bound64 lb) (bound64 ub) (dat a)))
  | PSimplex n ashape _ _, FArr a =>
      if negb (shape_eqb (shp a) (ashape ++ [n])) then Err Unmodelled
      else block_diag64 (map (fun item =>
             simplex64_jac freeing (dat (subarr a item (length ashape)))) (indices ashape))
  | PArr ashape base _, FArr a =>
      if negb (shape_eqb (shp a) (ashape ++ folded_shape base)) then Err Unmodelled
      else
        js <- mapM (fun item =>
                pjac64 np freeing base (FArr (subarr a item (length ashape))))
                (indices ashape) ;;
        block_diag64 js
  | PDict items _ _ _ _, FDict d =>
      js <- jac64_items (pjac64 np freeing) d items ;; block_diag64 js
  | _, _ => Err Unmodelled
  end.

(** numeric_array_patterns.py:296-306. *)
Definition num64_log_det (np : np64) (freeing : bool) (lb ub : f64) (a : list f64) : f64 :=
  np_sum np (map (fun x => np_log np (fabs x)) (num64_jac np freeing lb ub a)).

(** pattern_containers.py:355-367: the running total over the members. *)
Definition log_det64_items (lq : pat -> fv f64 -> res f64) (d : list (key * fv f64))
  : list (key * pat) -> f64 -> res f64 :=
  fix loop its acc :=
    match its with
    | [] => Ok acc
    | (k, q) :: rest =>
        match dict_get d k with
        | None => Err KeyError
        | Some w => x <- lq q w ;; loop rest (fadd acc x)
        end
    end.

(** [log_abs_det_freeing_jacobian] and [log_abs_det_unfreeing_jacobian]; patterns other
    than numeric arrays and dictionaries raise (base_patterns.py:315-363). *)
Fixpoint plog_det64 (np : np64) (freeing : bool) (p : pat) (v : fv f64) : res f64 :=
  match p, v with
  | PNum _ _ lb ub _ _, FArr a =>
      Ok (num64_log_det np freeing (bound64 lb) (bound64 ub) (dat a))
  | PDict items _ _ _ _, FDict d => log_det64_items (plog_det64 np freeing) d items fzero
  | PSimplex _ _ _ _, _ | PPsd _ _ _ _ _, _ | PArr _ _ _, _ => Err NotImplementedError
  | _, _ => Err Unmodelled
  end.
