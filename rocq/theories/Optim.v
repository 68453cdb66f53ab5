(** * Preconditioned functions, eigenvalue tools, optimization objectives, and the
    sparse preconditioner. *)
From Coq Require Import Reals NArith.
From Verif Require Import Base Num Nd Jac.
Local Open Scope list_scope.
Local Open Scope nat_scope.

(** A function of a vector.  Simplification: all operators are applied to 1-D
    float arrays only, and are functions of their argument (no hidden state). *)
Definition vop : Type := list num -> res (list num).

(** [m @ v] for a 2-D [m] and a 1-D [v]. *)
Definition matvec (m : matrix) : vop := fun v =>
  if length v =? m_cols m then
    Ok (map (fun i => nsum (map (fun j => nmul (m_at m i j) (nth j v NaN)) (seq 0 (m_cols m))))
          (seq 0 (m_rows m)))
  else Err ValueError.
(** [m.T] *)
Definition transpose (m : matrix) : matrix :=
  mkMat (m_cols m) (m_rows m) (fun i j => m_at m j i).
(** A 2-D array as a matrix. *)
Definition matrix_of (a : nd num) : matrix :=
  let c := nth 1 (shp a) 0 in
  mkMat (nth 0 (shp a) 0) c (fun i j => nth (i * c + j) (dat a) NaN).

(** ** Eigenvalues *)

(** The argument [ev_min] or [ev_max] when it is not None: a real or a complex
    number. *)
Inductive bound : Type := BNum (x : num) | BComplex (re im : num).
(** [np.isreal] *)
Definition isreal (b : bound) : bool :=
  match b with BNum _ => true | BComplex _ im => neqb im (Fin 0) end.
(** [float(b)] *)
Definition to_float (b : bound) : res num :=
  match b with BNum x => Ok x | BComplex _ _ => Err TypeError end.

(** Float arrays live in a heap, so that in-place changes are visible. *)
Definition heap : Type := list (list num).
(** [a[mask] = x] in place. *)
Definition set_where (h : heap) (a : nat) (mask : num -> bool) (x : num) : heap :=
  upd h a (map (fun e => if mask e then x else e) (nth a h [])).

(** optimization_lib.py:16-45 [truncate_eigenvalues] on the array at address
    [evals].  Simplification: a float array (an integer array would truncate the
    bounds, a complex one would compare real parts). *)
Definition truncate_eigenvalues (h : heap) (evals : nat) (ev_min ev_max : option bound)
  : res nat * heap :=
  let out := length h in
  let h1 := h ++ [nth evals h []] in
  match
    match ev_min with
    | None => Ok h1
    | Some b => if negb (isreal b) then Err ValueError
                else x <- to_float b ;; Ok (set_where h1 out (fun e => nleb e x) x)
    end
  with
  | Err e => (Err e, h1)
  | Ok h2 =>
      match
        match ev_max with
        | None => Ok h2
        | Some b => if negb (isreal b) then Err ValueError
                    else x <- to_float b ;; Ok (set_where h2 out (fun e => ngeb e x) x)
        end
      with
      | Err e => (Err e, h2)
      | Ok h3 => (Ok out, h3)
      end
  end.
(** The same as a function of the entries. *)
Definition truncate (evals : list num) (ev_min ev_max : option bound) : res (list num) :=
  let (r, h) := truncate_eigenvalues [evals] 0 ev_min ev_max in
  i <- r ;; Ok (nth i h []).

(** optimization_lib.py:48-95 [transform_eigenspace].  Simplification: an output of
    [f] whose length is not that of [eigvals] (numpy would broadcast or raise) is not
    modelled. *)
Definition transform_eigenspace (eigvecs eigvals : nd num) (f : list num -> res (list num))
  : res vop :=
  if negb (ndim eigvecs =? 2) then Err ValueError
  else if negb (ndim eigvals =? 1) then Err ValueError
  else if negb (nth 1 (shp eigvecs) 0 =? nth 0 (shp eigvals) 0) then Err ValueError
  else
    new <- f (dat eigvals) ;;
    if negb (length new =? length (dat eigvals)) then Err Unmodelled
    else
      let m := matrix_of eigvecs in
      Ok (fun v =>
            loadings <- matvec (transpose m) v ;;
            p <- matvec m (map2 (fun e l => nmul (nsub e (Fin 1)) l) new loadings) ;;
            Ok (map2 nadd v p)).

(** [np.sqrt] and [lambda x: 1. / np.sqrt(x)] on a vector. *)
Definition sqrt_all (l : list num) : res (list num) := Ok (map nsqrt l).
Definition inv_sqrt_all (l : list num) : res (list num) :=
  Ok (map (fun x => ndiv (Fin 1) (nsqrt x)) l).

(** [np.atleast_2d] *)
Definition atleast_2d (a : nd num) : nd num :=
  match shp a with
  | [] => mkNd [1; 1] (dat a)
  | [n] => mkNd [1; n] (dat a)
  | _ => a
  end.
(** [0.5 * (mat + mat.T)]; the transpose of a single row or column is broadcast
    against it.  Simplification: more than two dimensions are not modelled. *)
Definition symmetrize (a : nd num) : res matrix :=
  match shp a with
  | [r; c] =>
      let m := matrix_of a in
      if r =? c then
        Ok (mkMat r c (fun i j => nmul (Fin (1 / 2)) (nadd (m_at m i j) (m_at m j i))))
      else if r =? 1 then
        Ok (mkMat c c (fun i j => nmul (Fin (1 / 2)) (nadd (m_at m 0 j) (m_at m 0 i))))
      else if c =? 1 then
        Ok (mkMat r r (fun i j => nmul (Fin (1 / 2)) (nadd (m_at m i 0) (m_at m j 0))))
      else Err ValueError
  | _ => Err Unmodelled
  end.

(** optimization_lib.py:98-119 [_get_sym_matrix_inv_sqrt_funcs]; [eigh] stands for
    [np.linalg.eigh]: the eigenvalues and the matrix of eigenvectors. *)
Definition inv_sqrt_funcs (eigh : matrix -> res (nd num * nd num)) (mat : nd num)
    (ev_min ev_max : option bound) : res (vop * vop) :=
  s <- symmetrize (atleast_2d mat) ;;
  wv <- eigh s ;;
  w <- truncate (dat (fst wv)) ev_min ev_max ;;
  let wt := mkNd (shp (fst wv)) w in
  mult_sqrt <- transform_eigenspace (snd wv) wt sqrt_all ;;
  mult_inv_sqrt <- transform_eigenspace (snd wv) wt inv_sqrt_all ;;
  Ok (mult_sqrt, mult_inv_sqrt).

(** optimization_lib.py:122-142 [_get_matrix_from_operator]; [np.vstack] of the
    images of the unit vectors, transposed. *)
Definition unit_vec (dim i : nat) : list num := upd (repeat (Fin 0) dim) i (Fin 1).
Definition matrix_from_operator (f : vop) (dim : nat) : res matrix :=
  rows <- mapM (fun i => f (unit_vec dim i)) (seq 0 dim) ;;
  match rows with
  | [] => Err ValueError
  | r :: _ =>
      if forallb (fun s => length s =? length r) rows then
        Ok (mkMat (length r) dim (fun i j => nth i (nth j rows []) NaN))
      else Err ValueError
  end.

(** ** PreconditionedFunction *)

(** The attributes [_a_times] and [_a_inv_times]. *)
Record precond : Type := mkPre { a_times : vop; a_inv_times : vop }.

(** What the methods need from numpy, scipy and autograd: [np.linalg.inv],
    [scipy.sparse.linalg.inv], [np.linalg.eigh], and [autograd.hessian] of the
    original function.  Simplification: the calls that [autograd.hessian] makes to the
    original function leave no trace. *)
Inductive hess : Type := HDense (a : nd num) | HSparse.
Record tools : Type := mkTools {
  t_inv : matrix -> res matrix;
  t_sparse_inv : matrix -> res matrix;
  t_eigh : matrix -> res (nd num * nd num);
  t_hessian : list num -> res hess }.

(** The public methods that change the preconditioner (optimization_lib.py:194-228,
    237-291). *)
Inductive pre_op : Type :=
| SetIdentity
| SetFunctions (a b : vop)
| SetMatrix (sparse : bool) (a : matrix) (a_inv : option matrix)
| SetHessian (x : option (list num)) (h : option hess) (ev_min ev_max : option bound).

(** What a method stores, if it does not raise. *)
Definition set_op (t : tools) (o : pre_op) : res precond :=
  match o with
  | SetIdentity => Ok (mkPre (fun x => Ok x) (fun x => Ok x))
  | SetFunctions a b => Ok (mkPre a b)
  | SetMatrix sparse a (Some b) => Ok (mkPre (matvec a) (matvec b))
  | SetMatrix sparse a None =>
      b <- (if sparse then t_sparse_inv t a else t_inv t a) ;;
      Ok (mkPre (matvec a) (matvec b))
  | SetHessian (Some _) (Some _) _ _ => Err ValueError
  | SetHessian None None _ _ => Err ValueError
  | SetHessian x h lo hi =>
      m <- match h, x with
           | Some m, _ => Ok m
           | None, Some x => t_hessian t x
           | None, None => Err ValueError
           end ;;
      match m with
      | HSparse => Err NotImplementedError
      | HDense a => fs <- inv_sqrt_funcs (t_eigh t) a lo hi ;; Ok (mkPre (snd fs) (fst fs))
      end
  end.
(** One method call: the new attributes, and what is raised. *)
Definition do_op (t : tools) (s : precond) (o : pre_op) : precond * option exn :=
  match set_op t o with Ok s' => (s', None) | Err e => (s, Some e) end.
(** optimization_lib.py:178-195: a new object after a list of calls whose exceptions
    are caught. *)
Definition new_precond : precond := mkPre (fun x => Ok x) (fun x => Ok x).
Definition run_ops (t : tools) (l : list pre_op) : precond :=
  fold_left (fun s o => fst (do_op t s o)) l new_precond.

(** optimization_lib.py:293-310. *)
Definition precondition (s : precond) : vop := a_inv_times s.
Definition unprecondition (s : precond) : vop := a_times s.
(** optimization_lib.py:312-322. *)
Definition get_preconditioner (s : precond) (dim : nat) : res matrix :=
  matrix_from_operator (a_times s) dim.
Definition get_preconditioner_inv (s : precond) (dim : nat) : res matrix :=
  matrix_from_operator (a_inv_times s) dim.
(** optimization_lib.py:324-329 [__call__]; the original function may have effects on
    a state. *)
Definition pre_call {Y S} (f : list num -> S -> res Y * S) (s : precond) (x : list num) (st : S)
  : res Y * S :=
  match unprecondition s x with Ok y => f y st | Err e => (Err e, st) end.

(** optimization_lib.py:230-235 [check_preconditioner]: nothing, or an exception.
    A vector of length one is broadcast against the other. *)
Definition norm2 (v : list num) : num := nsqrt (nsum (map (fun x => nmul x x) v)).
Definition check_preconditioner (s : precond) (v : list num) (tol : num) : res unit :=
  y <- a_inv_times s v ;;
  z <- a_times s y ;;
  d <- (if length v =? length z then Ok (map2 nsub v z)
        else match v, z with
             | [x], _ => Ok (map (nsub x) z)
             | _, [x] => Ok (map (fun a => nsub a x) v)
             | _, _ => Err ValueError
             end) ;;
  if ngtb (norm2 d) tol then Err ValueError else Ok tt.

(** ** OptimizationObjective *)

(** The attributes, and what has been printed.  Simplification: [grad], [hessian]
    and [hessian_vector_product] are autograd's and do not touch the attributes. *)
Record objective (X Y : Type) : Type := mkObj {
  o_count : nat; o_print : Z; o_log : Z; o_entries : list (nat * X * Y);
  o_printed : list (nat * Y) }.
Arguments mkObj {X Y}.
Arguments o_count {X Y}.
Arguments o_print {X Y}.
Arguments o_log {X Y}.
Arguments o_entries {X Y}.
Arguments o_printed {X Y}.

(** optimization_lib.py:367-388. *)
Definition new_objective {X Y} (print_every log_every : Z) : objective X Y :=
  mkObj 0 print_every log_every [] [].

Inductive obj_op (X : Type) : Type :=
| Eval (x : X)
| SetPrint (n : Z)
| SetLog (n : Z)
| Reset
| ResetCount
| ResetLog.
Arguments Eval {X}.
Arguments SetPrint {X}.
Arguments SetLog {X}.
Arguments Reset {X}.
Arguments ResetCount {X}.
Arguments ResetLog {X}.

(** [every > 0 and count % every == 0] *)
Definition due (every : Z) (count : nat) : bool :=
  ((0 <? every) && (Z.of_nat count mod every =? 0))%Z.

(** optimization_lib.py:390-470, one method call.  [f] is the objective;
    [printable y] says whether ['{:0.8f}'.format(y)] works (it raises TypeError
    otherwise). *)
Definition obj_step {X Y} (f : X -> res Y) (printable : Y -> bool) (s : objective X Y)
    (o : obj_op X) : objective X Y * option (res Y) :=
  match o with
  | Eval x =>
      match f x with
      | Err e => (s, Some (Err e))
      | Ok y =>
          let p := due (o_print s) (o_count s) in
          if p && negb (printable y) then (s, Some (Err TypeError))
          else
            (mkObj (S (o_count s)) (o_print s) (o_log s)
               (o_entries s ++ if due (o_log s) (o_count s) then [(o_count s, x, y)] else [])
               (o_printed s ++ if p then [(o_count s, y)] else []),
             Some (Ok y))
      end
  | SetPrint n => (mkObj (o_count s) n (o_log s) (o_entries s) (o_printed s), None)
  | SetLog n => (mkObj (o_count s) (o_print s) n (o_entries s) (o_printed s), None)
  | Reset => (mkObj 0 (o_print s) (o_log s) [] (o_printed s), None)
  | ResetCount => (mkObj 0 (o_print s) (o_log s) (o_entries s) (o_printed s), None)
  | ResetLog => (mkObj (o_count s) (o_print s) (o_log s) [] (o_printed s), None)
  end.
(** A sequence of calls: the final state and what each call returned or raised. *)
Fixpoint obj_run {X Y} (f : X -> res Y) (printable : Y -> bool) (s : objective X Y)
    (l : list (obj_op X)) : objective X Y * list (obj_op X * option (res Y)) :=
  match l with
  | [] => (s, [])
  | o :: r =>
      let (s', out) := obj_step f printable s o in
      let (s'', t) := obj_run f printable s' r in
      (s'', (o, out) :: t)
  end.

(** optimization_lib.py:446-461: the log stores the argument array itself, not a copy.
    The arrays live in a heap that the caller may write to between calls; the
    objective is a function of the array's contents; entries hold addresses. *)
Inductive alias_op : Type := Call (o : obj_op nat) | Write (a : nat) (v : list num).
Definition alias_step {Y} (f : list num -> res Y) (printable : Y -> bool)
    (s : heap * objective nat Y) (o : alias_op) : heap * objective nat Y :=
  match o with
  | Call c => (fst s, fst (obj_step (fun a => f (nth a (fst s) [])) printable (snd s) c))
  | Write a v => (upd (fst s) a v, snd s)
  end.
Definition alias_run {Y} (f : list num -> res Y) (printable : Y -> bool) (h : heap)
    (print_every log_every : Z) (l : list alias_op) : heap * objective nat Y :=
  fold_left (alias_step f printable) l (h, new_objective print_every log_every).

(** ** sparse_preconditioners_lib.py *)

(** sparse_preconditioners_lib.py:24-76.  [sqrt_mat h] stands for
    [cholesky(h).apply_Pt(cholesky(h).L())] and [factorized m] for the solver
    returned by [scipy.sparse.linalg.factorized].  The result is
    [(mult_hess_sqrt, mult_hess_inv_sqrt)]. *)
Definition sparse_inv_sqrt_funcs (sqrt_mat : matrix -> res matrix)
    (factorized : matrix -> res vop) (sparse : bool) (hessian : matrix) : res (vop * vop) :=
  if negb sparse then Err ValueError
  else
    m <- sqrt_mat hessian ;;
    _ <- factorized m ;;
    solve_t <- factorized (transpose m) ;;
    Ok (matvec (transpose m), solve_t).
