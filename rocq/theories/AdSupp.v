(** * The autograd supplements: grouped sums, replacement, sparse products, solvers,
    and the forward rules for matrix functions. *)
From Coq Require Import Reals NArith.
From Verif Require Import Base Num Nd Jac Optim.
Local Open Scope list_scope.
Local Open Scope nat_scope.

(** ** Indexing the first axis *)

(** The row an integer label [g] selects among [n]; negative labels count from the
    end. *)
Definition py_row (n : nat) (g : Z) : res nat :=
  (if (0 <=? g) && (g <? Z.of_nat n) then Ok (Z.to_nat g)
   else if (- Z.of_nat n <=? g) && (g <? 0) then Ok (Z.to_nat (g + Z.of_nat n))
   else Err IndexError)%Z.

(** ** grouped_sum *)

(** The argument [groups]: an array of integers, floats or booleans (Python lists of
    these behave like the arrays). *)
Inductive labels : Type := GInt (z : nd Z) | GFloat (x : nd num) | GBool (b : nd bool).
(** Rounding towards zero. *)
Definition truncR (x : R) : Z := if Rltb x 0 then (- Int_part (- x))%Z else Int_part x.
(** [.astype('int64')].  Simplification: infinities and NaN, whose conversion is
    undefined, and integers beyond 64 bits are not modelled. *)
Definition as_int64 (g : labels) : res (nd Z) :=
  match g with
  | GInt z => Ok z
  | GFloat x =>
      l <- mapM (fun a => match a with Fin r => Ok (truncR r) | _ => Err Unmodelled end) (dat x) ;;
      Ok (mkNd (shp x) l)
  | GBool b => Ok (nd_map (fun c : bool => if c then 1%Z else 0%Z) b)
  end.

(** [result[g, ...] += row] on the list of rows. *)
Definition add_row (acc : list (list num)) (g : Z) (row : list num) : res (list (list num)) :=
  i <- py_row (length acc) g ;; Ok (upd acc i (map2 nadd (nth i acc []) row)).
Fixpoint add_rows (acc : list (list num)) (l : list (Z * list num)) : res (list (list num)) :=
  match l with
  | [] => Ok acc
  | (g, row) :: l' => acc' <- add_row acc g row ;; add_rows acc' l'
  end.

(** autograd_supplement_lib.py:183-225.  Simplification: [num_groups] is an integer or
    None, and [x] is real. *)
Definition grouped_sum (x : nd num) (groups : labels) (num_groups : option Z) : res (nd num) :=
  let x := atleast_1d x in
  z0 <- as_int64 groups ;;
  let z := atleast_1d z0 in
  if 1 <? ndim z then Err ValueError
  else if negb (nth 0 (shp x) 0 =? nth 0 (shp z) 0) then Err ValueError
  else
    match dat z with
    | [] => Err ValueError
    | a :: r =>
        let max_group := fold_left Z.max r a in
        k <- match num_groups with
             | None => Ok (max_group + 1)%Z
             | Some k => if (k <=? max_group)%Z then Err ValueError else Ok k
             end ;;
        if (k <? 0)%Z then Err ValueError
        else
          let rest := tl (shp x) in
          let n_obs := nth 0 (shp z) 0 in
          rows <- add_rows (repeat (repeat (Fin 0) (prod rest)) (Z.to_nat k))
                    (combine (dat z) (chunks (prod rest) n_obs (dat x))) ;;
          Ok (mkNd (Z.to_nat k :: rest) (concat rows))
    end.

(** autograd_supplement_lib.py:227-231 [_ungroup]: indexing with the labels as given. *)
Definition ungroup (v : nd num) (groups : labels) : res (nd num) :=
  match shp v with
  | [] => Err IndexError
  | n :: rest =>
      match groups with
      | GInt z =>
          rows <- mapM (fun g => i <- py_row n g ;; Ok (chunk (prod rest) (dat v) i)) (dat z) ;;
          Ok (mkNd (shp z ++ rest) (concat rows))
      | GFloat _ => Err IndexError
      | GBool b =>
          match shp b with
          | [m] =>
              if m =? n then
                let rows := select (chunks (prod rest) n (dat v)) (dat b) in
                Ok (mkNd (length rows :: rest) (concat rows))
              else Err IndexError
          | _ => Err Unmodelled
          end
      end
  end.
(** autograd_supplement_lib.py:233-241. *)
Definition grouped_sum_vjp (groups : labels) (num_groups : option Z) (v : nd num) : res (nd num) :=
  ungroup v groups.
Definition grouped_sum_jvp (groups : labels) (num_groups : option Z) (v : nd num) : res (nd num) :=
  grouped_sum v groups num_groups.

(** ** replace *)

(** [inds]: an integer vector or a boolean mask. *)
Inductive inds : Type := IInt (l : list Z) | IBool (l : list bool).
(** The selected rows of an axis of length [n]. *)
Definition positions (n : nat) (i : inds) : res (list nat) :=
  match i with
  | IInt l => mapM (py_row n) l
  | IBool l => if length l =? n then Ok (select (seq 0 n) l) else Err IndexError
  end.

(** numpy's broadcasting of an assigned value: surplus leading axes of length one are
    dropped, missing ones added, axes of length one repeated. *)
Definition broadcast_to (target : list nat) (a : nd num) : res (nd num) :=
  let extra := length (shp a) - length target in
  let pad := repeat 1 (length target - length (shp a)) ++ skipn extra (shp a) in
  if forallb (fun d => d =? 1) (firstn extra (shp a)) &&
     forallb (fun b => b) (map2 (fun d t => (d =? t) || (d =? 1)) pad target)
  then Ok (mkNd target (map (fun it =>
             nth (ravel (map2 (fun d i => if d =? 1 then 0 else i) pad it) pad) (dat a) NaN)
             (indices target)))
  else Err ValueError.

(** [a[i] = v] on the first axis, in place; of repeated indices the last one counts.
    Simplification: if the index and the value are both unsuitable, the exception class
    is not determined. *)
Definition set_rows (a : nd num) (i : inds) (v : nd num) : res (nd num) :=
  match shp a with
  | [] => Err IndexError
  | n :: rest =>
      match positions n i with
      | Ok pos =>
          w <- broadcast_to (length pos :: rest) v ;;
          let new := fold_left (fun acc pr => upd acc (fst pr) (snd pr))
                       (combine pos (chunks (prod rest) (length pos) (dat w)))
                       (chunks (prod rest) n (dat a)) in
          Ok (mkNd (n :: rest) (concat new))
      | Err e => Err e
      end
  end.
(** [a[i]] on the first axis. *)
Definition get_rows (a : nd num) (i : inds) : res (nd num) :=
  match shp a with
  | [] => Err IndexError
  | n :: rest =>
      pos <- positions n i ;;
      Ok (mkNd (length pos :: rest) (concat (map (chunk (prod rest) (dat a)) pos)))
  end.

(** autograd_supplement_lib.py:245-265 on a heap of arrays; [x] is the address of the
    second argument.  The result is a new array. *)
Definition replace_at (h : list (nd num)) (x_sub : nd num) (x : nat) (i : inds)
  : res nat * list (nd num) :=
  let xa := nth x h (mkNd [] []) in
  let out := length h in
  let h1 := h ++ [mkNd (shp xa) (repeat NaN (size xa))] in
  match shp xa with
  | [] => (Err IndexError, h1)
  | _ =>
      let h2 := upd h1 out xa in
      match set_rows (nth out h2 (mkNd [] [])) i x_sub with
      | Err e => (Err e, h2)
      | Ok r => (Ok out, upd h2 out r)
      end
  end.
(** The same as a function of the contents. *)
Definition replace (x_sub x : nd num) (i : inds) : res (nd num) :=
  let (r, h) := replace_at [x] x_sub 0 i in
  a <- r ;; Ok (nth a h (mkNd [] [])).

(** A Python number as an array. *)
Definition scalar (a : num) : nd num := mkNd [] [a].
(** autograd_supplement_lib.py:267-275. *)
Definition replace_vjp_sub (i : inds) (g : nd num) : res (nd num) := get_rows g i.
Definition replace_vjp_x (i : inds) (g : nd num) : res (nd num) := replace (scalar (Fin 0)) g i.
Definition replace_jvp_sub (x : nd num) (i : inds) (g : nd num) : res (nd num) :=
  n <- pylen x ;; replace g (vec (repeat (Fin 0) n)) i.
Definition replace_jvp_x (i : inds) (g : nd num) : res (nd num) := replace (scalar (Fin 0)) g i.

(** ** Sparse products *)

(** [m @ b] for [b] of one or two dimensions. *)
Definition matmul_nd (m : matrix) (b : nd num) : res (nd num) :=
  match shp b with
  | [k] => l <- matvec m (dat b) ;; Ok (vec l)
  | [k; l] =>
      if k =? m_cols m then
        Ok (mkNd [m_rows m; l]
              (flat_map (fun i => map (fun j =>
                 nsum (map (fun a => nmul (m_at m i a) (nth (a * l + j) (dat b) NaN)) (seq 0 k)))
                 (seq 0 l)) (seq 0 (m_rows m))))
      else Err ValueError
  | _ => Err Unmodelled
  end.

(** The two primitives that [get_sparse_product] returns. *)
Inductive prim : Type := PZ | PZt.
Definition other (p : prim) : prim := match p with PZ => PZt | PZt => PZ end.
(** autograd_supplement_lib.py:68-128: evaluation, and the registered rules.  The
    matrix is given by its entries; sparse and dense matrices multiply alike. *)
Definition sp_apply (z : nd num) (p : prim) (b : nd num) : res (nd num) :=
  if negb (ndim z =? 2) then Err ValueError
  else
    let b := atleast_1d b in
    if 2 <? ndim b then Err ValueError
    else matmul_nd (match p with PZ => matrix_of z | PZt => transpose (matrix_of z) end) b.
Definition sp_jvp (z : nd num) (p : prim) (b g : nd num) : res (nd num) := sp_apply z p g.
Definition sp_vjp (z : nd num) (p : prim) (b g : nd num) : res (nd num) := sp_apply z (other p) g.

(** ** Solvers *)

(** autograd_supplement_lib.py:131-180: the primitives evaluate the given functions. *)
Definition solve_apply (z_solve zt_solve : nd num -> res (nd num)) (p : prim) (b : nd num) : res (nd num) :=
  match p with PZ => z_solve b | PZt => zt_solve b end.
Definition solve_jvp (zs zts : nd num -> res (nd num)) (p : prim) (b g : nd num) : res (nd num) :=
  solve_apply zs zts p g.
Definition solve_vjp (zs zts : nd num -> res (nd num)) (p : prim) (b g : nd num) : res (nd num) :=
  solve_apply zs zts (other p) g.

(** ** Forward rules for matrix functions *)

(** One- or two-dimensional arrays. *)
Inductive arr12 : Type := A1 (v : list num) | A2 (m : matrix).
Definition matmul (a b : matrix) : res matrix :=
  if m_cols a =? m_rows b then
    Ok (mkMat (m_rows a) (m_cols b)
          (fun i j => nsum (map (fun k => nmul (m_at a i k) (m_at b k j)) (seq 0 (m_cols a)))))
  else Err ValueError.
Definition mneg (a : matrix) : matrix := mkMat (m_rows a) (m_cols a) (fun i j => nneg (m_at a i j)).

(** autograd_supplement_lib.py:35 [T] is the transpose; 37-41 [inv_jvp] for 2-D arrays, and matrix by matrix for
    stacks of matrices (the einsum).  The tangent [g] has the shape of the argument, hence
    of [ans]; for other shapes, which einsum broadcasts, the stack is not modelled. *)
Definition inv_jvp (g ans : matrix) : res matrix :=
  p <- matmul ans g ;; q <- matmul p ans ;; Ok (mneg q).
Definition inv_jvp_stack (g ans : list matrix) : res (list matrix) :=
  if length g =? length ans then mapM (fun pr => inv_jvp (fst pr) (snd pr)) (combine g ans)
  else Err Unmodelled.

(** autograd_supplement_lib.py:43-53 [jvp_solve] for one matrix [a]; [solve] stands for
    [np.linalg.solve]. *)
Definition jvp_solve_a (solve : matrix -> arr12 -> res arr12) (g : matrix) (ans : arr12) (a : matrix)
  : res arr12 :=
  s <- solve a (A2 g) ;;
  match s, ans with
  | A2 s, A2 m => p <- matmul s m ;; Ok (A2 (mneg p))
  | A2 s, A1 v => p <- matvec s v ;; Ok (A1 (map nneg p))
  | A1 _, _ => Err Unmodelled
  end.
Definition jvp_solve_b (solve : matrix -> arr12 -> res arr12) (g : arr12) (a : matrix) : res arr12 :=
  solve a g.

(** autograd_supplement_lib.py:56-65 [slogdet_jvp]; [ndim] is the number of dimensions of
    the argument, whose (last) matrix is [x]. *)
Definition mtrace (m : matrix) : num :=
  nsum (map (fun i => m_at m i i) (seq 0 (Nat.min (m_rows m) (m_cols m)))).
Definition slogdet_jvp (solve : matrix -> arr12 -> res arr12) (ndim : nat) (g x : matrix)
  : res (num * num) :=
  if 2 <? ndim then Err ValueError
  else
    s <- solve (transpose x) (A2 (transpose g)) ;;
    match s with A2 s => Ok (Fin 0, mtrace s) | A1 _ => Err Unmodelled end.

(** ** Forward rules for special functions *)
(** autograd_supplement_lib.py:19-27, per entry: [g] is the direction, [ans] the value.
    [gammasgn] has no rule for its argument: its derivative is taken to be zero. *)
Definition gammasgn_jvp (g x : num) : num := Fin 0.
Definition polygamma_jvp (polygamma : nat -> num -> num) (g : num) (n : nat) (x : num) : num :=
  nmul g (polygamma (n + 1) x).
Definition psi_jvp (polygamma : nat -> num -> num) (g x : num) : num := nmul g (polygamma 1 x).
Definition gamma_jvp (psi : num -> num) (g ans x : num) : num := nmul (nmul g ans) (psi x).
Definition gammaln_jvp (psi : num -> num) (g x : num) : num := nmul g (psi x).
Definition rgamma_jvp (psi gamma : num -> num) (g x : num) : num := ndiv (nmul g (psi x)) (nneg (gamma x)).
