(** * Specification vocabulary for Jacobians: partial derivatives as limits of
    difference quotients (the standard library's [derivable_pt_lim]), block
    diagonal matrices, matrix product, determinant. *)
From Coq Require Import Reals.
From Verif Require Import Base Num Nd Pattern Spec Jac.
Local Open Scope list_scope.
Local Open Scope nat_scope.

(** The map from the flat to the free flat value and the one back, by the public
    fold and flatten, values unchecked (moving one coordinate of a simplex leaves
    the simplex). *)
Definition to_free (p : pat) (x : list num) : res (list num) :=
  v <- fold p (vec x) (Some false) (Some false) ;; flatten p v (Some true) (Some false).
Definition from_free (p : pat) (y : list num) : res (list num) :=
  v <- fold p (vec y) (Some true) (Some false) ;; flatten p v (Some false) (Some false).
Definition transform (freeing : bool) (p : pat) : list num -> res (list num) :=
  if freeing then to_free p else from_free p.

(** [J] is the matrix of partial derivatives of [F] at the finite point [x], where
    [F] has the value [y].  For every coordinate [j] there is a neighbourhood of
    [x_j] in which moving that coordinate alone gives finite values [G t], and
    entry [(i, j)] of [J] is the derivative of [t |-> (G t)_i] at [x_j]. *)
Definition derivative_at (F : list num -> res (list num)) (x y : list R) (J : matrix) : Prop :=
  F (map Fin x) = Ok (map Fin y) /\
  m_rows J = length y /\ m_cols J = length x /\
  forall j, j < length x ->
    exists (r : R) (G : R -> list R),
      (0 < r)%R /\
      (forall t, (Rabs (t - nth j x 0) < r)%R ->
         F (map Fin (upd x j t)) = Ok (map Fin (G t)) /\ length (G t) = length y) /\
      forall i, i < length y ->
        exists d, m_at J i j = Fin d /\
                  derivable_pt_lim (fun t => nth i (G t) 0%R) (nth j x 0%R) d.

(** [J] is the Jacobian of the (un)freeing transform of [p] at the folded value
    [v], taken at the flat (resp. free flat) vector of [v]. *)
Definition true_jacobian (freeing : bool) (p : pat) (v : fv num) (J : matrix) : Prop :=
  exists x y : list R,
    flatten p v (Some (negb freeing)) None = Ok (map Fin x) /\
    flatten p v (Some freeing) None = Ok (map Fin y) /\
    derivative_at (transform freeing p) x y J.

(** [J] consists of the blocks [Js] along the diagonal and zeros elsewhere. *)
Definition row_offset (Js : list matrix) (a : nat) : nat := lsum (map m_rows (firstn a Js)).
Definition col_offset (Js : list matrix) (a : nat) : nat := lsum (map m_cols (firstn a Js)).
Definition block_diagonal (Js : list matrix) (J : matrix) : Prop :=
  m_rows J = lsum (map m_rows Js) /\ m_cols J = lsum (map m_cols Js) /\
  forall a b Ja Jb i j, nth_error Js a = Some Ja -> nth_error Js b = Some Jb ->
    i < m_rows Ja -> j < m_cols Jb ->
    m_at J (row_offset Js a + i) (col_offset Js b + j) =
    if a =? b then m_at Ja i j else Fin 0.

(** Entry [(i, j)] of the product of two matrices. *)
Definition mat_prod (a b : matrix) (i j : nat) : num :=
  nsum (map (fun k => nmul (m_at a i k) (m_at b k j)) (seq 0 (m_cols a))).

(** [a] and [b] fit together and their product is the identity of size [n]. *)
Definition product_is_identity (a b : matrix) (n : nat) : Prop :=
  m_rows a = n /\ m_cols b = n /\ m_cols a = m_rows b /\
  forall i j, i < n -> j < n -> mat_prod a b i j = Fin (if i =? j then 1 else 0).

(** Determinant by expansion along the first row. *)
Fixpoint det (n : nat) (m : nat -> nat -> R) : R :=
  match n with
  | O => 1%R
  | S n' =>
      Rsum n (fun j =>
        ((-1) ^ j * m 0%nat j *
         det n' (fun i k => m (S i) (if k <? j then k else S k)))%R)
  end.

(** No simplex pattern of the tree has an empty array shape product. *)
Fixpoint simplexes_nonempty (p : pat) : Prop :=
  match p with
  | PSimplex _ ashape _ _ => 0 < prod ashape
  | PArr _ b _ => simplexes_nonempty b
  | PDict items _ _ _ _ => all_items (fun _ q => simplexes_nonempty q) items
  | _ => True
  end.

(** [P] holds of every PSD matrix pattern of the tree and its value. *)
Fixpoint at_psd (P : pat -> fv num -> Prop) (p : pat) (v : fv num) : Prop :=
  match p, v with
  | PPsd _ _ _ _ _, _ => P p v
  | PArr s b _, FArr a =>
      forall item, In item (indices s) -> at_psd P b (FArr (subarr a item (length s)))
  | PDict items _ _ _ _, FDict d =>
      all_items (fun k q => forall w, dict_get d k = Some w -> at_psd P q w) items
  | _, _ => True
  end.

(** A tree of dictionaries with numeric leaves only. *)
Fixpoint numeric_only (p : pat) : Prop :=
  match p with
  | PNum _ _ _ _ _ _ => True
  | PDict items _ _ _ _ => all_items (fun _ q => numeric_only q) items
  | _ => False
  end.

(** The Jacobian at [v] is computed and is the true one. *)
Definition jacobian_true (ad : bool -> pat -> list num -> res matrix) (freeing : bool)
    (p : pat) (v : fv num) : Prop :=
  exists J, jacobian ad freeing p v = Ok J /\ true_jacobian freeing p v J.

(** Both Jacobians at [v] are computed, have finite entries, and the freeing one
    times the unfreeing one is the identity of size [flat_length(free=True)]. *)
Definition finite_entries (J : matrix) : Prop :=
  forall i j, i < m_rows J -> j < m_cols J -> exists d, m_at J i j = Fin d.
Definition jacobians_inverse (ad : bool -> pat -> list num -> res matrix) (p : pat)
    (v : fv num) : Prop :=
  exists J1 J2 : matrix, jacobian ad true p v = Ok J1 /\ jacobian ad false p v = Ok J2 /\
    finite_entries J1 /\ finite_entries J2 /\
    product_is_identity J1 J2 (pl_n (flat_len p true)).

(** Straight lines and symmetric directions.  [derivative_along F x y J h]: on the
    line [x + t h] the map [F] is defined near [x] and the derivative of its value
    at [t = 0] is the product of [J] with [h]. *)
Definition line (x h : list R) (t : R) : list R := map2 (fun a b => a + t * b)%R x h.
Definition derivative_along (F : list num -> res (list num)) (x y : list R) (J : matrix)
    (h : list R) : Prop :=
  F (map Fin x) = Ok (map Fin y) /\
  m_rows J = length y /\ m_cols J = length x /\
  exists (r : R) (G : R -> list R),
    (0 < r)%R /\
    (forall t, (Rabs t < r)%R ->
       F (map Fin (line x h t)) = Ok (map Fin (G t)) /\ length (G t) = length y) /\
    forall i, i < length y ->
      exists row : nat -> R,
        (forall j, j < length x -> m_at J i j = Fin (row j)) /\
        derivable_pt_lim (fun t => nth i (G t) 0%R) 0
          (Rsum (length x) (fun j => row j * nth j h 0)%R).
Definition symmetric_direction (n : nat) (h : list R) : Prop :=
  length h = n * n /\
  forall i j, i < n -> j < n -> nth (i * n + j) h 0%R = nth (j * n + i) h 0%R.

(** The freeing Jacobian of a PSD pattern at [v] is computed and is right along
    every symmetric direction.  Nothing is said of the directions that leave the
    symmetric matrices: autograd's gradient of [np.linalg.cholesky] is
    symmetrised, so that it is not the matrix of partial derivatives. *)
Definition jacobian_on_symmetric (ad : bool -> pat -> list num -> res matrix) (p : pat)
    (v : fv num) : Prop :=
  match p with
  | PPsd n _ _ _ _ =>
      exists (J : matrix) (x y : list R),
        jacobian ad true p v = Ok J /\
        flatten p v (Some false) None = Ok (map Fin x) /\
        flatten p v (Some true) None = Ok (map Fin y) /\
        forall h, symmetric_direction n h -> derivative_along (transform true p) x y J h
  | _ => True
  end.

(** [h] is the flat vector of a change of value under which the PSD members stay
    symmetric. *)
Definition symmetric_member (p : pat) (v : fv num) : Prop :=
  match p, v with
  | PPsd n _ _ _ _, FArr a =>
      forall i j, i < n -> j < n -> nth (i * n + j) (dat a) NaN = nth (j * n + i) (dat a) NaN
  | _, _ => True
  end.
Definition tangent (p : pat) (h : list R) : Prop :=
  exists w, fold p (vec (map Fin h)) (Some false) (Some false) = Ok w /\
            at_psd symmetric_member p w.
