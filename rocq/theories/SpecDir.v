(** * Directions that keep the constraints. *)
From Coq Require Import Reals.
From Verif Require Import Base Num Nd Pattern Spec Jac SpecJac.
Local Open Scope list_scope.
Local Open Scope nat_scope.

(** Starting at the flat vector [x] one can go a bit in direction [h], both ways, and stay
    strictly inside the constraints: the points of the line fold to interior values. *)
Definition feasible (p : pat) (x h : list R) : Prop :=
  length h = length x /\
  exists r, (0 < r)%R /\ forall t, (Rabs t < r)%R ->
    exists w, fold p (vec (map Fin (line x h t))) (Some false) None = Ok w /\ interior p w.

(** [P] holds of the flat vectors of all leaves. *)
Fixpoint flat_leaves (P : pat -> list R -> Prop) (p : pat) (h : list R) : Prop :=
  match p with
  | PArr ashape base _ =>
      exists hs : list (list R),
        length hs = prod ashape /\ h = concat hs /\ Forall (flat_leaves P base) hs
  | PDict items _ _ _ _ =>
      (fix go its h :=
         match its with
         | [] => h = []
         | kq :: its => exists y z, h = y ++ z /\ flat_leaves P (snd kq) y /\ go its z
         end) items h
  | _ => P p h
  end.

(** The same in terms of the entries of [h]: anything for numbers, rows that sum to zero
    for simplexes, symmetric matrices. *)
Definition leaf_direction (p : pat) (h : list R) : Prop :=
  match p with
  | PNum _ shape _ _ _ _ => length h = prod shape
  | PSimplex n ashape _ _ =>
      exists rows : list (list R), length rows = prod ashape /\ h = concat rows /\
        Forall (fun r => length r = n /\ Rlsum r = 0%R) rows
  | PPsd n _ _ _ _ => symmetric_direction n h
  | _ => False
  end.
Definition direction : pat -> list R -> Prop := flat_leaves leaf_direction.

(** [h] is the product of [J] with [w]. *)
Definition matrix_times (J : matrix) (w h : list R) : Prop :=
  length w = m_cols J /\ length h = m_rows J /\
  forall i, i < m_rows J ->
    exists c : nat -> R, (forall j, j < m_cols J -> m_at J i j = Fin (c j)) /\
      nth i h 0%R = Rsum (m_cols J) (fun j => c j * nth j w 0)%R.

(** The inner product. *)
Definition dot (g h : list R) : R := Rsum (length h) (fun i => nth i g 0 * nth i h 0)%R.

(** The flat vectors of the values strictly inside the constraints. *)
Definition flat_inside (p : pat) (z : list R) : Prop :=
  exists w, interior p w /\ flatten p w (Some false) None = Ok (map Fin z).

(** The point at [t] of the segment from [a] to [b]. *)
Definition segment (a b : list R) (t : R) : list R := map2 (fun x y => (1 - t) * x + t * y)%R a b.

(** [Phi] is convex on the set [P] of vectors. *)
Definition convex_on (P : list R -> Prop) (Phi : list R -> R) : Prop :=
  forall a b t, P a -> P b -> (0 <= t <= 1)%R -> P (segment a b t) ->
    (Phi (segment a b t) <= (1 - t) * Phi a + t * Phi b)%R.

(** [x] minimises [Phi] on [P], everywhere or nearby. *)
Definition minimum_on (P : list R -> Prop) (Phi : list R -> R) (x : list R) : Prop :=
  forall z, P z -> (Phi x <= Phi z)%R.
Definition local_minimum_on (P : list R -> Prop) (Phi : list R -> R) (x : list R) : Prop :=
  exists r, (0 < r)%R /\
    minimum_on (fun z => P z /\ forall i, i < length x -> (Rabs (nth i z 0 - nth i x 0) < r)%R) Phi x.
