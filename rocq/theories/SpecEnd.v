(** * Vocabulary for statements about objectives of folded values. *)
From Coq Require Import Reals NArith.
From Verif Require Import Base Num Nd Pattern Spec Jac SpecJac FunWrap.
Local Open Scope list_scope.
Local Open Scope nat_scope.

(** Calling [g] with the one argument [a] returns the number [r], whatever the state. *)
Definition returns {S} (g : callable (obj R) S) (a : fv num) (r : R) : Prop :=
  forall s, exists s', c_call g [OVal a] [] s = (Ok (ROne (OOther r)), s').

(** The values an objective is meant for: strictly inside the constraints and in the
    form in which [fold] presents them. *)
Definition admissible (p : pat) (v : fv num) : Prop := interior p v /\ canon p v = v.

(** [FlattenFunctionInput(f, patterns=p, free=True)]. *)
Definition free_objective {S} (f : callable (obj R) S) (p : pat) : res (callable (obj R) S) :=
  flatten_input f (mkNd [] [pat_obj p]) (mkNd [] [Some true]) None.

(** [Phi] is differentiable at [x] with gradient [gr]: the remainder is small against
    the distance. *)
Definition has_gradient (Phi : list R -> R) (x gr : list R) : Prop :=
  length gr = length x /\
  forall eps, (0 < eps)%R -> exists delta, (0 < delta)%R /\
    forall z, length z = length x ->
      (forall i, i < length x -> (Rabs (nth i z 0 - nth i x 0) < delta)%R) ->
      (Rabs (Phi z - Phi x - Rsum (length x) (fun i => nth i gr 0 * (nth i z 0 - nth i x 0)))
       <= eps * Rsum (length x) (fun i => Rabs (nth i z 0 - nth i x 0)))%R.

(** [D] is the list of partial derivatives of [H] at [y]. *)
Definition partials (H : list R -> R) (y D : list R) : Prop :=
  length D = length y /\
  forall j, j < length y ->
    derivable_pt_lim (fun t => H (upd y j t)) (nth j y 0%R) (nth j D 0%R).

(** Entry [j] is the sum over [i] of [gr_i J_ij]. *)
Definition pulled_back (J : matrix) (gr D : list R) : Prop :=
  length D = m_cols J /\
  forall j, j < m_cols J ->
    exists c : nat -> R, (forall i, i < m_rows J -> m_at J i j = Fin (c i)) /\
      nth j D 0%R = Rsum (m_rows J) (fun i => nth i gr 0 * c i)%R.

Definition zero_vector (l : list R) : Prop := Forall (fun r => r = 0%R) l.

(** The generator [draw] goes from state [g] to state [g'] giving the numbers [l]. *)
Inductive drawn {G} (draw : G -> R * G) : G -> list R -> G -> Prop :=
| drawn_none : forall g, drawn draw g [] g
| drawn_more : forall g r g1 l g2, draw g = (r, g1) -> drawn draw g1 l g2 -> drawn draw g (r :: l) g2.

(** Where the entries of a random numeric array are: never in the lower half of an
    interval, never closer than 1 to a single lower bound, and so on. *)
Definition drawn_range (lb ub : num) (a : R) : Prop :=
  match lb, ub with
  | NInf, PInf => (0 <= a < 1)%R
  | Fin l, PInf => (l + 1 <= a < l + exp 1)%R
  | NInf, Fin u => (u - 1 <= a < u - exp (- (1)))%R
  | Fin l, Fin u => ((l + u) / 2 <= a < u)%R
  | _, _ => False
  end.
