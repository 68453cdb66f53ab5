(** * How float64 Jacobians are compared with exact ones. *)
From Coq Require Import Reals ZArith.
From Verif Require Import Base Num Nd Pattern Spec Jac Flt SpecFlt FltPat SpecFltPat FltJac.
Local Open Scope R_scope.

(** The exact value a float64 value stands for. *)
Definition exact_value : fv f64 -> fv num :=
  fix go v :=
    match v with
    | FArr a => FArr (mkNd (shp a) (map num64 (dat a)))
    | FDict d => FDict ((fix all d := match d with nil => nil | (k, w) :: r => (k, go w) :: all r end) d)
    end.

(** Distance of an entry from its lower bound, or from its upper bound if there is no lower
    one; 1 without bounds. *)
Definition gap (lb ub a : f64) : R :=
  if is_ninf lb then (if is_pinf ub then 1 else val ub - val a) else val a - val lb.

(** The gaps of numeric entries and the entries of simplexes, in the order of the flat value. *)
Fixpoint gaps (p : pat) (v : fv f64) : list R :=
  match p, v with
  | PNum _ _ lb ub _ _, FArr a => map (gap (bound64 lb) (bound64 ub)) (dat a)
  | PSimplex _ _ _ _, FArr a => map val (dat a)
  | PArr s base _, FArr a =>
      let k := prod (folded_shape base) in
      flat_map (fun i => gaps base (FArr (mkNd (folded_shape base) (slice (dat a) (i * k) k))))
        (seq 0 (prod s))
  | PDict items _ _ _ _, FDict d =>
      (fix go its :=
         match its with
         | nil => nil
         | (k, q) :: rest =>
             match dict_get d k with Some w => gaps q w | None => nil end ++ go rest
         end) items
  | _, _ => nil
  end%list.

(** Entries of a freeing Jacobian are accurate relative to themselves, those of an unfreeing
    Jacobian relative to the gap [g] of their row. *)
Definition entry_near (freeing : bool) (g : R) (a r : R) : Prop :=
  Rabs (a - r) <= if freeing then pow2 (-49) * Rabs r else pow2 (-38) * g.
Definition mat_near (freeing : bool) (g : list R) (m : matrix64) (e : matrix) : Prop :=
  r64 m = m_rows e /\ c64 m = m_cols e /\
  forall i j, (i < r64 m)%nat -> (j < c64 m)%nat ->
    both (entry_near freeing (nth i g 0)) (at64 m i j) (m_at e i j).

(** Entries with two finite bounds are not much closer to the upper one. *)
Fixpoint balanced (p : pat) (v : fv f64) : Prop :=
  match p, v with
  | PNum _ _ lb ub _ _, FArr a =>
      fin (bound64 lb) -> fin (bound64 ub) ->
      Forall (fun x => val x - val (bound64 lb) <= 1000 * (val (bound64 ub) - val x)) (dat a)
  | PDict items _ _ _ _, FDict d =>
      all_items (fun k q => forall w, dict_get d k = Some w -> balanced q w) items
  | _, _ => True
  end.
