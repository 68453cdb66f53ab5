(** * Free vectors with infinite entries, and folded values on the boundary. *)
From Coq Require Import Reals.
From Verif Require Import Base Num Nd Pattern Spec.
Local Open Scope list_scope.
Local Open Scope nat_scope.

(** An entry of a free vector and of a folded array, between bounds of which at most the
    upper one of two finite ones is not attained. *)
Definition ext_free (lb ub x : num) : Prop :=
  x <> NaN /\ (x = PInf -> lb = NInf \/ ub = PInf).
Definition ext_value (lb ub y : num) : Prop :=
  y <> NaN /\ ~ nlt y lb /\ ~ nlt ub y /\ (finite lb -> finite ub -> y <> ub).

(** A real number or [-inf]. *)
Definition low (x : num) : Prop := finite x \/ x = NInf.

(** Non-negative entries that sum to one, the first of them positive. *)
Definition ext_simplex (n : nat) (r : list R) : Prop :=
  length r = n /\ (exists r0 rest, r = r0 :: rest /\ (0 < r0)%R /\ Forall (Rle 0) rest) /\
  Rlsum r = 1%R.

(** Free vectors: infinities as far as the transforms can represent what they stand for.
    PSD members have finite free vectors. *)
Fixpoint boundary_free (p : pat) (x : list num) : Prop :=
  match p with
  | PNum _ shape lb ub _ _ =>
      length x = prod shape /\ Forall (ext_free (pyval lb) (pyval ub)) x
  | PSimplex n ashape _ _ => length x = prod ashape * (n - 1) /\ Forall low x
  | PPsd sz flen _ _ _ => length x = flen /\ Forall finite x
  | PArr ashape base _ =>
      length x = prod ashape * pl_n (flat_len base true) /\
      forall i, i < prod ashape ->
        boundary_free base (slice x (i * pl_n (flat_len base true)) (pl_n (flat_len base true)))
  | PDict items _ _ _ _ =>
      (fix go its x :=
         match its with
         | [] => x = []
         | kq :: its => exists y z, x = y ++ z /\ boundary_free (snd kq) y /\ go its z
         end) items x
  end.

(** Folded values: [Spec.interior] with the boundary as far as it is attained. *)
Fixpoint boundary_value (p : pat) (v : fv num) : Prop :=
  match p, v with
  | PNum _ shape lb ub _ _, FArr a =>
      fits shape a /\ Forall (ext_value (pyval lb) (pyval ub)) (dat a)
  | PSimplex n ashape _ _, FArr a =>
      shp a = ashape ++ [n] /\
      exists rows : list (list R),
        length rows = prod ashape /\ dat a = map Fin (concat rows) /\ Forall (ext_simplex n) rows
  | PPsd _ _ _ _ _, FArr a => interior p v
  | PArr ashape base _, FArr a =>
      shp a = ashape ++ folded_shape base /\ nd_ok a /\
      forall i, i < prod ashape ->
        boundary_value base (FArr (mkNd (folded_shape base)
          (slice (dat a) (i * prod (folded_shape base)) (prod (folded_shape base)))))
  | PDict items _ _ _ _, FDict d =>
      all_items (fun k q => exists w, dict_get d k = Some w /\ boundary_value q w) items
  | _, _ => False
  end.

(** [exp] with [exp(-inf) = 0]. *)
Definition ex (x : num) : R := match x with Fin r => exp r | _ => 0%R end.
