(** * Specification of validity, independent of the code's checks. *)
From Coq Require Import Reals.
From Verif Require Import Base Num Nd Pattern Spec.

(** Order on extended reals (false as soon as NaN is involved). *)
Definition nle (a b : num) : Prop := nlt a b \/ (a = b /\ a <> NaN).

(** What [validate_folded(v, True)] accepts:
    - numeric: every entry is NaN or in the closed interval;
    - simplex: every entry is NaN or non-negative, and every simplex contains a
      NaN or sums to one within 1e-12;
    - PSD: no NaN, symmetric, diagonal at least [diag_lb];
    - containers: every block, every member. *)
Fixpoint valid (p : pat) (v : fv num) : Prop :=
  match p, v with
  | PNum _ shape lb ub _ _, FArr a =>
      fits shape a /\
      Forall (fun x => x = NaN \/ (nle (pyval lb) x /\ nle x (pyval ub))) (dat a)
  | PSimplex n ashape _ _, FArr a =>
      shp a = ashape ++ [n] /\ nd_ok a /\
      Forall (fun x => x = NaN \/ nle (Fin 0) x) (dat a) /\
      forall i, i < prod ashape ->
        let row := slice (dat a) (i * n) n in
        In NaN row \/
        exists r, row = map Fin r /\ (Rabs (Rlsum r - 1) <= / 10 ^ 12)%R
  | PPsd sz _ dlb _ _, FArr a =>
      shp a = [sz; sz] /\ nd_ok a /\
      forall i j, i < sz -> j < sz ->
        let m := fun i j => nth (i * sz + j) (dat a) NaN in
        m i j <> NaN /\ m i j = m j i /\ nle (pyval dlb) (m i i)
  | PArr ashape base _, FArr a =>
      shp a = ashape ++ folded_shape base /\ nd_ok a /\
      forall i, i < prod ashape ->
        valid base (FArr (mkNd (folded_shape base)
          (slice (dat a) (i * prod (folded_shape base)) (prod (folded_shape base)))))
  | PDict items _ _ _ _, FDict d =>
      all_items (fun k q => exists w, dict_get d k = Some w /\ valid q w) items
  | _, _ => False
  end.

(** The base pattern under any number of array layers is numeric. *)
Fixpoint numeric_base (p : pat) : Prop :=
  match p with
  | PNum _ _ _ _ _ _ => True
  | PArr _ b _ => numeric_base b
  | _ => False
  end.
