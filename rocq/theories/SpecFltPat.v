(** * How float64 results and exact results of whole patterns are compared. *)
From Coq Require Import Reals ZArith.
From Flocq Require Import IEEE754.BinarySingleNaN.
From Verif Require Import Base Num Nd Pattern Spec Flt SpecFlt SpecFltMat SpecFltChol FltPat.
Local Open Scope R_scope.

(** The number a float stands for. *)
Definition num64 (x : f64) : num :=
  match x with
  | B754_nan => NaN
  | B754_infinity s => if s then NInf else PInf
  | _ => Fin (val x)
  end.
(** The bound is a float. *)
Definition exact_bound (b : pynum) : Prop := num64 (bound64 b) = pyval b.

(** Patterns the error bounds are stated for: numeric bounds up to 2048, simplexes of up to
    1001 entries, matrices of up to a million rows. *)
Fixpoint modest (p : pat) : Prop :=
  match p with
  | PNum _ _ lb ub _ _ =>
      exact_bound lb /\ exact_bound ub /\
      Rabs (val (bound64 lb)) <= pow2 11 /\ Rabs (val (bound64 ub)) <= pow2 11
  | PSimplex n _ _ _ => (n <= 1001)%nat
  | PPsd sz _ dlb _ _ =>
      (sz <= Z.to_nat 1000000)%nat /\ exact_bound dlb /\ Rabs (val (bound64 dlb)) <= pow2 1000
  | PArr _ base _ => modest base
  | PDict items _ _ _ _ => all_items (fun _ q => modest q) items
  end.

(** Every numeric leaf lacks a bound or has the bounds 0 and 1. *)
Fixpoint unit_bounds (p : pat) : Prop :=
  match p with
  | PNum _ _ lb ub _ _ =>
      bound64 lb = fninf \/ bound64 ub = finf \/ (bound64 lb = fzero /\ bound64 ub = fone)
  | PSimplex _ _ _ _ | PPsd _ _ _ _ _ => True
  | PArr _ base _ => unit_bounds base
  | PDict items _ _ _ _ => all_items (fun _ q => unit_bounds q) items
  end.

(** Bounds are floats, simplexes have up to 1001 entries. *)
Fixpoint exact_bounds (p : pat) : Prop :=
  match p with
  | PNum _ _ lb ub _ _ => exact_bound lb /\ exact_bound ub
  | PSimplex n _ _ _ => (n <= 1001)%nat
  | PPsd _ _ dlb _ _ => exact_bound dlb
  | PArr _ base _ => exact_bounds base
  | PDict items _ _ _ _ => all_items (fun _ q => exact_bounds q) items
  end.

(** Floats compared and summed exactly. *)
Definition s64 : scalar f64 := mkScalar num64 (fun _ => fnan).

(** The sums of simplex rows are not close to 1 + 1e-12 or 1 - 1e-12. *)
Definition clear_row (r : list f64) : Prop :=
  Forall fin r /\ rsum (map val r) <= pow2 900 /\
  (Rabs (rsum (map val r) - 1) <= 5 / 10000000000000 \/
   15 / 10000000000000 <= Rabs (rsum (map val r) - 1)).
Fixpoint clear (p : pat) (v : fv f64) : Prop :=
  match p, v with
  | PSimplex n s _ _, FArr a => forall i, (i < prod s)%nat -> clear_row (slice (dat a) (i * n) n)
  | PArr s base _, FArr a =>
      let k := prod (folded_shape base) in
      forall i, (i < prod s)%nat ->
        clear base (FArr (mkNd (folded_shape base) (slice (dat a) (i * k) k)))
  | PDict items _ _ _ _, FDict d =>
      all_items (fun k q => forall v', dict_get d k = Some v' -> clear q v') items
  | _, _ => True
  end.

(** Matrices minus bound are positive definite by a margin of rounding size. *)
Fixpoint sturdy (p : pat) (v : fv f64) : Prop :=
  match p, v with
  | PPsd sz _ dlb _ _, FArr a =>
      let m i j := nth (i * sz + j) (dat a) fnan in
      forall z, pow2 (-49) * INR (sz + 1) * (reach sz (bound64 dlb) m z * reach sz (bound64 dlb) m z)
                <= form sz (shifted (bound64 dlb) m) z
  | PArr s base _, FArr a =>
      let k := prod (folded_shape base) in
      forall i, (i < prod s)%nat ->
        sturdy base (FArr (mkNd (folded_shape base) (slice (dat a) (i * k) k)))
  | PDict items _ _ _ _, FDict d =>
      all_items (fun k q => forall v', dict_get d k = Some v' -> sturdy q v') items
  | _, _ => True
  end.

(** Free vectors: finite, between -100 and 100. *)
Definition small64 (x : list f64) : Prop := Forall (fun v => fin v /\ Rabs (val v) <= 100) x.

(** Folded values away from the bounds: entries between 2^-100 and 2^100 from a finite bound,
    entries of simplexes between 2^-100 and 2, matrices that are [decent] with diagonal minus
    bound up to 2^80. *)
Definition between (b : f64) (d : R) : Prop := fin b -> pow2 (-100) <= d <= pow2 100.
Fixpoint roomy (p : pat) (v : fv f64) : Prop :=
  match p, v with
  | PNum _ s lb ub _ _, FArr a =>
      shp a = s /\ nd_ok a /\
      Forall (fun x => fin x /\ between (bound64 lb) (val x - val (bound64 lb)) /\
                       between (bound64 ub) (val (bound64 ub) - val x)) (dat a)
  | PSimplex n s _ _, FArr a =>
      shp a = (s ++ [n])%list /\ nd_ok a /\ Forall (fun x => fin x /\ pow2 (-100) <= val x <= 2) (dat a)
  | PPsd sz _ dlb _ _, FArr a =>
      shp a = [sz; sz] /\ nd_ok a /\
      let m i j := nth (i * sz + j) (dat a) fnan in
      decent sz (bound64 dlb) m /\
      forall i, (i < sz)%nat -> val (m i i) - val (bound64 dlb) <= pow2 80
  | PArr s base _, FArr a =>
      shp a = (s ++ folded_shape base)%list /\ nd_ok a /\
      let k := prod (folded_shape base) in
      forall i, (i < prod s)%nat ->
        roomy base (FArr (mkNd (folded_shape base) (slice (dat a) (i * k) k)))
  | PDict items _ _ _ _, FDict d =>
      all_items (fun k q => exists v', dict_get d k = Some v' /\ roomy q v') items
  | _, _ => False
  end.

(** What is asked of the entries at the leaves: of numeric entries given the bounds, of the
    entries of a simplex, of an entry of a matrix given its bound and both matrices. *)
Record leaf_rel : Type := mkRel {
  on_num : f64 -> f64 -> R -> R -> Prop;
  on_simplex : R -> R -> Prop;
  on_psd : nat -> R -> (nat -> nat -> R) -> (nat -> nat -> R) -> nat -> nat -> Prop }.

(** A finite float and a finite number. *)
Definition both (f : R -> R -> Prop) (a : f64) (b : num) : Prop :=
  fin a /\ exists r, b = Fin r /\ f (val a) r.

Definition real_of (b : num) : R := match b with Fin r => r | _ => 0 end.

(** Float and exact value have the pattern's shape and are related at every leaf. *)
Fixpoint leafwise (L : leaf_rel) (p : pat) (v : fv f64) (w : fv num) : Prop :=
  match p, v, w with
  | PNum _ s lb ub _ _, FArr a, FArr b =>
      shp a = s /\ shp b = s /\ Forall2 (both (on_num L (bound64 lb) (bound64 ub))) (dat a) (dat b)
  | PSimplex n s _ _, FArr a, FArr b =>
      shp a = (s ++ [n])%list /\ shp b = (s ++ [n])%list /\ Forall2 (both (on_simplex L)) (dat a) (dat b)
  | PPsd sz _ dlb _ _, FArr a, FArr b =>
      shp a = [sz; sz] /\ shp b = [sz; sz] /\ Forall2 (both (fun _ _ => True)) (dat a) (dat b) /\
      let m i j := val (nth (i * sz + j) (dat a) fnan) in
      let e i j := real_of (nth (i * sz + j) (dat b) NaN) in
      forall i j, (i < sz)%nat -> (j < sz)%nat -> on_psd L sz (val (bound64 dlb)) m e i j
  | PArr s base _, FArr a, FArr b =>
      shp a = (s ++ folded_shape base)%list /\ shp b = (s ++ folded_shape base)%list /\
      nd_ok a /\ nd_ok b /\
      let k := prod (folded_shape base) in
      forall i, (i < prod s)%nat ->
        leafwise L base (FArr (mkNd (folded_shape base) (slice (dat a) (i * k) k)))
                        (FArr (mkNd (folded_shape base) (slice (dat b) (i * k) k)))
  | PDict items _ _ _ _, FDict d, FDict e =>
      all_items (fun k q => exists v' w', dict_get d k = Some v' /\ dict_get e k = Some w' /\ leafwise L q v' w') items
  | _, _, _ => False
  end.

(** Errors of folding, in terms of the exact result. *)
Definition fold_err : leaf_rel := {|
  on_num lb ub a r := Rabs (a - r) <= pow2 (-49) * (Rabs r + Rabs (val lb) + Rabs (val ub)) + pow2 (-1050);
  on_simplex a r := Rabs (a - r) <= 3 / 10000000000000 * r;
  on_psd n lb m e i j :=
    Rabs (m i j - e i j)
      <= pow2 (-52) * (INR (n + 18) * ((sqrt (e i i - lb) + 100) * (sqrt (e j j - lb) + 100)) +
                       (if Nat.eqb i j then Rabs lb else 0)) + INR n * pow2 (-1072) |}.

(** Distance of what a free vector stands for from the value it was computed from, in terms
    of the latter. *)
Definition flat_err : leaf_rel := {|
  on_num lb ub a r :=
    match is_ninf lb, is_pinf ub with
    | true, true => r = a
    | false, true => Rabs (r - a) <= pow2 (-47) * (1 + Rabs (ln (a - val lb))) * (a - val lb)
    | true, false => Rabs (r - a) <= pow2 (-47) * (1 + Rabs (ln (val ub - a))) * (val ub - a)
    | false, false =>
        Rabs (r - a) <= pow2 (-47) * (1 + Rabs (ln (a - val lb)) + Rabs (ln (val ub - a))) *
                        Rmin (a - val lb) (val ub - a)
    end;
  on_simplex a r := Rabs (r - a) <= / 100000000000 * a;
  on_psd n lb m e i j :=
    Rabs (e i j - m i j)
      <= pow2 (-50) * (INR (n + 1) + 17 * (2 * sqrt (m (Nat.min i j) (Nat.min i j) - lb) + 1001)) *
         sqrt ((m i i - lb) * (m j j - lb)) |}.
