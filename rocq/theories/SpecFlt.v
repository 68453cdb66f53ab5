(** * What is assumed of [np.exp], [np.log] and [np.sum] on float64.

    A relative error of 2^-50 (four to eight units in the last place) is allowed;
    nothing is said between the largest float and 2^1025.  SpecFlt's assumptions
    are met by correctly rounded functions (FltInst.v). *)
From Coq Require Import Reals ZArith Permutation.
From Flocq Require Import Core IEEE754.BinarySingleNaN.
From Verif Require Import Base Flt.
Local Open Scope R_scope.

(** The real value of a finite float (0 for others). *)
Definition val (x : f64) : R := @B2R 53 1024 x.
Definition fin (x : f64) : Prop := @is_finite 53 1024 x = true.
Definition not_nan (x : f64) : Prop := @is_nan 53 1024 x = false.

Definition pow2 (e : Z) : R := bpow radix2 e.

Record exp_contract (f : f64 -> f64) : Prop := {
  exp_nan : f fnan = fnan;
  exp_pinf : f finf = finf;
  exp_ninf : f fninf = fzero;
  exp_zero : forall s, f (B754_zero s) = fone;
  exp_sign : forall x, fin x -> f x = finf \/ (fin (f x) /\ 0 <= val (f x));
  exp_near : forall x, fin x -> exp (val x) <= pow2 1023 ->
    fin (f x) /\ Rabs (val (f x) - exp (val x)) <= pow2 (-50) * exp (val x) + pow2 (-1074);
  exp_over : forall x, fin x -> pow2 1025 <= exp (val x) -> f x = finf }.

Record log_contract (f : f64 -> f64) : Prop := {
  log_nan : f fnan = fnan;
  log_pinf : f finf = finf;
  log_zero : forall s, f (B754_zero s) = fninf;
  log_near : forall x, fin x -> 0 < val x ->
    fin (f x) /\ Rabs (val (f x) - ln (val x)) <= pow2 (-50) * Rabs (ln (val x)) }.

(** [r] is obtained by adding up [l] in some order. *)
Inductive sum_of : list f64 -> f64 -> Prop :=
| sum_none : sum_of nil fzero
| sum_one x : sum_of (x :: nil) x
| sum_add l m a b : sum_of l a -> sum_of m b -> sum_of (l ++ m) (fadd a b)
| sum_perm l m a : Permutation l m -> sum_of l a -> sum_of m a.

Record np_contract (np : np64) : Prop := {
  np_exp_ok : exp_contract (np_exp np);
  np_log_ok : log_contract (np_log np);
  np_sum_ok : forall l, sum_of l (np_sum np l) }.

Definition rsum (l : list R) : R := fold_right Rplus 0 l.
(** The exact value the simplex transform stands for. *)
Definition softmax (l : list R) (v : R) : R := exp v / rsum (map exp l).

(** A bound that is a float or infinite on its side. *)
Definition low_ok (lb : f64) : Prop := fin lb \/ lb = fninf.
Definition up_ok (ub : f64) : Prop := fin ub \/ ub = finf.

(** The Python literals [-0.7] and [0.3]. *)
Definition lbm07 : f64 := flit (-6305039478318694) (-53).
Definition ub03 : f64 := flit 5404319552844595 (-54).

(** At most 1000 entries between -100 and 100. *)
Definition moderate (x : list f64) : Prop :=
  (length x <= 1000)%nat /\ Forall (fun v => fin v /\ Rabs (val v) <= 100) x.
