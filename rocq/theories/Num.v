(** * Scalars: exact reals with IEEE infinities and NaN.

    A numpy float64 is modelled by [num].  Finite values are exact real
    numbers: rounding, overflow and underflow are NOT modelled.  Infinities and
    NaN follow IEEE 754.  Zero has no sign: x/0 for x>0 is +inf, and the code
    never depends on the sign of zero otherwise. *)
From Coq Require Import Reals Lra ZArith List SpecFloat.
From Verif Require Import Base.

Inductive num : Type := Fin (r : R) | PInf | NInf | NaN.

Definition Rltb (x y : R) : bool := if Rlt_dec x y then true else false.
Definition Rleb (x y : R) : bool := if Rle_dec x y then true else false.
Definition Reqb (x y : R) : bool := if Req_EM_T x y then true else false.

(** IEEE comparisons: every comparison with NaN is false. *)
Definition nltb (a b : num) : bool :=
  match a, b with
  | NaN, _ | _, NaN => false
  | Fin x, Fin y => Rltb x y
  | NInf, NInf => false
  | NInf, _ => true
  | _, NInf => false
  | PInf, _ => false
  | _, PInf => true
  end.
Definition neqb (a b : num) : bool :=
  match a, b with
  | Fin x, Fin y => Reqb x y
  | PInf, PInf => true
  | NInf, NInf => true
  | _, _ => false
  end.
Definition nleb (a b : num) : bool := nltb a b || neqb a b.
Definition ngtb (a b : num) : bool := nltb b a.
Definition ngeb (a b : num) : bool := nleb b a.

Definition nneg (a : num) : num :=
  match a with Fin x => Fin (- x) | PInf => NInf | NInf => PInf | NaN => NaN end.

Definition nadd (a b : num) : num :=
  match a, b with
  | NaN, _ | _, NaN => NaN
  | Fin x, Fin y => Fin (x + y)
  | PInf, NInf | NInf, PInf => NaN
  | PInf, _ | _, PInf => PInf
  | NInf, _ | _, NInf => NInf
  end.

Definition nsub (a b : num) : num := nadd a (nneg b).

(** Infinity with the sign of [s] times the sign of the real [x]; 0*inf is NaN. *)
Definition inf_times (s : bool) (x : R) : num :=
  if Rltb 0 x then (if s then PInf else NInf)
  else if Rltb x 0 then (if s then NInf else PInf) else NaN.

Definition nmul (a b : num) : num :=
  match a, b with
  | NaN, _ | _, NaN => NaN
  | Fin x, Fin y => Fin (x * y)
  | PInf, Fin x | Fin x, PInf => inf_times true x
  | NInf, Fin x | Fin x, NInf => inf_times false x
  | PInf, PInf | NInf, NInf => PInf
  | PInf, NInf | NInf, PInf => NInf
  end.

(** The zero denominator is +0. *)
Definition ndiv (a b : num) : num :=
  match a, b with
  | NaN, _ | _, NaN => NaN
  | Fin x, Fin y =>
      if Reqb y 0 then
        (if Rltb 0 x then PInf else if Rltb x 0 then NInf else NaN)
      else Fin (x / y)
  | Fin _, _ => Fin 0
  | PInf, Fin y => if Rltb y 0 then NInf else PInf
  | NInf, Fin y => if Rltb y 0 then PInf else NInf
  | _, _ => NaN
  end.

Definition nexp (a : num) : num :=
  match a with Fin x => Fin (exp x) | PInf => PInf | NInf => Fin 0 | NaN => NaN end.

Definition nlog (a : num) : num :=
  match a with
  | Fin x => if Rltb 0 x then Fin (ln x) else if Rltb x 0 then NaN else NInf
  | PInf => PInf
  | _ => NaN
  end.

Definition nsqrt (a : num) : num :=
  match a with
  | Fin x => if Rltb x 0 then NaN else Fin (sqrt x)
  | PInf => PInf
  | _ => NaN
  end.

Definition nabs (a : num) : num :=
  match a with Fin x => Fin (Rabs x) | PInf | NInf => PInf | NaN => NaN end.

(** [np.maximum]-style maximum: NaN propagates. *)
Definition nmax (a b : num) : num :=
  match a, b with
  | NaN, _ | _, NaN => NaN
  | _, _ => if nltb a b then b else a
  end.

(** [np.sum] of a vector (exact, so the order does not matter). *)
Definition nsum (l : list num) : num := fold_right nadd (Fin 0) l.

(** [np.max] of a non-empty vector. *)
Definition nmaxl (x : num) (l : list num) : num := fold_left nmax l x.

Definition is_nan (a : num) : bool := match a with NaN => true | _ => false end.
Definition is_fin (a : num) : bool := match a with Fin _ => true | _ => false end.

(** Python numbers used as constructor arguments ([lb], [ub], [diag_lb]): an
    [int] or a [float].  Floats are the standard library's [spec_float]
    (sign, mantissa, binary exponent, infinities, NaN). *)
Inductive pynum : Type := PyInt (z : Z) | PyFloat (f : spec_float).

Definition sf2num (f : spec_float) : num :=
  match f with
  | S754_zero _ => Fin 0
  | S754_infinity s => if s then NInf else PInf
  | S754_nan => NaN
  | S754_finite s m e =>
      Fin ((if s then -1 else 1) * IZR (Zpos m) * powerRZ 2 e)
  end.

Definition pyval (x : pynum) : num :=
  match x with PyInt z => Fin (IZR z) | PyFloat f => sf2num f end.

Definition py_inf : pynum := PyFloat (S754_infinity false).
Definition py_ninf : pynum := PyFloat (S754_infinity true).

(** Scalars of the array element types the code folds: floats, and for
    [free=False] also ints and bools.  [to_num] is numpy's promotion in
    comparisons and sums; [of_num] is only used by the [free=True] branch, which
    the library only ever applies to floats (where both maps are the identity). *)
Record scalar (A : Type) : Type := mkScalar { to_num : A -> num; of_num : num -> A }.
Arguments to_num {A} _ _.
Arguments of_num {A} _ _.
Arguments mkScalar {A} _ _.

Definition snum : scalar num := mkScalar (fun x : num => x) (fun x : num => x).
Definition sbool : scalar bool :=
  mkScalar (fun b : bool => Fin (if b then 1 else 0))
           (fun x : num => negb (neqb x (Fin 0))).
Definition snat : scalar nat := mkScalar (fun n : nat => Fin (INR n)) (fun _ : num => 0%nat).
