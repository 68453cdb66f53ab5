(** * Elementwise transforms of paragami/numeric_array_patterns.py. *)
From Coq Require Import Reals.
From Verif Require Import Base Num Nd.

(** numeric_array_patterns.py:11-25 [_unconstrain_array], one entry. *)
Definition unconstrain1 (lb ub : num) (x : num) : num :=
  if neqb ub PInf then
    if neqb lb NInf then x else nlog (nsub x lb)
  else
    if neqb lb NInf then nmul (Fin (-1)) (nlog (nsub ub x))
    else nsub (nlog (nsub x lb)) (nlog (nsub ub x)).

(** numeric_array_patterns.py:28-40 [_unconstrain_array_jacobian], one entry. *)
Definition unconstrain1_jac (lb ub : num) (x : num) : num :=
  if neqb ub PInf then
    if neqb lb NInf then Fin 1 else ndiv (Fin 1) (nsub x lb)
  else
    if neqb lb NInf then ndiv (Fin 1) (nsub ub x)
    else nadd (ndiv (Fin 1) (nsub x lb)) (ndiv (Fin 1) (nsub ub x)).

(** numeric_array_patterns.py:96-111 [_constrain_array] (the second, effective,
    definition; lines 43-58 are an identical earlier one), one entry. *)
Definition constrain1 (lb ub : num) (x : num) : num :=
  if neqb ub PInf then
    if neqb lb NInf then x else nadd (nexp x) lb
  else
    if neqb lb NInf then nsub ub (nexp (nmul (Fin (-1)) x))
    else
      let e := nexp x in
      nadd (ndiv (nmul (nsub ub lb) e) (nadd (Fin 1) e)) lb.

(** numeric_array_patterns.py:61-77 [_constrain_array_jacobian], one entry. *)
Definition constrain1_jac (lb ub : num) (x : num) : num :=
  if neqb ub PInf then
    if neqb lb NInf then Fin 1 else nexp x
  else
    if neqb lb NInf then nexp (nmul (Fin (-1)) x)
    else
      let e := nexp x in
      let ratio := ndiv e (nadd (Fin 1) e) in
      nmul (nmul (nsub ub lb) ratio) (nsub (Fin 1) ratio).

(** numeric_array_patterns.py:80-93 [_get_inbounds_value].  The initial
    [assert lb < ub] is checked by the constructor. *)
Definition inbounds_value (lb ub : num) : num :=
  if ngtb lb NInf && nltb ub PInf then
    nadd (nmul (Fin (1/2)) (nsub ub lb)) lb
  else if ngtb lb NInf then nadd lb (Fin 1)
  else if nltb ub PInf then nsub ub (Fin 1)
  else Fin 0.
