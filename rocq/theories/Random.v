(** * Random folded values. *)
From Coq Require Import Reals.
From Verif Require Import Base Num Nd Pattern.
Local Open Scope list_scope.
Local Open Scope nat_scope.

(** [np.random.random(n)]: [n] draws from a generator with state [G].
    Simplification: the draws are reals (for numpy, multiples of 2^-53). *)
Fixpoint draws {G} (draw : G -> R * G) (n : nat) (g : G) : list R * G :=
  match n with
  | O => ([], g)
  | S m => let (r, g') := draw g in let (l, g'') := draws draw m g' in (r :: l, g'')
  end.

(** base_patterns.py:212-225 [Pattern.random]: [np.random.random] refuses a float
    length; [fold] is called with the default of [validate_value]. *)
Definition random {G} (draw : G -> R * G) (p : pat) (g : G) : res (fv num) * G :=
  match as_index (flat_len p true) with
  | Err e => (Err e, g)
  | Ok n => let (x, g') := draws draw n g in (fold p (vec (map Fin x)) (Some true) None, g')
  end.
