(** * The accessor methods of the pattern classes. *)
From Coq Require Import Reals.
From Verif Require Import Base Num Nd Pattern.
Local Open Scope list_scope.

(** [shape()]: numeric_array_patterns.py:248-249, simplex_patterns.py:125-126,
    psdmatrix_patterns.py:222-225, pattern_containers.py:499-502.  A dictionary
    has no such method. *)
Definition shape_of (p : pat) : res (list nat) :=
  match p with
  | PNum _ s _ _ _ _ => Ok s
  | PSimplex n s _ _ => Ok (s ++ [n])
  | PPsd sz _ _ _ _ => Ok [sz; sz]
  | PArr s b _ => Ok (s ++ folded_shape b)
  | PDict _ _ _ _ _ => Err AttributeError
  end.
(** [array_shape()]: simplex_patterns.py:119-120, pattern_containers.py:492-497. *)
Definition array_shape (p : pat) : res (list nat) :=
  match p with
  | PSimplex _ s _ _ | PArr s _ _ => Ok s
  | _ => Err AttributeError
  end.
(** numeric_array_patterns.py:251-252. *)
Definition bounds (p : pat) : res (pynum * pynum) :=
  match p with PNum _ _ lb ub _ _ => Ok (lb, ub) | _ => Err AttributeError end.
(** numeric_array_patterns.py:330-331. *)
Definition vector_length (p : pat) : res nat :=
  match p with PNum KVector s _ _ _ _ => Ok (nth 0 s 0) | _ => Err AttributeError end.
(** simplex_patterns.py:122-123. *)
Definition simplex_size (p : pat) : res nat :=
  match p with PSimplex n _ _ _ => Ok n | _ => Err AttributeError end.
(** psdmatrix_patterns.py:217-220 and 227-230. *)
Definition psd_size (p : pat) : res nat :=
  match p with PPsd sz _ _ _ _ => Ok sz | _ => Err AttributeError end.
Definition psd_diag_lb (p : pat) : res pynum :=
  match p with PPsd _ _ d _ _ => Ok d | _ => Err AttributeError end.
(** pattern_containers.py:504-505. *)
Definition base_pattern (p : pat) : res pat :=
  match p with PArr _ b _ => Ok b | _ => Err AttributeError end.
(** pattern_containers.py:243-244 and 196-197. *)
Definition dict_keys (p : pat) : res (list key) :=
  match p with PDict items _ _ _ _ => Ok (map fst items) | _ => Err AttributeError end.
Definition dict_getitem (p : pat) (k : key) : res pat :=
  match p with
  | PDict items _ _ _ _ =>
      match dict_get items k with Some q => Ok q | None => Err KeyError end
  | _ => Err TypeError
  end.
