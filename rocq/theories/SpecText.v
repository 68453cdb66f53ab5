(** * Specification vocabulary for texts. *)
From Coq Require Import Reals NArith Ascii String.
From Verif Require Import Base Num Nd Pattern SpecNames Spec.
Local Open Scope list_scope.
Local Open Scope nat_scope.

(** Numerals separated by a comma and a space; Python's text of a tuple of
    integers, where a single one is followed by a comma. *)
Inductive spaced : list nat -> pystr -> Prop :=
| spaced_none : spaced [] []
| spaced_one n s : numeral_of n s -> spaced [n] s
| spaced_more n s m r t :
    numeral_of n s -> spaced (m :: r) t -> spaced (n :: m :: r) (s ++ 44%N :: 32%N :: t).
Definition tuple_of (s : list nat) (t : pystr) : Prop :=
  exists body, spaced s body /\
    t = 40%N :: body ++ (match s with [_] => [44%N] | _ => [] end) ++ [41%N].

(** What the texts of two patterns without dictionaries have in common. *)
Fixpoint same_shown (p q : pat) : Prop :=
  match p, q with
  | PNum _ s lb ub _ _, PNum _ s' lb' ub' _ _ => s = s' /\ lb = lb' /\ ub = ub'
  | PSimplex n s _ _, PSimplex n' s' _ _ => n = n' /\ s = s'
  | PPsd n _ d _ _, PPsd n' _ d' _ _ => n = n' /\ d = d'
  | PArr s b _, PArr s' b' _ => s = s' /\ same_shown b b'
  | _, _ => False
  end.
Fixpoint no_dict (p : pat) : Prop :=
  match p with PDict _ _ _ _ _ => False | PArr _ b _ => no_dict b | _ => True end.

(** The lines of a dictionary: a tab, the key in brackets, the member's text. *)
Inductive member_lines : list (pystr * pystr) -> pystr -> Prop :=
| lines_none : member_lines [] []
| lines_one k t : member_lines [(k, t)] (9%N :: str "[" ++ k ++ str "] = " ++ t)
| lines_more k t m r l :
    member_lines (m :: r) l ->
    member_lines ((k, t) :: m :: r) (9%N :: str "[" ++ k ++ str "] = " ++ t ++ 10%N :: l).

(** A method that the class does not have. *)
Definition lacks {A} (r : res A) : Prop := r = Err AttributeError.
