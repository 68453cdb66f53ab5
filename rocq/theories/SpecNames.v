(** * Specification vocabulary for names.  Nothing here mentions the code's
    printing functions. *)
From Coq Require Import NArith.
From Verif Require Import Base Num Nd Pattern.
Local Open Scope list_scope.
Local Open Scope nat_scope.

(** The value of a string of decimal digits. *)
Fixpoint digits_value (s : pystr) : nat :=
  match s with
  | [] => 0
  | c :: r => N.to_nat (c - 48) * 10 ^ length r + digits_value r
  end.

(** [s] is the decimal numeral of [n] without superfluous zeros. *)
Definition numeral_of (n : nat) (s : pystr) : Prop :=
  s <> [] /\ Forall (fun c => 48 <= c <= 57)%N s /\
  (forall r, s = 48%N :: r -> r = []) /\ digits_value s = n.

(** Comma separated numerals, and the same in square brackets. *)
Inductive listed : list nat -> pystr -> Prop :=
| listed_none : listed [] []
| listed_one n s : numeral_of n s -> listed [n] s
| listed_more n s m r t :
    numeral_of n s -> listed (m :: r) t -> listed (n :: m :: r) (s ++ 44%N :: t).
Definition bracketed (item : list nat) (s : pystr) : Prop :=
  exists body, listed item body /\ s = 91%N :: body ++ [93%N].

(** Row-major position of a multi-index. *)
Definition row_major (item shape : list nat) : nat :=
  fold_left (fun acc p => acc * snd p + fst p) (combine item shape) 0.

Definition starts (a b : pystr) : Prop := exists c, b = a ++ c.

(** No member's prefix [key + delim] is the start of another one's; inside
    nested dictionaries the delimiter is the default one. *)
Fixpoint clear_keys (delim : pystr) (p : pat) : Prop :=
  match p with
  | PDict items _ _ _ _ =>
      (forall s t, In (KStr s) (map fst items) -> In (KStr t) (map fst items) -> s <> t ->
         ~ starts (s ++ delim) (t ++ delim)) /\
      (fix all its :=
         match its with [] => True | (_, q) :: r => clear_keys [95%N] q /\ all r end) items
  | _ => True
  end.

(** No key of the tree contains an underscore. *)
Fixpoint no_underscore (p : pat) : Prop :=
  match p with
  | PDict items _ _ _ _ =>
      (fix all its :=
         match its with
         | [] => True
         | (k, q) :: r =>
             (forall s, k = KStr s -> ~ In 95%N s) /\ no_underscore q /\ all r
         end) items
  | _ => True
  end.
