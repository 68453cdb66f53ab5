(** * Vocabulary for statements about shared memory. *)
From Verif Require Import Base Num Nd Pattern Spec Alias.
Local Open Scope list_scope.
Local Open Scope nat_scope.

(** The array lies within an allocated buffer. *)
Definition r_ok (h : bufs) (r : aref) : Prop :=
  r_buf r < length h /\ r_off r + prod (r_shp r) <= length (nth (r_buf r) h []).

(** The arrays of a folded value. *)
Fixpoint arrays (v : hv) : list aref :=
  match v with
  | HArr r => [r]
  | HDict d => flat_map (fun kw => arrays (snd kw)) d
  end.
Definition v_ok (h : bufs) (v : hv) : Prop := Forall (r_ok h) (arrays v).

(** The arrays have no memory in common. *)
Definition apart (r s : aref) : Prop :=
  r_buf r <> r_buf s \/ r_off r + prod (r_shp r) <= r_off s \/ r_off s + prod (r_shp s) <= r_off r.
(** [s] is part of [r]. *)
Definition inside (s r : aref) : Prop :=
  r_buf s = r_buf r /\ r_off r <= r_off s /\ r_off s + prod (r_shp s) <= r_off r + prod (r_shp r).

(** [h2] differs from [h1] at most in the memory of the arrays [l]: the heap after any
    number of writes into them. *)
Definition wrote (l : list aref) (h1 h2 : bufs) : Prop :=
  length h2 = length h1 /\
  forall b, length (nth b h2 []) = length (nth b h1 []) /\
    forall i, (forall r, In r l -> ~ (r_buf r = b /\ r_off r <= i < r_off r + prod (r_shp r))) ->
      nth_error (nth b h2 []) i = nth_error (nth b h1 []) i.

(** No [PatternArray] in the tree. *)
Fixpoint no_arrays (p : pat) : Prop :=
  match p with
  | PArr _ _ _ => False
  | PDict items _ _ _ _ => all_items (fun _ q => no_arrays q) items
  | _ => True
  end.
