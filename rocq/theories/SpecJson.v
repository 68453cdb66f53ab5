(** * Specification vocabulary for the JSON properties. *)
From Coq Require Import Reals NArith SpecFloat.
From Verif Require Import Base Num Nd Numeric Simplex Psd Pattern Json PatJson Spec.
Local Open Scope list_scope.

(** ** Texts *)

(** A Python string that is proper text: code points below 0x110000, and no
    leading surrogate (0xD800-0xDBFF) directly followed by a trailing one
    (0xDC00-0xDFFF), which together would denote one other character. *)
Fixpoint proper_text (s : pystr) : Prop :=
  match s with
  | [] => True
  | c :: r =>
      (c < 1114112)%N /\
      match r with
      | [] => True
      | d :: _ => ~ ((55296 <= c <= 56319)%N /\ (56320 <= d <= 57343)%N)
      end /\ proper_text r
  end.

(** Decimal digits; an integer numeral has no superfluous leading zero. *)
Definition digits (s : pystr) : Prop := Forall (fun c => (48 <= c <= 57)%N) s.
Definition numeral (s : pystr) : Prop :=
  digits s /\ s <> [] /\ (hd 48%N s = 48%N -> s = [48%N]).

(** The text of a float: [-]int[.digits][e[+-]digits] with a fraction or an
    exponent (JSON's number grammar). *)
Definition float_text (s : pystr) : Prop :=
  exists neg ip fp ep : pystr,
    s = neg ++ ip ++ fp ++ ep /\
    (neg = [] \/ neg = [45%N]) /\ numeral ip /\
    (fp = [] \/ exists d, d <> [] /\ digits d /\ fp = 46%N :: d) /\
    (ep = [] \/ exists e sg d, (e = 101%N \/ e = 69%N) /\
       (sg = [] \/ sg = [43%N] \/ sg = [45%N]) /\ d <> [] /\ digits d /\ ep = e :: sg ++ d) /\
    (fp <> [] \/ ep <> []).

(** IEEE binary64 numbers that are finite. *)
Definition finite64 (f : spec_float) : Prop :=
  valid_binary 53 1024 f = true /\
  match f with S754_zero _ | S754_finite _ _ _ => True | _ => False end.

(** What is assumed of [float.__repr__] and [float()]: the text is a JSON float
    and reading it gives the number back. *)
Definition float_io_ok (io : float_io) : Prop :=
  forall f, finite64 f -> float_text (f_repr io f) /\ f_read io (f_repr io f) = f.

(** A number Python can hold: an int, or a binary64 float. *)
Definition python_num (x : pynum) : Prop :=
  match x with
  | PyInt _ => True
  | PyFloat f => valid_binary 53 1024 f = true
  end.

(** ** Patterns *)

(** All bounds in the tree are Python numbers. *)
Fixpoint python_bounds (p : pat) : Prop :=
  match p with
  | PNum _ _ lb ub _ _ => python_num lb /\ python_num ub
  | PPsd _ _ d _ _ => python_num d
  | PSimplex _ _ _ _ => True
  | PArr _ b _ => python_bounds b
  | PDict items _ _ _ _ => all_items (fun _ q => python_bounds q) items
  end.

(** All string keys in the tree are proper text. *)
Fixpoint proper_keys (p : pat) : Prop :=
  match p with
  | PArr _ b _ => proper_keys b
  | PDict items _ _ _ _ =>
      all_items (fun k q => match k with KStr s => proper_text s | KInt _ => True end /\
                            proper_keys q) items
  | _ => True
  end.

(** The class names are bound to the library's classes (more names may be
    registered). *)
Definition registers_builtins (reg : registry) : Prop :=
  forall c, dict_get reg (KStr (typename c)) = Some c.

(** What reading the JSON text of [p] gives: as [p], but free defaults are kept
    by numeric patterns only, lengths are recomputed, the top level is unlocked
    and nested dictionaries are locked. *)
Fixpoint reread (p : pat) : pat :=
  match p with
  | PNum _ _ _ _ _ _ => p
  | PSimplex n s dv _ => PSimplex n s dv None
  | PPsd sz fl d dv _ => PPsd sz fl d dv None
  | PArr s b _ => PArr s (reread b) None
  | PDict items _ _ _ _ =>
      let items' := map (fun kq => (fst kq, lock_pat (reread (snd kq)))) items in
      match items' with
      | [] => new_dict None
      | _ => PDict items' (items_len items' false) (items_len items' true) None false
      end
  end.

(** No dictionary in the tree was emptied by deleting its last member (its
    cached lengths would be the float 0.0 instead of 0). *)
Fixpoint never_emptied (p : pat) : Prop :=
  match p with
  | PArr _ b _ => never_emptied b
  | PDict items l fl _ _ =>
      (items = [] -> l = plint 0 /\ fl = plint 0) /\
      all_items (fun _ q => never_emptied q) items
  | _ => True
  end.

(** ** The registry *)

(** After the calls [h] on a registry that bound [bound name] before, [name] is
    bound to [c]: some call bound it (it allowed overwriting, or nothing had
    bound the name) and no later call for that name allowed overwriting; or [c]
    was bound before and no call for the name allowed overwriting. *)
Definition no_overwrite {C} (name : pystr) (h : list (pystr * C * bool)) : Prop :=
  forall c, ~ In (name, c, true) h.
Definition never_named {C} (name : pystr) (h : list (pystr * C * bool)) : Prop :=
  forall c a, ~ In (name, c, a) h.
Definition resolves {C} (before : option C) (h : list (pystr * C * bool)) (name : pystr) (c : C) : Prop :=
  (exists h1 h2 a, h = h1 ++ (name, c, a) :: h2 /\
     (a = true \/ (before = None /\ never_named name h1)) /\ no_overwrite name h2) \/
  (before = Some c /\ no_overwrite name h).

(** The same behaviour whatever the arguments, as long as [free] is given. *)
Definition same_behaviour (p q : pat) : Prop :=
  (forall A (sc : scalar A) x free vv,
     fold_gen sc p x (Some free) vv = fold_gen sc q x (Some free) vv) /\
  (forall A (sc : scalar A) v free vv,
     flatten_gen sc p v (Some free) vv = flatten_gen sc q v (Some free) vv) /\
  (forall A (sc : scalar A) v vv, validate sc p v vv = validate sc q v vv) /\
  (forall free, flat_length p (Some free) = flat_length q (Some free)) /\
  (forall m free, flat_indices p m (Some free) = flat_indices q m (Some free)) /\
  empty_valid p = empty_valid q /\ (forall b, empty_bool p b = empty_bool q b).
