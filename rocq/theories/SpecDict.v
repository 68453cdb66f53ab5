(** * Specification vocabulary for the dictionary heap. *)
From Verif Require Import Base Nd Pattern Spec DictHeap.

(** The pattern tree below a reference: what the object graph means as a value. *)
Inductive denotes (h : heap) : ref -> pat -> Prop :=
| den_leaf r p : nth_error h r = Some (OLeaf p) -> denotes h r p
| den_dict r ex items len flen fd lk qs :
    nth_error h r = Some (ODict ex items len flen fd lk) ->
    denotes_items h items qs ->
    denotes h r (PDict qs len flen fd lk)
with denotes_items (h : heap) : list (key * ref) -> list (key * pat) -> Prop :=
| den_nil : denotes_items h [] []
| den_cons k r q items qs :
    denotes h r q -> denotes_items h items qs ->
    denotes_items h ((k, r) :: items) ((k, q) :: qs).

(** The length of a pattern tree counted from its leaves, ignoring every cached
    dictionary length. *)
Fixpoint true_len (p : pat) (free : bool) : nat :=
  match p with
  | PDict items _ _ _ _ => lsum (map (fun kq => true_len (snd kq) free) items)
  | _ => pl_n (flat_len p free)
  end.

(** Operations of a well-behaved client: only patterns, no subclass of
    PatternDict, no dictionary assigned into itself. *)
Definition plain (o : op) : Prop :=
  match o with
  | NewLeaf p => is_dict p = false
  | NewOther => False
  | NewDict exact _ => exact = true
  | SetItem d _ r => d <> r
  | DelItem _ _ | Lock _ => True
  end.
(** Moreover the leaves come from the constructors. *)
Definition plain_built (o : op) : Prop :=
  plain o /\ match o with NewLeaf p => built p | _ => True end.

(** The members of the dictionary object [d]. *)
Definition members (h : heap) (d : ref) (items : list (key * ref)) : Prop :=
  exists ex len flen fd lk, nth_error h d = Some (ODict ex items len flen fd lk).
Definition locked_at (h : heap) (d : ref) : Prop :=
  exists ex items len flen fd, nth_error h d = Some (ODict ex items len flen fd true).
Definition unlocked_at (h : heap) (d : ref) : Prop :=
  exists ex items len flen fd, nth_error h d = Some (ODict ex items len flen fd false).
Definition reports (h : heap) (r : ref) (free : bool) (n : nat) : Prop :=
  exists l, ref_len h r free = Ok l /\ pl_n l = n.

(** The members of [d] report [n] in total. *)
Definition children_sum (h : heap) (d : ref) (free : bool) (n : nat) : Prop :=
  exists items ns, members h d items /\
    Forall2 (fun kr m => reports h (snd kr) free m) items ns /\ n = lsum ns.
(** The members of [d] under keys other than [k] report [n] in total. *)
Definition others_sum (h : heap) (d : ref) (k : key) (free : bool) (n : nat) : Prop :=
  exists items ns, members h d items /\
    Forall2 (fun kr m => reports h (snd kr) free m) (remove_key items k) ns /\ n = lsum ns.

(** [e] occurs somewhere inside the dictionary tree [p]. *)
Inductive inside (e : pat) : pat -> Prop :=
| inside_here items l fl fd lk k : In (k, e) items -> inside e (PDict items l fl fd lk)
| inside_deep items l fl fd lk k q : In (k, q) items -> inside e q ->
    inside e (PDict items l fl fd lk).
