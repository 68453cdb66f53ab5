(** * Pattern dictionaries as shared mutable objects.

    Models paragami/pattern_containers.py:178-242 and 322-326 (the class
    [PatternDict]: [__init__], [lock], [__setitem__], [__delitem__],
    [_update_flat_length]) on a heap of Python objects.

    Simplifications: keys are [str] or [int]; the attributes of the immutable
    pattern classes are never reassigned by the client; [fold], [flatten] and the
    other read-only methods are left out of the operations because they do not
    assign to any attribute. *)
From Verif Require Import Base Nd Pattern.

(** A reference is the position of the object in the heap. *)
Definition ref := nat.

Inductive obj : Type :=
(** A pattern that is not a dictionary (immutable). *)
| OLeaf (p : pat)
(** A [PatternDict].  [exact] tells whether [type(obj) is PatternDict], i.e. is
    false for instances of a subclass; the other fields are [__pattern_dict],
    [_flat_length], [_free_flat_length], [free_default] and [__lock]. *)
| ODict (exact : bool) (items : list (key * ref)) (len flen : plen)
        (fd : option bool) (locked : bool)
(** Any object without a [flat_length] method. *)
| OOther.

Definition heap := list obj.

(** [obj.flat_length(free)] with an explicit [free] (base_patterns.py:192-210):
    dictionaries answer with the cached attribute. *)
Definition obj_len (o : obj) (free : bool) : res plen :=
  match o with
  | OLeaf p => Ok (flat_len p free)
  | ODict _ _ len flen _ _ => Ok (if free then flen else len)
  | OOther => Err AttributeError
  end.
Definition ref_len (h : heap) (r : ref) (free : bool) : res plen :=
  match nth_error h r with
  | Some o => obj_len o free
  | None => Err Unmodelled
  end.

(** pattern_containers.py:322-326 [_update_flat_length]. *)
Definition update_len (h : heap) (items : list (key * ref)) (free : bool) : res plen :=
  ls <- mapM (fun kr => ref_len h (snd kr) free) items ;; Ok (plen_sum ls).

(** pattern_containers.py:231-232, 240-241: both lengths, free first. *)
Definition refresh (h : heap) (d : ref) : heap * res unit :=
  match nth_error h d with
  | Some (ODict ex items len flen fd lk) =>
      match update_len h items true with
      | Err e => (h, Err e)
      | Ok fl =>
          let h1 := upd h d (ODict ex items len fl fd lk) in
          match update_len h1 items false with
          | Err e => (h1, Err e)
          | Ok l => (upd h1 d (ODict ex items l fl fd lk), Ok tt)
          end
      end
  | _ => (h, Err Unmodelled)
  end.

(** pattern_containers.py:228-229: a member whose type is PatternDict is locked. *)
Definition lock_member (h : heap) (r : ref) : heap :=
  match nth_error h r with
  | Some (ODict true items len flen fd lk) => upd h r (ODict true items len flen fd true)
  | _ => h
  end.

(** The operations of a client program. *)
Inductive op : Type :=
| NewLeaf (p : pat)                      (** a constructor call that succeeded *)
| NewOther
| NewDict (exact : bool) (fd : option bool)
| SetItem (d : ref) (k : key) (r : ref)  (** [d[k] = r] *)
| DelItem (d : ref) (k : key)            (** [del d[k]] *)
| Lock (d : ref).                        (** [d.lock()] *)

(** One operation: the new heap and what the client sees. *)
Definition step (h : heap) (o : op) : heap * res unit :=
  match o with
  | NewLeaf p => (h ++ [OLeaf p], Ok tt)
  | NewOther => (h ++ [OOther], Ok tt)
  | NewDict ex fd => (h ++ [ODict ex [] (plint 0) (plint 0) fd false], Ok tt)
  | SetItem d k r =>
      match nth_error h d, nth_error h r with
      | Some (ODict ex items len flen fd lk), Some _ =>
          if lk then (h, Err ValueError)
          else
            let h1 := upd h d (ODict ex (assign items k r) len flen fd lk) in
            refresh (lock_member h1 r) d
      | Some _, Some _ => (h, Err TypeError)
      | _, _ => (h, Err Unmodelled)
      end
  | DelItem d k =>
      match nth_error h d with
      | Some (ODict ex items len flen fd lk) =>
          if lk then (h, Err ValueError)
          else match dict_get items k with
               | None => (h, Err KeyError)
               | Some _ =>
                   refresh (upd h d (ODict ex (remove_key items k) len flen fd lk)) d
               end
      | Some _ => (h, Err TypeError)
      | None => (h, Err Unmodelled)
      end
  | Lock d =>
      match nth_error h d with
      | Some (ODict ex items len flen fd lk) =>
          (upd h d (ODict ex items len flen fd true), Ok tt)
      | Some _ => (h, Err AttributeError)
      | None => (h, Err Unmodelled)
      end
  end.

(** A program: exceptions are caught by the client, which then carries on. *)
Fixpoint run (h : heap) (ops : list op) : heap :=
  match ops with
  | [] => h
  | o :: rest => run (fst (step h o)) rest
  end.
