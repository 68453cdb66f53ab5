(** * What the function wrappers should do.

    Stated on lists of patterns, positions and free flags, without the sorting
    and slicing of the code. *)
From Coq Require Import Reals NArith Ascii String.
From Verif Require Import Base Num Nd Numeric Simplex Psd Pattern Spec FunWrap.
Local Open Scope list_scope.
Local Open Scope nat_scope.

(** A scalar or a list, read as the list of its elements. *)
Definition listlike {A} (a : nd A) (l : list A) : Prop :=
  length (shp a) <= 1 /\ dat a = l.

(** [free] is one flag for all [n] patterns, or one flag for each. *)
Definition flags (a : nd (option bool)) (n : nat) (fs : list (option bool)) : Prop :=
  exists l, listlike a l /\
    ((exists b, l = [b] /\ fs = repeat b n) \/ (length l = n /\ fs = l)).

(** The patterns, positions and flags given to a wrapper.  Without [argnums] the
    patterns belong to the first positions, in order. *)
Definition given {V} (patterns : nd (patobj V)) (nums : option (nd Z))
    (free : nd (option bool)) (ps : list (patobj V)) (ns : list Z)
    (fs : list (option bool)) : Prop :=
  listlike patterns ps /\
  (match nums with
   | None => ns = map Z.of_nat (seq 0 (length ps))
   | Some a => listlike a ns
   end) /\
  flags free (length ps) fs.

(** Arguments of a function of flat values are flattened, its results folded;
    for a function of folded values it is the other way round. *)
Definition arg_conv {V} (original_is_flat : bool) : patobj V -> option bool -> V -> res V :=
  if original_is_flat then p_flatten else p_fold.
Definition ret_conv {V} (original_is_flat : bool) : patobj V -> option bool -> V -> res V :=
  if original_is_flat then p_fold else p_flatten.

(** Position [z] carries pattern [p] with flag [fr]. *)
Definition carries {V} (ps : list (patobj V)) (ns : list Z) (fs : list (option bool))
    (z : Z) (p : patobj V) (fr : option bool) : Prop :=
  exists i, nth_error ns i = Some z /\ nth_error ps i = Some p /\ nth_error fs i = Some fr.

(** [vals'] is [vals] with the value at every position that carries a pattern
    replaced by what the method [meth] of that pattern makes of it, and all other
    values left where they are. *)
Definition placed {V} (meth : patobj V -> option bool -> V -> res V) (ps : list (patobj V))
    (ns : list Z) (fs : list (option bool)) (vals vals' : list V) : Prop :=
  length vals' = length vals /\
  Forall (fun z => (z < Z.of_nat (length vals))%Z) ns /\
  forall j x, nth_error vals j = Some x ->
    exists y, nth_error vals' j = Some y /\
      ((exists p fr, carries ps ns fs (Z.of_nat j) p fr /\ meth p fr x = Ok y) \/
       (~ In (Z.of_nat j) ns /\ y = x)).

(** Position [z] does not exist in [vals] (then the exception is [missing]), or
    its conversion raises [e]. *)
Definition fails {V} (meth : patobj V -> option bool -> V -> res V) (ps : list (patobj V))
    (ns : list Z) (fs : list (option bool)) (vals : list V) (missing : exn)
    (z : Z) (e : exn) : Prop :=
  exists p fr, carries ps ns fs z p fr /\
    (((Z.of_nat (length vals) <= z)%Z /\ e = missing) \/
     (exists x, nth_error vals (Z.to_nat z) = Some x /\ meth p fr x = Err e)).

(** The leftmost position that fails. *)
Definition first_failure {V} (meth : patobj V -> option bool -> V -> res V)
    (ps : list (patobj V)) (ns : list Z) (fs : list (option bool)) (vals : list V)
    (missing : exn) (e : exn) : Prop :=
  exists z, fails meth ps ns fs vals missing z e /\
    forall z' e', (z' < z)%Z -> ~ fails meth ps ns fs vals missing z' e'.

(** No keyword argument is called [self]. *)
Definition no_self {V} (kw : list (pystr * V)) : Prop :=
  Forall (fun kv => fst kv <> str "self") kw.

(** The wrapper can be constructed. *)
Definition accepted {V} (patterns : nd (patobj V)) (nums : option (nd Z))
    (free : nd (option bool)) : Prop :=
  exists ps ns fs, given patterns nums free ps ns fs /\ NoDup ns /\ length ns = length ps.

(** The arrays given to a constructor have as many elements as their shape says. *)
Definition arrays_ok {V} (patterns : nd (patobj V)) (nums : option (nd Z))
    (free : nd (option bool)) : Prop :=
  nd_ok patterns /\ (forall a, nums = Some a -> nd_ok a) /\ nd_ok free.

(** What becomes of the result [r] of a function whose outputs are converted:
    exceptions pass through, tuples are converted in place, and anything else is
    converted when exactly position 0 carries a pattern.  [err] is the exception
    raised for missing results. *)
Inductive converted {V} (meth : patobj V -> option bool -> V -> res V) (ps : list (patobj V))
    (ns : list Z) (fs : list (option bool)) (err : exn) : res (pyret V) -> res (pyret V) -> Prop :=
| cv_raise : forall e, converted meth ps ns fs err (Err e) (Err e)
| cv_tuple : forall rets rets', placed meth ps ns fs rets rets' ->
    converted meth ps ns fs err (Ok (RTuple rets)) (Ok (RTuple rets'))
| cv_tuple_fails : forall rets e, first_failure meth ps ns fs rets err e ->
    converted meth ps ns fs err (Ok (RTuple rets)) (Err e)
| cv_one : forall v v' p fr, ns = [0%Z] -> ps = [p] -> fs = [fr] -> meth p fr v = Ok v' ->
    converted meth ps ns fs err (Ok (ROne v)) (Ok (ROne v'))
| cv_one_fails : forall v e p fr, ns = [0%Z] -> ps = [p] -> fs = [fr] -> meth p fr v = Err e ->
    converted meth ps ns fs err (Ok (ROne v)) (Err e)
| cv_one_refused : forall v, ns <> [0%Z] -> length ns <= 1 ->
    converted meth ps ns fs err (Ok (ROne v)) (Err err)
| cv_one_many : forall v, 1 < length ns ->
    converted meth ps ns fs err (Ok (ROne v)) (Err ValueError).

(** [ValueError], unless the error message cannot be built because the function
    has no [__name__]. *)
Definition missing_result {V S} (f : callable V S) : exn :=
  if c_named f then ValueError else AttributeError.

(** What a negative position means to Python: counted from the end. *)
Definition from_end (n : nat) (ns : list Z) : list Z := map (fun z => (z + Z.of_nat n)%Z) ns.

(** [vals'] is [vals] with the values at the positions of [ns] that exist replaced;
    positions that do not exist are ignored. *)
Definition replaced {V} (meth : patobj V -> option bool -> V -> res V) (ps : list (patobj V))
    (ns : list Z) (fs : list (option bool)) (vals vals' : list V) : Prop :=
  length vals' = length vals /\
  forall j x, nth_error vals j = Some x ->
    exists y, nth_error vals' j = Some y /\
      ((exists p fr, carries ps ns fs (Z.of_nat j) p fr /\ meth p fr x = Ok y) \/
       (~ In (Z.of_nat j) ns /\ y = x)).
(** What a wrapper makes of [n] values when negative and other positions are mixed:
    [k] is the last position counted from the end, [q] the first counted from the start.
    The values up to [k] with the positions counted from the end replaced, then
    the values from [q] on with the others replaced; in between what lies between, or
    everything before [q] once more when [k] is the last value. *)
Definition mixed {V} (n k q : nat) (at_end at_start : list V) : list V :=
  firstn (S k) at_end ++ skipn (if S k =? n then 0 else Nat.min (S k) q) at_start.
Definition mixed_at (ns : list Z) (n k q : nat) : Prop :=
  k < n /\ q < n /\ In (Z.of_nat k - Z.of_nat n)%Z ns /\ In (Z.of_nat q) ns /\
  Forall (fun z => (- Z.of_nat n <= z <= Z.of_nat k - Z.of_nat n)%Z \/ (Z.of_nat q <= z < Z.of_nat n)%Z) ns.

(** ** Values that survive conversion there and back *)

(** Every position that carries a pattern holds a folded value of it: an interior
    value where the free flag is set, a value that flattens where it is not. *)
Definition convertible {X} (qs : list pat) (ns : list Z) (fs : list (option bool))
    (vals : list (obj X)) : Prop :=
  forall i q z fr, nth_error qs i = Some q -> nth_error ns i = Some z -> nth_error fs i = Some fr ->
    exists v b, nth_error vals (Z.to_nat z) = Some (OVal v) /\
      free_with_default q fr = Ok b /\ usable q /\
      (if b then interior q v
       else fv_ok v /\ exists x, flatten q v (Some false) None = Ok x).

(** [vals'] is [vals] with the folded values in canonical form: what [fold] builds
    from them (same entries; see [canon]). *)
Definition canonical_at {X} (qs : list pat) (ns : list Z) (vals vals' : list (obj X)) : Prop :=
  length vals' = length vals /\
  forall j o, nth_error vals j = Some o ->
    exists o', nth_error vals' j = Some o' /\
      ((exists i q v, nth_error ns i = Some (Z.of_nat j) /\ nth_error qs i = Some q /\
          o = OVal v /\ o' = OVal (canon q v)) \/
       (~ In (Z.of_nat j) ns /\ o' = o)).

(** Every position that carries a pattern holds a flat vector of it: any finite
    vector of the right length where the free flag is set, a vector that folds
    where it is not. *)
Definition flat_at {X} (qs : list pat) (ns : list Z) (fs : list (option bool))
    (vals : list (obj X)) : Prop :=
  forall i q z fr, nth_error qs i = Some q -> nth_error ns i = Some z -> nth_error fs i = Some fr ->
    exists x b, nth_error vals (Z.to_nat z) = Some (OVal (FArr (vec x))) /\
      free_with_default q fr = Ok b /\ usable q /\
      (if b then exists r, x = map Fin r /\ flat_length q (Some true) = Ok (plint (length r))
       else exists v, fold q (vec x) (Some false) None = Ok v).
