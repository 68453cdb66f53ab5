(** * Function wrappers (function_patterns.py).

    The wrappers of function_patterns.py change the arguments or the results of
    a callable.  What they do depends on patterns only through the methods
    [fold] and [flatten], so a pattern object is modelled by those two methods
    ([patobj]); [pat_obj] at the end builds one from a pattern of Pattern.v.

    A callable takes positional arguments, keyword arguments and a state of an
    arbitrary type (everything it can read or change), and returns a result or
    an exception together with the new state.  This makes it visible whether,
    how often and with what a wrapped function is called.

    Simplifications.
    - [argnums] and [retnums] are arrays of integers (floats are not modelled).
    - numpy stores each pattern object in one cell of an object array.  (The
      built-in pattern classes define no [__len__], so numpy does not take them
      for sequences.)
    - The patterns given to a wrapper are not changed between construction and
      call, and neither is the public attribute [free].
    - [__str__] (92-96, 211-215) is not modelled, nor are messages. *)
From Coq Require Import Reals NArith Ascii String.
From Verif Require Import Base Num Nd Numeric Simplex Psd Pattern.
Local Open Scope list_scope.
Local Open Scope nat_scope.

(** A pattern, seen through [fold(value, free=...)] and
    [flatten(value, free=...)] (with [validate_value] left out). *)
Record patobj (V : Type) : Type := mkPat {
  p_fold : option bool -> V -> res V;
  p_flatten : option bool -> V -> res V
}.
Arguments mkPat {V} _ _.
Arguments p_fold {V} _ _ _.
Arguments p_flatten {V} _ _ _.

(** What a Python function returns: a tuple, or anything else. *)
Inductive pyret (V : Type) : Type :=
| RTuple (l : list V)
| ROne (v : V).
Arguments RTuple {V} _.
Arguments ROne {V} _.

(** [c_named]: whether the callable has an attribute [__name__] (functions do;
    instances of the wrapper classes do not). *)
Record callable (V S : Type) : Type := mkFun {
  c_call : list V -> list (pystr * V) -> S -> res (pyret V) * S;
  c_named : bool
}.
Arguments mkFun {V S} _ _.
Arguments c_call {V S} _ _ _ _.
Arguments c_named {V S} _.

(** ** Python tuples and numpy helpers *)

(** [t[i]] for a tuple: negative indices count from the end. *)
Definition py_index {A} (l : list A) (i : Z) : res A :=
  let j := if (i <? 0)%Z then (i + Z.of_nat (length l))%Z else i in
  if (j <? 0)%Z then Err IndexError
  else match nth_error l (Z.to_nat j) with
       | Some x => Ok x
       | None => Err IndexError
       end.

(** A slice bound of a tuple of length [n]: negative bounds count from the end,
    and bounds are cut to the range [0..n]. *)
Definition slice_bound (n : nat) (i : Z) : nat :=
  if (i <? 0)%Z then Z.to_nat (i + Z.of_nat n) else Nat.min (Z.to_nat i) n.

(** [t[i:j]]. *)
Definition py_slice {A} (l : list A) (i j : Z) : list A :=
  let a := slice_bound (length l) i in
  let b := slice_bound (length l) j in
  firstn (b - a) (skipn a l).

(** [np.atleast_1d]. *)
Definition atleast_1d {A} (a : nd A) : nd A :=
  match shp a with [] => mkNd [1] (dat a) | _ => a end.

(** [np.argsort] of a vector; elements that compare equal keep their order
    (numpy does not promise that, but the wrappers refuse repeated values). *)
Fixpoint insert_num (x : Z * nat) (l : list (Z * nat)) : list (Z * nat) :=
  match l with
  | [] => [x]
  | y :: r => if (fst y <? fst x)%Z then y :: insert_num x r else x :: l
  end.

Definition argsort (l : list Z) : list nat :=
  map snd (fold_right insert_num [] (combine l (seq 0 (length l)))).

(** [np.broadcast_to(a, (n,))]: a scalar or a vector of length one is repeated,
    a vector of length [n] is taken as it is, anything else does not fit. *)
Definition broadcast_1d {A} (a : nd A) (n : nat) : res (list A) :=
  match shp a, dat a with
  | [], x :: _ => Ok (repeat x n)
  | [m], x :: _ => if m =? n then Ok (dat a)
                   else if m =? 1 then Ok (repeat x n) else Err ValueError
  | [m], [] => if m =? n then Ok [] else Err ValueError
  | _, _ => Err ValueError
  end.

(** ** Construction *)

(** The attributes [_patterns], [_argnums] (or [_retnums]), [_argnum_sort] (or
    [_retnum_sort]), [free] and [_original_is_flat]. *)
Record wrap (V : Type) : Type := mkWrap {
  w_pats : list (patobj V);
  w_nums : list Z;
  w_sort : list nat;
  w_free : list (option bool);
  w_flat : bool
}.
Arguments mkWrap {V} _ _ _ _ _.
Arguments w_pats {V} _.
Arguments w_nums {V} _.
Arguments w_sort {V} _.
Arguments w_free {V} _.
Arguments w_flat {V} _.

(** function_patterns.py:62-90 (inputs) and 181-209 (outputs); the two
    constructors differ only in the names [argnums] and [retnums].  [free] is
    [Some b] for a boolean and [None] for Python's [None], which reaches
    [Pattern._free_with_default] as it is.  When [patterns] has two or more axes
    the constructor raises a [ValueError] either in [np.broadcast_to] or at
    74-75 (193-194). *)
Definition new_wrap {V} (patterns : nd (patobj V)) (nums : option (nd Z))
    (free : nd (option bool)) (original_is_flat : bool) : res (wrap V) :=
  let ps := atleast_1d patterns in
  match shp ps with
  | [n] =>
      let ns := match nums with
                | None => mkNd [n] (map Z.of_nat (seq 0 n))
                | Some a => atleast_1d a
                end in
      fs <- broadcast_1d free n ;;
      if negb (length (shp ns) =? 1) then Err ValueError
      else if negb (length (dat ns) =? length (nodup Z.eq_dec (dat ns))) then Err ValueError
      else if negb (length (dat ns) =? n) then Err ValueError
      else Ok (mkWrap (dat ps) (dat ns) (argsort (dat ns)) fs original_is_flat)
  | _ => Err ValueError
  end.

(** ** Wrapped inputs *)

(** function_patterns.py:105-110: an argument is flattened on its way to a
    function of flat values and folded on its way to one of folded values. *)
Definition arg_method {V} (w : wrap V) (p : patobj V) : option bool -> V -> res V :=
  if w_flat w then p_flatten p else p_fold p.

(** function_patterns.py:101-113: the loop that assembles the new arguments. *)
Fixpoint arg_loop {V} (w : wrap V) (args : list V) (idx : list nat) (last : Z)
    (acc : list V) : res (list V) :=
  match idx with
  | [] => Ok (acc ++ py_slice args last (Z.of_nat (length args)))
  | i :: rest =>
      match nth_error (w_nums w) i, nth_error (w_pats w) i, nth_error (w_free w) i with
      | Some a, Some p, Some fr =>
          x <- py_index args a ;;
          v <- arg_method w p fr x ;;
          arg_loop w args rest (a + 1) (acc ++ py_slice args last a ++ [v])
      | _, _, _ => Err IndexError
      end
  end.

(** The parameter of [__call__(self, *args, **kwargs)] named [self] cannot also
    be given as a keyword. *)
Definition self_clash {V} (kw : list (pystr * V)) : bool :=
  existsb (fun kv => if list_eq_dec N.eq_dec (fst kv) (str "self") then true else false) kw.

(** function_patterns.py:98-115 [TransformFunctionInput.__call__]. *)
Definition call_in {V S} (w : wrap V) (f : callable V S) (args : list V)
    (kw : list (pystr * V)) (s : S) : res (pyret V) * S :=
  if self_clash kw then (Err TypeError, s)
  else match arg_loop w args (w_sort w) 0 [] with
       | Ok new_args => c_call f new_args kw s
       | Err e => (Err e, s)
       end.

(** ** Wrapped outputs *)

(** function_patterns.py:227-230, 244-249. *)
Definition ret_method {V} (w : wrap V) (p : patobj V) : option bool -> V -> res V :=
  if w_flat w then p_fold p else p_flatten p.

(** The exception of 223-226 and 238-243: building the message reads
    [self._fun.__name__]. *)
Definition named_error {V S} (f : callable V S) : exn :=
  if c_named f then ValueError else AttributeError.

(** function_patterns.py:221-230: a result that is not a tuple.  [not
    (self._retnums == [0])] compares elementwise: with one retnum this is the
    plain comparison, with none the array is empty and counts as false, and with
    several the truth value of an array is asked for, which is a [ValueError]. *)
Definition ret_one {V S} (w : wrap V) (f : callable V S) (r : V) : res (pyret V) :=
  match w_nums w with
  | [] => Err (named_error f)
  | [z] =>
      if negb (z =? 0)%Z then Err (named_error f)
      else match nth_error (w_pats w) 0, nth_error (w_free w) 0 with
           | Some p, Some fr => v <- ret_method w p fr r ;; Ok (ROne v)
           | _, _ => Err IndexError
           end
  | _ => Err ValueError
  end.

(** function_patterns.py:232-252: a tuple. *)
Fixpoint ret_loop {V S} (w : wrap V) (f : callable V S) (rets : list V) (idx : list nat)
    (last : Z) (acc : list V) : res (list V) :=
  match idx with
  | [] => Ok (acc ++ py_slice rets last (Z.of_nat (length rets)))
  | i :: rest =>
      match nth_error (w_nums w) i, nth_error (w_pats w) i, nth_error (w_free w) i with
      | Some a, Some p, Some fr =>
          if (Z.of_nat (length rets) <=? a)%Z then Err (named_error f)
          else
            x <- py_index rets a ;;
            v <- ret_method w p fr x ;;
            ret_loop w f rets rest (a + 1) (acc ++ py_slice rets last a ++ [v])
      | _, _, _ => Err IndexError
      end
  end.

(** function_patterns.py:217-254 [TransformFunctionOutput.__call__]. *)
Definition call_out {V S} (w : wrap V) (f : callable V S) (args : list V)
    (kw : list (pystr * V)) (s : S) : res (pyret V) * S :=
  if self_clash kw then (Err TypeError, s)
  else
    let (r, s') := c_call f args kw s in
    (match r with
     | Err e => Err e
     | Ok (ROne v) => ret_one w f v
     | Ok (RTuple rets) =>
         new_rets <- ret_loop w f rets (w_sort w) 0 [] ;; Ok (RTuple new_rets)
     end, s').

(** ** The public classes *)

(** function_patterns.py:36-71, and 118-131, 134-147 which fix
    [original_is_flat].  An instance is a callable without a [__name__]. *)
Definition transform_input {V S} (f : callable V S) (patterns : nd (patobj V))
    (free : nd (option bool)) (original_is_flat : bool) (argnums : option (nd Z))
  : res (callable V S) :=
  w <- new_wrap patterns argnums free original_is_flat ;;
  Ok (mkFun (call_in w f) false).

Definition fold_input {V S} (f : callable V S) patterns free argnums :=
  @transform_input V S f patterns free true argnums.
Definition flatten_input {V S} (f : callable V S) patterns free argnums :=
  @transform_input V S f patterns free false argnums.

(** function_patterns.py:155-190, and 258-271, 274-287. *)
Definition transform_output {V S} (f : callable V S) (patterns : nd (patobj V))
    (free : nd (option bool)) (original_is_flat : bool) (retnums : option (nd Z))
  : res (callable V S) :=
  w <- new_wrap patterns retnums free original_is_flat ;;
  Ok (mkFun (call_out w f) false).

Definition fold_output {V S} (f : callable V S) patterns free retnums :=
  @transform_output V S f patterns free true retnums.
Definition flatten_output {V S} (f : callable V S) patterns free retnums :=
  @transform_output V S f patterns free false retnums.

(** function_patterns.py:339-364 and 368-393: the output wrapper is built first
    and the input wrapper goes around it; [__call__] passes everything on. *)
Definition fold_input_output {V S} (f : callable V S)
    (ipats : nd (patobj V)) (ifree : nd (option bool)) (iargs : option (nd Z))
    (opats : nd (patobj V)) (ofree : nd (option bool)) (orets : option (nd Z))
  : res (callable V S) :=
  g <- fold_output f opats ofree orets ;;
  h <- fold_input g ipats ifree iargs ;;
  Ok (mkFun (fun args kw s =>
               if self_clash kw then (Err TypeError, s) else c_call h args kw s) false).

Definition flatten_input_output {V S} (f : callable V S)
    (ipats : nd (patobj V)) (ifree : nd (option bool)) (iargs : option (nd Z))
    (opats : nd (patobj V)) (ofree : nd (option bool)) (orets : option (nd Z))
  : res (callable V S) :=
  g <- flatten_output f opats ofree orets ;;
  h <- flatten_input g ipats ifree iargs ;;
  Ok (mkFun (fun args kw s =>
               if self_clash kw then (Err TypeError, s) else c_call h args kw s) false).

(** ** The patterns of Pattern.v as pattern objects *)

(** An argument or result: a numeric array, a dictionary of them, or any other
    Python object. *)
Inductive obj (X : Type) : Type :=
| OVal (v : fv num)
| OOther (x : X).
Arguments OVal {X} _.
Arguments OOther {X} _.

(** Folding a dictionary, and folding or flattening an object that is no array,
    are not modelled. *)
Definition pat_obj {X} (p : pat) : patobj (obj X) :=
  mkPat
    (fun fr o =>
       match o with
       | OVal (FArr a) => v <- fold p a fr None ;; Ok (OVal v)
       | _ => Err Unmodelled
       end)
    (fun fr o =>
       match o with
       | OVal v => x <- flatten p v fr None ;; Ok (OVal (FArr (vec x)))
       | OOther _ => Err Unmodelled
       end).
