(** * JSON descriptions of patterns, equality, the class registry.

    Models [as_dict], [to_json], [from_json], [__eq__] of every pattern class
    and [register_pattern_json] / [get_pattern_from_json]. *)
From Coq Require Import Reals NArith Ascii String.
From Verif Require Import Base Num Nd Numeric Simplex Psd Pattern Json.
Local Open Scope list_scope.
Local Open Scope nat_scope.

(** ** The classes and their names *)
Inductive cls : Type := CNum (k : nkind) | CSimplex | CPsd | CArr | CDict.

(** [type(p)]. *)
Definition class_of (p : pat) : cls :=
  match p with
  | PNum k _ _ _ _ _ => CNum k
  | PSimplex _ _ _ _ => CSimplex
  | PPsd _ _ _ _ _ => CPsd
  | PArr _ _ _ => CArr
  | PDict _ _ _ _ _ => CDict
  end.

(** base_patterns.py:178-180 [json_typename]: module and class name. *)
Definition typename (c : cls) : pystr :=
  match c with
  | CNum KArray => str "paragami.numeric_array_patterns.NumericArrayPattern"
  | CNum KVector => str "paragami.numeric_array_patterns.NumericVectorPattern"
  | CNum KScalar => str "paragami.numeric_array_patterns.NumericScalarPattern"
  | CSimplex => str "paragami.simplex_patterns.SimplexArrayPattern"
  | CPsd => str "paragami.psdmatrix_patterns.PSDSymmetricMatrixPattern"
  | CArr => str "paragami.pattern_containers.PatternArray"
  | CDict => str "paragami.pattern_containers.PatternDict"
  end.

(** ** Writing *)
Definition fld (name : string) : key := KStr (str name).
Definition oint (n : nat) : pyobj := ONum (PyInt (Z.of_nat n)).
Definition oshape (s : list nat) : pyobj := OSeq (map oint s).
Definition oopt (b : option bool) : pyobj :=
  match b with None => ONone | Some b => OBool b end.
Definition okey (k : key) : pyobj :=
  match k with KStr s => OStr s | KInt z => ONum (PyInt z) end.

(** [as_dict]: numeric_array_patterns.py:171-178, 333-340, 356-362,
    simplex_patterns.py:128-133, psdmatrix_patterns.py:210-215,
    pattern_containers.py:485-490, 199-209.  Members are embedded as the text
    [to_json] (base_patterns.py:363-370) gives. *)
Fixpoint as_dict (io : float_io) (p : pat) : pyobj :=
  match p with
  | PNum k shape lb ub dv fd =>
      let name := (fld "pattern", OStr (typename (CNum k))) in
      let bounds := [(fld "lb", ONum lb); (fld "ub", ONum ub)] in
      let rest := [(fld "default_validate", OBool dv); (fld "free_default", oopt fd)] in
      ODict (match k with
             | KArray => name :: bounds ++ (fld "shape", oshape shape) :: rest
             | KVector => name :: (fld "length", oint (nth 0 shape 0)) :: bounds ++ rest
             | KScalar => name :: bounds ++ rest
             end)
  | PSimplex n ashape dv _ =>
      ODict [(fld "pattern", OStr (typename CSimplex)); (fld "simplex_size", oint n);
             (fld "array_shape", oshape ashape); (fld "default_validate", OBool dv)]
  | PPsd sz _ dlb dv _ =>
      ODict [(fld "pattern", OStr (typename CPsd)); (fld "size", oint sz);
             (fld "diag_lb", ONum dlb); (fld "default_validate", OBool dv)]
  | PArr ashape base _ =>
      ODict [(fld "pattern", OStr (typename CArr));
             (fld "shape", oshape (ashape ++ folded_shape base));
             (fld "array_shape", oshape ashape);
             (fld "base_pattern", OStr (dumps io (as_dict io base)))]
  | PDict items _ _ _ _ =>
      ODict [(fld "pattern", OStr (typename CDict));
             (fld "keys", OSeq (map (fun kq => okey (fst kq)) items));
             (fld "contents",
               ODict (map (fun kq => (fst kq, OStr (dumps io (as_dict io (snd kq))))) items))]
  end.

(** base_patterns.py:363-370. *)
Definition to_json (io : float_io) (p : pat) : pystr := dumps io (as_dict io p).

(** base_patterns.py:173-176 [__eq__]. *)
Definition cls_eq_dec (a b : cls) : {a = b} + {a <> b}.
Proof. decide equality. decide equality. Defined.
Definition pat_eqb (io : float_io) (p q : pat) : bool :=
  if cls_eq_dec (class_of p) (class_of q) then obj_eqb (as_dict io p) (as_dict io q) else false.

(** ** Reading *)

(** [o[name]] for a parsed JSON value: TypeError unless [o] is a dict. *)
Definition item (o : pyobj) (name : string) : res pyobj :=
  match o with
  | ODict d => match dict_get d (fld name) with Some x => Ok x | None => Err KeyError end
  | _ => Err TypeError
  end.

(** Keyword arguments of a constructor call; [Unmodelled] for argument types
    the constructors were not meant for.  A bound that is no number is compared with a
    float first (numeric_array_patterns.py:146-147, psdmatrix_patterns.py:199), a
    TypeError. *)
Definition arg_num (o : pyobj) : res pynum :=
  match o with ONum x => Ok x | OBool _ => Err Unmodelled | _ => Err TypeError end.
Definition arg_bool (o : pyobj) : res bool :=
  match o with OBool b => Ok b | _ => Err Unmodelled end.
Definition arg_obool (o : pyobj) : res (option bool) :=
  match o with OBool b => Ok (Some b) | ONone => Ok None | _ => Err Unmodelled end.
Definition arg_nat (o : pyobj) : res nat :=
  match o with
  | ONum (PyInt z) => if (0 <=? z)%Z then Ok (Z.to_nat z) else Err Unmodelled
  | _ => Err Unmodelled
  end.
Definition arg_int (o : pyobj) : res Z :=
  match o with ONum (PyInt z) => Ok z | _ => Err Unmodelled end.
Definition arg_shape (o : pyobj) : res (list nat) :=
  match o with OSeq l => mapM arg_nat l | _ => Err Unmodelled end.

(** [f( **d)]: unknown names raise TypeError. *)
Definition known_args (names : list string) (d : list (key * pyobj)) : bool :=
  forallb (fun kv => existsb (fun n => key_eqb (fld n) (fst kv)) names) d.
Definition arg_def {A} (d : list (key * pyobj)) (name : string) (f : pyobj -> res A) (dflt : res A)
    : res A :=
  match dict_get d (fld name) with Some x => f x | None => dflt end.

(** base_patterns.py:387-398 applied to the numeric classes and to the PSD
    class: [cls( **json_dict)] after removing ['pattern']. *)
Definition num_from_args (k : nkind) (d : list (key * pyobj)) : res pat :=
  let common := ["lb"; "ub"; "default_validate"; "free_default"]%string in
  let own := match k with KArray => ["shape"] | KVector => ["length"] | KScalar => [] end%string in
  if negb (known_args (own ++ common) d) then Err TypeError
  else
    shape <- match k with
             | KArray => arg_def d "shape" arg_shape (Err TypeError)
             | KVector => n <- arg_def d "length" arg_nat (Err TypeError) ;; Ok [n]
             | KScalar => Ok [1]
             end ;;
    lb <- arg_def d "lb" arg_num (Ok py_ninf) ;;
    (* numeric_array_patterns.py:146: the lower bound is looked at first. *)
    _ <- (if ngeb (pyval lb) NInf then Ok tt else Err AssertionError) ;;
    ub <- arg_def d "ub" arg_num (Ok py_inf) ;;
    dv <- arg_def d "default_validate" arg_bool (Ok true) ;;
    fd <- arg_def d "free_default" arg_obool (Ok None) ;;
    new_numeric_kind k shape lb ub dv fd.
Definition psd_from_args (d : list (key * pyobj)) : res pat :=
  if negb (known_args ["size"; "diag_lb"; "default_validate"; "free_default"]%string d)
  then Err TypeError
  else
    sz <- arg_def d "size" arg_nat (Err TypeError) ;;
    dlb <- arg_def d "diag_lb" arg_num (Ok (PyFloat (SpecFloat.S754_zero false))) ;;
    dv <- arg_def d "default_validate" arg_bool (Ok true) ;;
    fd <- arg_def d "free_default" arg_obool (Ok None) ;;
    new_psd sz 1 dlb dv fd.

(** The registry [__json_patterns] (pattern_containers.py:14): name to class. *)
Definition registry := list (key * cls).

(** pattern_containers.py:17-46 [register_pattern_json], for any type of
    classes with their names: the registry afterwards. *)
Definition register {C} (reg : list (key * C)) (name : pystr) (c : C) (allow_overwrite : bool)
    : res (list (key * C)) :=
  match dict_get reg (KStr name), allow_overwrite with
  | Some _, false => Err ValueError
  | _, _ => Ok (assign reg (KStr name) c)
  end.

(** The classes registered when paragami is imported
    (pattern_containers.py:666-667, numeric_array_patterns.py:365-367,
    psdmatrix_patterns.py:344, simplex_patterns.py:261). *)
Definition builtin_classes : list cls :=
  [CDict; CArr; CNum KVector; CNum KScalar; CNum KArray; CPsd; CSimplex].
Definition builtin_registry : registry :=
  map (fun c => (KStr (typename c), c)) builtin_classes.

(** pattern_containers.py:49-79 [get_pattern_from_json] and the [from_json]
    class methods: base_patterns.py:378-398, simplex_patterns.py:212-222,
    pattern_containers.py:369-383, 630-642.  [n] bounds the nesting of texts
    inside texts; [get_pattern_from_json] gives the length of the text, which is
    always enough. *)
Fixpoint get_pattern (io : float_io) (reg : registry) (n : nat) (text : pystr) : res pat :=
  match n with
  | O => Err Unmodelled
  | S n =>
      o <- loads io text ;;
      name <- item o "pattern" ;;
      match name with
      | OStr s =>
          match dict_get reg (KStr s) with
          | None => Err KeyError
          | Some c => from_json_ io reg n c text
          end
      | OSeq _ | ODict _ => Err TypeError
      | _ => Err KeyError
      end
  end
with from_json_ (io : float_io) (reg : registry) (n : nat) (c : cls) (text : pystr) : res pat :=
  match n with
  | O => Err Unmodelled
  | S n =>
      o <- loads io text ;;
      name <- item o "pattern" ;;
      if negb (obj_eqb name (OStr (typename c))) then Err ValueError
      else
        match c with
        | CNum k =>
            match o with
            | ODict d => num_from_args k (remove_key d (fld "pattern"))
            | _ => Err TypeError
            end
        | CPsd =>
            match o with
            | ODict d => psd_from_args (remove_key d (fld "pattern"))
            | _ => Err TypeError
            end
        | CSimplex =>
            sz <- item o "simplex_size" ;;
            sh <- item o "array_shape" ;;
            sh <- arg_shape sh ;;
            dv <- item o "default_validate" ;;
            sz <- arg_int sz ;;
            dv <- arg_bool dv ;;
            new_simplex sz sh dv None
        | CArr =>
            b <- item o "base_pattern" ;;
            match b with
            | OStr t =>
                base <- get_pattern io reg n t ;;
                sh <- item o "array_shape" ;;
                sh <- arg_shape sh ;;
                new_pattern_array sh base None
            | _ => Err TypeError
            end
        | CDict =>
            ks <- item o "keys" ;;
            match ks with
            | OSeq l =>
                fold_left
                  (fun acc k =>
                     p <- acc ;;
                     cs <- item o "contents" ;;
                     k <- match k with
                          | OStr s => Ok (KStr s)
                          | ONum (PyInt z) => Ok (KInt z)
                          | _ => Err Unmodelled
                          end ;;
                     t <- match cs with
                          | ODict d =>
                              match dict_get d k with Some t => Ok t | None => Err KeyError end
                          | OStr _ | OSeq _ => Err Unmodelled
                          | _ => Err TypeError
                          end ;;
                     match t with
                     | OStr t => q <- get_pattern io reg n t ;; setitem p k q
                     | _ => Err TypeError
                     end)
                  l (Ok (new_dict None))
            | ODict _ | OStr _ => Err Unmodelled
            | _ => Err TypeError
            end
        end
  end.

Definition get_pattern_from_json (io : float_io) (reg : registry) (text : pystr) : res pat :=
  get_pattern io reg (S (S (2 * length text))) text.
(** [cls.from_json(text)]. *)
Definition from_json (io : float_io) (reg : registry) (c : cls) (text : pystr) : res pat :=
  from_json_ io reg (S (S (2 * length text))) c text.

(** A sequence of [register_pattern_json] calls (name, class,
    allow_overwrite), pattern_containers.py:17-46: the registry afterwards, and
    the exception each call raised, if any.  A call that raises leaves the
    registry as it was. *)
Fixpoint register_run {C} (reg : list (key * C)) (calls : list (pystr * C * bool))
    : list (key * C) * list (option exn) :=
  match calls with
  | [] => (reg, [])
  | (name, c, allow) :: rest =>
      match register reg name c allow with
      | Ok reg' => let (r, outs) := register_run reg' rest in (r, None :: outs)
      | Err e => let (r, outs) := register_run reg rest in (r, Some e :: outs)
      end
  end.
