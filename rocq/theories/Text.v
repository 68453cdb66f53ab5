(** * The texts: [str(pattern)] and the messages of [validate_folded].

    Models [__str__]: numeric_array_patterns.py:167-169, simplex_patterns.py:115-117,
    psdmatrix_patterns.py:206-208, pattern_containers.py:188-194, 481-483, and the
    second component of what [validate_folded] returns.  [Pattern.validate] models
    only whether the value is valid and which check failed.
    Simplification: shapes, sizes and lengths print as Python ints. *)
From Coq Require Import Reals NArith Ascii String SpecFloat.
From Verif Require Import Base Num Nd Numeric Simplex Psd Pattern Json Names.
Local Open Scope list_scope.
Local Open Scope nat_scope.

(** [template.format( *args)] for the templates of the library, in which the only
    braces are [{}]: too few arguments are an IndexError, further ones are ignored. *)
Fixpoint format (template : pystr) (args : list pystr) : res pystr :=
  match template with
  | [] => Ok []
  | c :: ((d :: rest') as rest) =>
      if (N.eqb c 123 && N.eqb d 125)%bool then
        match args with
        | [] => Err IndexError
        | x :: args => t <- format rest' args ;; Ok (x ++ t)
        end
      else t <- format rest args ;; Ok (c :: t)
  | [c] => Ok [c]
  end.

(** [str(x)] of a bound; [float.__repr__] writes infinities and NaN otherwise than JSON. *)
Definition value_text (io : float_io) (x : pynum) : pystr :=
  match x with
  | PyInt z => int_text z
  | PyFloat S754_nan => str "nan"
  | PyFloat (S754_infinity s) => if s then str "-inf" else str "inf"
  | PyFloat f => f_repr io f
  end.

(** [str(t)] of a tuple of ints: [()], [(2,)], [(2, 3)]. *)
Definition tuple_text (s : list nat) : pystr :=
  match s with
  | [n] => str "(" ++ nat_text n ++ str ",)"
  | _ => str "(" ++ join (str ", ") (map nat_text s) ++ str ")"
  end.

Definition newline : pystr := [10%N].
Definition tab : pystr := [9%N].

(** [str(pattern)].  A dictionary adds its keys to strings, which raises TypeError
    for an int key. *)
Fixpoint pat_text (io : float_io) (p : pat) : res pystr :=
  match p with
  | PNum _ shape lb ub _ _ =>
      format (str "NumericArrayPattern {} (lb={}, ub={})")
        [tuple_text shape; value_text io lb; value_text io ub]
  | PSimplex n ashape _ _ =>
      format (str "SimplexArrayPattern {} of {}-d simplices") [tuple_text ashape; nat_text n]
  | PPsd sz _ dlb _ _ =>
      format (str "PDMatrix {}x{} (diag_lb = {})") [nat_text sz; nat_text sz; value_text io dlb]
  | PArr ashape base _ =>
      t <- pat_text io base ;;
      format (str "PatternArray {} of {}") [tuple_text ashape; t]
  | PDict items _ _ _ _ =>
      parts <- mapM (fun kq =>
          match fst kq with
          | KStr s =>
              t <- pat_text io (snd kq) ;;
              Ok (tab ++ str "[" ++ s ++ str "] = " ++ t)
          | KInt _ => Err TypeError
          end) items ;;
      Ok (str "OrderedDict:" ++ newline ++ join newline parts)
  end.

(** ** The messages of validation: the pair [(is_valid, err_msg)] *)
Definition valid_pair : bool * pystr := (true, []).
Definition refuse (t : pystr) : res (bool * pystr) := Ok (false, t).
Definition refuse_format (template : string) (args : list pystr) : res (bool * pystr) :=
  t <- format (str template) args ;; Ok (false, t).

(** numeric_array_patterns.py:187-208. *)
Definition num_validate_text {A} (sc : scalar A) (shape : list nat) (lb ub : num)
    (dv : bool) (a0 : nd A) (vv : option bool) : res (bool * pystr) :=
  let a := atleast_1d a0 in
  if negb (shape_eqb (shp a) shape) then
    refuse (str "Wrong size for array." ++ str " Expected shape: " ++ tuple_text shape ++
            str " Got shape: " ++ tuple_text (shp a))
  else if vv_or vv dv then
    if existsb (fun x => nltb (to_num sc x) lb) (dat a)
    then refuse (str "Value beneath lower bound.")
    else if existsb (fun x => ngtb (to_num sc x) ub) (dat a)
    then refuse (str "Value above upper bound.")
    else Ok valid_pair
  else Ok valid_pair.

(** simplex_patterns.py:141-159. *)
Definition simplex_validate_text {A} (sc : scalar A) (n : nat) (ashape : list nat)
    (dv : bool) (a : nd A) (vv : option bool) : res (bool * pystr) :=
  if negb (shape_eqb (shp a) (ashape ++ [n])) then Err ValueError
  else if vv_or vv dv then
    if existsb (fun x => nltb (to_num sc x) (Fin 0)) (dat a)
    then refuse (str "Some values are negative.")
    else if existsb row_sum_bad (chunks n (prod ashape) (map (to_num sc) (dat a)))
    then refuse (str "The simplexes do not sum to one.")
    else Ok valid_pair
  else Ok valid_pair.

(** psdmatrix_patterns.py:238-289. *)
Definition psd_validate_text {A} (io : float_io) (sc : scalar A) (sz : nat) (diag_lb : pynum)
    (dv : bool) (a : nd A) (vv : option bool) : res (bool * pystr) :=
  if negb (shape_eqb (shp a) [sz; sz]) then Err ValueError
  else
    let m := mat_of sz (nd_map (to_num sc) a) in
    if vv_or vv dv then
      if existsb (fun i => nltb (m i i) (pyval diag_lb)) (seq 0 sz)
      then refuse_format "Diagonal is less than the lower bound {}." [value_text io diag_lb]
      else if negb (forallb (fun i => forallb (fun j => neqb (m j i) (m i j)) (seq 0 sz))
                            (seq 0 sz))
      then refuse (str "Matrix is not symmetric.")
      else Ok valid_pair
    else Ok valid_pair.

(** pattern_containers.py:518-524. *)
Fixpoint cells_text {A} (vbase : nd A -> res (bool * pystr)) (a : nd A) (k : nat)
    (cells : list (list nat)) : res (bool * pystr) :=
  match cells with
  | [] => Ok valid_pair
  | it :: rest =>
      r <- vbase (subarr a it k) ;;
      if fst r then cells_text vbase a k rest
      else refuse_format "Bad value in location {}: {}" [tuple_text it; snd r]
  end.

(** pattern_containers.py:253-263. *)
Definition items_text {A} (vq : pat -> fv A -> res (bool * pystr)) (d : list (key * fv A))
  : list (key * pat) -> res (bool * pystr) :=
  fix loop its :=
    match its with
    | [] => Ok valid_pair
    | (k, q) :: rest =>
        match dict_get d k with
        | None => refuse_format "{} not in folded_val dictionary." [key_text k]
        | Some w =>
            r <- vq q w ;;
            if fst r then loop rest else refuse_format "{} is not valid." [snd r]
        end
    end.

(** [validate_folded]; containers: pattern_containers.py:252-263, 507-524 (where the
    arguments of the two formats are the value's and then the pattern's). *)
Fixpoint validate_text {A} (io : float_io) (sc : scalar A) (p : pat) (v : fv A)
    (vv : option bool) : res (bool * pystr) :=
  match p, v with
  | PNum _ shape lb ub dv _, FArr a =>
      num_validate_text sc shape (pyval lb) (pyval ub) dv a vv
  | PSimplex n ashape dv _, FArr a => simplex_validate_text sc n ashape dv a vv
  | PPsd sz _ dlb dv _, FArr a => psd_validate_text io sc sz dlb dv a vv
  | PArr ashape base _, FArr a =>
      let s := folded_shape p in
      if negb (ndim a =? length s) then
        refuse_format "Wrong number of dimensions.  Expected {}, got {}."
          [nat_text (ndim a); nat_text (length s)]
      else if negb (shape_eqb (shp a) s) then
        refuse_format "Wrong shape.  Expected {}, got {}." [tuple_text (shp a); tuple_text s]
      else
        cells_text (fun sub => validate_text io sc base (FArr sub) vv) a (length ashape)
          (indices ashape)
  | PDict items _ _ _ _, FDict d => items_text (fun q w => validate_text io sc q w vv) d items
  | _, _ => Err TypeError
  end.

(** ** The messages of output wrappers: function_patterns.py:221-225 and 237-242.
    [.format] binds tighter than [+], so it is applied to the second string only.
    [name] is the function's [__name__], [retnums] the text of [_retnums]. *)
Definition one_result_text (name retnums : pystr) : res pystr :=
  t <- format (str "retnums were specified: {}") [name; retnums] ;;
  Ok (str "{} returned only one value, but multiple" ++ t).
Definition missing_result_text (name retnums : pystr) (results : nat) : res pystr :=
  t <- format (str "specified retnums {}.") [name; nat_text results; retnums] ;;
  Ok (str "Not enough return values in {} ({}) for" ++ t).
