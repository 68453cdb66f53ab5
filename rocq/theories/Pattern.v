(** * Patterns: the object tree and its public methods.

    Models paragami/base_patterns.py, numeric_array_patterns.py,
    simplex_patterns.py, psdmatrix_patterns.py, pattern_containers.py. *)
From Coq Require Import Reals NArith Ascii String.
From Verif Require Import Base Num Nd Numeric Simplex Psd.
Local Open Scope list_scope.
Local Open Scope nat_scope.

(** ** Keys, folded values, lengths *)

(** Python strings are lists of code points. *)
Definition pystr := list N.
(** ASCII string literals of the source. *)
Definition str (s : string) : pystr := map N_of_ascii (list_ascii_of_string s).

(** Dictionary keys.  Only [str] and [int] keys are modelled. *)
Inductive key : Type := KStr (s : pystr) | KInt (z : Z).
Definition key_eq_dec (a b : key) : {a = b} + {a <> b}.
Proof.
  decide equality; [apply (list_eq_dec N.eq_dec) | apply Z.eq_dec].
Defined.
Definition key_eqb (a b : key) : bool := if key_eq_dec a b then true else false.

(** Folded values: arrays, or dictionaries of folded values (association lists;
    a key occurs at most once in every Python dict). *)
Inductive fv (A : Type) : Type :=
| FArr (a : nd A)
| FDict (d : list (key * fv A)).
Arguments FArr {A} _.
Arguments FDict {A} _.

Fixpoint dict_get {V} (d : list (key * V)) (k : key) : option V :=
  match d with
  | [] => None
  | (k', v) :: d' => if key_eqb k k' then Some v else dict_get d' k
  end.

(** A length as returned by [flat_length]: its value, and whether it is a
    numpy float ([np.sum([])] is [0.0] and [np.prod(())] is [1.0]) instead of
    an integer.  Floats are not accepted as slice bounds or sizes. *)
Record plen : Type := mkLen { pl_n : nat; pl_float : bool }.
Definition plint (n : nat) : plen := mkLen n false.
Definition plen_add (a b : plen) : plen :=
  mkLen (pl_n a + pl_n b) (pl_float a || pl_float b).
Definition plen_mul (a b : plen) : plen :=
  mkLen (pl_n a * pl_n b) (pl_float a || pl_float b).
(** [np.sum] of a list of lengths: [0.0] when the list is empty. *)
Definition plen_sum (l : list plen) : plen :=
  match l with
  | [] => mkLen 0 true
  | _ => fold_right plen_add (plint 0) l
  end.
(** [np.prod] of a tuple of ints: [1.0] when empty. *)
Definition np_prod (s : list nat) : plen :=
  match s with [] => mkLen 1 true | _ => plint (prod s) end.
(** Use of a length as a slice bound or array size: TypeError for floats. *)
Definition as_index (l : plen) : res nat :=
  if pl_float l then Err TypeError else Ok (pl_n l).

(** ** The pattern objects *)

(** NumericArrayPattern and its two subclasses (numeric_array_patterns.py:114,
    317, 343); they differ in [as_dict] and in the constructor only. *)
Inductive nkind : Type := KArray | KVector | KScalar.

(** Attributes of the pattern objects.
    - [PNum]: [_shape], [_lb], [_ub], [default_validate], [free_default].
    - [PSimplex]: [__simplex_size], [__array_shape], [default_validate],
      [free_default] (simplex_patterns.py:104-113).
    - [PPsd]: [__size], [_free_flat_length], [__diag_lb], [default_validate],
      [free_default] (psdmatrix_patterns.py:196-204).
    - [PArr]: [__array_shape], [__base_pattern], [free_default]
      (pattern_containers.py:448-479); its lengths are fixed at construction
      from immutable data so they are recomputed.
    - [PDict]: [__pattern_dict], the cached [_flat_length] and
      [_free_flat_length], [free_default], [__lock]
      (pattern_containers.py:178-186). *)
Inductive pat : Type :=
| PNum (k : nkind) (shape : list nat) (lb ub : pynum) (dv : bool) (fd : option bool)
| PSimplex (n : nat) (ashape : list nat) (dv : bool) (fd : option bool)
| PPsd (sz flen : nat) (diag_lb : pynum) (dv : bool) (fd : option bool)
| PArr (ashape : list nat) (base : pat) (fd : option bool)
| PDict (items : list (key * pat)) (len flen : plen) (fd : option bool) (locked : bool).

(** The attribute [free_default]. *)
Definition free_default (p : pat) : option bool :=
  match p with
  | PNum _ _ _ _ _ fd | PSimplex _ _ _ fd | PPsd _ _ _ _ fd
  | PArr _ _ fd | PDict _ _ _ fd _ => fd
  end.

(** base_patterns.py:159-171 [_free_with_default]. *)
Definition free_with_default (p : pat) (free : option bool) : res bool :=
  match free with
  | Some f => Ok f
  | None => match free_default p with None => Err ValueError | Some f => Ok f end
  end.

(** The lengths stored by the constructors: numeric_array_patterns.py:152
    ([int(np.product(shape))]), simplex_patterns.py:111-112,
    psdmatrix_patterns.py:203, pattern_containers.py:451,476-478, 231-232. *)
Fixpoint flat_len (p : pat) (free : bool) : plen :=
  match p with
  | PNum _ shape _ _ _ _ => plint (prod shape)
  | PSimplex n ashape _ _ =>
      np_prod (ashape ++ [if free then n - 1 else n])
  | PPsd sz flen _ _ _ => plint (if free then flen else sz * sz)
  | PArr ashape base _ => plen_mul (np_prod ashape) (flat_len base free)
  | PDict _ len flen _ _ => if free then flen else len
  end.

(** base_patterns.py:192-210, numeric_array_patterns.py:254-259,
    pattern_containers.py:594-596 [flat_length]. *)
Definition flat_length (p : pat) (free : option bool) : res plen :=
  f <- free_with_default p free ;; Ok (flat_len p f).

(** The shape of the folded array of a non-dictionary pattern:
    numeric [_shape], simplex_patterns.py:108, psdmatrix_patterns.py:225,
    pattern_containers.py:474.  (Dictionaries have no shape.) *)
Fixpoint folded_shape (p : pat) : list nat :=
  match p with
  | PNum _ shape _ _ _ _ => shape
  | PSimplex n ashape _ _ => ashape ++ [n]
  | PPsd sz _ _ _ _ => [sz; sz]
  | PArr ashape base _ => ashape ++ folded_shape base
  | PDict _ _ _ _ _ => []
  end.

(** ** Validation *)

(** The error messages of [validate_folded]. *)
Inductive vmsg : Type :=
| MsgShape | MsgLower | MsgUpper | MsgNegative | MsgSum | MsgDiag | MsgNotSym
| MsgDims | MsgMissing (k : key) | MsgInvalid (m : vmsg) | MsgAt (item : list nat) (m : vmsg).

(** The pair [(is_valid, err_msg)]: [None] is [(True, '')]. *)
Definition verdict := option vmsg.

Definition vv_or (vv : option bool) (dv : bool) : bool :=
  match vv with Some b => b | None => dv end.

(** numeric_array_patterns.py:187-208 [validate_folded]. *)
Definition num_validate {A} (sc : scalar A) (shape : list nat) (lb ub : num)
    (dv : bool) (a0 : nd A) (vv : option bool) : res verdict :=
  let a := atleast_1d a0 in
  if negb (shape_eqb (shp a) shape) then Ok (Some MsgShape)
  else if vv_or vv dv then
    if existsb (fun x => nltb (to_num sc x) lb) (dat a) then Ok (Some MsgLower)
    else if existsb (fun x => ngtb (to_num sc x) ub) (dat a) then Ok (Some MsgUpper)
    else Ok None
  else Ok None.

(** simplex_patterns.py:141-159 [validate_folded]: a wrong shape raises. *)
Definition simplex_validate {A} (sc : scalar A) (n : nat) (ashape : list nat)
    (dv : bool) (a : nd A) (vv : option bool) : res verdict :=
  if negb (shape_eqb (shp a) (ashape ++ [n])) then Err ValueError
  else if vv_or vv dv then
    if existsb (fun x => nltb (to_num sc x) (Fin 0)) (dat a) then Ok (Some MsgNegative)
    else if existsb row_sum_bad
              (chunks n (prod ashape) (map (to_num sc) (dat a)))
    then Ok (Some MsgSum)
    else Ok None
  else Ok None.

(** psdmatrix_patterns.py:238-289 [validate_folded]: a wrong shape raises. *)
Definition psd_validate {A} (sc : scalar A) (sz : nat) (diag_lb : num)
    (dv : bool) (a : nd A) (vv : option bool) : res verdict :=
  if negb (shape_eqb (shp a) [sz; sz]) then Err ValueError
  else
    let m := mat_of sz (nd_map (to_num sc) a) in
    if vv_or vv dv then
      if existsb (fun i => nltb (m i i) diag_lb) (seq 0 sz) then Ok (Some MsgDiag)
      else if negb (forallb (fun i => forallb (fun j => neqb (m j i) (m i j)) (seq 0 sz))
                            (seq 0 sz))
      then Ok (Some MsgNotSym)
      else Ok None
    else Ok None.

(** pattern_containers.py:518-524: the loop over the cells of an array. *)
Fixpoint validate_cells {A} (vbase : nd A -> res verdict) (a : nd A) (k : nat)
    (cells : list (list nat)) : res verdict :=
  match cells with
  | [] => Ok None
  | it :: rest =>
      r <- vbase (subarr a it k) ;;
      match r with
      | None => validate_cells vbase a k rest
      | Some m => Ok (Some (MsgAt it m))
      end
  end.

(** pattern_containers.py:253-263: the loop over the members of a dictionary. *)
Definition validate_items {A} (vq : pat -> fv A -> res verdict)
    (d : list (key * fv A)) : list (key * pat) -> res verdict :=
  fix loop its :=
    match its with
    | [] => Ok None
    | (k, q) :: rest =>
        match dict_get d k with
        | None => Ok (Some (MsgMissing k))
        | Some w =>
            r <- vq q w ;;
            match r with
            | None => loop rest
            | Some m => Ok (Some (MsgInvalid m))
            end
        end
    end.

(** [validate_folded] for all patterns; containers: pattern_containers.py:252-263
    and 507-524.  Simplification: handing a dict to an array pattern or an
    array to a dictionary pattern is a TypeError. *)
Fixpoint validate {A} (sc : scalar A) (p : pat) (v : fv A) (vv : option bool)
  : res verdict :=
  match p, v with
  | PNum _ shape lb ub dv _, FArr a => num_validate sc shape (pyval lb) (pyval ub) dv a vv
  | PSimplex n ashape dv _, FArr a => simplex_validate sc n ashape dv a vv
  | PPsd sz _ dlb dv _, FArr a => psd_validate sc sz (pyval dlb) dv a vv
  | PArr ashape base _, FArr a =>
      let s := folded_shape p in
      if negb (ndim a =? length s) then Ok (Some MsgDims)
      else if negb (shape_eqb (shp a) s) then Ok (Some MsgShape)
      else
        validate_cells (fun sub => validate sc base (FArr sub) vv) a (length ashape)
          (indices ashape)
  | PDict items _ _ _ _, FDict d =>
      validate_items (fun q w => validate sc q w vv) d items
  | _, _ => Err TypeError
  end.

(** [valid, msg = self.validate_folded(...); if not valid: raise ValueError]. *)
Definition require_valid {A} (sc : scalar A) (p : pat) (v : fv A) (vv : option bool)
  : res unit :=
  r <- validate sc p v vv ;;
  match r with None => Ok tt | Some _ => Err ValueError end.

(** ** fold *)

(** The free branch of the three leaf folds on a vector of floats:
    numeric_array_patterns.py:225-228, simplex_patterns.py:166-168,
    psdmatrix_patterns.py:309-310. *)
Definition num_fold_free (shape : list nat) (lb ub : num) (x : list num) : nd num :=
  mkNd shape (map (constrain1 lb ub) x).
Definition simplex_fold_free (n : nat) (ashape : list nat) (x : list num) : nd num :=
  mkNd (ashape ++ [n])
       (flat_map constrain_row (chunks (n - 1) (prod ashape) x)).

Definition as_arr {A} (v : fv A) : res (nd A) :=
  match v with FArr a => Ok a | FDict _ => Err TypeError end.

(** pattern_containers.py:279-290: the loop over the members of a dictionary. *)
Definition fold_items {A} (fq : pat -> nd A -> res (fv A)) (free : bool) (flat : list A)
  : list (key * pat) -> plen -> res (list (key * fv A)) :=
  fix loop its off :=
    match its with
    | [] => Ok []
    | (k, q) :: rest =>
        let stop := plen_add off (flat_len q free) in
        o <- as_index off ;;
        s <- as_index stop ;;
        v <- fq q (vec (slice flat o (s - o))) ;;
        r <- loop rest stop ;;
        Ok ((k, v) :: r)
    end.

(** Whether [str(pattern)] succeeds: pattern_containers.py:188-194 concatenates
    the keys to strings, which raises TypeError for an int key. *)
Fixpoint str_ok (p : pat) : bool :=
  match p with
  | PArr _ base _ => str_ok base
  | PDict items _ _ _ _ =>
      forallb (fun kq => match fst kq with KStr _ => str_ok (snd kq) | KInt _ => false end)
              items
  | _ => true
  end.

(** [fold] with [free] resolved.  numeric_array_patterns.py:210-234,
    simplex_patterns.py:161-174, psdmatrix_patterns.py:301-316,
    pattern_containers.py:265-296 and 555-580.
    The slices of an array are those of [_stacked_obs_slice], pattern_containers.py:533-553,
    whose assertion on the length of [item] always holds.
    [np.ravel_multi_index] on a 0-dimensional [array_shape] is not modelled. *)
Fixpoint fold_ {A} (sc : scalar A) (p : pat) (flat0 : nd A) (free : bool)
    (vv : option bool) : res (fv A) :=
  match p with
  | PNum _ shape lb ub _ _ =>
      let flat := atleast_1d flat0 in
      if negb (ndim flat =? 1) then Err ValueError
      else if negb (size flat =? prod shape) then Err ValueError
      else if free then
        Ok (FArr (nd_map (of_num sc)
              (num_fold_free shape (pyval lb) (pyval ub) (map (to_num sc) (dat flat)))))
      else
        v <- reshape flat shape ;;
        _ <- require_valid sc p (FArr v) vv ;;
        Ok (FArr v)
  | PSimplex n ashape _ _ =>
      len <- pylen flat0 ;;
      if negb (len =? pl_n (flat_len p free)) then Err ValueError
      else if free then
        x <- reshape flat0 (ashape ++ [n - 1]) ;;
        Ok (FArr (nd_map (of_num sc)
              (simplex_fold_free n ashape (map (to_num sc) (dat x)))))
      else
        v <- reshape flat0 (ashape ++ [n]) ;;
        _ <- require_valid sc p (FArr v) vv ;;
        Ok (FArr v)
  | PPsd sz flen dlb _ _ =>
      let flat := atleast_1d flat0 in
      if negb (ndim flat =? 1) then Err ValueError
      else if negb (size flat =? pl_n (flat_len p free)) then Err ValueError
      else if free then
        m <- unpack_posdef (map (to_num sc) (dat flat)) (pyval dlb) ;;
        Ok (FArr (nd_map (of_num sc) m))
      else
        v <- reshape flat [sz; sz] ;;
        _ <- require_valid sc p (FArr v) vv ;;
        Ok (FArr v)
  | PArr ashape base _ =>
      let flat := atleast_1d flat0 in
      if negb (ndim flat =? 1) then Err ValueError
      else if negb (size flat =? pl_n (flat_len p free)) then Err ValueError
      else
        match ashape with
        | [] => Err Unmodelled
        | _ =>
          parts <- mapM (fun item =>
              n <- as_index (flat_len base free) ;;
              v <- fold_ sc base (vec (slice (dat flat) (ravel item ashape * n) n)) free vv ;;
              as_arr v) (indices ashape) ;;
          a <- stack_reshape parts (folded_shape p) ;;
          if free then Ok (FArr a)
          else _ <- require_valid sc p (FArr a) vv ;; Ok (FArr a)
        end
  | PDict items _ _ _ _ =>
      let flat := atleast_1d flat0 in
      if negb (ndim flat =? 1) then Err ValueError
      else if negb (size flat =? pl_n (flat_len p free))
      then Err (if str_ok p then ValueError else TypeError)
      else
        d <- fold_items (fun q x => fold_ sc q x free vv) free (dat flat) items (plint 0) ;;
        if free then Ok (FDict d)
        else _ <- require_valid sc p (FDict d) vv ;; Ok (FDict d)
  end.

(** The public method. *)
Definition fold_gen {A} (sc : scalar A) (p : pat) (flat : nd A) (free : option bool)
    (vv : option bool) : res (fv A) :=
  f <- free_with_default p free ;; fold_ sc p flat f vv.
Definition fold := fold_gen snum.

(** ** flatten *)

(** pattern_containers.py:308-319: the loop over the members of a dictionary. *)
Definition flatten_items {A} (fq : pat -> fv A -> res (list A)) (d : list (key * fv A))
  : list (key * pat) -> res (list (list A)) :=
  fix loop its :=
    match its with
    | [] => Ok []
    | (k, q) :: rest =>
        match dict_get d k with
        | None => Err KeyError
        | Some w => x <- fq q w ;; r <- loop rest ;; Ok (x :: r)
        end
    end.

(** [flatten] with [free] resolved.  numeric_array_patterns.py:236-246,
    simplex_patterns.py:176-184, psdmatrix_patterns.py:291-299,
    pattern_containers.py:298-320 and 582-592. *)
Fixpoint flatten_ {A} (sc : scalar A) (p : pat) (v : fv A) (free : bool)
    (vv : option bool) : res (list A) :=
  match p, v with
  | PNum _ shape lb ub _ _, FArr a0 =>
      let a := atleast_1d a0 in
      _ <- require_valid sc p (FArr a) vv ;;
      if free then
        Ok (map (fun x => of_num sc (unconstrain1 (pyval lb) (pyval ub) (to_num sc x))) (dat a))
      else Ok (dat a)
  | PSimplex n ashape _ _, FArr a =>
      _ <- require_valid sc p v vv ;;
      if free then
        Ok (map (of_num sc)
              (flat_map unconstrain_row (chunks n (prod ashape) (map (to_num sc) (dat a)))))
      else Ok (dat a)
  | PPsd sz _ dlb _ _, FArr a =>
      _ <- require_valid sc p v vv ;;
      if free then
        x <- pack_posdef sz (mat_of sz (nd_map (to_num sc) a)) (pyval dlb) ;;
        Ok (map (of_num sc) x)
      else Ok (dat a)
  | PArr ashape base _, FArr a =>
      _ <- require_valid sc p v vv ;;
      parts <- mapM (fun item =>
          flatten_ sc base (FArr (subarr a item (length ashape))) free vv)
          (indices ashape) ;;
      hstack parts
  | PDict items _ _ _ _, FDict d =>
      _ <- require_valid sc p v vv ;;
      parts <- flatten_items (fun q w => flatten_ sc q w free vv) d items ;;
      hstack parts
  | _, _ => Err TypeError
  end.

Definition flatten_gen {A} (sc : scalar A) (p : pat) (v : fv A) (free : option bool)
    (vv : option bool) : res (list A) :=
  f <- free_with_default p free ;; flatten_ sc p v f vv.
Definition flatten := flatten_gen snum.

(** ** flat_indices *)

(** simplex_patterns.py:238-258: the free branch. *)
Definition simplex_free_indices (n : nat) (ashape : list nat) (mask : list bool) : list nat :=
  flat_map (fun off =>
      if anyb (chunk n mask off) then seq (off * (n - 1)) (n - 1) else [])
    (seq 0 (prod ashape)).

(** pattern_containers.py:400-401, 657-658: shift the indices of a member by the
    running offset.  A float offset would make the indices floats; that case is
    not modelled. *)
Definition shift_indices (off : plen) (ix : list nat) : res (list nat) :=
  match ix with
  | [] => Ok []
  | _ => if pl_float off then Err Unmodelled else Ok (map (fun i => i + pl_n off) ix)
  end.

(** pattern_containers.py:652-663: the loop over the cells of an array. *)
Fixpoint indices_cells (ibase : nd bool -> res (list nat)) (m : nd bool) (k : nat)
    (step : plen) (cells : list (list nat)) (off : plen) : res (list nat) :=
  match cells with
  | [] => Ok []
  | it :: rest =>
      let sub := subarr m it k in
      here <- (if anyb (dat sub) then ix <- ibase sub ;; shift_indices off ix else Ok []) ;;
      r <- indices_cells ibase m k step rest (plen_add off step) ;;
      Ok (here ++ r)
  end.

(** pattern_containers.py:392-406: the loop over the members of a dictionary. *)
Definition indices_items (iq : pat -> fv bool -> res (list nat)) (free : bool)
    (d : list (key * fv bool)) : list (key * pat) -> plen -> res (list nat) :=
  fix loop its off :=
    match its with
    | [] => Ok []
    | (k, q) :: rest =>
        match dict_get d k with
        | None => Err KeyError
        | Some w =>
            ix <- iq q w ;;
            here <- shift_indices off ix ;;
            r <- loop rest (plen_add off (flat_len q free)) ;;
            Ok (here ++ r)
        end
    end.

(** numeric_array_patterns.py:261-274, simplex_patterns.py:224-258,
    psdmatrix_patterns.py:318-340, pattern_containers.py:385-406 and 644-663.
    The leaf patterns test for an all-False mask before anything else, even
    before [free] is resolved. *)
Fixpoint flat_indices (p : pat) (mask : fv bool) (free : option bool)
  : res (list nat) :=
  match p, mask with
  | PNum _ shape _ _ _ _, FArr m0 =>
      if negb (anyb (dat m0)) then Ok []
      else
        _ <- free_with_default p free ;;
        let m := atleast_1d m0 in
        if negb (shape_eqb (shp m) shape) then Err ValueError
        else Ok (select (seq 0 (prod shape)) (dat m))
  | PSimplex n ashape _ _, FArr m =>
      if negb (anyb (dat m)) then Ok []
      else
        f <- free_with_default p free ;;
        if negb (shape_eqb (shp m) (ashape ++ [n])) then Err ValueError
        else if f then Ok (simplex_free_indices n ashape (dat m))
        else
          ix <- fold_ snat p (vec (seq 0 (pl_n (flat_len p false)))) false (Some false) ;;
          a <- as_arr ix ;;
          Ok (select (dat a) (dat m))
  | PPsd sz flen _ _ _, FArr m =>
      if negb (anyb (dat m)) then Ok []
      else
        f <- free_with_default p free ;;
        if negb (shape_eqb (shp m) [sz; sz]) then Err ValueError
        else if f then Ok (seq 0 flen)
        else
          ix <- fold_ snat p (vec (seq 0 (pl_n (flat_len p false)))) false (Some false) ;;
          a <- as_arr ix ;;
          Ok (select (dat a) (dat m))
  | PArr ashape base _, FArr m =>
      f <- free_with_default p free ;;
      _ <- require_valid sbool p mask (Some false) ;;
      indices_cells (fun sub => flat_indices base (FArr sub) (Some f)) m (length ashape)
        (flat_len base f) (indices ashape) (plint 0)
  | PDict items _ _ _ _, FDict d =>
      f <- free_with_default p free ;;
      _ <- require_valid sbool p mask (Some false) ;;
      indices_items (fun q w => flat_indices q w (Some f)) f d items (plint 0)
  | _, _ => Err TypeError
  end.

(** ** empty, empty_bool *)

(** [empty(valid=True)]: numeric_array_patterns.py:180-183,
    simplex_patterns.py:135-137, psdmatrix_patterns.py:232-234,
    pattern_containers.py:246-250 and 526-531. *)
Fixpoint empty_valid (p : pat) : res (fv num) :=
  match p with
  | PNum _ shape lb ub _ _ =>
      Ok (FArr (mkNd shape (repeat (inbounds_value (pyval lb) (pyval ub)) (prod shape))))
  | PSimplex n ashape _ _ =>
      let s := ashape ++ [n] in
      Ok (FArr (mkNd s (repeat (ndiv (Fin 1) (Fin (INR n))) (prod s))))
  | PPsd sz _ dlb _ _ =>
      Ok (FArr (to_nd sz (fun i j =>
            nmul (if i =? j then Fin 1 else Fin 0) (nadd (pyval dlb) (Fin 1)))))
  | PArr ashape base _ =>
      e <- empty_valid base ;;
      a <- as_arr e ;;
      r <- stack_reshape (map (fun _ => a) (indices ashape)) (folded_shape p) ;;
      Ok (FArr r)
  | PDict items _ _ _ _ =>
      d <- mapM (fun kq => v <- empty_valid (snd kq) ;; Ok (fst kq, v)) items ;;
      Ok (FDict d)
  end.

(** base_patterns.py:227-242 [empty_bool]; [np.full] rejects a float size. *)
Definition empty_bool (p : pat) (b : bool) : res (fv bool) :=
  l <- flat_length p (Some false) ;;
  n <- as_index l ;;
  fold_gen sbool p (vec (repeat b n)) (Some false) (Some false).

(** ** Constructors *)

(** numeric_array_patterns.py:124-165 [NumericArrayPattern.__init__].  The two
    assertions exclude NaN bounds; the index caches are filled by [fold] on
    [arange], which raises for the 0-dimensional shape [()]. *)
Definition new_numeric_kind (k : nkind) (shape : list nat) (lb ub : pynum) (dv : bool)
    (fd : option bool) : res pat :=
  if negb (ngeb (pyval lb) NInf) then Err AssertionError
  else if negb (nleb (pyval ub) PInf) then Err AssertionError
  else if ngeb (pyval lb) (pyval ub) then Err ValueError
  else
    let p := PNum k shape lb ub dv fd in
    _ <- fold_ snat p (vec (seq 0 (prod shape))) false (Some false) ;;
    Ok p.
Definition new_numeric_array := new_numeric_kind KArray.
(** numeric_array_patterns.py:324-328 and 350-354. *)
Definition new_numeric_vector (length : nat) := new_numeric_kind KVector [length].
Definition new_numeric_scalar := new_numeric_kind KScalar [1].

(** simplex_patterns.py:88-113; [simplex_size] is an [int]. *)
Definition new_simplex (n : Z) (ashape : list nat) (dv : bool) (fd : option bool) : res pat :=
  if (n <=? 1)%Z then Err ValueError
  else Ok (PSimplex (Z.to_nat n) ashape dv fd).

(** psdmatrix_patterns.py:181-204.  [size] may be any non-negative number, given
    here as a fraction [num/den]: [self.__size = int(size)] but the free length
    is [int(size * (size + 1) / 2)] of the unrounded argument.  Negative sizes
    are not modelled. *)
Definition new_psd (size_num : nat) (size_den : positive) (diag_lb : pynum) (dv : bool)
    (fd : option bool) : res pat :=
  if nltb (pyval diag_lb) (Fin 0) then Err ValueError
  else
    let d := Pos.to_nat size_den in
    Ok (PPsd (size_num / d) (size_num * (size_num + d) / (2 * d * d)) diag_lb dv fd).

(** pattern_containers.py:437-479: the base must have array values. *)
Definition new_pattern_array (ashape : list nat) (base : pat) (fd : option bool) : res pat :=
  match base with
  | PDict _ _ _ _ _ => Err NotImplementedError
  | _ => Ok (PArr ashape base fd)
  end.

(** pattern_containers.py:178-183: a fresh dictionary has integer lengths 0. *)
Definition new_dict (fd : option bool) : pat := PDict [] (plint 0) (plint 0) fd false.

(** OrderedDict assignment: replace in place, or append. *)
Fixpoint assign {V} (d : list (key * V)) (k : key) (v : V) : list (key * V) :=
  match d with
  | [] => [(k, v)]
  | (k', v') :: d' => if key_eqb k k' then (k', v) :: d' else (k', v') :: assign d' k v
  end.
Definition remove_key {V} (d : list (key * V)) (k : key) : list (key * V) :=
  filter (fun kv => negb (key_eqb k (fst kv))) d.

(** pattern_containers.py:228-229: a member that is a PatternDict gets locked. *)
Definition lock_pat (p : pat) : pat :=
  match p with PDict i l f fd _ => PDict i l f fd true | _ => p end.

(** pattern_containers.py:322-326 [_update_flat_length]. *)
Definition items_len (items : list (key * pat)) (free : bool) : plen :=
  plen_sum (map (fun kq => flat_len (snd kq) free) items).

(** pattern_containers.py:216-232 [__setitem__] (value view; the mutable object
    view is DictHeap.v). *)
Definition setitem (p : pat) (k : key) (q : pat) : res pat :=
  match p with
  | PDict items _ _ fd locked =>
      if locked then Err ValueError
      else
        let items' := assign items k (lock_pat q) in
        Ok (PDict items' (items_len items' false) (items_len items' true) fd locked)
  | _ => Err TypeError
  end.

(** pattern_containers.py:234-241 [__delitem__]. *)
Definition delitem (p : pat) (k : key) : res pat :=
  match p with
  | PDict items _ _ fd locked =>
      if locked then Err ValueError
      else match dict_get items k with
           | None => Err KeyError
           | Some _ =>
               let items' := remove_key items k in
               Ok (PDict items' (items_len items' false) (items_len items' true) fd locked)
           end
  | _ => Err TypeError
  end.
