(** * Which arrays share memory: [fold] and [flatten] on a heap of buffers.

    Models the same methods as [fold_] and [flatten_] of Pattern.v for float arrays,
    but keeps track of whether numpy returns a view of its argument or a new array.

    Simplification: every array is a contiguous (C order) window of one buffer, as the
    arrays that numpy allocates and the views below are.  (Numpy may have to copy in
    [reshape] for other arrays.) *)
From Verif Require Import Base Num Nd Numeric Simplex Psd Pattern.
Local Open Scope list_scope.
Local Open Scope nat_scope.

Definition bufs := list (list num).

(** An array object: a window of buffer [r_buf] from [r_off] on, with a shape. *)
Record aref : Type := mkRef { r_buf : nat; r_off : nat; r_shp : list nat }.

(** The contents of the array. *)
Definition r_get (h : bufs) (r : aref) : nd num :=
  mkNd (r_shp r) (slice (nth (r_buf r) h []) (r_off r) (prod (r_shp r))).

(** Folded values: array objects, or dictionaries. *)
Inductive hv : Type := HArr (r : aref) | HDict (d : list (key * hv)).
Fixpoint h_read (h : bufs) (v : hv) : fv num :=
  match v with
  | HArr r => FArr (r_get h r)
  | HDict d => FDict (map (fun kw => (fst kw, h_read h (snd kw))) d)
  end.

(** Code that may allocate and may raise. *)
Definition hres (A : Type) : Type := bufs -> res A * bufs.
Definition hbind {A B} (m : hres A) (k : A -> hres B) : hres B := fun h =>
  match m h with
  | (Ok a, h1) => k a h1
  | (Err e, h1) => (Err e, h1)
  end.
(** Code that only looks at the heap. *)
Definition look {A} (f : bufs -> res A) : hres A := fun h => (f h, h).
Definition hmapM {A B} (f : A -> hres B) : list A -> hres (list B) :=
  fix loop l :=
    match l with
    | [] => look (fun _ => Ok [])
    | a :: l' => hbind (f a) (fun b => hbind (loop l') (fun bs => look (fun _ => Ok (b :: bs))))
    end.

(** A new array: the results of numpy arithmetic, [copy.copy], [ndarray.flatten],
    [np.array], [np.hstack] and indexing with an index array. *)
Definition alloc (a : nd num) : hres aref := fun h =>
  (Ok (mkRef (length h) 0 (shp a)), h ++ [dat a]).

(** Views: [np.atleast_1d], [np.reshape], [x[o:o+len]] of a vector, [x[item]]. *)
Definition v_atleast (r : aref) : aref :=
  match r_shp r with [] => mkRef (r_buf r) (r_off r) [1] | _ => r end.
Definition v_reshape (r : aref) (s : list nat) : res aref :=
  if prod s =? prod (r_shp r) then Ok (mkRef (r_buf r) (r_off r) s) else Err ValueError.
Definition v_slice (r : aref) (o len : nat) : aref :=
  mkRef (r_buf r) (r_off r + o) [Nat.min len (prod (r_shp r) - o)].
Definition v_item (r : aref) (item : list nat) (k : nat) : aref :=
  let rest := skipn k (r_shp r) in
  mkRef (r_buf r) (r_off r + ravel item (firstn k (r_shp r)) * prod rest) rest.
Definition v_len (r : aref) : res nat :=
  match r_shp r with [] => Err TypeError | n :: _ => Ok n end.
Definition v_arr (v : hv) : res aref :=
  match v with HArr r => Ok r | HDict _ => Err TypeError end.

(** numeric_array_patterns.py:229-234, simplex_patterns.py:169-174,
    psdmatrix_patterns.py:311-316: reshape, validate, return. *)
Definition checked_view (p : pat) (r : aref) (s : list nat) (vv : option bool) : hres hv :=
  look (fun h =>
    w <- v_reshape r s ;;
    _ <- require_valid snum p (FArr (r_get h w)) vv ;;
    Ok (HArr w)).

(** pattern_containers.py:279-290. *)
Definition hfold_items (fq : pat -> aref -> hres hv) (free : bool) (flat : aref)
  : list (key * pat) -> plen -> hres (list (key * hv)) :=
  fix loop its off :=
    match its with
    | [] => look (fun _ => Ok [])
    | (k, q) :: rest =>
        let stop := plen_add off (flat_len q free) in
        hbind (look (fun _ => o <- as_index off ;; s <- as_index stop ;; Ok (o, s))) (fun os =>
        hbind (fq q (v_slice flat (fst os) (snd os - fst os))) (fun v =>
        hbind (loop rest stop) (fun r => look (fun _ => Ok ((k, v) :: r)))))
    end.

(** numeric_array_patterns.py:210-234, simplex_patterns.py:161-174,
    psdmatrix_patterns.py:301-316, pattern_containers.py:265-296 and 555-580. *)
Fixpoint hfold_ (p : pat) (x : aref) (free : bool) (vv : option bool) : hres hv :=
  match p with
  | PNum _ shape lb ub _ _ =>
      let flat := v_atleast x in
      if negb (length (r_shp flat) =? 1) then look (fun _ => Err ValueError)
      else if negb (prod (r_shp flat) =? prod shape) then look (fun _ => Err ValueError)
      else if free then
        hbind (fun h => alloc (num_fold_free shape (pyval lb) (pyval ub) (dat (r_get h flat))) h)
              (fun r => look (fun _ => Ok (HArr r)))
      else checked_view p flat shape vv
  | PSimplex n ashape _ _ =>
      hbind (look (fun _ => v_len x)) (fun len =>
      if negb (len =? pl_n (flat_len p free)) then look (fun _ => Err ValueError)
      else if free then
        hbind (look (fun _ => v_reshape x (ashape ++ [n - 1]))) (fun y =>
        hbind (fun h => alloc (simplex_fold_free n ashape (dat (r_get h y))) h)
              (fun r => look (fun _ => Ok (HArr r))))
      else checked_view p x (ashape ++ [n]) vv)
  | PPsd sz flen dlb _ _ =>
      let flat := v_atleast x in
      if negb (length (r_shp flat) =? 1) then look (fun _ => Err ValueError)
      else if negb (prod (r_shp flat) =? pl_n (flat_len p free)) then look (fun _ => Err ValueError)
      else if free then
        hbind (look (fun h => unpack_posdef (dat (r_get h flat)) (pyval dlb))) (fun m =>
        hbind (alloc m) (fun r => look (fun _ => Ok (HArr r))))
      else checked_view p flat [sz; sz] vv
  | PArr ashape base _ =>
      let flat := v_atleast x in
      if negb (length (r_shp flat) =? 1) then look (fun _ => Err ValueError)
      else if negb (prod (r_shp flat) =? pl_n (flat_len p free)) then look (fun _ => Err ValueError)
      else
        match ashape with
        | [] => look (fun _ => Err Unmodelled)
        | _ =>
          hbind (hmapM (fun item =>
              hbind (look (fun _ => as_index (flat_len base free))) (fun n =>
              hbind (hfold_ base (v_slice flat (ravel item ashape * n) n) free vv) (fun v =>
              look (fun _ => v_arr v)))) (indices ashape)) (fun parts =>
          hbind (look (fun h => stack_reshape (map (r_get h) parts) (folded_shape p))) (fun a =>
          hbind (alloc a) (fun r =>
          look (fun h =>
            if free then Ok (HArr r)
            else _ <- require_valid snum p (FArr (r_get h r)) vv ;; Ok (HArr r)))))
        end
  | PDict items _ _ _ _ =>
      let flat := v_atleast x in
      if negb (length (r_shp flat) =? 1) then look (fun _ => Err ValueError)
      else if negb (prod (r_shp flat) =? pl_n (flat_len p free))
      then look (fun _ => Err (if str_ok p then ValueError else TypeError))
      else
        hbind (hfold_items (fun q y => hfold_ q y free vv) free flat items (plint 0)) (fun d =>
        look (fun h =>
          if free then Ok (HDict d)
          else _ <- require_valid snum p (h_read h (HDict d)) vv ;; Ok (HDict d)))
  end.
Definition hfold (p : pat) (x : aref) (free : option bool) (vv : option bool) : hres hv :=
  hbind (look (fun _ => free_with_default p free)) (fun f => hfold_ p x f vv).

(** pattern_containers.py:308-319. *)
Definition hflatten_items (fq : pat -> hv -> hres aref) (d : list (key * hv))
  : list (key * pat) -> hres (list aref) :=
  fix loop its :=
    match its with
    | [] => look (fun _ => Ok [])
    | (k, q) :: rest =>
        match dict_get d k with
        | None => look (fun _ => Err KeyError)
        | Some w => hbind (fq q w) (fun x => hbind (loop rest) (fun r => look (fun _ => Ok (x :: r))))
        end
    end.

(** [np.hstack] of one-dimensional arrays. *)
Definition hstack_new (parts : list aref) : hres aref :=
  hbind (look (fun h => hstack (map (fun r => dat (r_get h r)) parts))) (fun x => alloc (vec x)).

(** numeric_array_patterns.py:236-246, simplex_patterns.py:176-184,
    psdmatrix_patterns.py:291-299, pattern_containers.py:298-320 and 582-592. *)
Fixpoint hflatten_ (p : pat) (v : hv) (free : bool) (vv : option bool) : hres aref :=
  match p, v with
  | PNum _ shape lb ub _ _, HArr a0 =>
      let a := v_atleast a0 in
      hbind (look (fun h => require_valid snum p (FArr (r_get h a)) vv)) (fun _ =>
      fun h => alloc (vec (if free then map (unconstrain1 (pyval lb) (pyval ub)) (dat (r_get h a))
                           else dat (r_get h a))) h)
  | PSimplex n ashape _ _, HArr a =>
      hbind (look (fun h => require_valid snum p (FArr (r_get h a)) vv)) (fun _ =>
      fun h => alloc (vec (if free then flat_map unconstrain_row (chunks n (prod ashape) (dat (r_get h a)))
                           else dat (r_get h a))) h)
  | PPsd sz _ dlb _ _, HArr a =>
      hbind (look (fun h => require_valid snum p (FArr (r_get h a)) vv)) (fun _ =>
      hbind (look (fun h => if free then pack_posdef sz (mat_of sz (r_get h a)) (pyval dlb)
                            else Ok (dat (r_get h a)))) (fun x =>
      alloc (vec x)))
  | PArr ashape base _, HArr a =>
      hbind (look (fun h => require_valid snum p (FArr (r_get h a)) vv)) (fun _ =>
      hbind (hmapM (fun item => hflatten_ base (HArr (v_item a item (length ashape))) free vv)
               (indices ashape)) hstack_new)
  | PDict items _ _ _ _, HDict d =>
      hbind (look (fun h => require_valid snum p (h_read h v) vv)) (fun _ =>
      hbind (hflatten_items (fun q w => hflatten_ q w free vv) d items) hstack_new)
  | _, _ => look (fun _ => Err TypeError)
  end.
Definition hflatten (p : pat) (v : hv) (free : option bool) (vv : option bool) : hres aref :=
  hbind (look (fun _ => free_with_default p free)) (fun f => hflatten_ p v f vv).

(** [r[i] = c] for the entry at row-major position [i]. *)
Definition r_set (h : bufs) (r : aref) (i : nat) (c : num) : bufs :=
  upd h (r_buf r) (upd (nth (r_buf r) h []) (r_off r + i) c).
