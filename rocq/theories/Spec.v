(** * Specification vocabulary, independent of the transforms.

    Nothing here mentions fold, flatten, the constraining maps or Cholesky. *)
From Coq Require Import Reals.
From Verif Require Import Base Num Nd Pattern.

(** Strict order on extended reals (no NaN). *)
Definition nlt (a b : num) : Prop :=
  match a, b with
  | Fin x, Fin y => (x < y)%R
  | NInf, Fin _ | NInf, PInf | Fin _, PInf => True
  | _, _ => False
  end.

Definition finite (x : num) : Prop := exists r, x = Fin r.

(** Sum of [f 0 .. f (n-1)]. *)
Fixpoint Rsum (n : nat) (f : nat -> R) : R :=
  match n with O => 0%R | S m => (Rsum m f + f m)%R end.

(** Sum of a list of reals. *)
Definition Rlsum (l : list R) : R := fold_right Rplus 0%R l.

Definition symmetric (n : nat) (m : nat -> nat -> R) : Prop :=
  forall i j, i < n -> j < n -> m i j = m j i.

(** x' m x > 0 for every x that is not zero on the first n coordinates. *)
Definition pos_def (n : nat) (m : nat -> nat -> R) : Prop :=
  forall x : nat -> R,
    (exists i, i < n /\ x i <> 0%R) ->
    (0 < Rsum n (fun i => Rsum n (fun j => x i * m i j * x j)))%R.

(** The matrix [m - c I]. *)
Definition minus_diag (m : nat -> nat -> R) (c : R) : nat -> nat -> R :=
  fun i j => if i =? j then (m i j - c)%R else m i j.

(** A quantifier over dictionary members that recursion can go through. *)
Definition all_items (P : key -> pat -> Prop) : list (key * pat) -> Prop :=
  fix all its := match its with [] => True | (k, q) :: rest => P k q /\ all rest end.

Definition is_dict (p : pat) : bool := match p with PDict _ _ _ _ _ => true | _ => false end.

(** Patterns as the constructors build them from sensible arguments: bounds in
    order, PSD bound finite and non-negative, integer matrix size, no empty
    container, dictionary lengths up to date.  (Theorem [usable_of_built]
    relates this to the constructors.) *)
Fixpoint usable (p : pat) : Prop :=
  match p with
  | PNum _ shape lb ub _ _ => shape <> [] /\ nlt (pyval lb) (pyval ub)
  | PSimplex n _ _ _ => 2 <= n
  | PPsd sz flen dlb _ _ =>
      flen = sz * (sz + 1) / 2 /\ exists r, pyval dlb = Fin r /\ (0 <= r)%R
  | PArr ashape base _ =>
      ashape <> [] /\ 0 < prod ashape /\ is_dict base = false /\ usable base
  | PDict items len flen _ _ =>
      items <> [] /\ NoDup (map fst items) /\
      len = plint (lsum (map (fun kq => pl_n (flat_len (snd kq) false)) items)) /\
      flen = plint (lsum (map (fun kq => pl_n (flat_len (snd kq) true)) items)) /\
      all_items (fun _ q => usable q) items
  end.

(** All dictionary keys of the tree are strings. *)
Fixpoint string_keys (p : pat) : Prop :=
  match p with
  | PArr _ base _ => string_keys base
  | PDict items _ _ _ _ =>
      all_items (fun k q => (exists s, k = KStr s) /\ string_keys q) items
  | _ => True
  end.

(** An array of shape [shape]; a 0-d value is accepted for shape [(1,)]. *)
Definition fits {A} (shape : list nat) (a : nd A) : Prop :=
  nd_ok a /\ (shp a = shape \/ (shp a = [] /\ shape = [1])).

(** The entries of an [n x n] real matrix in row-major order. *)
Definition rows_of (n : nat) (m : nat -> nat -> R) : list num :=
  flat_map (fun i => map (fun j => Fin (m i j)) (seq 0 n)) (seq 0 n).

(** The folded values strictly inside the constraint set: finite entries strictly
    between the bounds; positive simplexes summing to exactly one; symmetric
    matrices with [m - diag_lb I] positive definite; for an array every block;
    for a dictionary every member (extra keys are allowed). *)
Fixpoint interior (p : pat) (v : fv num) : Prop :=
  match p, v with
  | PNum _ shape lb ub _ _, FArr a =>
      fits shape a /\
      Forall (fun x => finite x /\ nlt (pyval lb) x /\ nlt x (pyval ub)) (dat a)
  | PSimplex n ashape _ _, FArr a =>
      shp a = ashape ++ [n] /\
      exists rows : list (list R),
        length rows = prod ashape /\ dat a = map Fin (concat rows) /\
        Forall (fun r => length r = n /\ Forall (Rlt 0) r /\ Rlsum r = 1%R) rows
  | PPsd sz _ dlb _ _, FArr a =>
      shp a = [sz; sz] /\
      exists (m : nat -> nat -> R) (c : R),
        dat a = rows_of sz m /\ pyval dlb = Fin c /\
        symmetric sz m /\ pos_def sz (minus_diag m c)
  | PArr ashape base _, FArr a =>
      shp a = ashape ++ folded_shape base /\ nd_ok a /\
      forall i, i < prod ashape ->
        interior base (FArr (mkNd (folded_shape base)
          (slice (dat a) (i * prod (folded_shape base)) (prod (folded_shape base)))))
  | PDict items _ _ _ _, FDict d =>
      all_items (fun k q => exists w, dict_get d k = Some w /\ interior q w) items
  | _, _ => False
  end.

(** The folded value as [fold] presents it: 0-d numeric leaves become 1-d,
    dictionary members come in the pattern's order, extra keys are dropped;
    every number is unchanged. *)
Definition canon_items {A} (f : pat -> fv A -> fv A) (d : list (key * fv A))
  : list (key * pat) -> list (key * fv A) :=
  fix go its :=
    match its with
    | [] => []
    | (k, q) :: rest =>
        match dict_get d k with Some w => (k, f q w) :: go rest | None => go rest end
    end.
Fixpoint canon {A} (p : pat) (v : fv A) : fv A :=
  match p, v with
  | PNum _ shape _ _ _ _, FArr a => FArr (mkNd shape (dat a))
  | PDict items _ _ _ _, FDict d => FDict (canon_items canon d items)
  | _, _ => v
  end.

(** Every array in the folded value holds as many entries as its shape says
    (always true of numpy arrays). *)
Definition fv_ok {A} : fv A -> Prop :=
  fix ok v :=
    match v with
    | FArr a => nd_ok a
    | FDict d => (fix all d := match d with [] => True | (_, w) :: r => ok w /\ all r end) d
    end.

(** ** The non-free layout, without any validation

    [layout p x] puts the vector [x] into the folded shape: arrays are filled in
    row-major order, dictionary members take consecutive segments in the
    pattern's key order.  [entries p v] reads the numbers back. *)
Definition layout_items {A} (f : pat -> list A -> fv A)
  : list (key * pat) -> list A -> list (key * fv A) :=
  fix go its x :=
    match its with
    | [] => []
    | (k, q) :: rest =>
        let n := pl_n (flat_len q false) in
        (k, f q (firstn n x)) :: go rest (skipn n x)
    end.
Fixpoint layout {A} (p : pat) (x : list A) : fv A :=
  match p with
  | PDict items _ _ _ _ => FDict (layout_items layout items x)
  | _ => FArr (mkNd (folded_shape p) x)
  end.

Definition entries_items {A} (f : pat -> fv A -> list A) (d : list (key * fv A))
  : list (key * pat) -> list A :=
  fix go its :=
    match its with
    | [] => []
    | (k, q) :: rest =>
        match dict_get d k with Some w => f q w ++ go rest | None => go rest end
    end.
Fixpoint entries {A} (p : pat) (v : fv A) : list A :=
  match p, v with
  | PDict items _ _ _ _, FDict d => entries_items entries d items
  | _, FArr a => dat a
  | _, _ => []
  end.

(** The folded value has the pattern's shape (0-d is accepted for shape [(1,)]);
    dictionaries have at least the pattern's keys.  Nothing is said about the
    entries. *)
Fixpoint shape_fits {A} (p : pat) (v : fv A) : Prop :=
  match p, v with
  | PNum _ shape _ _ _ _, FArr a => shp a = shape \/ (shp a = [] /\ shape = [1])
  | PSimplex n s _ _, FArr a => shp a = s ++ [n]
  | PPsd sz _ _ _ _, FArr a => shp a = [sz; sz]
  | PArr s b _, FArr a => shp a = s ++ folded_shape b
  | PDict items _ _ _ _, FDict d =>
      all_items (fun k q => exists w, dict_get d k = Some w /\ shape_fits q w) items
  | _, _ => False
  end.

(** Values are not checked: [validate_value=False], or [None] and every leaf has
    [default_validate=False]. *)
Fixpoint lenient (p : pat) (vv : option bool) : Prop :=
  match p with
  | PNum _ _ _ _ dv _ | PSimplex _ _ dv _ | PPsd _ _ _ dv _ =>
      match vv with Some b => b = false | None => dv = false end
  | PArr _ base _ => lenient base vv
  | PDict items _ _ _ _ => all_items (fun _ q => lenient q vv) items
  end.

(** Two patterns of the same structure, shapes, bound values (as numbers) and
    cached lengths; [free_default], the lock flag, the numeric subclass and the
    Python type of a bound may differ anywhere in the tree. *)
Definition sim_items (f : pat -> pat -> Prop)
  : list (key * pat) -> list (key * pat) -> Prop :=
  fix go a b :=
    match a, b with
    | [], [] => True
    | (k, p) :: a', (k', q) :: b' => k = k' /\ f p q /\ go a' b'
    | _, _ => False
    end.
Fixpoint sim (p q : pat) : Prop :=
  match p, q with
  | PNum _ s lb ub dv _, PNum _ s' lb' ub' dv' _ =>
      s = s' /\ pyval lb = pyval lb' /\ pyval ub = pyval ub' /\ dv = dv'
  | PSimplex n s dv _, PSimplex n' s' dv' _ => n = n' /\ s = s' /\ dv = dv'
  | PPsd sz fl d dv _, PPsd sz' fl' d' dv' _ =>
      sz = sz' /\ fl = fl' /\ pyval d = pyval d' /\ dv = dv'
  | PArr s b _, PArr s' b' _ => s = s' /\ sim b b'
  | PDict it l fl _ _, PDict it' l' fl' _ _ => l = l' /\ fl = fl' /\ sim_items sim it it'
  | _, _ => False
  end.

(** Two folded values carry the same entries for the pattern's keys. *)
Fixpoint same_on {A} (p : pat) (v w : fv A) : Prop :=
  match p, v, w with
  | PDict items _ _ _ _, FDict d, FDict e =>
      all_items (fun k q =>
        match dict_get d k, dict_get e k with
        | Some x, Some y => same_on q x y
        | None, None => True
        | _, _ => False
        end) items
  | PDict _ _ _ _ _, _, _ => v = w
  | _, _, _ => v = w
  end.

(** Total length of the members of a dictionary. *)
Definition total_len (items : list (key * pat)) (free : bool) : nat :=
  lsum (map (fun kq => pl_n (flat_len (snd kq) free)) items).

(** ** Patterns the public constructors can build

    Sizes are integers and the PSD bound is finite; everything else is
    arbitrary.  (NumericVectorPattern passes a shape of length 1 and
    NumericScalarPattern the shape [(1,)].) *)
Definition class_shape (k : nkind) (s : list nat) : Prop :=
  match k with KArray => True | KVector => length s = 1 | KScalar => s = [1] end.
Inductive built : pat -> Prop :=
| built_num k s lb ub dv fd p :
    class_shape k s -> new_numeric_kind k s lb ub dv fd = Ok p -> built p
| built_simplex n s dv fd p :
    new_simplex n s dv fd = Ok p -> built p
| built_psd n d dv fd p :
    new_psd n 1 d dv fd = Ok p -> finite (pyval d) -> built p
| built_array s b fd p :
    built b -> new_pattern_array s b fd = Ok p -> built p
| built_dict fd : built (new_dict fd)
| built_set p k q p' :
    built p -> built q -> setitem p k q = Ok p' -> built p'
| built_del p k p' :
    built p -> delitem p k = Ok p' -> built p'
| built_lock p : built p -> built (lock_pat p).

(** No empty container anywhere. *)
Fixpoint no_empty (p : pat) : Prop :=
  match p with
  | PArr s b _ => s <> [] /\ 0 < prod s /\ no_empty b
  | PDict items _ _ _ _ => items <> [] /\ all_items (fun _ q => no_empty q) items
  | _ => True
  end.

(** Some entry of a mask is True. *)
Definition any_true (m : fv bool) : Prop :=
  match m with FArr a => In true (dat a) | FDict _ => False end.

(** Overwrite every [free_default] in the tree. *)
Fixpoint set_fd (g : option bool) (p : pat) : pat :=
  match p with
  | PNum k s lb ub dv _ => PNum k s lb ub dv g
  | PSimplex n s dv _ => PSimplex n s dv g
  | PPsd sz fl d dv _ => PPsd sz fl d dv g
  | PArr s b _ => PArr s (set_fd g b) g
  | PDict its l fl _ lk =>
      PDict ((fix go its := match its with [] => [] | (k, q) :: r => (k, set_fd g q) :: go r end) its)
        l fl g lk
  end.

(** No PSD matrix anywhere. *)
Fixpoint no_psd (p : pat) : Prop :=
  match p with
  | PPsd _ _ _ _ _ => False
  | PArr _ b _ => no_psd b
  | PDict items _ _ _ _ => all_items (fun _ q => no_psd q) items
  | _ => True
  end.

(** [x] and [y] differ at position [i] and nowhere else. *)
Definition differ_only_at {A} (i : nat) (x y : list A) : Prop :=
  length x = length y /\ nth_error x i <> nth_error y i /\
  forall j, j <> i -> nth_error x j = nth_error y j.
