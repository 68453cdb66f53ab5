(** * numpy arrays: a shape and the row-major (C order) list of entries. *)
From Verif Require Import Base.

Record nd (A : Type) : Type := mkNd { shp : list nat; dat : list A }.
Arguments mkNd {A} _ _.
Arguments shp {A} _.
Arguments dat {A} _.

Definition prod (s : list nat) : nat := fold_right Nat.mul 1 s.

(** The entries fill the shape; every array numpy can produce satisfies it. *)
Definition nd_ok {A} (a : nd A) : Prop := length (dat a) = prod (shp a).

(** A one-dimensional array. *)
Definition vec {A} (l : list A) : nd A := mkNd [length l] l.

Definition ndim {A} (a : nd A) : nat := length (shp a).
Definition size {A} (a : nd A) : nat := prod (shp a).

(** [np.atleast_1d]. Python scalars are modelled as 0-d arrays. *)
Definition atleast_1d {A} (a : nd A) : nd A :=
  match shp a with [] => mkNd [1] (dat a) | _ => a end.

(** [len(a)]: TypeError on a 0-d array. *)
Definition pylen {A} (a : nd A) : res nat :=
  match shp a with [] => Err TypeError | n :: _ => Ok n end.

(** [np.reshape] without -1 entries. *)
Definition reshape {A} (a : nd A) (s : list nat) : res (nd A) :=
  if prod s =? size a then Ok (mkNd s (dat a)) else Err ValueError.

Definition shape_eqb (s t : list nat) : bool :=
  if list_eq_dec Nat.eq_dec s t then true else false.

Definition nd_map {A B} (f : A -> B) (a : nd A) : nd B := mkNd (shp a) (map f (dat a)).

(** [itertools.product] of ranges: all multi-indices in lexicographic order. *)
Fixpoint indices (s : list nat) : list (list nat) :=
  match s with
  | [] => [[]]
  | n :: s' => flat_map (fun i => map (cons i) (indices s')) (seq 0 n)
  end.

(** [np.ravel_multi_index(item, dims)] in C order. *)
Fixpoint ravel (item dims : list nat) : nat :=
  match item, dims with
  | i :: item', d :: dims' => i * prod dims' + ravel item' dims'
  | _, _ => 0
  end.

(** [a[item]] for a tuple [item] indexing the leading [k] axes. *)
Definition subarr {A} (a : nd A) (item : list nat) (k : nat) : nd A :=
  let lead := firstn k (shp a) in
  let rest := skipn k (shp a) in
  mkNd rest (slice (dat a) (ravel item lead * prod rest) (prod rest)).

(** [np.array([a0, a1, ...])] followed by a reshape to [s], for arrays of one
    common shape: the data are concatenated. *)
Definition stack_reshape {A} (l : list (nd A)) (s : list nat) : res (nd A) :=
  let d := flat_map dat l in
  if prod s =? length d then Ok (mkNd s d) else Err ValueError.

(** [np.hstack] of one-dimensional arrays as implemented by autograd's numpy
    wrapper ([arrs[0].ndim] is inspected first): IndexError on an empty list. *)
Definition hstack {A} (l : list (list A)) : res (list A) :=
  match l with [] => Err IndexError | _ => Ok (concat l) end.

(** The [i]-th consecutive block of length [k]. *)
Definition chunk {A} (k : nat) (l : list A) (i : nat) : list A := slice l (i * k) k.
Definition chunks {A} (k cnt : nat) (l : list A) : list (list A) :=
  map (chunk k l) (seq 0 cnt).
