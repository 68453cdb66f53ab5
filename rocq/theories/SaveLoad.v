(** * Saving and loading folded values.

    Models paragami/pattern_containers.py:80-131 together with the parts of
    [numpy.savez] / [numpy.load] it relies on (numpy/lib/npyio.py [_savez],
    [NpzFile.__getitem__]).

    Simplifications: [file] is a file name and the directory is writable; saved
    extras are float arrays; archive members have plain names (no NUL, no path
    separator); the numpy of the 1.x series ([savez] has no keyword of its own
    besides [file]).  A text is stored as a 0-d unicode array, which drops
    trailing NUL characters. *)
From Coq Require Import Reals NArith Ascii String.
From Verif Require Import Base Num Nd Numeric Simplex Psd Pattern Json PatJson.
Local Open Scope list_scope.
Local Open Scope nat_scope.

(** An npz archive: member names and contents, in order. *)
Inductive member : Type := MArr (a : nd num) | MText (t : pystr).
Definition archive := list (pystr * member).
(** The npz files of the file system. *)
Definition fsys := pystr -> option archive.
Definition put (fs : fsys) (name : pystr) (a : archive) : fsys :=
  fun f => if str_eqb f name then Some a else fs f.

Definition npy : pystr := str ".npy".
Definition npz : pystr := str ".npz".
(** [s.endswith(suffix)]. *)
Definition ends_with (s suffix : pystr) : bool :=
  str_eqb (skipn (length s - length suffix) s) suffix && (length suffix <=? length s).
(** numpy/lib/npyio.py [_savez]: [if not file.endswith('.npz'): file = file + '.npz']. *)
Definition npz_name (file : pystr) : pystr := if ends_with file npz then file else file ++ npz.

Fixpoint drop_nuls (s : pystr) : pystr :=
  match s with
  | [] => []
  | c :: r => match drop_nuls r with
              | [] => if N.eqb c 0 then [] else [c]
              | t => c :: t
              end
  end.

(** [np.savez(file, **kwds)]. *)
Definition savez (fs : fsys) (file : pystr) (kwds : list (pystr * member)) : fsys :=
  put fs (npz_name file)
    (map (fun nm => (fst nm ++ npy,
                     match snd nm with MArr a => MArr a | MText t => MText (drop_nuls t) end)) kwds).

(** [data[name]] of [NpzFile]: a member with that very name, else with '.npy'. *)
Fixpoint member_get (a : archive) (name : pystr) : option member :=
  match a with
  | [] => None
  | (n, m) :: r => if str_eqb name n then Some m else member_get r name
  end.
Definition npz_get (a : archive) (name : pystr) : res member :=
  match member_get a name with
  | Some m => Ok m
  | None => match member_get a (name ++ npy) with Some m => Ok m | None => Err KeyError end
  end.

Definition named (names : list string) (extras : list (pystr * nd num)) : bool :=
  existsb (fun nm => existsb (fun n => str_eqb (fst nm) (str n)) names) extras.

(** pattern_containers.py:80-102: the file system afterwards, and the outcome.
    Extras named like a parameter are rejected by the call itself, extras named
    like the two saved fields by the call of [savez]. *)
Definition save_folded (io : float_io) (fs : fsys) (file : pystr) (v : fv num) (p : pat)
    (extras : list (pystr * nd num)) : fsys * res unit :=
  if named ["file"; "folded_val"; "pattern"]%string extras then (fs, Err TypeError)
  else
    match flatten_gen snum p v (Some false) None with
    | Err e => (fs, Err e)
    | Ok x =>
        let text := to_json io p in
        if named ["flat_val"; "pattern_json"]%string extras then (fs, Err TypeError)
        else
          (savez fs file ((str "flat_val", MArr (vec x)) :: (str "pattern_json", MText text)
                          :: map (fun nm => (fst nm, MArr (snd nm))) extras), Ok tt)
    end.

(** pattern_containers.py:105-131. *)
Definition load_folded (io : float_io) (reg : registry) (fs : fsys) (file : pystr)
    : res (fv num * pat * archive) :=
  match fs file with
  | None => Err FileNotFound
  | Some data =>
      t <- npz_get data (str "pattern_json") ;;
      match t with
      | MArr _ => Err Unmodelled
      | MText text =>
          p <- get_pattern_from_json io reg text ;;
          x <- npz_get data (str "flat_val") ;;
          match x with
          | MText _ => Err Unmodelled
          | MArr x => v <- fold_gen snum p x (Some false) None ;; Ok (v, p, data)
          end
      end
  end.

(** A sequence of [save_folded] calls. *)
Record save_call : Type := mkSave
  { sv_file : pystr; sv_value : fv num; sv_pattern : pat; sv_extras : list (pystr * nd num) }.
Definition save_all (io : float_io) (fs : fsys) (calls : list save_call) : fsys :=
  fold_left (fun fs c => fst (save_folded io fs (sv_file c) (sv_value c) (sv_pattern c) (sv_extras c)))
    calls fs.
