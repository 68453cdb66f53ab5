(** * Property theorems C33-C34: saving and loading. *)
From Coq Require Import Reals NArith String SpecFloat.
From Verif Require Import Base Num Nd Pattern Json PatJson SaveLoad Spec SpecJson SaveFacts
  JsonInst Demo DemoJson DemoSave.
Local Open Scope list_scope.
Local Open Scope nat_scope.

Theorem C33_save_load : forall io reg fs file v p extras fs',
  float_io_ok io -> registers_builtins reg ->
  built p -> usable p -> string_keys p -> proper_keys p -> python_bounds p -> fv_ok v ->
  NoDup (map fst extras) ->
  save_folded io fs file v p extras = (fs', Ok tt) ->
  (exists q data, load_folded io reg fs' (npz_name file) = Ok (canon p v, q, data) /\
     pat_eqb io q p = true /\ pat_eqb io p q = true /\ same_behaviour q p /\
     forall n a, In (n, a) extras ->
       (forall m, In m (str "flat_val" :: str "pattern_json" :: map fst extras) -> n <> m ++ npy) ->
       npz_get data n = Ok (MArr a)) /\
  (forall f, f <> npz_name file -> fs' f = fs f).
Proof. exact save_load. Qed.
Print Assumptions C33_save_load.

Example C33_case : float_io_ok demo_io /\ registers_builtins builtin_registry /\
  built demo /\ usable demo /\ string_keys demo /\ proper_keys demo /\ python_bounds demo /\ fv_ok demo_value /\
  NoDup (map fst s_extras) /\
  snd (save_folded demo_io s_fs (str "out") demo_value demo s_extras) = Ok tt /\
  forall m, In m (str "flat_val" :: str "pattern_json" :: map fst s_extras) -> str "draws" <> m ++ npy.
Proof. exact save_case. Qed.

Theorem C33_save_succeeds : forall io fs file v p extras,
  (snd (save_folded io fs file v p extras) = Ok tt <->
   (exists x, flatten_gen snum p v (Some false) None = Ok x) /\
   forall n, In n ["file"; "folded_val"; "pattern"; "flat_val"; "pattern_json"]%string ->
     ~ In (str n) (map fst extras)) /\
  (snd (save_folded io fs file v p extras) <> Ok tt -> fst (save_folded io fs file v p extras) = fs).
Proof. exact save_succeeds. Qed.
Print Assumptions C33_save_succeeds.

Theorem C33_save_history : forall io reg fs calls1 file v p extras calls2,
  float_io_ok io -> registers_builtins reg ->
  built p -> usable p -> string_keys p -> proper_keys p -> python_bounds p -> fv_ok v ->
  (exists x, flatten_gen snum p v (Some false) None = Ok x) ->
  (forall n, In n ["file"; "folded_val"; "pattern"; "flat_val"; "pattern_json"]%string ->
     ~ In (str n) (map fst extras)) ->
  (forall c, In c calls2 -> npz_name (sv_file c) <> npz_name file \/
     forall x, flatten_gen snum (sv_pattern c) (sv_value c) (Some false) None <> Ok x) ->
  exists q data,
    load_folded io reg (save_all io fs (calls1 ++ mkSave file v p extras :: calls2)) (npz_name file)
      = Ok (canon p v, q, data) /\ pat_eqb io q p = true.
Proof. exact save_history. Qed.
Print Assumptions C33_save_history.

(** An extra whose name is a saved name with '.npy' added is not readable. *)
Theorem C33_any_extra_refuted : forall io fs file v p (a : nd num) fs',
  save_folded io fs file v p [(str "flat_val" ++ npy, a)] = (fs', Ok tt) ->
  exists data x, fs' (npz_name file) = Some data /\ flatten_gen snum p v (Some false) None = Ok x /\
    npz_get data (str "flat_val" ++ npy) = Ok (MArr (vec x)).
Proof. exact hidden_extra. Qed.
Print Assumptions C33_any_extra_refuted.

Theorem C33_other_files : forall io reg fs file data, fs file = Some data -> NoDup (map fst data) ->
  let holds := fun n m => In (str n, m) data \/ (~ In (str n) (map fst data) /\ In (str n ++ npy, m) data) in
  let lacks := fun n => ~ In (str n) (map fst data) /\ ~ In (str n ++ npy) (map fst data) in
  (lacks "pattern_json"%string -> load_folded io reg fs file = Err KeyError) /\
  (forall text e, holds "pattern_json"%string (MText text) -> get_pattern_from_json io reg text = Err e ->
     load_folded io reg fs file = Err e) /\
  (forall text p, holds "pattern_json"%string (MText text) -> get_pattern_from_json io reg text = Ok p ->
     (lacks "flat_val"%string -> load_folded io reg fs file = Err KeyError) /\
     (forall x v, holds "flat_val"%string (MArr x) -> fold_gen snum p x (Some false) None = Ok v ->
        load_folded io reg fs file = Ok (v, p, data)) /\
     (forall x e, holds "flat_val"%string (MArr x) -> fold_gen snum p x (Some false) None = Err e ->
        load_folded io reg fs file = Err e)).
Proof. exact foreign_file. Qed.
Print Assumptions C33_other_files.

Theorem C33_texts : forall fs file name t, exists s k,
  savez fs file [(name, MText t)] (npz_name file) = Some [(name ++ npy, MText s)] /\
  t = s ++ repeat 0%N k /\ (forall r, s <> r ++ [0%N]).
Proof. exact stored_text_nuls. Qed.
Print Assumptions C33_texts.

Example C33_other_files_case : savez (fun _ => None) (str "a.npz") [(str "t", MText (s_text ++ [0; 0]%N))] (str "a.npz") =
    Some [(str "t.npy", MText s_text)] /\
  load_folded demo_io builtin_registry (put (fun _ => None) (str "a.npz") s_data) (str "a.npz") =
    Ok (FArr (mkNd [1] [Fin 3]), PNum KScalar [1] py_ninf py_inf true None, s_data) /\
  load_folded demo_io builtin_registry (put (fun _ => None) (str "a.npz") (skipn 1 s_data)) (str "a.npz") = Err KeyError.
Proof. exact foreign_case. Qed.

Theorem C34_extension_added : forall io reg fs file v p extras fs',
  ~ (exists a, file = a ++ npz) ->
  save_folded io fs file v p extras = (fs', Ok tt) ->
  fs' (file ++ npz) <> None /\ fs' file = fs file /\
  load_folded io reg fs' file = load_folded io reg fs file /\
  (fs file = None -> load_folded io reg fs' file = Err FileNotFound).
Proof. exact extension_added. Qed.
Print Assumptions C34_extension_added.

Theorem C34_extension_kept : forall io fs file v p extras fs',
  (exists a, file = a ++ npz) ->
  save_folded io fs file v p extras = (fs', Ok tt) ->
  fs' file <> None /\ forall f, f <> file -> fs' f = fs f.
Proof. exact extension_kept. Qed.
Print Assumptions C34_extension_kept.

Example C34_case : ~ (exists a, str "out" = a ++ npz) /\ (exists a, str "out.npz" = a ++ npz).
Proof. exact no_extension_case. Qed.
