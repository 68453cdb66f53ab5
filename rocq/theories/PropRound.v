(** * Property theorems C01-C06, C09, C11, C18, C19, C65. *)
From Coq Require Import Reals Permutation.
From Verif Require Import Base Num Nd Pattern Spec Contract Build Api Demo.

Theorem C01_free_flatten_of_fold : forall p x vv vv',
  usable p -> flat_length p (Some true) = Ok (plint (length x)) ->
  exists v, fold p (vec (map Fin x)) (Some true) vv = Ok v /\
            flatten p v (Some true) vv' = Ok (map Fin x).
Proof. exact api_free_flatten_of_fold. Qed.
Print Assumptions C01_free_flatten_of_fold.

Example C01_case : usable demo /\
  flat_length demo (Some true) = Ok (plint (length [1; -2; 3; 4; 5; 6; 7; -8; 9; 10]%R)).
Proof. split; [exact demo_usable | reflexivity]. Qed.

(** Every pattern the constructors build, without empty containers, is usable. *)
Theorem C01_usable_of_built : forall p, built p -> no_empty p -> usable p.
Proof. exact usable_of_built. Qed.
Print Assumptions C01_usable_of_built.

Example C01_built_case : built demo /\ no_empty demo.
Proof. split; [exact demo_built | exact demo_no_empty]. Qed.

Theorem C02_free_fold_of_flatten : forall p v vv vv',
  usable p -> interior p v ->
  exists x, flatten p v (Some true) vv = Ok (map Fin x) /\
            flat_length p (Some true) = Ok (plint (length x)) /\
            fold p (vec (map Fin x)) (Some true) vv' = Ok (canon p v).
Proof. exact api_free_fold_of_flatten. Qed.
Print Assumptions C02_free_fold_of_flatten.

Example C02_case : usable demo /\ interior demo demo_value.
Proof. split; [exact demo_usable | exact demo_interior]. Qed.

Theorem C03_nonfree_fold_of_flatten : forall A (sc : scalar A) p v x vv,
  usable p -> fv_ok v -> flatten_gen sc p v (Some false) vv = Ok x ->
  flat_length p (Some false) = Ok (plint (length x)) /\
  fold_gen sc p (vec x) (Some false) vv = Ok (canon p v).
Proof. exact api_nonfree_fold_of_flatten. Qed.
Print Assumptions C03_nonfree_fold_of_flatten.

Example C03_case : usable demo /\ fv_ok demo_value /\
  flatten demo demo_value (Some false) (Some true) = Ok demo_flat.
Proof. exact (conj demo_usable (conj demo_value_ok demo_flatten)). Qed.

Theorem C04_nonfree_flatten_of_fold : forall A (sc : scalar A) p x v vv,
  usable p -> fold_gen sc p (vec x) (Some false) vv = Ok v ->
  flatten_gen sc p v (Some false) vv = Ok x.
Proof. exact api_nonfree_flatten_of_fold. Qed.
Print Assumptions C04_nonfree_flatten_of_fold.

Example C04_case : usable demo /\
  fold demo (vec demo_flat) (Some false) (Some true) = Ok (canon demo demo_value).
Proof. exact (conj demo_usable demo_fold). Qed.

Theorem C05_fold_interior : forall p x vv,
  usable p -> flat_length p (Some true) = Ok (plint (length x)) ->
  exists v, fold p (vec (map Fin x)) (Some true) vv = Ok v /\ interior p v /\
            forall vv', validate snum p v vv' = Ok None.
Proof. exact api_fold_interior. Qed.
Print Assumptions C05_fold_interior.

Example C05_case : usable demo /\
  flat_length demo (Some true) = Ok (plint (length [1; -2; 3; 4; 5; 6; 7; -8; 9; 10]%R)).
Proof. split; [exact demo_usable | reflexivity]. Qed.

Theorem C06_length : forall A (sc : scalar A) p free vv,
  usable p ->
  (forall v x, fv_ok v -> flatten_gen sc p v (Some free) vv = Ok x ->
     flat_length p (Some free) = Ok (plint (length x))) /\
  (forall x, flat_length p (Some free) <> Ok (plint (length x)) ->
     (string_keys p -> fold_gen sc p (vec x) (Some free) vv = Err ValueError) /\
     (~ string_keys p -> fold_gen sc p (vec x) (Some free) vv = Err TypeError)).
Proof. exact api_length. Qed.
Print Assumptions C06_length.

Example C06_case : flat_length demo (Some false) = Ok (plint 13) /\
  fold demo (vec (repeat (Fin 1) 12)) (Some false) None = Err ValueError.
Proof. split; reflexivity. Qed.

Theorem C09_lenient : forall A (sc : scalar A) p vv,
  usable p -> lenient p vv ->
  (forall x, flat_length p (Some false) = Ok (plint (length x)) ->
     exists v, fold_gen sc p (vec x) (Some false) vv = Ok v) /\
  (forall v, fv_ok v -> shape_fits p v ->
     validate sc p v vv = Ok None /\ exists x, flatten_gen sc p v (Some false) vv = Ok x).
Proof. exact api_lenient. Qed.
Print Assumptions C09_lenient.

Example C09_case : lenient demo (Some false) /\ ~ lenient demo None.
Proof. split; [simpl; tauto | simpl; intros (H & _); discriminate]. Qed.

Theorem C11_free_default : forall A (sc : scalar A) p vv,
  (forall x, fold_gen sc p x None vv =
     match free_default p with Some f => fold_gen sc p x (Some f) vv | None => Err ValueError end) /\
  (forall v, flatten_gen sc p v None vv =
     match free_default p with Some f => flatten_gen sc p v (Some f) vv | None => Err ValueError end) /\
  flat_length p None =
     match free_default p with Some f => flat_length p (Some f) | None => Err ValueError end.
Proof. exact api_free_default. Qed.
Print Assumptions C11_free_default.

(** For a leaf and an all-False mask flat_indices returns the empty list without
    looking at [free]; in all other cases: *)
Theorem C11_flat_indices_default : forall p m,
  (is_dict p = true \/ (exists s b fd, p = PArr s b fd) \/ any_true m) ->
  (forall f, free_default p = Some f -> flat_indices p m None = flat_indices p m (Some f)) /\
  (free_default p = None -> exists e, flat_indices p m None = Err e /\ (e = ValueError \/ e = TypeError)).
Proof. exact api_indices_default. Qed.
Print Assumptions C11_flat_indices_default.

(** Overwriting every [free_default] in the tree changes nothing when [free] is given. *)
Theorem C11_nested_default_ignored : forall p g,
  let q := set_fd g p in
  (forall A (sc : scalar A) x f vv, fold_gen sc p x (Some f) vv = fold_gen sc q x (Some f) vv) /\
  (forall A (sc : scalar A) v f vv, flatten_gen sc p v (Some f) vv = flatten_gen sc q v (Some f) vv) /\
  (forall A (sc : scalar A) v vv, validate sc p v vv = validate sc q v vv) /\
  (forall f, flat_length p (Some f) = flat_length q (Some f)) /\
  (forall m f, flat_indices p m (Some f) = flat_indices q m (Some f)) /\
  empty_valid p = empty_valid q /\
  (forall b, empty_bool p b = empty_bool q b).
Proof. exact (fun p g => api_sim p (set_fd g p) (set_fd_sim g p)). Qed.
Print Assumptions C11_nested_default_ignored.

Example C11_case : free_default demo = Some true /\ set_fd None demo <> demo.
Proof. split; [reflexivity | discriminate]. Qed.

Theorem C18_dict_flatten : forall A (sc : scalar A) items l fl fd lk d f vv x,
  flatten_gen sc (PDict items l fl fd lk) (FDict d) (Some f) vv = Ok x ->
  exists parts, x = concat parts /\
    Forall2 (fun kq part => exists w, dict_get d (fst kq) = Some w /\
                            flatten_gen sc (snd kq) w (Some f) vv = Ok part) items parts.
Proof. exact api_dict_flatten. Qed.
Print Assumptions C18_dict_flatten.

Theorem C18_dict_fold : forall A (sc : scalar A) items l fl fd lk x f vv v,
  usable (PDict items l fl fd lk) ->
  fold_gen sc (PDict items l fl fd lk) (vec x) (Some f) vv = Ok v ->
  exists d, v = FDict d /\ map fst d = map fst items /\
  forall i k q, nth_error items i = Some (k, q) ->
    exists w, dict_get d k = Some w /\
      fold_gen sc q (vec (slice x (total_len (firstn i items) f) (pl_n (flat_len q f)))) (Some f) vv
      = Ok w.
Proof. exact fold_dict_layout. Qed.
Print Assumptions C18_dict_fold.

Theorem C18_dict_local : forall A (sc : scalar A) items l fl fd lk x y f vv d e i k q,
  usable (PDict items l fl fd lk) ->
  fold_gen sc (PDict items l fl fd lk) (vec x) (Some f) vv = Ok (FDict d) ->
  fold_gen sc (PDict items l fl fd lk) (vec y) (Some f) vv = Ok (FDict e) ->
  nth_error items i = Some (k, q) ->
  slice x (total_len (firstn i items) f) (pl_n (flat_len q f)) =
  slice y (total_len (firstn i items) f) (pl_n (flat_len q f)) ->
  dict_get d k = dict_get e k.
Proof. exact api_dict_local. Qed.
Print Assumptions C18_dict_local.

Example C18_case : usable demo /\
  fold demo (vec demo_flat) (Some false) (Some true) = Ok (canon demo demo_value) /\
  flatten demo demo_value (Some false) (Some true) = Ok demo_flat.
Proof. exact (conj demo_usable (conj demo_fold demo_flatten)). Qed.

Theorem C19_array_flatten : forall A (sc : scalar A) s b fd a f vv x,
  usable (PArr s b fd) ->
  flatten_gen sc (PArr s b fd) (FArr a) (Some f) vv = Ok x ->
  exists parts, x = concat parts /\
    Forall2 (fun item part =>
        flatten_gen sc b (FArr (subarr a item (length s))) (Some f) vv = Ok part)
      (indices s) parts.
Proof. exact flatten_arr_layout. Qed.
Print Assumptions C19_array_flatten.

Theorem C19_array_fold : forall A (sc : scalar A) s b fd x f vv v,
  usable (PArr s b fd) ->
  fold_gen sc (PArr s b fd) (vec x) (Some f) vv = Ok v ->
  exists a, v = FArr a /\ shp a = s ++ folded_shape b /\
  forall item, In item (indices s) ->
    fold_gen sc b (vec (slice x (ravel item s * pl_n (flat_len b f)) (pl_n (flat_len b f)))) (Some f) vv
    = Ok (FArr (subarr a item (length s))).
Proof. exact fold_arr_layout. Qed.
Print Assumptions C19_array_fold.

(** [ravel] is the row-major rank and [indices] lists the multi-indices in that order. *)
Theorem C19_ravel_rank : forall s i item,
  nth_error (indices s) i = Some item <-> Forall2 lt item s /\ ravel item s = i.
Proof. exact indices_rank. Qed.
Print Assumptions C19_ravel_rank.

Example C19_case : usable d_arr2 /\
  fold d_arr2 (vec (map Fin [1; 2; 3; 4; 5; 6; 7; 8; 9; 10; 11; 12]%R)) (Some false) (Some false)
  = Ok (FArr (mkNd [2; 3; 2] (map Fin [1; 2; 3; 4; 5; 6; 7; 8; 9; 10; 11; 12]%R))) /\
  In [1; 2] (indices [2; 3]) /\ ravel [1; 2] [2; 3] = 5.
Proof. exact d_arr2_case. Qed.

Theorem C65_same_entries : forall A (sc : scalar A) p v w, same_on p v w ->
  (forall vv, validate sc p v vv = validate sc p w vv) /\
  (forall free vv, flatten_gen sc p v free vv = flatten_gen sc p w free vv).
Proof. exact api_same_on. Qed.
Print Assumptions C65_same_entries.

Theorem C65_same_indices : forall p v w free,
  same_on p v w -> flat_indices p v free = flat_indices p w free.
Proof. exact flat_indices_same_on. Qed.
Print Assumptions C65_same_indices.

Theorem C65_permuted : forall A items l fl fd lk (d e : list (key * fv A)),
  NoDup (map fst d) -> Permutation d e ->
  same_on (PDict items l fl fd lk) (FDict d) (FDict e).
Proof. exact api_permuted. Qed.
Print Assumptions C65_permuted.

Theorem C65_extra_keys : forall A items l fl fd lk (d extra : list (key * fv A)),
  (forall k, In k (map fst items) -> ~ In k (map fst extra)) ->
  same_on (PDict items l fl fd lk) (FDict (d ++ extra)) (FDict d).
Proof. exact api_extra_keys. Qed.
Print Assumptions C65_extra_keys.

(** A missing key: the members present must be of a kind whose validation answers
    instead of raising (see C10). *)
Theorem C65_missing_key : forall A (sc : scalar A) items l fl fd lk d vv k,
  In k (map fst items) -> dict_get d k = None ->
  (forall k' q w, In (k', q) items -> dict_get d k' = Some w -> exists r, validate sc q w vv = Ok r) ->
  (exists m, validate sc (PDict items l fl fd lk) (FDict d) vv = Ok (Some m)) /\
  forall f, flatten_gen sc (PDict items l fl fd lk) (FDict d) (Some f) vv = Err ValueError.
Proof. exact missing_key. Qed.
Print Assumptions C65_missing_key.

Theorem C65_missing_key_rejected : forall A (sc : scalar A) items l fl fd lk d vv f k x,
  In k (map fst items) -> dict_get d k = None ->
  flatten_gen sc (PDict items l fl fd lk) (FDict d) (Some f) vv <> Ok x.
Proof. exact missing_key_rejected. Qed.
Print Assumptions C65_missing_key_rejected.

Example C65_case :
  flatten demo demo_value (Some false) (Some true) = Ok demo_flat /\
  NoDup (map fst (match demo_value with FDict d => d | FArr _ => [] end)).
Proof. exact (conj demo_flatten demo_value_nodup). Qed.
