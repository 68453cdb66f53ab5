(** * Property theorems C12-C16. *)
From Coq Require Import Reals Sorting.Sorted.
From Verif Require Import Base Num Nd Pattern Spec Indices2 Indices3 Demo DemoIndex.

Theorem C12_nonfree_indices : forall p m, usable p -> fv_ok m -> shape_fits p m ->
  exists ix bits,
    flat_indices p m (Some false) = Ok ix /\
    flatten_gen sbool p m (Some false) (Some false) = Ok bits /\
    flat_length p (Some false) = Ok (plint (length bits)) /\
    StronglySorted lt ix /\
    (forall i, In i ix <-> nth_error bits i = Some true) /\
    (forall A (sc : scalar A) v x vv d, fv_ok v -> flatten_gen sc p v (Some false) vv = Ok x ->
       map (fun i => nth i x d) ix = select x bits).
Proof. exact nonfree_indices. Qed.
Print Assumptions C12_nonfree_indices.

Example C12_case : usable demo /\ (fv_ok demo_mask /\ shape_fits demo demo_mask) /\
  flat_indices demo demo_mask (Some false) = Ok [1; 3; 8; 11; 12] /\
  flat_indices demo demo_mask (Some true) = Ok [1; 2; 4; 5; 6; 8; 9].
Proof. exact (conj demo_usable (conj demo_mask_ok demo_mask_indices)). Qed.

(** [nth_error ex i] is the [i]-th entry of the folded value of [x], in the order
    of the non-free flattening. *)
Theorem C13_free_indices_dependencies : forall p m x y vv, usable p -> fv_ok m -> shape_fits p m ->
  flat_length p (Some true) = Ok (plint (length x)) ->
  flat_length p (Some true) = Ok (plint (length y)) ->
  exists ixf ixn vx vy ex ey,
    flat_indices p m (Some true) = Ok ixf /\ flat_indices p m (Some false) = Ok ixn /\
    fold p (vec (map Fin x)) (Some true) vv = Ok vx /\ flatten p vx (Some false) vv = Ok ex /\
    fold p (vec (map Fin y)) (Some true) vv = Ok vy /\ flatten p vy (Some false) vv = Ok ey /\
    ((forall i, In i ixf -> nth_error x i = nth_error y i) ->
     (forall i, In i ixn -> nth_error ex i = nth_error ey i)).
Proof. exact free_indices_dependencies. Qed.
Print Assumptions C13_free_indices_dependencies.

(** Two different free vectors that agree on the mask's free indices. *)
Example C13_case : exists x y : list R, x <> y /\
  flat_length demo (Some true) = Ok (plint (length x)) /\
  flat_length demo (Some true) = Ok (plint (length y)) /\
  forall i, In i [1; 2; 4; 5; 6; 8; 9] -> nth_error x i = nth_error y i.
Proof. exact demo_agree_case. Qed.

Theorem C14_indices_well_formed : forall p m f, usable p -> fv_ok m -> shape_fits p m ->
  exists ix n,
    flat_indices p m (Some f) = Ok ix /\ flat_length p (Some f) = Ok (plint n) /\
    StronglySorted lt ix /\ (forall i, In i ix -> i < n) /\
    ((forall b, In b (entries p m) -> b = false) -> ix = []) /\
    ((forall b, In b (entries p m) -> b = true) -> ix = seq 0 n).
Proof. exact indices_well_formed. Qed.
Print Assumptions C14_indices_well_formed.

Example C14_case : exists m, empty_bool demo true = Ok m /\
  flat_indices demo m (Some true) = Ok (seq 0 10).
Proof. exact demo_all_case. Qed.

Theorem C15_free_indices_exact : forall p m x y vv i, usable p -> no_psd p -> fv_ok m -> shape_fits p m ->
  flat_length p (Some true) = Ok (plint (length x)) -> differ_only_at i x y ->
  exists ixf ixn vx vy ex ey,
    flat_indices p m (Some true) = Ok ixf /\ flat_indices p m (Some false) = Ok ixn /\
    fold p (vec (map Fin x)) (Some true) vv = Ok vx /\ flatten p vx (Some false) vv = Ok ex /\
    fold p (vec (map Fin y)) (Some true) vv = Ok vy /\ flatten p vy (Some false) vv = Ok ey /\
    (In i ixf -> exists k, In k ixn /\ nth_error ex k <> nth_error ey k).
Proof. exact free_indices_exact. Qed.
Print Assumptions C15_free_indices_exact.

Example C15_case : usable d_simp /\ no_psd d_simp /\
  flat_indices d_simp (FArr (mkNd [2; 2] [false; true; false; false])) (Some true) = Ok [0] /\
  differ_only_at 0 [1; 2]%R [3; 2]%R.
Proof. exact d_simp_case. Qed.

Theorem C15_psd_imprecise :
  flat_indices psd2 mask00 (Some true) = Ok [0; 1; 2] /\
  flat_indices psd2 mask00 (Some false) = Ok [0] /\
  forall x0 x1 x2 y1 y2 vv, exists a b,
    fold psd2 (vec (map Fin [x0; x1; x2])) (Some true) vv = Ok (FArr a) /\
    fold psd2 (vec (map Fin [x0; y1; y2])) (Some true) vv = Ok (FArr b) /\
    nth_error (dat a) 0 = nth_error (dat b) 0.
Proof. exact psd_imprecise. Qed.
Print Assumptions C15_psd_imprecise.

Theorem C16_empty_bool : forall p b, usable p ->
  exists m, empty_bool p b = Ok m /\ fv_ok m /\ shape_fits p m /\
    (forall c, In c (entries p m) -> c = b) /\
    exists n, flat_length p (Some false) = Ok (plint n) /\
      flatten_gen sbool p m (Some false) (Some false) = Ok (repeat b n) /\
      entries p m = repeat b n.
Proof. exact empty_bool_spec. Qed.
Print Assumptions C16_empty_bool.
