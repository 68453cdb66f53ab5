(** * flat_indices: non-interference and precision (C12-C16). *)
From Coq Require Import Reals Lra Sorting.Sorted.
From Verif Require Import Base Num Nd Numeric Simplex Psd Pattern Spec ListFacts PatFacts
  NonFree NumFacts CholFacts Free Contract Api Indices.
Local Open Scope list_scope.
Local Open Scope nat_scope.

Lemma lenient_false : forall p, lenient p (Some false).
Proof. apply pat_ind'; simpl; auto. intros. apply all_items_Forall. auto. Qed.

Lemma map_nth_select : forall A (x : list A) bits o d, length bits = length x ->
  map (fun i => nth (i - o) x d) (select (seq o (length bits)) bits) = select x bits.
Proof.
  induction x as [|a x IH]; intros [|b bits] o d H; simpl in *; auto; try lia.
  assert (map (fun i => nth (i - o) (a :: x) d) (select (seq (S o) (length bits)) bits) = select x bits) as E.
  { rewrite <- (IH bits (S o) d) by lia. apply map_ext_in. intros i Hi.
    apply in_select_seq in Hi. destruct Hi as (Hi & _). destruct (i - o) eqn:Ei; [lia|].
    simpl. f_equal. lia. }
  destruct b; simpl in E |- *; auto. rewrite Nat.sub_diag. f_equal. auto.
Qed.

Theorem nonfree_indices : forall p m, usable p -> fv_ok m -> shape_fits p m ->
  exists ix bits,
    flat_indices p m (Some false) = Ok ix /\
    flatten_gen sbool p m (Some false) (Some false) = Ok bits /\
    flat_length p (Some false) = Ok (plint (length bits)) /\
    StronglySorted lt ix /\
    (forall i, In i ix <-> nth_error bits i = Some true) /\
    (forall A (sc : scalar A) v x vv d, fv_ok v -> flatten_gen sc p v (Some false) vv = Ok x ->
       map (fun i => nth i x d) ix = select x bits).
Proof.
  intros p m Hu Hok Hs. exists (select (seq 0 (pl_n (flat_len p false))) (imask false p m)), (entries p m).
  split; [apply flat_indices_spec; auto|].
  split; [apply (flatten_lenient _ sbool); auto using lenient_false|].
  rewrite imask_entries by auto. pose proof (entries_length _ p m Hu Hok Hs) as L.
  split; [apply flat_length_some; auto|].
  rewrite <- L. split; [apply select_seq_sorted|]. split; [intros i; apply in_select_full|].
  intros A sc v x vv d Hokv Hf.
  assert (length x = length (entries p m)) as Lx.
  { rewrite L. apply (flatten_length _ sc vv false p v x); auto. }
  rewrite <- (map_nth_select _ x (entries p m) 0 d) by auto. apply map_ext_in. intros i _. rewrite Nat.sub_0_r. auto.
Qed.

(** ** free indices: shape *)
Lemma imask_all : forall f p m, usable p -> fv_ok m -> shape_fits p m ->
  (forall b, In b (entries p m) -> b = true) -> forall b, In b (imask f p m) -> b = true.
Proof.
  intros f. apply (pat_ind' (fun p => forall m, usable p -> fv_ok m -> shape_fits p m ->
    (forall b, In b (entries p m) -> b = true) -> forall b, In b (imask f p m) -> b = true)).
  - intros k s lb ub dv fd [a|d] Hu Hok H; simpl in H; [|tauto]. auto.
  - intros n s dv fd [a|d] Hu Hok H; simpl in H; [|tauto]. intros Ha b Hb. simpl in *. destruct f; auto.
    apply in_flat_map in Hb. destruct Hb as (off & Ho & Hb). apply in_seq in Ho.
    apply repeat_spec in Hb. subst b.
    assert (length (chunk n (dat a) off) = n) as L.
    { eapply chunk_length; [|apply Ho]. unfold nd_ok in Hok. rewrite Hok, H, prod_app. simpl. lia. }
    destruct (chunk n (dat a) off) as [|b r] eqn:E; [simpl in L; lia|].
    apply existsb_exists. exists b. split; [left; auto|]. apply Ha.
    assert (In b (chunk n (dat a) off)) as Hi by (rewrite E; left; auto).
    eapply in_slice; eauto.
  - intros sz fl dl dv fd [a|d] Hu Hok H; simpl in H; [|tauto]. intros Ha b Hb. simpl in *. destruct f; auto.
    apply repeat_spec in Hb as E. subst b. destruct Hu as (-> & _).
    destruct sz; [simpl in Hb; contradiction|].
    destruct (dat a) as [|b r] eqn:E.
    + unfold nd_ok in Hok. rewrite E, H in Hok. simpl in Hok. lia.
    + apply existsb_exists. exists b. split; [left; auto|]. apply Ha. left; auto.
  - intros s b fd IH [a|d] Hu Hok H; simpl in H; [|tauto]. destruct Hu as (Hs & Hp & Hd & Hu).
    cbn [imask entries]. intros Ha c Hc. apply in_flat_map in Hc. destruct Hc as (i & Hi & Hc). apply in_seq in Hi.
    eapply IH; [auto| | | |exact Hc].
    + simpl. unfold nd_ok. simpl. eapply chunk_length; [|apply Hi].
      simpl in Hok. unfold nd_ok in Hok. rewrite Hok, H, prod_app. auto.
    + apply chunk_shape_fits; auto.
    + intros c' Hc'. apply Ha.
      assert (In c' (chunk (prod (folded_shape b)) (dat a) i)) as Hc2
        by (destruct b; simpl in Hc'; auto; discriminate).
      eapply in_slice; eauto.
  - intros items l fl fd lk IH [a|d] Hu Hok H; simpl in H; [tauto|].
    destruct Hu as (_ & _ & _ & _ & Hu). cbn [imask entries]. clear l fl.
    induction items as [|[k q] items IHi]; simpl; [tauto|].
    inversion IH; subst. destruct H as ((w & Hg & Hw) & H). destruct Hu as (Hu1 & Hu2).
    rewrite Hg. intros Ha b Hb. apply in_app_or in Hb. destruct Hb as [Hb|Hb].
    + apply (H2 w); auto.
      * eapply fv_ok_get; eauto.
      * intros b' Hb'. apply Ha. apply in_or_app; auto.
    + apply IHi; auto. intros b' Hb'. apply Ha. apply in_or_app; auto.
Qed.

Lemma all_true_repeat : forall l, (forall b : bool, In b l -> b = true) -> l = repeat true (length l).
Proof. induction l as [|b l IH]; simpl; intros H; auto. rewrite (H b), <- IH; auto. Qed.

Theorem indices_well_formed : forall p m f, usable p -> fv_ok m -> shape_fits p m ->
  exists ix n,
    flat_indices p m (Some f) = Ok ix /\ flat_length p (Some f) = Ok (plint n) /\
    StronglySorted lt ix /\ (forall i, In i ix -> i < n) /\
    ((forall b, In b (entries p m) -> b = false) -> ix = []) /\
    ((forall b, In b (entries p m) -> b = true) -> ix = seq 0 n).
Proof.
  intros p m f Hu Hok Hs. exists (select (seq 0 (pl_n (flat_len p f))) (imask f p m)), (pl_n (flat_len p f)).
  split; [apply flat_indices_spec; auto|]. split; [apply flat_length_some; auto|].
  split; [apply select_seq_sorted|].
  pose proof (imask_length f p m Hu Hok Hs) as L. split; [|split].
  - intros i Hi. rewrite <- L in Hi. apply in_select_full in Hi. rewrite <- L. apply nth_error_Some. congruence.
  - intros H. apply select_none. apply imask_none; auto. apply anyb_false_iff. auto.
  - intros H. rewrite (all_true_repeat (imask f p m)) by (apply imask_all; auto).
    apply select_all_true. rewrite seq_length. lia.
Qed.

(** ** empty_bool *)
Theorem empty_bool_spec : forall p b, usable p ->
  exists m, empty_bool p b = Ok m /\ fv_ok m /\ shape_fits p m /\
    (forall c, In c (entries p m) -> c = b) /\
    exists n, flat_length p (Some false) = Ok (plint n) /\
      flatten_gen sbool p m (Some false) (Some false) = Ok (repeat b n) /\
      entries p m = repeat b n.
Proof.
  intros p b Hu. set (n := pl_n (flat_len p false)).
  assert (length (repeat b n) = pl_n (flat_len p false)) as L by apply repeat_length.
  exists (layout p (repeat b n)).
  assert (empty_bool p b = Ok (layout p (repeat b n))) as E.
  { unfold empty_bool. rewrite (proj2 (flat_length_some p false n Hu)) by auto. cbn [bind].
    unfold as_index. cbn [pl_float plint pl_n bind].
    unfold fold_gen. cbn [free_with_default bind]. apply fold_lenient; auto using lenient_false. }
  split; auto. split; [apply layout_fv_ok; auto|]. split; [apply layout_shape; auto|].
  rewrite entries_layout by auto. split; [intros c Hc; apply repeat_spec in Hc; auto|].
  exists n. split; [apply flat_length_some; auto|]. split; auto.
  unfold flatten_gen. cbn [free_with_default bind]. rewrite flatten_lenient; auto using lenient_false.
  - rewrite entries_layout; auto.
  - apply layout_fv_ok; auto.
  - apply layout_shape; auto.
Qed.

(** ** non-interference *)
Definition agree {A} (m : list bool) (x y : list A) : Prop :=
  forall i, nth_error m i = Some true -> nth_error x i = nth_error y i.

Lemma agree_app : forall A m m' (x x' y y' : list A),
  length x = length m -> length y = length m ->
  (agree (m ++ m') (x ++ x') (y ++ y') <-> agree m x y /\ agree m' x' y').
Proof.
  intros A m m' x x' y y' Lx Ly. unfold agree. split.
  - intros H. split; intros i Hi.
    + assert (i < length m) by (apply nth_error_Some; congruence).
      specialize (H i). rewrite !nth_error_app1 in H by lia. auto.
    + specialize (H (length m + i)). rewrite !nth_error_app2 in H by lia.
      replace (length m + i - length m) with i in H by lia.
      replace (length m + i - length x) with i in H by lia.
      replace (length m + i - length y) with i in H by lia. auto.
  - intros (H1 & H2) i Hi. destruct (lt_dec i (length m)).
    + rewrite nth_error_app1 in Hi by lia. rewrite !nth_error_app1 by lia. auto.
    + rewrite nth_error_app2 in Hi by lia. rewrite !nth_error_app2 by lia. rewrite Lx, Ly. auto.
Qed.

Lemma agree_flat_map : forall A (fm : nat -> list bool) (fx fy : nat -> list A) c o,
  (forall i, o <= i < o + c -> length (fx i) = length (fm i) /\ length (fy i) = length (fm i)) ->
  (agree (flat_map fm (seq o c)) (flat_map fx (seq o c)) (flat_map fy (seq o c)) <->
   forall i, o <= i < o + c -> agree (fm i) (fx i) (fy i)).
Proof.
  intros A fm fx fy. induction c as [|c IH]; intros o HL.
  - split; [intros; lia|]. intros _ i Hi. destruct i; discriminate.
  - cbn [seq flat_map]. rewrite agree_app by (apply HL; lia). rewrite IH by (intros; apply HL; lia).
    split.
    + intros (H1 & H2) i Hi. destruct (Nat.eq_dec i o) as [->|]; auto. apply H2. lia.
    + intros H. split; [apply H; lia|]. intros; apply H; lia.
Qed.

Lemma agree_true_eq : forall A n (x y : list A), length x = n -> length y = n ->
  agree (repeat true n) x y -> x = y.
Proof.
  intros A n x y Lx Ly H. subst n. revert y Ly H. induction x as [|a x IH]; intros [|b y] Ly H; simpl in *; auto; try lia.
  pose proof (H 0 eq_refl) as E. simpl in E. inversion E; subst. f_equal. apply IH; [lia|].
  intros i Hi. apply (H (S i)). auto.
Qed.

Lemma agree_refl : forall A m (x : list A), agree m x x.
Proof. intros A m x i _. auto. Qed.

Lemma agree_map : forall A B (g : A -> B) m x y, agree m x y -> agree m (map g x) (map g y).
Proof. intros A B g m x y H i Hi. rewrite !nth_error_map, (H i Hi). auto. Qed.

Lemma agree_none : forall A m (x y : list A), anyb m = false -> agree m x y.
Proof.
  intros A m x y H i Hi. rewrite anyb_false_iff in H. apply nth_error_In in Hi. apply H in Hi. discriminate.
Qed.

Lemma concat_chunks_fm : forall A k cnt (l : list A), length l = cnt * k ->
  l = flat_map (chunk k l) (seq 0 cnt).
Proof. intros. rewrite flat_map_concat. symmetry. apply concat_chunks. auto. Qed.

Lemma free_fold_ok : forall p x vv, usable p -> length x = pl_n (flat_len p true) ->
  exists v, fold_ snum p (vec (map Fin x)) true vv = Ok v /\ interior p v.
Proof.
  intros p x vv Hu L. destruct (free_flatten_of_fold vv vv p x Hu L) as (v & H & Hi & _). eauto.
Qed.


Lemma interior_entries_length : forall p v, usable p -> interior p v ->
  length (entries p v) = pl_n (flat_len p false).
Proof.
  assert (forall p a, usable p -> interior p (FArr a) -> is_dict p = false ->
    length (dat a) = pl_n (flat_len p false)) as HA.
  { intros p a Hu Hi Hd. destruct (interior_fv_arr p a Hu Hi) as (Hok & Hs).
    rewrite <- (entries_length _ p (FArr a)); auto. destruct p; try discriminate; auto. }
  apply (pat_ind' (fun p => forall v, usable p -> interior p v ->
     length (entries p v) = pl_n (flat_len p false))).
  - intros k s lb ub dv fd [a|d] Hu Hi; [|contradiction]. apply HA; auto.
  - intros n s dv fd [a|d] Hu Hi; [|contradiction]. apply HA; auto.
  - intros sz fl dl dv fd [a|d] Hu Hi; [|contradiction]. apply HA; auto.
  - intros s b fd IH [a|d] Hu Hi; [|contradiction]. apply HA; auto.
  - intros items l fl fd lk IH [a|d] Hu Hi; [contradiction|].
    destruct Hu as (_ & _ & -> & _ & Hu). cbn [entries flat_len]. simpl in Hi. unfold plint. cbn [pl_n].
    induction items as [|[k q] items IHi]; simpl; auto.
    inversion IH; subst. destruct Hi as ((w & Hg & Hw) & Hi). destruct Hu as (Hu1 & Hu2).
    rewrite Hg, app_length, IHi; auto. all: f_equal; apply H1; auto.
Qed.

Lemma agree_lengths_slice : forall A (x : list A) o n, o + n <= length x -> length (slice x o n) = n.
Proof. intros. apply slice_length. auto. Qed.

(** Chunks of [x] and the blocks of the folded array. *)
Lemma fold_arr_blocks : forall vv s b fd x v,
  usable (PArr s b fd) -> length x = pl_n (flat_len (PArr s b fd) true) ->
  fold_ snum (PArr s b fd) (vec (map Fin x)) true vv = Ok v ->
  exists a, v = FArr a /\ length (dat a) = prod s * prod (folded_shape b) /\
  forall i, i < prod s ->
    fold_ snum b (vec (map Fin (chunk (pl_n (flat_len b true)) x i))) true vv =
    Ok (FArr (mkNd (folded_shape b) (chunk (prod (folded_shape b)) (dat a) i))).
Proof.
  intros vv s b fd x v Hu L H. pose proof Hu as (Hs & Hp & Hd & Hub).
  destruct (fold_arr_layout _ snum s b fd (map Fin x) true vv v Hu H) as (a & -> & Hsh & Hb).
  destruct (fold_shape _ snum true vv (PArr s b fd) (map Fin x) (FArr a) Hu eq_refl H) as (a' & E & _ & Hok).
  inversion E; subst a'. exists a. split; auto. unfold nd_ok in Hok. rewrite Hsh, prod_app in Hok. split; auto.
  intros i Hi. set (item := nth i (indices s) []).
  specialize (Hb item (nth_indices_in s i [] Hi)).
  rewrite (subarr_chunk _ a item s (folded_shape b) Hsh) in Hb. unfold item in Hb.
  rewrite ravel_nth in Hb by auto. rewrite <- Hb. f_equal. f_equal. symmetry. apply slice_map.
Qed.

Theorem free_noninterference : forall vv p m x y vx vy,
  usable p -> fv_ok m -> shape_fits p m ->
  length x = pl_n (flat_len p true) -> length y = pl_n (flat_len p true) ->
  fold_ snum p (vec (map Fin x)) true vv = Ok vx ->
  fold_ snum p (vec (map Fin y)) true vv = Ok vy ->
  agree (imask true p m) x y ->
  agree (entries p m) (entries p vx) (entries p vy).
Proof.
  intros vv. apply (pat_ind' (fun p => forall m x y vx vy,
  usable p -> fv_ok m -> shape_fits p m ->
  length x = pl_n (flat_len p true) -> length y = pl_n (flat_len p true) ->
  fold_ snum p (vec (map Fin x)) true vv = Ok vx ->
  fold_ snum p (vec (map Fin y)) true vv = Ok vy ->
  agree (imask true p m) x y ->
  agree (entries p m) (entries p vx) (entries p vy))).
  - intros k s lb ub dv fd [a|d] x y vx vy Hu Hok Hs Lx Ly Hx Hy Ha; [|simpl in Hs; tauto].
    cbn [fold_] in Hx, Hy. rewrite atleast_vec, ndim_vec, size_vec, map_length in Hx, Hy.
    simpl in Lx, Ly. rewrite Lx, Nat.eqb_refl in Hx. rewrite Ly, Nat.eqb_refl in Hy.
    rewrite Nat.eqb_refl in Hx, Hy. cbn [Nat.eqb negb] in Hx, Hy. inversion Hx. inversion Hy. simpl.
    repeat apply agree_map. auto.
  - intros n s dv fd [a|d] x y vx vy Hu Hok Hs Lx Ly Hx Hy Ha; [|simpl in Hs; tauto].
    simpl in Hs. cbn [flat_len] in Lx, Ly. rewrite simplex_flen in Lx, Ly. simpl in Hu.
    assert (forall z vz, length z = prod s * (n - 1) ->
       fold_ snum (PSimplex n s dv fd) (vec (map Fin z)) true vv = Ok vz ->
       entries (PSimplex n s dv fd) vz =
       flat_map (fun i => constrain_row (map Fin (chunk (n - 1) z i))) (seq 0 (prod s))) as HF.
    { intros z vz Lz Hz. cbn [fold_] in Hz. cbn [pylen vec shp bind flat_len] in Hz.
      rewrite map_length, simplex_flen, Lz, Nat.eqb_refl in Hz. cbn [negb] in Hz.
      change (mkNd [length (map Fin z)] (map Fin z)) with (vec (map Fin z)) in Hz.
      rewrite reshape_vec in Hz by (rewrite map_length, Lz, prod_app; simpl; lia).
      cbn [bind dat to_num of_num snum] in Hz. inversion Hz. simpl. rewrite !map_id.
      unfold chunks. rewrite flat_map_concat. rewrite map_map. rewrite flat_map_concat. f_equal.
      apply map_ext. intros i. f_equal. apply chunk_map. }
    rewrite (HF x vx Lx Hx), (HF y vy Ly Hy).
    cbn [entries]. cbn [imask] in Ha.
    assert (length (dat a) = prod s * n) as La.
    { simpl in Hok. unfold nd_ok in Hok. rewrite Hok, Hs, prod_app. simpl. lia. }
    rewrite (concat_chunks_fm _ n (prod s) (dat a) La).
    rewrite (concat_chunks_fm _ (n - 1) (prod s) x Lx) in Ha.
    rewrite (concat_chunks_fm _ (n - 1) (prod s) y Ly) in Ha.
    rewrite agree_flat_map in Ha.
    2:{ intros i Hi. rewrite repeat_length. split; (eapply chunk_length; [|apply Hi]); auto. }
    apply agree_flat_map.
    + intros i Hi. rewrite (chunk_length _ n (dat a) i (prod s)) by (auto; apply Hi).
      split; rewrite constrain_row_fin, map_length, (proj1 (softmax_spec _));
        rewrite (chunk_length _ (n - 1) _ i (prod s)); auto; try apply Hi; lia.
    + intros i Hi. specialize (Ha i Hi). destruct (anyb (chunk n (dat a) i)) eqn:E.
      * apply agree_true_eq in Ha.
        -- rewrite Ha. apply agree_refl.
        -- eapply chunk_length; [|apply Hi]; auto.
        -- eapply chunk_length; [|apply Hi]; auto.
      * apply agree_none. auto.
  - intros sz fl dl dv fd [a|d] x y vx vy Hu Hok Hs Lx Ly Hx Hy Ha; [|simpl in Hs; tauto].
    cbn [imask] in Ha. cbn [entries]. destruct (anyb (dat a)) eqn:E.
    + apply agree_true_eq in Ha; auto. subst y. rewrite Hx in Hy. inversion Hy. apply agree_refl.
    + apply agree_none. auto.
  - intros s b fd IH [a|d] x y vx vy Hu Hok Hs Lx Ly Hx Hy Ha; [|simpl in Hs; tauto].
    simpl in Hs. pose proof Hu as (Hs1 & Hp & Hd & Hub).
    destruct (fold_arr_blocks vv s b fd x vx Hu Lx Hx) as (ax & -> & Lax & Hbx).
    destruct (fold_arr_blocks vv s b fd y vy Hu Ly Hy) as (ay & -> & Lay & Hby).
    cbn [imask] in Ha. cbn [entries].
    assert (length (dat a) = prod s * prod (folded_shape b)) as La.
    { simpl in Hok. unfold nd_ok in Hok. rewrite Hok, Hs, prod_app. auto. }
    assert (pl_n (flat_len (PArr s b fd) true) = prod s * pl_n (flat_len b true)) as El.
    { cbn [flat_len]. rewrite np_prod_int by auto. auto. }
    rewrite El in Lx, Ly.
    rewrite (concat_chunks_fm _ _ _ _ La), (concat_chunks_fm _ _ _ _ Lax), (concat_chunks_fm _ _ _ _ Lay).
    rewrite (concat_chunks_fm _ _ _ x Lx) in Ha. rewrite (concat_chunks_fm _ _ _ y Ly) in Ha.
    assert (forall i, i < prod s -> nd_ok (mkNd (folded_shape b) (chunk (prod (folded_shape b)) (dat a) i))) as Hcok.
    { intros i Hi. unfold nd_ok. simpl. eapply chunk_length; eauto. }
    rewrite agree_flat_map in Ha.
    2:{ intros i Hi. rewrite imask_length; auto;
        [|apply Hcok; lia|apply chunk_shape_fits; auto].
        split; (eapply chunk_length; [|apply Hi]); auto. }
    apply agree_flat_map.
    + intros i Hi. split; rewrite !(chunk_length _ _ _ i (prod s)); auto; apply Hi.
    + intros i Hi. specialize (Ha i Hi).
      assert (forall A (z : list A), entries b (FArr (mkNd (folded_shape b) z)) = z) as Ee.
      { intros. destruct b; try discriminate; auto. }
      assert (i < prod s) as Hi' by lia.
      pose proof (IH (FArr (mkNd (folded_shape b) (chunk (prod (folded_shape b)) (dat a) i)))
         (chunk (pl_n (flat_len b true)) x i) (chunk (pl_n (flat_len b true)) y i) _ _ Hub (Hcok i Hi')
         (chunk_shape_fits _ _ _ Hd)
         (chunk_length _ _ _ _ _ Lx Hi') (chunk_length _ _ _ _ _ Ly Hi') (Hbx i Hi') (Hby i Hi') Ha) as G.
      rewrite !Ee in G. auto.
  - intros items l fl fd lk IH [a|d] x y vx vy Hu Hok Hs Lx Ly Hx Hy Ha; [simpl in Hs; tauto|].
    rewrite fold_dict_eq in Hx by (rewrite map_length; auto).
    rewrite fold_dict_eq in Hy by (rewrite map_length; auto).
    apply bind_ok in Hx, Hy. destruct Hx as (dx & Hx & E). inversion E; subst vx. clear E.
    destruct Hy as (dy & Hy & E). inversion E; subst vy. clear E.
    cbn [imask] in Ha. cbn [entries]. destruct Hu as (_ & Hnd & _ & Hfl & Hu). simpl in Hs. 
    simpl in Lx, Ly. rewrite Hfl in Lx, Ly. simpl in Lx, Ly. clear Hfl l fl.
    assert (exists x0, map Fin x = x0 ++ map Fin x /\ length x0 = 0) as Hx0 by (exists []; auto).
    (* generalise over the offset *)
    assert (forall its o dx dy, NoDup (map fst its) ->
      Forall (fun kq => forall m x y vx vy,
        usable (snd kq) -> fv_ok m -> shape_fits (snd kq) m ->
        length x = pl_n (flat_len (snd kq) true) -> length y = pl_n (flat_len (snd kq) true) ->
        fold_ snum (snd kq) (vec (map Fin x)) true vv = Ok vx ->
        fold_ snum (snd kq) (vec (map Fin y)) true vv = Ok vy ->
        agree (imask true (snd kq) m) x y ->
        agree (entries (snd kq) m) (entries (snd kq) vx) (entries (snd kq) vy)) its ->
      all_items (fun _ q => usable q) its ->
      all_items (fun k q => exists w, dict_get d k = Some w /\ shape_fits q w) its ->
      o + lsum (map (fun kq => pl_n (flat_len (snd kq) true)) its) = length x -> length y = length x ->
      fold_items (fun q z => fold_ snum q z true vv) true (map Fin x) its (plint o) = Ok dx ->
      fold_items (fun q z => fold_ snum q z true vv) true (map Fin y) its (plint o) = Ok dy ->
      agree (imask_items (imask true) d its) (skipn o x) (skipn o y) ->
      agree (entries_items entries d its) (entries_items entries dx its) (entries_items entries dy its)) as G.
    { clear Hx Hy Ha Lx Ly IH Hnd Hu Hs items dx dy Hx0.
      induction its as [|[k q] its IHi]; intros o dx dy Hnd IH Hu Hs Lx Ly Hx Hy Ha.
      - intros i Hi. destruct i; discriminate.
      - destruct Hu as (Hu1 & Hu2). destruct Hs as ((w & Hg & Hw) & Hs). inversion IH; subst. clear IH.
        inversion Hnd; subst.
        pose proof (usable_int q true Hu1) as Hint.
        rewrite fold_items_cons in Hx, Hy by auto.
        apply bind_ok in Hx, Hy. destruct Hx as (vx & Hvx & Hx). destruct Hy as (vy & Hvy & Hy).
        apply bind_ok in Hx, Hy. destruct Hx as (rx & Hrx & Hx). destruct Hy as (ry & Hry & Hy).
        inversion Hx; subst dx. inversion Hy; subst dy. clear Hx Hy.
        cbn [map lsum fold_right snd] in Lx. fold (lsum (map (fun kq => pl_n (flat_len (snd kq) true)) its)) in Lx.
        cbn [imask_items] in Ha. rewrite Hg in Ha.
        rewrite slice_map in Hvx, Hvy.
        assert (length (slice x o (pl_n (flat_len q true))) = pl_n (flat_len q true)) as Lsx by (apply slice_length; lia).
        assert (length (slice y o (pl_n (flat_len q true))) = pl_n (flat_len q true)) as Lsy by (apply slice_length; lia).
        assert (fv_ok w) as Hokw by (eapply fv_ok_get; eauto).
        assert (forall z : list R, skipn o z = slice z o (pl_n (flat_len q true)) ++ skipn (o + pl_n (flat_len q true)) z) as Esk.
        { intros z. unfold slice. rewrite <- skipn_skipn'. symmetry. apply firstn_skipn. }
        rewrite (Esk x), (Esk y) in Ha. apply agree_app in Ha; [|rewrite imask_length; auto..].
        destruct Ha as (Ha1 & Ha2).
        assert (Hex : forall A (v : fv A) (r : list (key * fv A)),
           entries_items entries ((k, v) :: r) ((k, q) :: its) = entries q v ++ entries_items entries r its).
        { intros A v r. cbn [entries_items dict_get]. rewrite key_eqb_refl. f_equal.
          clear - H3. assert (forall i, incl i its -> entries_items entries ((k, v) :: r) i = entries_items entries r i) as G; [|apply G; apply incl_refl].
          induction i as [|[k' q'] i IH]; intros Hin; auto. cbn [entries_items].
          assert (k' <> k) as Hne.
          { intros ->. apply H3. apply in_map_iff. exists (k, q'). split; auto. apply Hin. left; auto. }
          rewrite (dict_get_cons_ne _ r k' k v Hne). rewrite IH; auto. intros z Hz. apply Hin. right; auto. }
        rewrite !Hex. cbn [entries_items]. rewrite Hg.
        destruct (free_flatten_of_fold vv vv q _ Hu1 Lsx) as (v1 & F1 & I1 & _). rewrite Hvx in F1. inversion F1; subst v1.
        destruct (free_flatten_of_fold vv vv q _ Hu1 Lsy) as (v2 & F2 & I2 & _). rewrite Hvy in F2. inversion F2; subst v2.
        apply agree_app.
        + rewrite interior_entries_length by auto. rewrite entries_length; auto.
        + rewrite interior_entries_length by auto. rewrite entries_length; auto.
        + split.
          * apply (H1 w _ _ _ _ Hu1 Hokw Hw Lsx Lsy Hvx Hvy Ha1).
          * eapply (IHi (o + pl_n (flat_len q true))); eauto. lia. }
    apply (G items 0 dx dy); auto; simpl; lia.
Qed.


Lemma fold_fv_ok : forall A (sc : scalar A) f vv p x v,
  usable p -> fold_ sc p (vec x) f vv = Ok v -> fv_ok v.
Proof.
  intros A sc f vv. apply (pat_ind' (fun p => forall x v, usable p -> fold_ sc p (vec x) f vv = Ok v -> fv_ok v)).
  1-4: intros; edestruct (fold_shape A sc f vv) as (a & -> & _ & Hok); [eassumption|reflexivity|eassumption|]; exact Hok.
  intros items l fl fd lk IH x v Hu H.
  assert (length x = pl_n (flat_len (PDict items l fl fd lk) f)) as Hx.
  { destruct (Nat.eq_dec (length x) (pl_n (flat_len (PDict items l fl fd lk) f))); auto.
    rewrite fold_wrong_length in H by auto. discriminate. }
  rewrite fold_dict_eq in H by auto. destruct Hu as (_ & _ & _ & _ & Hu). clear Hx.
  apply bind_ok in H. destruct H as (d & Hd & H).
  assert (v = FDict d) as ->.
  { destruct f; [inversion H; auto|]. apply bind_ok in H. destruct H as (u & _ & H). inversion H; auto. }
  clear H. revert Hd. generalize 0 as o. revert d.
  induction items as [|[k q] items IHi]; intros d o Hd.
  - inversion Hd. simpl. auto.
  - destruct Hu as (Hu1 & Hu2). inversion IH; subst.
    rewrite fold_items_cons in Hd by (apply usable_int; auto).
    apply bind_ok in Hd. destruct Hd as (w & Hw & Hd).
    apply bind_ok in Hd. destruct Hd as (r & Hr & Hd). inversion Hd; subst.
    simpl. split; [eapply H1; eauto|]. eapply IHi; eauto.
Qed.

Theorem free_indices_dependencies : forall p m x y vv, usable p -> fv_ok m -> shape_fits p m ->
  flat_length p (Some true) = Ok (plint (length x)) ->
  flat_length p (Some true) = Ok (plint (length y)) ->
  exists ixf ixn vx vy ex ey,
    flat_indices p m (Some true) = Ok ixf /\ flat_indices p m (Some false) = Ok ixn /\
    fold p (vec (map Fin x)) (Some true) vv = Ok vx /\ flatten p vx (Some false) vv = Ok ex /\
    fold p (vec (map Fin y)) (Some true) vv = Ok vy /\ flatten p vy (Some false) vv = Ok ey /\
    ((forall i, In i ixf -> nth_error x i = nth_error y i) ->
     (forall i, In i ixn -> nth_error ex i = nth_error ey i)).
Proof.
  intros p m x y vv Hu Hok Hs Lx Ly. apply flat_length_some in Lx, Ly; auto.
  exists (select (seq 0 (pl_n (flat_len p true))) (imask true p m)).
  exists (select (seq 0 (pl_n (flat_len p false))) (imask false p m)).
  destruct (free_flatten_of_fold vv vv p x Hu Lx) as (vx & Hx & Ix & _).
  destruct (free_flatten_of_fold vv vv p y Hu Ly) as (vy & Hy & Iy & _).
  exists vx, vy, (entries p vx), (entries p vy).
  split; [apply flat_indices_spec; auto|]. split; [apply flat_indices_spec; auto|].
  assert (forall v z, fold_ snum p (vec (map Fin z)) true vv = Ok v -> interior p v ->
    flatten p v (Some false) vv = Ok (entries p v)) as HF.
  { intros v z Hz Hi. unfold flatten, flatten_gen. cbn [free_with_default bind].
    rewrite flatten_nonfree; auto; [|eapply fold_fv_ok; eauto]. rewrite interior_require; auto. }
  split; auto. split; [eapply HF; eauto|]. split; auto. split; [eapply HF; eauto|].
  intros H. pose proof (free_noninterference vv p m x y vx vy Hu Hok Hs Lx Ly Hx Hy) as G.
  rewrite imask_entries by auto. rewrite <- (entries_length _ p m Hu Hok Hs).
  intros i Hi. apply in_select_full in Hi. apply G; auto. intros j Hj. apply H.
  rewrite <- (imask_length true p m Hu Hok Hs). apply in_select_full. auto.
Qed.
