(** * Precision of the free indices (C15). *)
From Coq Require Import Reals Lra Sorting.Sorted.
From Verif Require Import Base Num Nd Numeric Simplex Psd Pattern Spec ListFacts PatFacts
  NonFree NumFacts CholFacts Free Contract Api Indices Indices2.
Local Open Scope list_scope.
Local Open Scope nat_scope.

Lemma differ_lt : forall A i (x y : list A), differ_only_at i x y -> i < length x.
Proof.
  intros A i x y (L & H & _). destruct (lt_dec i (length x)); auto. exfalso. apply H.
  rewrite !(proj2 (nth_error_None _ _)) by lia. auto.
Qed.

Lemma differ_decomp : forall A (x y : list A) i, differ_only_at i x y ->
  exists l a b r, x = l ++ a :: r /\ y = l ++ b :: r /\ a <> b /\ length l = i.
Proof.
  induction x as [|u x IH]; intros [|v y] i D; pose proof (differ_lt _ _ _ _ D) as Hlt;
    destruct D as (L & H & E); simpl in *; try lia.
  destruct i as [|i].
  - exists [], u, v, x. simpl. split; auto. split; [f_equal|split; [simpl in H; congruence|auto]].
    clear IH H Hlt. assert (length x = length y) as L' by lia. clear L.
    assert (forall j, nth_error x j = nth_error y j) as E' by (intros j; apply (E (S j)); lia).
    clear E. revert y L' E'. induction x as [|a x IH]; intros [|b y] L' E'; simpl in *; auto; try lia.
    pose proof (E' 0) as E0. simpl in E0. inversion E0. f_equal. apply IH; [lia|]. intros j. apply (E' (S j)).
  - pose proof (E 0 ltac:(lia)) as E0. simpl in E0. inversion E0; subst v.
    destruct (IH y i) as (l & a & b & r & -> & -> & Hab & Hl).
    + split; [lia|]. split; [apply H|]. intros j Hj. apply (E (S j)). lia.
    + exists (u :: l), a, b, r. simpl. auto.
Qed.

Lemma nth_error_chunk : forall A k (l : list A) i j, j < k ->
  nth_error (chunk k l i) j = nth_error l (i * k + j).
Proof.
  intros A k l i j Hj. unfold chunk, slice.
  assert (forall (l : list A) n j, j < n -> nth_error (firstn n l) j = nth_error l j) as HF.
  { clear. induction l as [|a l IH]; intros [|n] [|j] Hj; simpl; auto; try lia. apply IH. lia. }
  assert (forall (l : list A) n j, nth_error (skipn n l) j = nth_error l (n + j)) as HS.
  { clear. induction l as [|a l IH]; intros [|n] j; simpl; auto. destruct j; auto. }
  rewrite HF, HS by auto. auto.
Qed.
Lemma nth_error_slice : forall A (l : list A) o n j, j < n ->
  nth_error (slice l o n) j = nth_error l (o + j).
Proof.
  intros A l o n j Hj. unfold slice.
  assert (forall (l : list A) n j, j < n -> nth_error (firstn n l) j = nth_error l j) as HF.
  { clear. induction l as [|a l IH]; intros [|n] [|j] Hj; simpl; auto; try lia. apply IH. lia. }
  assert (forall (l : list A) n j, nth_error (skipn n l) j = nth_error l (n + j)) as HS.
  { clear. induction l as [|a l IH]; intros [|n] j; simpl; auto. destruct j; auto. }
  rewrite HF, HS by auto. auto.
Qed.

Lemma differ_slice : forall A (x y : list A) i o n,
  differ_only_at i x y -> o <= i < o + n -> o + n <= length x ->
  differ_only_at (i - o) (slice x o n) (slice y o n).
Proof.
  intros A x y i o n (L & H & E) Hi Hl. split; [rewrite !slice_length; lia|]. split.
  - rewrite !nth_error_slice by lia. replace (o + (i - o)) with i by lia. auto.
  - intros j Hj. destruct (lt_dec j n).
    + rewrite !nth_error_slice by lia. apply E. lia.
    + rewrite !(proj2 (nth_error_None _ _)); auto; rewrite slice_length; lia.
Qed.

Lemma block_of : forall i k c, i < c * k -> 0 < k /\ i / k < c /\ i mod k < k /\ i = i / k * k + i mod k.
Proof.
  intros i k c H. destruct k; [lia|]. split; [lia|]. split; [apply Nat.div_lt_upper_bound; lia|].
  split; [apply Nat.mod_upper_bound; lia|]. rewrite Nat.mul_comm. apply Nat.div_mod. lia.
Qed.

Lemma differ_chunk : forall A k c (x y : list A) i,
  differ_only_at i x y -> length x = c * k ->
  differ_only_at (i mod k) (chunk k x (i / k)) (chunk k y (i / k)).
Proof.
  intros A k c x y i D L. pose proof (differ_lt _ _ _ _ D) as Hi. rewrite L in Hi.
  destruct (block_of i k c Hi) as (H1 & H2 & H3 & H4).
  replace (i mod k) with (i - i / k * k) by lia. unfold chunk. apply differ_slice; auto; try lia.
  rewrite L. nia.
Qed.

(** Changing one free value changes every entry of its simplex. *)
Lemma softmax_all_change : forall l a b r k, a <> b -> k <= length (l ++ a :: r) ->
  nth_error (softmax (l ++ a :: r)) k <> nth_error (softmax (l ++ b :: r)) k.
Proof.
  intros l a b r k Hab Hk.
  assert (exp a <> exp b) as Hexp by (intros E; apply Hab; apply exp_inv; auto).
  set (S := fun c => (exp 0 + (Rlsum (map exp l) + (exp c + Rlsum (map exp r))))%R).
  assert (forall c, Rlsum (map exp (0%R :: l ++ c :: r)) = S c) as HS.
  { intros c. unfold S. simpl. rewrite map_app, Rlsum_app. simpl. lra. }
  assert (forall m, (0 <= Rlsum (map exp m))%R) as Hnn.
  { induction m; simpl; [lra|]. pose proof (exp_pos a0). lra. }
  assert (forall c, (exp c < S c)%R) as Hlt.
  { intros c. unfold S. rewrite exp_0. pose proof (Hnn l). pose proof (Hnn r). lra. }
  assert (forall c, (0 < S c)%R) as Hpos by (intros c; pose proof (exp_pos c); specialize (Hlt c); lra).
  unfold softmax. rewrite !HS. 
  assert (forall c, nth_error (map (fun y => y / S c)%R (map exp (0%R :: l ++ c :: r))) k =
     option_map (fun y => exp y / S c)%R (nth_error (0%R :: l ++ c :: r) k)) as HN.
  { intros c. rewrite !nth_error_map. destruct (nth_error _ k); auto. }
  rewrite !HN.
  destruct (Nat.eq_dec k (Datatypes.S (length l))) as [->|Hne].
  - simpl. rewrite !nth_error_app2, !Nat.sub_diag by lia. simpl. intros E. inversion E as [E'].
    apply Hexp. apply (Rmult_eq_compat_r (S a * S b)) in E'. unfold Rdiv in E'.
    replace (exp a * / S a * (S a * S b))%R with (exp a * S b)%R in E' by (field; specialize (Hpos a); lra).
    replace (exp b * / S b * (S a * S b))%R with (exp b * S a)%R in E' by (field; specialize (Hpos b); lra).
    unfold S in E'. rewrite exp_0 in E'.
    pose proof (Hnn l). pose proof (Hnn r).
    set (q := (1 + (Rlsum (map exp l) + Rlsum (map exp r)))%R) in *.
    assert (exp a * q = exp b * q)%R as E2 by (unfold q in *; lra).
    apply Rmult_eq_reg_r in E2; auto. unfold q. lra.
  - assert (nth_error (0%R :: l ++ b :: r) k = nth_error (0%R :: l ++ a :: r) k) as ->.
    { destruct k; auto. simpl. destruct (lt_dec k (length l)).
      - rewrite !nth_error_app1 by lia. auto.
      - rewrite !nth_error_app2 by lia. destruct (k - length l) eqn:E; [lia|]. auto. }
    destruct (nth_error (0%R :: l ++ a :: r) k) as [z|] eqn:E.
    2:{ apply nth_error_None in E. simpl in E. lia. }
    simpl. intros E'. inversion E' as [E2]. apply Hexp.
    pose proof (exp_pos z) as Hz.
    apply (Rmult_eq_compat_r (S a * S b)) in E2. unfold Rdiv in E2.
    replace (exp z * / S a * (S a * S b))%R with (exp z * S b)%R in E2 by (field; specialize (Hpos a); lra).
    replace (exp z * / S b * (S a * S b))%R with (exp z * S a)%R in E2 by (field; specialize (Hpos b); lra).
    apply Rmult_eq_reg_l in E2; [|lra]. unfold S in E2. lra.
Qed.

Lemma nth_error_blocks : forall A (f : nat -> list A) k c q j,
  (forall i, i < c -> length (f i) = k) -> q < c -> j < k ->
  nth_error (flat_map f (seq 0 c)) (q * k + j) = nth_error (f q) j.
Proof.
  intros A f k c q j Hf Hq Hj. rewrite <- nth_error_chunk by auto. rewrite flat_map_concat.
  rewrite (chunk_concat _ k _ q []).
  - rewrite nth_indep with (d' := f 0) by (rewrite map_length, seq_length; auto).
    rewrite (map_nth f (seq 0 c) 0). rewrite seq_nth by auto. auto.
  - intros z Hz. apply in_map_iff in Hz. destruct Hz as (i & <- & Hi). apply in_seq in Hi. apply Hf. lia.
  - rewrite map_length, seq_length. auto.
Qed.

Theorem free_precision : forall vv p m x y vx vy i,
  usable p -> no_psd p -> fv_ok m -> shape_fits p m ->
  length x = pl_n (flat_len p true) -> differ_only_at i x y ->
  fold_ snum p (vec (map Fin x)) true vv = Ok vx ->
  fold_ snum p (vec (map Fin y)) true vv = Ok vy ->
  nth_error (imask true p m) i = Some true ->
  exists k, nth_error (entries p m) k = Some true /\
            nth_error (entries p vx) k <> nth_error (entries p vy) k.
Proof.
  intros vv. apply (pat_ind' (fun p => forall m x y vx vy i,
  usable p -> no_psd p -> fv_ok m -> shape_fits p m ->
  length x = pl_n (flat_len p true) -> differ_only_at i x y ->
  fold_ snum p (vec (map Fin x)) true vv = Ok vx ->
  fold_ snum p (vec (map Fin y)) true vv = Ok vy ->
  nth_error (imask true p m) i = Some true ->
  exists k, nth_error (entries p m) k = Some true /\
            nth_error (entries p vx) k <> nth_error (entries p vy) k)).
  - intros k s lb ub dv fd [a|d] x y vx vy i Hu Hp Hok Hs Lx D Hx Hy Hm; [|simpl in Hs; tauto].
    assert (length y = pl_n (flat_len (PNum k s lb ub dv fd) true)) as Ly by (destruct D; lia).
    cbn [fold_] in Hx, Hy. rewrite atleast_vec, ndim_vec, size_vec, map_length in Hx, Hy.
    simpl in Lx, Ly. rewrite Lx, Nat.eqb_refl in Hx. rewrite Ly, Nat.eqb_refl in Hy.
    rewrite Nat.eqb_refl in Hx, Hy. cbn [Nat.eqb negb] in Hx, Hy. inversion Hx. inversion Hy. simpl.
    exists i. split; auto. destruct D as (L & Hne & _). destruct Hu as (_ & Hlt).
    rewrite !nth_error_map.
    destruct (nth_error x i) as [u|] eqn:Eu, (nth_error y i) as [w|] eqn:Ew; simpl; try congruence.
    intros E. inversion E as [E']. apply Hne. f_equal.
    destruct (constrain1_fin (pyval lb) (pyval ub) u Hlt) as (u' & C1 & _ & _ & U1).
    destruct (constrain1_fin (pyval lb) (pyval ub) w Hlt) as (w' & C2 & _ & _ & U2).
    rewrite C1, C2 in E'. inversion E'; subst. rewrite U1 in U2. inversion U2; auto.
  - intros n s dv fd [a|d] x y vx vy i Hu Hp Hok Hs Lx D Hx Hy Hm; [|simpl in Hs; tauto].
    simpl in Hs, Hu. cbn [flat_len] in Lx. rewrite simplex_flen in Lx.
    assert (length y = prod s * (n - 1)) as Ly by (destruct D; lia).
    assert (forall z vz, length z = prod s * (n - 1) ->
       fold_ snum (PSimplex n s dv fd) (vec (map Fin z)) true vv = Ok vz ->
       entries (PSimplex n s dv fd) vz =
       flat_map (fun i => map Fin (softmax (chunk (n - 1) z i))) (seq 0 (prod s))) as HF.
    { intros z vz Lz Hz. cbn [fold_] in Hz. cbn [pylen vec shp bind flat_len] in Hz.
      rewrite map_length, simplex_flen, Lz, Nat.eqb_refl in Hz. cbn [negb] in Hz.
      change (mkNd [length (map Fin z)] (map Fin z)) with (vec (map Fin z)) in Hz.
      rewrite reshape_vec in Hz by (rewrite map_length, Lz, prod_app; simpl; lia).
      cbn [bind dat to_num of_num snum] in Hz. inversion Hz. simpl. rewrite !map_id.
      unfold chunks. rewrite flat_map_concat. rewrite map_map. rewrite flat_map_concat. f_equal.
      apply map_ext. intros q. rewrite chunk_map. apply constrain_row_fin. }
    rewrite (HF x vx Lx Hx), (HF y vy Ly Hy). cbn [entries].
    pose proof (differ_lt _ _ _ _ D) as Hi. rewrite Lx in Hi.
    destruct (block_of i (n - 1) (prod s) Hi) as (B1 & B2 & B3 & B4). set (q := i / (n - 1)) in *.
    cbn [imask] in Hm. rewrite B4 in Hm. rewrite nth_error_blocks in Hm; auto; [|intros; apply repeat_length].
    assert (anyb (chunk n (dat a) q) = true) as Ha.
    { apply nth_error_In in Hm. apply repeat_spec in Hm. auto. }
    apply existsb_exists in Ha. destruct Ha as (b & Hb & ->). apply In_nth_error in Hb. destruct Hb as (j & Hj).
    assert (length (dat a) = prod s * n) as La.
    { simpl in Hok. unfold nd_ok in Hok. rewrite Hok, Hs, prod_app. simpl. lia. }
    assert (j < n) as Hjn.
    { pose proof (chunk_length _ n (dat a) q (prod s) La B2) as Lc. rewrite <- Lc. apply nth_error_Some. congruence. }
    exists (q * n + j). rewrite <- nth_error_chunk by auto. split; auto.
    assert (forall z, length z = prod s * (n - 1) -> forall i, i < prod s -> length (map Fin (softmax (chunk (n - 1) z i))) = n) as Lr.
    { intros z Lz r Hr. rewrite map_length, (proj1 (softmax_spec _)), (chunk_length _ _ _ _ (prod s)); auto. lia. }
    rewrite !nth_error_blocks; auto.
    pose proof (differ_chunk _ _ _ _ _ _ D Lx) as Dc. fold q in Dc.
    apply differ_decomp in Dc. destruct Dc as (l & u & w & r & E1 & E2 & Huw & _).
    pose proof (chunk_length _ (n - 1) x q (prod s) Lx B2) as Lcx.
    rewrite E1 in *. rewrite E2. rewrite !nth_error_map. intros E.
    assert (j <= length (l ++ u :: r)) as Hjl by lia.
    apply (softmax_all_change l u w r j Huw Hjl).
    destruct (nth_error (softmax (l ++ u :: r)) j), (nth_error (softmax (l ++ w :: r)) j); simpl in E; congruence.
  - intros. simpl in H0. contradiction.
  - intros s b fd IH [a|d] x y vx vy i Hu Hpsd Hok Hs Lx D Hx Hy Hm; [|simpl in Hs; tauto].
    simpl in Hs, Hpsd. pose proof Hu as (Hs1 & Hp & Hd & Hub).
    assert (length y = pl_n (flat_len (PArr s b fd) true)) as Ly by (destruct D; lia).
    destruct (fold_arr_blocks vv s b fd x vx Hu Lx Hx) as (ax & -> & Lax & Hbx).
    destruct (fold_arr_blocks vv s b fd y vy Hu Ly Hy) as (ay & -> & Lay & Hby).
    assert (length (dat a) = prod s * prod (folded_shape b)) as La.
    { simpl in Hok. unfold nd_ok in Hok. rewrite Hok, Hs, prod_app. auto. }
    assert (pl_n (flat_len (PArr s b fd) true) = prod s * pl_n (flat_len b true)) as El.
    { cbn [flat_len]. rewrite np_prod_int by auto. auto. }
    rewrite El in Lx, Ly. cbn [entries].
    pose proof (differ_lt _ _ _ _ D) as Hi. rewrite Lx in Hi.
    destruct (block_of i (pl_n (flat_len b true)) (prod s) Hi) as (B1 & B2 & B3 & B4).
    set (q := i / pl_n (flat_len b true)) in *.
    assert (forall i, i < prod s -> nd_ok (mkNd (folded_shape b) (chunk (prod (folded_shape b)) (dat a) i))) as Hcok.
    { intros r Hr. unfold nd_ok. simpl. eapply chunk_length; eauto. }
    cbn [imask] in Hm. rewrite B4 in Hm. rewrite nth_error_blocks in Hm; auto.
    2:{ intros r Hr. apply imask_length; auto; [apply Hcok; auto|apply chunk_shape_fits; auto]. }
    assert (forall A (z : list A), entries b (FArr (mkNd (folded_shape b) z)) = z) as Ee.
    { intros. destruct b; try discriminate; auto. }
    pose proof (differ_chunk _ _ _ _ _ _ D Lx) as Dc. fold q in Dc.
    destruct (IH (FArr (mkNd (folded_shape b) (chunk (prod (folded_shape b)) (dat a) q)))
         _ _ _ _ _ Hub Hpsd (Hcok q B2) (chunk_shape_fits _ _ _ Hd)
         (chunk_length _ _ _ _ _ Lx B2) Dc (Hbx q B2) (Hby q B2) Hm) as (k & Hk & Hne).
    rewrite !Ee in *.
    assert (k < prod (folded_shape b)) as Hkl.
    { rewrite <- (chunk_length _ _ (dat a) q (prod s) La B2). apply nth_error_Some. congruence. }
    rewrite !nth_error_chunk in * by auto. eauto.
  - intros items l fl fd lk IH [a|d] x y vx vy i Hu Hpsd Hok Hs Lx D Hx Hy Hm; [simpl in Hs; tauto|].
    assert (length y = pl_n (flat_len (PDict items l fl fd lk) true)) as Ly by (destruct D; lia).
    rewrite fold_dict_eq in Hx by (rewrite map_length; auto).
    rewrite fold_dict_eq in Hy by (rewrite map_length; auto).
    apply bind_ok in Hx, Hy. destruct Hx as (dx & Hx & E). inversion E; subst vx. clear E.
    destruct Hy as (dy & Hy & E). inversion E; subst vy. clear E.
    cbn [imask] in Hm. cbn [entries]. destruct Hu as (_ & Hnd & _ & Hfl & Hu). simpl in Hs, Hpsd.
    simpl in Lx. rewrite Hfl in Lx. simpl in Lx. clear Hfl Ly.
    assert (forall its o dx dy, NoDup (map fst its) ->
      Forall (fun kq => forall m x y vx vy i,
        usable (snd kq) -> no_psd (snd kq) -> fv_ok m -> shape_fits (snd kq) m ->
        length x = pl_n (flat_len (snd kq) true) -> differ_only_at i x y ->
        fold_ snum (snd kq) (vec (map Fin x)) true vv = Ok vx ->
        fold_ snum (snd kq) (vec (map Fin y)) true vv = Ok vy ->
        nth_error (imask true (snd kq) m) i = Some true ->
        exists k, nth_error (entries (snd kq) m) k = Some true /\
            nth_error (entries (snd kq) vx) k <> nth_error (entries (snd kq) vy) k) its ->
      all_items (fun _ q => usable q) its -> all_items (fun _ q => no_psd q) its ->
      all_items (fun k q => exists w, dict_get d k = Some w /\ shape_fits q w) its ->
      o + lsum (map (fun kq => pl_n (flat_len (snd kq) true)) its) = length x -> o <= i ->
      fold_items (fun q z => fold_ snum q z true vv) true (map Fin x) its (plint o) = Ok dx ->
      fold_items (fun q z => fold_ snum q z true vv) true (map Fin y) its (plint o) = Ok dy ->
      nth_error (imask_items (imask true) d its) (i - o) = Some true ->
      exists k, nth_error (entries_items entries d its) k = Some true /\
        nth_error (entries_items entries dx its) k <> nth_error (entries_items entries dy its) k) as G.
    { clear Hx Hy Hm Lx IH Hnd Hu Hs Hpsd items dx dy l fl.
      induction its as [|[k q] its IHi]; intros o dx dy Hnd IH Hu Hpsd Hs Lx Ho Hx Hy Hm.
      - simpl in Hm. destruct (i - o); discriminate.
      - destruct Hu as (Hu1 & Hu2). destruct Hs as ((w & Hg & Hw) & Hs). inversion IH; subst. clear IH.
        destruct Hpsd as (Hq1 & Hq2). inversion Hnd; subst.
        pose proof (usable_int q true Hu1) as Hint.
        rewrite fold_items_cons in Hx, Hy by auto.
        apply bind_ok in Hx, Hy. destruct Hx as (vx & Hvx & Hx). destruct Hy as (vy & Hvy & Hy).
        apply bind_ok in Hx, Hy. destruct Hx as (rx & Hrx & Hx). destruct Hy as (ry & Hry & Hy).
        inversion Hx; subst dx. inversion Hy; subst dy. clear Hx Hy.
        cbn [map lsum fold_right snd] in Lx. fold (lsum (map (fun kq => pl_n (flat_len (snd kq) true)) its)) in Lx.
        cbn [imask_items] in Hm. rewrite Hg in Hm. rewrite slice_map in Hvx, Hvy.
        assert (length y = length x) as Lyx by (destruct D; lia).
        assert (length (slice x o (pl_n (flat_len q true))) = pl_n (flat_len q true)) as Lsx by (apply slice_length; lia).
        assert (length (slice y o (pl_n (flat_len q true))) = pl_n (flat_len q true)) as Lsy by (apply slice_length; lia).
        assert (fv_ok w) as Hokw by (eapply fv_ok_get; eauto).
        assert (Hex : forall A (v : fv A) (r : list (key * fv A)),
           entries_items entries ((k, v) :: r) ((k, q) :: its) = entries q v ++ entries_items entries r its).
        { intros A v r. cbn [entries_items dict_get]. rewrite key_eqb_refl. f_equal.
          clear - H3. assert (forall i, incl i its -> entries_items entries ((k, v) :: r) i = entries_items entries r i) as G; [|apply G; apply incl_refl].
          induction i as [|[k' q'] i IH]; intros Hin; auto. cbn [entries_items].
          assert (k' <> k) as Hne.
          { intros ->. apply H3. apply in_map_iff. exists (k, q'). split; auto. apply Hin. left; auto. }
          rewrite (dict_get_cons_ne _ r k' k v Hne). rewrite IH; auto. intros z Hz. apply Hin. right; auto. }
        rewrite !Hex. cbn [entries_items]. rewrite Hg.
        destruct (free_flatten_of_fold vv vv q _ Hu1 Lsx) as (v1 & F1 & I1 & _). rewrite Hvx in F1. inversion F1; subst v1.
        destruct (free_flatten_of_fold vv vv q _ Hu1 Lsy) as (v2 & F2 & I2 & _). rewrite Hvy in F2. inversion F2; subst v2.
        assert (length (entries q vx) = length (entries q w)) as Lex.
        { rewrite interior_entries_length by auto. rewrite entries_length; auto. }
        assert (length (entries q vy) = length (entries q w)) as Ley.
        { rewrite interior_entries_length by auto. rewrite entries_length; auto. }
        pose proof (imask_length true q w Hu1 Hokw Hw) as Lm.
        destruct (lt_dec (i - o) (pl_n (flat_len q true))) as [Hin|Hout].
        + rewrite nth_error_app1 in Hm by lia.
          assert (differ_only_at (i - o) (slice x o (pl_n (flat_len q true))) (slice y o (pl_n (flat_len q true)))) as Ds.
          { apply differ_slice; auto; lia. }
          destruct (H1 w _ _ _ _ _ Hu1 Hq1 Hokw Hw Lsx Ds Hvx Hvy Hm) as (j & Hj & Hne).
          assert (j < length (entries q w)) by (apply nth_error_Some; simpl in Hj; congruence).
          exists j. rewrite !nth_error_app1 by lia. auto.
        + rewrite nth_error_app2 in Hm by lia.
          destruct (IHi (o + pl_n (flat_len q true)) rx ry) as (j & Hj & Hne); auto; try lia.
          { rewrite <- Hm. f_equal. lia. }
          exists (length (entries q w) + j). rewrite !nth_error_app2 by lia.
          rewrite Lex, Ley. replace (length (entries q w) + j - length (entries q w)) with j by lia. auto. }
    apply (G items 0 dx dy); auto; try lia. rewrite Nat.sub_0_r. auto.
Qed.

Theorem free_indices_exact : forall p m x y vv i, usable p -> no_psd p -> fv_ok m -> shape_fits p m ->
  flat_length p (Some true) = Ok (plint (length x)) -> differ_only_at i x y ->
  exists ixf ixn vx vy ex ey,
    flat_indices p m (Some true) = Ok ixf /\ flat_indices p m (Some false) = Ok ixn /\
    fold p (vec (map Fin x)) (Some true) vv = Ok vx /\ flatten p vx (Some false) vv = Ok ex /\
    fold p (vec (map Fin y)) (Some true) vv = Ok vy /\ flatten p vy (Some false) vv = Ok ey /\
    (In i ixf -> exists k, In k ixn /\ nth_error ex k <> nth_error ey k).
Proof.
  intros p m x y vv i Hu Hp Hok Hs Lx D.
  assert (length y = length x) as Lyx by (destruct D; lia).
  destruct (free_indices_dependencies p m x y vv Hu Hok Hs Lx) as (ixf & ixn & vx & vy & ex & ey & H1 & H2 & H3 & H4 & H5 & H6 & _).
  { rewrite Lyx. auto. }
  exists ixf, ixn, vx, vy, ex, ey. repeat (split; auto).
  apply flat_length_some in Lx; auto. rewrite flat_indices_spec in H1, H2 by auto. inversion H1; inversion H2; subst.
  assert (forall v z e, fold p (vec (map Fin z)) (Some true) vv = Ok v -> length z = pl_n (flat_len p true) ->
      flatten p v (Some false) vv = Ok e -> e = entries p v) as HE.
  { intros v z e Hz Lz He. unfold flatten, flatten_gen in He. cbn [free_with_default bind] in He.
    destruct (free_flatten_of_fold vv vv p z Hu Lz) as (v' & Hz' & Hi & _).
    unfold fold, fold_gen in Hz. cbn [free_with_default bind] in Hz. rewrite Hz' in Hz. inversion Hz; subst v'.
    rewrite flatten_nonfree in He; auto; [|eapply fold_fv_ok; eauto]. rewrite interior_require in He; auto.
    inversion He; auto. }
  rewrite (HE vx x ex H3 Lx H4), (HE vy y ey H5 ltac:(lia) H6).
  rewrite <- (imask_length true p m Hu Hok Hs). rewrite in_select_full. intros Hm.
  destruct (free_precision vv p m x y vx vy i Hu Hp Hok Hs Lx D H3 H5 Hm) as (k & Hk & Hne).
  exists k. split; auto. rewrite <- (imask_length false p m Hu Hok Hs). rewrite imask_entries by auto.
  apply in_select_full. auto.
Qed.

(** ** PSD: the indices over-approximate *)
Definition psd2 : pat := PPsd 2 3 (PyInt 0) true None.
Definition mask00 : fv bool := FArr (mkNd [2; 2] [true; false; false; false]).

Lemma psd2_usable : usable psd2.
Proof. simpl. split; auto. exists 0%R. split; [reflexivity | lra]. Qed.

Lemma psd2_fold : forall x0 x1 x2 vv, exists a,
  fold psd2 (vec (map Fin [x0; x1; x2])) (Some true) vv = Ok (FArr a) /\
  nth_error (dat a) 0 = Some (Fin (exp x0 * exp x0)).
Proof.
  intros. unfold fold, fold_gen. cbn [free_with_default bind fold_ psd2]. rewrite atleast_vec, ndim_vec, size_vec.
  cbn [map length flat_len pl_n plint Nat.eqb negb dat vec]. cbn [map to_num snum].
  change [Fin x0; Fin x1; Fin x2] with (map Fin [x0; x1; x2]).
  cbn [pyval]. rewrite (unpack_fin 2 [x0; x1; x2] 0) by reflexivity. cbn [bind].
  eexists. split; [reflexivity|]. simpl. f_equal. f_equal.
  unfold add_diag, gram, chol_of, diag_map. simpl. lra.
Qed.

Theorem psd_imprecise :
  flat_indices psd2 mask00 (Some true) = Ok [0; 1; 2] /\
  flat_indices psd2 mask00 (Some false) = Ok [0] /\
  forall x0 x1 x2 y1 y2 vv, exists a b,
    fold psd2 (vec (map Fin [x0; x1; x2])) (Some true) vv = Ok (FArr a) /\
    fold psd2 (vec (map Fin [x0; y1; y2])) (Some true) vv = Ok (FArr b) /\
    nth_error (dat a) 0 = nth_error (dat b) 0.
Proof.
  split; [reflexivity|]. split; [reflexivity|]. intros.
  destruct (psd2_fold x0 x1 x2 vv) as (a & Ha & Ea). destruct (psd2_fold x0 y1 y2 vv) as (b & Hb & Eb).
  exists a, b. rewrite Ea, Eb. auto.
Qed.
