(** * Free vectors of whole patterns folded and flattened in float64. *)
From Coq Require Import Reals Lra Lia ZArith.
From Flocq Require Import Core IEEE754.BinarySingleNaN.
From Verif Require Import Base Num Nd ListFacts Pattern Spec PatFacts NumFacts Numeric Simplex Psd CholFacts NonFree Free
  Contract Indices2 AlongFacts Flt SpecFlt FltMat SpecFltMat FltChol SpecFltChol FltPat SpecFltPat SpecFltTrip FltBase FltNum FltNum2
  FltSimp2 FltMatProps FltLeaf FltLeafPsd FltTree FltTreeV FltPatProps FltTripLeaf FltTripMat.
Local Open Scope nat_scope.

Lemma T_split : forall n k, k < T n -> exists i j, j <= i < n /\ k = i * (i + 1) / 2 + j.
Proof.
  induction n; intros k H; [cbn in H; lia|]. rewrite T_S in H. destruct (Nat.lt_ge_cases k (T n)) as [L|L].
  - destruct (IHn k L) as (i & j & Hij & E). exists i, j. split; auto. lia.
  - exists n, (k - T n). split; [lia|]. unfold T in *. lia.
Qed.

Lemma within_of : forall c e x y, (forall k, k < length x -> (c <= nth k e 0)%R) ->
  Forall2 (fun a b => fin a /\ (Rabs (val a - val b) <= c)%R) y x -> within e x y.
Proof.
  intros c e x y He F. split; [apply (Forall2_len _ _ _ _ _ F)|].
  assert (Q : forall k, k < length x -> fin (nth k y fnan) /\ (Rabs (val (nth k y fnan) - val (nth k x fnan)) <= c)%R).
  { clear He. induction F; intros [|k] Hk; cbn [length nth] in *; try lia; auto. apply IHF. lia. }
  intros k Hk. destruct (Q k Hk) as [A B]. split; auto. eapply Rle_trans; [exact B|]. auto.
Qed.

Section TripTree.
Variables (np : np64) (gram : gram64) (chol : chol64).
Hypothesis C : np_contract np.
Hypothesis G : gram_contract gram.
Hypothesis Ch : chol_contract chol.
Variable vv : option bool.

Definition trip (p : pat) : Prop := forall x e v, usable p -> modest p -> length x = pl_n (flat_len p true) ->
  small64 x -> allows p x e -> pfold64 np gram p x = Ok v ->
  exists y, pflatten64 np chol p v vv = Ok y /\ within e x y.

Lemma flat_passed : forall p v y, pflatten64 np chol p v vv = Ok y -> pvalid64 np p v vv = Ok None.
Proof.
  intros p v y E. destruct p; cbn [pflatten64] in E; apply bind_ok in E; destruct E as ([m|] & E1 & E2); try discriminate E2; exact E1.
Qed.

Lemma trip_num : forall k s lb ub dv fd, trip (PNum k s lb ub dv fd).
Proof.
  intros k s lb ub dv fd x e v (Hs & O) (El & Eu & Bl & Bu) L S A H. cbn [flat_len plint pl_n] in L. cbn [allows] in A.
  cbn [pfold64] in H. rewrite L, Nat.eqb_refl in H. cbn [negb] in H. inversion H; subst v. clear H.
  unfold small64 in S. rewrite Forall_forall in S.
  assert (Q : forall k, k < length x -> _) by (intros i Hi; pose proof (S _ (nth_In x fnan Hi)) as [F1 F2];
    exact (num_trip np C lb ub (nth i x fnan) (nth i e 0%R) El Eu O Bl Bu F1 F2 (A i Hi))).
  cbv zeta in Q.
  assert (V : num64_valid (bound64 lb) (bound64 ub) (num64_fold np (bound64 lb) (bound64 ub) x) = true).
  { apply num64_valid_iff. unfold num64_fold. apply Forall_forall. intros y Hy. apply in_map_iff in Hy. destruct Hy as (a & <- & Ha).
    apply (In_nth _ _ fnan) in Ha. destruct Ha as (i & Hi & <-). destruct (Q i Hi) as (Q1 & Q2 & _). auto. }
  unfold num64_valid in V. apply andb_true_iff in V. destruct V as [V1 V2]. apply negb_true_iff in V1, V2.
  cbn [pflatten64 pvalid64]. rewrite atleast_id by auto. cbn [shp dat]. rewrite shape_eqb_refl. cbn [negb]. rewrite V1, V2.
  exists (map (unconstrain64 np (bound64 lb) (bound64 ub)) (num64_fold np (bound64 lb) (bound64 ub) x)). split.
  { destruct (vv_or vv dv); reflexivity. }
  unfold num64_fold. rewrite map_map. split; [apply map_length|]. intros i Hi.
  rewrite (nth_indep _ fnan (unconstrain64 np (bound64 lb) (bound64 ub) (constrain64 np (bound64 lb) (bound64 ub) fnan)))
    by (rewrite map_length; auto).
  rewrite (map_nth (fun z => unconstrain64 np (bound64 lb) (bound64 ub) (constrain64 np (bound64 lb) (bound64 ub) z))).
  destruct (Q i Hi) as (_ & _ & Q3 & Q4). auto.
Qed.

Lemma trip_simplex : forall n s dv fd, trip (PSimplex n s dv fd).
Proof.
  intros n s dv fd x e v Hn M L S A H. cbn [usable modest] in Hn, M. cbn [allows] in A. 
  pose proof H as H0. cbn [flat_len] in L. rewrite simplex_flen in L.
  cbn [pfold64] in H. rewrite prod_app in H. cbn [prod fold_right] in H. rewrite Nat.mul_1_r, L, Nat.eqb_refl in H. cbn [negb] in H.
  inversion H; subst v. clear H.
  pose proof (valid_near_all np gram C G vv (PSimplex n s dv fd) x _ Hn M I ltac:(cbn [flat_len]; rewrite simplex_flen; exact L) S H0) as V.
  cbn [pflatten64]. rewrite V. cbn [bind dat].
  assert (R : forall r, In r (chunks (n - 1) (prod s) x) -> moderate r /\ length r = n - 1).
  { intros r Hr. apply in_chunks in Hr. destruct Hr as (i & Hi & ->). rewrite <- and_comm. split.
    - apply (chunk_length _ _ _ _ (prod s)); auto.
    - split; [rewrite (chunk_length _ _ _ _ (prod s)) by auto; lia|apply small_slice; auto]. }
  eexists. split; [reflexivity|]. apply within_of with (c := (/ 1000000000000)%R); auto.
  rewrite (flat_map_concat _ _ (simplex64_fold np)). rewrite chunks_concat.
  2:{ intros r Hr. apply in_map_iff in Hr. destruct Hr as (y & <- & Hy). destruct (R y Hy) as [My Ly].
      unfold simplex64_fold. rewrite map_length. cbn [length]. lia. }
  2:{ rewrite map_length. unfold chunks. rewrite map_length, seq_length. auto. }
  rewrite <- (concat_chunks _ (n - 1) (prod s) x L) at 2. revert R. generalize (chunks (n - 1) (prod s) x) as l.
  induction l as [|r l IH]; intros R; cbn [map flat_map concat]; [constructor|].
  apply Forall2_app; [|apply IH; intros; apply R; right; auto].
  destruct (simplex_moderate_round_trip np C r) as (y & Ey & F). { apply R. left. auto. }
  unfold simplex64_flatten in Ey. destruct (simplex64_valid np (simplex64_fold np r)); [|discriminate Ey].
  destruct (simplex64_fold np r); [discriminate Ey|]. inversion Ey; subst y. exact F.
Qed.

Lemma trip_psd : forall sz fl dlb dv fd, trip (PPsd sz fl dlb dv fd).
Proof.
  intros sz fl dlb dv fd x e v Hu Mo L S A H. pose proof Hu as (Hf & c & Pc & _). pose proof Mo as (N & Ed & Bd).
  pose proof (valid_near_all np gram C G vv _ _ _ Hu Mo I L S H) as V.
  cbn [allows] in A. cbn [flat_len plint pl_n] in L. cbn [pfold64] in H. rewrite L, Nat.eqb_refl in H. cbn [negb] in H. inversion H; subst v. clear H.
  destruct (exact_fin dlb c Ed Pc) as [Fl _].
  assert (L' : length x = T sz) by (rewrite L, Hf; reflexivity).
  cbn [pflatten64]. rewrite V. cbn [bind]. clear V.
  destruct A as (K & (W & Inv & HK) & Cond & A).
  destruct (psd_trip np gram chol C G Ch sz (bound64 dlb) x W K N L' S Fl Bd Inv HK Cond
    (mat64 sz (dat (arr64 sz (unpack64 np gram sz (bound64 dlb) x)))) ltac:(intros; apply mat64_arr64; auto)) as (y & Ey & Ly & Q).
  exists y. split.
  { unfold flatten64 in Ey. destruct (psd64_valid _ _ _); [exact Ey|discriminate Ey]. }
  split; auto. intros k Hk. rewrite L' in Hk. destruct (T_split sz k Hk) as (i & j & Hij & ->).
  destruct (Q i j Hij) as [Q1 Q2]. split; auto. eapply Rle_trans; [exact Q2|]. auto.
Qed.

Lemma trip_arr : forall s b fd, trip b -> trip (PArr s b fd).
Proof.
  intros s b fd IH x e v Hu M L S A H. pose proof Hu as (Hs & Hp & Hd & Hub).
  destruct (pfold_blocks np gram C G s b fd x v Hu M L S H) as (a & -> & Sa & La & Bl). cbn [modest] in M. cbn [allows] in A.
  set (n := pl_n (flat_len b true)) in *. set (k := prod (folded_shape b)) in *.
  assert (Lx : length x = prod s * n).
  { rewrite L. cbn [flat_len plen_mul pl_n]. rewrite np_prod_int by auto. reflexivity. }
  assert (Q : forall i, i < prod s -> exists y, pflatten64 np chol b (FArr (mkNd (folded_shape b) (chunk k (dat a) i))) vv = Ok y /\
    within (slice e (i * n) n) (chunk n x i) y).
  { intros i Hi. apply IH; auto.
    - apply (chunk_length _ _ _ _ (prod s)); auto.
    - apply small_slice. auto.
    - apply A. auto. }
  assert (V : pvalid64 np (PArr s b fd) (FArr a) vv = Ok None).
  { cbn [pvalid64]. unfold ndim. rewrite Sa. cbn [folded_shape]. rewrite Nat.eqb_refl, shape_eqb_refl. cbn [negb].
    apply (validate_cells_seq' _ (fun sub => pvalid64 np b (FArr sub) vv) a s (folded_shape b) Sa).
    intros i Hi. destruct (Q i Hi) as (y & Ey & _). eapply flat_passed. exact Ey. }
  cbn [pflatten64]. rewrite V. cbn [bind].
  destruct (mapM_exists _ _ (fun i => pflatten64 np chol b (FArr (mkNd (folded_shape b) (chunk k (dat a) i))) vv)
    (fun i y => within (slice e (i * n) n) (chunk n x i) y) (seq 0 (prod s))) as (parts & Ep & Fp).
  { intros i Hi. apply in_seq in Hi. apply Q. lia. }
  assert (Ep' : mapM (fun item => pflatten64 np chol b (FArr (subarr a item (length s))) vv) (indices s) = Ok parts).
  { rewrite <- Ep. rewrite <- (mapM_indices _ (fun i => pflatten64 np chol b (FArr (mkNd (folded_shape b) (chunk k (dat a) i))) vv)).
    apply mapM_ext. intros it _. rewrite (subarr_chunk _ a it s (folded_shape b)) by auto. reflexivity. }
  rewrite Ep'. cbn [bind].
  assert (Lp : length parts = prod s) by (apply Forall2_len in Fp; rewrite seq_length in Fp; auto).
  exists (concat parts). split. { apply Contract.hstack_ok. split; auto. intros ->. cbn in Lp. lia. }
  assert (W : forall i, i < prod s -> within (slice e (i * n) n) (chunk n x i) (nth i parts [])).
  { assert (W' : forall o m l, Forall2 (fun i y => within (slice e (i * n) n) (chunk n x i) y) (seq o m) l ->
      forall i, i < m -> within (slice e ((o + i) * n) n) (chunk n x (o + i)) (nth i l [])).
    { clear. intros o m. revert o. induction m; intros o l H i Hi; [lia|]. cbn [seq] in H. inversion H; subst. destruct i.
      - rewrite Nat.add_0_r. auto.
      - cbn [nth]. replace (o + Datatypes.S i) with (Datatypes.S o + i) by lia. apply IHm; auto. lia. }
    intros i Hi. apply (W' 0 (prod s) parts Fp i Hi). }
  assert (Un : forall z, In z parts -> length z = n).
  { intros z Hz. apply (In_nth _ _ []) in Hz. destruct Hz as (i & Hi & <-). rewrite Lp in Hi. destruct (W i Hi) as [W1 _].
    rewrite W1. apply (chunk_length _ _ _ _ (prod s)); auto. }
  split. { rewrite (concat_length_uniform _ n) by apply Un. rewrite Lp. auto. }
  intros j Hj. rewrite Lx in Hj. assert (n <> 0) by (intros E; rewrite E in Hj; lia).
  set (i := j / n). assert (Hi : i < prod s) by (apply Nat.div_lt_upper_bound; lia).
  set (r := j mod n). assert (Hr : r < n) by (apply Nat.mod_upper_bound; auto).
  assert (Ej : j = i * n + r) by (unfold i, r; rewrite (Nat.div_mod j n) at 1 by auto; lia).
  destruct (W i Hi) as [_ W2]. rewrite (chunk_length _ _ _ _ (prod s)) in W2 by auto. specialize (W2 r Hr).
  rewrite <- (chunk_concat _ n parts i []) in W2 by (auto; lia). unfold chunk in W2. rewrite !nth_slice in W2 by auto.
  rewrite <- Ej in W2. exact W2.
Qed.

Lemma nth_drop : forall A n (x : list A) j d, nth j (skipn n x) d = nth (n + j) x d.
Proof. induction n; intros [|a x] j d; cbn; auto. destruct j; auto. Qed.
Lemma drop_drop : forall A n m (x : list A), skipn n (skipn m x) = skipn (m + n) x.
Proof. intros A n m. induction m; intros [|a x]; cbn; auto. destruct n; auto. Qed.

Fixpoint allows_items (items : list (key * pat)) (x : list f64) (e : list R) : Prop :=
  match items with
  | [] => True
  | (_, q) :: r =>
      let n := pl_n (flat_len q true) in
      allows q (firstn n x) (firstn n e) /\ allows_items r (skipn n x) (skipn n e)
  end.

Lemma trip_items : forall its x e off d, Forall (fun kq => trip (snd kq)) its -> NoDup (map fst its) ->
  all_items (fun _ q => usable q) its -> all_items (fun _ q => modest q) its -> small64 x ->
  off + lsum (map (fun kq => pl_n (flat_len (snd kq) true)) its) = length x ->
  allows_items its (skipn off x) (skipn off e) ->
  fold_items (fun q y => pfold64 np gram q (dat y)) true x its (plint off) = Ok d ->
  exists parts, Forall2 (fun kq y => exists w, dict_get d (fst kq) = Some w /\ pflatten64 np chol (snd kq) w vv = Ok y) its parts /\
    within (skipn off e) (skipn off x) (concat parts).
Proof.
  induction its as [|[k q] its IHi]; intros x e off d F ND U M S L A E.
  { exists []. split; [constructor|]. cbn in L. split; rewrite skipn_length; cbn; [lia|]. intros; lia. }
  inversion F; subst. inversion ND; subst. destruct U as [Uq U]. destruct M as [Mq M]. destruct A as [Aq A].
  rewrite fold_items_cons in E by (apply usable_int; auto). unfold lsum in L. cbn [map snd fold_right] in L. cbn [snd] in H1.
  apply bind_ok in E. destruct E as (v & Ev & E). apply bind_ok in E. destruct E as (r & Er & E). inversion E; subst d. clear E.
  cbn [vec dat] in Ev. set (n := pl_n (flat_len q true)) in *.
  rewrite !drop_drop in A.
  destruct (H1 (slice x off n) (slice e off n) v Uq Mq ltac:(apply slice_length; lia) (small_slice _ _ _ S) Aq Ev) as (y & Ey & Ly & Wy).
  destruct (IHi x e (off + n) r H2 H4 U M S ltac:(unfold lsum; lia) A Er) as (parts & Fp & Lp & Wp).
  rewrite slice_length in Ly by lia. rewrite skipn_length in Lp.
  exists (y :: parts). split.
  - constructor. { exists v. cbn [fst snd dict_get]. rewrite key_eqb_refl. auto. }
    clear -Fp H3. cbn [fst] in H3. induction Fp as [|[k' q'] z its parts (w & D & E) Fp IH]; constructor.
    + exists w. cbn [fst snd] in *. rewrite dict_get_cons_ne by (intros X; apply H3; left; auto). auto.
    + apply IH. intros X. apply H3. right. auto.
  - cbn [concat]. split. { rewrite app_length, skipn_length, Lp, Ly. lia. }
    intros j Hj. rewrite skipn_length in Hj. rewrite !nth_drop.
    destruct (Nat.lt_ge_cases j n) as [Q|Q].
    + rewrite app_nth1 by lia. specialize (Wy j). rewrite slice_length in Wy by lia. specialize (Wy Q).
      rewrite !nth_slice in Wy by auto. exact Wy.
    + rewrite app_nth2 by lia. rewrite Ly. specialize (Wp (j - n)). rewrite skipn_length in Wp. specialize (Wp ltac:(lia)).
      rewrite !nth_drop in Wp. replace (off + n + (j - n)) with (off + j) in Wp by lia. exact Wp.
Qed.

Theorem trip_all : forall p, trip p.
Proof.
  apply (pat_ind' trip).
  - apply trip_num.
  - apply trip_simplex.
  - apply trip_psd.
  - intros s b fd IH. apply trip_arr. auto.
  - intros items l fl fd lk IH x e v Hu M L S A H. pose proof Hu as (Hne & ND & _ & Hfl & U). cbn [modest] in M.
    cbn [pfold64] in H. rewrite L, Nat.eqb_refl in H. cbn [negb] in H. apply bind_ok in H. destruct H as (d & Ed & H). inversion H; subst v.
    destruct (trip_items items x e 0 d IH ND U M S) as (parts & Fp & W); auto.
    { rewrite L. subst fl. cbn [flat_len plint pl_n]. lia. }
    assert (V : pvalid64 np (PDict items l fl fd lk) (FDict d) vv = Ok None).
    { cbn [pvalid64]. apply validate_items_ok. clear -Fp. induction Fp as [|[k q] y its parts (w & D & E) Fp IH]; cbn [all_items]; auto.
      split; auto. exists w. split; auto. eapply flat_passed. exact E. }
    cbn [pflatten64]. rewrite V. cbn [bind].
    rewrite (proj2 (flatten_items_inv _ (fun q w => pflatten64 np chol q w vv) d items parts) Fp). cbn [bind].
    exists (concat parts). split; auto. apply Contract.hstack_ok. split; auto. intros ->. inversion Fp; subst. contradiction.
Qed.
End TripTree.

Theorem free_trip : forall np, np_contract np -> forall gram, gram_contract gram -> forall chol, chol_contract chol ->
  forall p x e vv, usable p -> modest p -> flat_length p (Some true) = Ok (plint (length x)) -> small64 x -> allows p x e ->
  exists v y, pfold64 np gram p x = Ok v /\ pvalid64 np p v vv = Ok None /\ pflatten64 np chol p v vv = Ok y /\ within e x y.
Proof.
  intros np C gram G chol Ch p x e vv Hu M L S A. apply len_ok in L.
  destruct (fold_near_all np gram C G vv p x Hu M L S) as (v & w & E & _).
  destruct (trip_all np gram chol C G Ch vv p x e v Hu M L S A E) as (y & Ey & W). exists v, y. split; auto. split; auto.
  eapply flat_passed. exact Ey.
Qed.
