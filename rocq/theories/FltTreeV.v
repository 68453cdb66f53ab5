(** * Folded float64 values of whole patterns pass validation. *)
From Coq Require Import Reals Lra Lia ZArith.
From Flocq Require Import Core IEEE754.BinarySingleNaN.
From Verif Require Import Base Num Nd ListFacts Pattern Spec PatFacts NumFacts Numeric Simplex Psd CholFacts NonFree Free
  Contract Indices2 AlongFacts Flt SpecFlt FltMat SpecFltMat FltChol SpecFltChol FltPat SpecFltPat FltBase FltNum FltNum2
  FltSimp2 FltMatProps FltLeaf FltLeafPsd FltTree.
Local Open Scope nat_scope.

Section TreeV.
Variables (np : np64) (gram : gram64).
Hypothesis C : np_contract np.
Hypothesis G : gram_contract gram.

Lemma pfold_blocks : forall s b fd x v, usable (PArr s b fd) -> modest (PArr s b fd) ->
  length x = pl_n (flat_len (PArr s b fd) true) -> small64 x -> pfold64 np gram (PArr s b fd) x = Ok v ->
  exists a, v = FArr a /\ shp a = s ++ folded_shape b /\ length (dat a) = prod s * prod (folded_shape b) /\
  forall i, i < prod s -> pfold64 np gram b (chunk (pl_n (flat_len b true)) x i) =
    Ok (FArr (mkNd (folded_shape b) (chunk (prod (folded_shape b)) (dat a) i))).
Proof.
  intros s b fd x v Hu M L S H. pose proof Hu as (Hs & Hp & Hd & Hub). cbn [modest] in M.
  rewrite pfold_arr_eq in H by auto. apply bind_ok in H. destruct H as (parts & Ep & H).
  apply bind_ok in H. destruct H as (a & Ea & H). inversion H; subst v. clear H. exists a. split; auto.
  unfold stack_reshape in Ea. rewrite flat_map_concat in Ea.
  destruct (prod (s ++ folded_shape b) =? length (concat (map dat parts))) eqn:El; [|discriminate Ea].
  apply Nat.eqb_eq in El. symmetry in El. inversion Ea; subst a. clear Ea. cbn [shp dat]. split; auto. rewrite prod_app in El. split; auto.
  set (k := prod (folded_shape b)) in *.
  assert (Lx : length x = prod s * pl_n (flat_len b true)).
  { rewrite L. cbn [flat_len plen_mul pl_n]. rewrite np_prod_int by auto. reflexivity. }
  apply mapM_ok_inv in Ep.
  assert (P : forall i a, i < prod s -> (v <- pfold64 np gram b (chunk (pl_n (flat_len b true)) x i);; as_arr v) = Ok a ->
    pfold64 np gram b (chunk (pl_n (flat_len b true)) x i) = Ok (FArr a) /\ shp a = folded_shape b /\ length (dat a) = k).
  { intros i a Hi E. 
    assert (Lc : length (chunk (pl_n (flat_len b true)) x i) = pl_n (flat_len b true)) by (apply (chunk_length _ _ _ _ (prod s)); auto).
    destruct (fold_near_all np gram C G None b (chunk (pl_n (flat_len b true)) x i) Hub M Lc (small_slice _ _ _ S)) as (v & w & Ev & Ew & Lf).
    destruct (fold_shape _ snum true None b _ _ Hub Hd Ew) as (b' & -> & Sb & Ob).
    destruct (leafwise_arr _ _ _ _ Hd Lf) as (a' & b'' & -> & Eb & Sa & _ & Ok'). inversion Eb; subst b''.
    rewrite Ev in E |- *. cbn in E. inversion E; subst a'. split; auto. split; auto.
    specialize (Ok' Ob). unfold nd_ok in Ok'. rewrite Ok', Sa. reflexivity. }
  assert (Q : forall o n l, o + n <= prod s -> Forall2 (fun i a => (v <- pfold64 np gram b (chunk (pl_n (flat_len b true)) x i);; as_arr v) = Ok a) (seq o n) l ->
     forall i, i < n -> pfold64 np gram b (chunk (pl_n (flat_len b true)) x (o + i)) =
       Ok (FArr (mkNd (folded_shape b) (chunk k (concat (map dat l)) i)))).
  { intros o n. revert o. induction n; intros o l Ho F i Hi; [lia|]. cbn [seq] in F. inversion F; subst.
    destruct (P o y ltac:(lia) H1) as (P1 & P2 & P3). cbn [map concat]. destruct i.
    - rewrite Nat.add_0_r, P1. do 2 f_equal. unfold chunk, slice. cbn [Nat.mul skipn].
      rewrite firstn_app, <- P3, firstn_all, Nat.sub_diag, firstn_O, app_nil_r. destruct y as [sy dy]. cbn [shp dat] in *. subst sy. reflexivity.
    - replace (o + Datatypes.S i) with (Datatypes.S o + i) by lia. rewrite (IHn (Datatypes.S o) l') by (auto; lia). do 2 f_equal.
      unfold chunk, slice. rewrite skipn_app. replace (Datatypes.S i * k) with (k + i * k) by lia.
      rewrite (skipn_all2 (dat y)) by lia. rewrite P3. replace (k + i * k - k) with (i * k) by lia. reflexivity. }
  intros i Hi. exact (Q 0 (prod s) parts ltac:(lia) Ep i Hi).
Qed.

Variable vv : option bool.
Definition valid_near (p : pat) : Prop := forall x v, usable p -> modest p -> unit_bounds p ->
  length x = pl_n (flat_len p true) -> small64 x -> pfold64 np gram p x = Ok v -> pvalid64 np p v vv = Ok None.

Lemma atleast_id : forall A (a : nd A), shp a <> [] -> atleast_1d a = a.
Proof. intros A [[|n s] d] H; [destruct H; auto|reflexivity]. Qed.

Lemma vfold_num : forall k s lb ub dv fd, valid_near (PNum k s lb ub dv fd).
Proof.
  intros k s lb ub dv fd x v (Hs & O) (El & Eu & Bl & Bu) U L S H. cbn [flat_len plint pl_n] in L.
  cbn [pfold64] in H. rewrite L, Nat.eqb_refl in H. cbn [negb] in H. inversion H; subst v. clear H.
  cbn [pvalid64]. rewrite atleast_id by auto. cbn [shp dat]. rewrite shape_eqb_refl. cbn [negb].
  destruct (vv_or vv dv); auto.
  assert (V : num64_valid (bound64 lb) (bound64 ub) (num64_fold np (bound64 lb) (bound64 ub) x) = true).
  { assert (NN : Forall not_nan x).
    { eapply Forall_impl; [|exact S]. intros a [Fa _]. apply fin_not_nan. exact Fa. }
    assert (low_ok (bound64 lb)) as Lo.
    { destruct (pyval lb) eqn:E; destruct (pyval ub); cbn [nlt] in O; try contradiction; first [left; eapply exact_fin; eauto; fail|right; apply exact_ninf; auto]. }
    assert (up_ok (bound64 ub)) as Uo.
    { destruct (pyval ub) eqn:E; destruct (pyval lb); cbn [nlt] in O; try contradiction; first [left; eapply exact_fin; eauto; fail|right; apply exact_pinf; auto]. }
    destruct U as [U|[U|[U1 U2]]]; try (apply num64_open; auto; fail).
    rewrite U1, U2. apply num64_valid_iff. unfold num64_fold. apply Forall_forall. intros y Hy. apply in_map_iff in Hy.
    destruct Hy as (a & <- & Ha). unfold small64 in S. rewrite Forall_forall in S. destruct (S a Ha) as [Fa Ba].
    destruct (unit_interval np C a Fa) as (_ & _ & V). { apply Rabs_le_inv in Ba. lra. }
    apply num64_valid_iff in V. inversion V; subst. auto. }
  unfold num64_valid in V. apply andb_true_iff in V. destruct V as [V1 V2]. apply negb_true_iff in V1, V2.
  rewrite V1, V2. reflexivity.
Qed.

Lemma vfold_simplex : forall n s dv fd, valid_near (PSimplex n s dv fd).
Proof.
  intros n s dv fd x v Hn M U L S H. cbn [usable modest] in Hn, M. cbn [flat_len] in L. rewrite simplex_flen in L.
  cbn [pfold64] in H. rewrite prod_app in H. cbn [prod fold_right] in H. rewrite Nat.mul_1_r, L, Nat.eqb_refl in H. cbn [negb] in H.
  inversion H; subst v. clear H. cbn [pvalid64 shp dat]. rewrite shape_eqb_refl. cbn [negb].
  destruct (vv_or vv dv); auto.
  assert (R : forall r, In r (chunks (n - 1) (prod s) x) -> moderate r /\ length r = n - 1).
  { intros r Hr. apply in_chunks in Hr. destruct Hr as (i & Hi & ->). rewrite <- and_comm. split.
    - apply (chunk_length _ _ _ _ (prod s)); auto.
    - split; [rewrite (chunk_length _ _ _ _ (prod s)) by auto; lia|apply small_slice; auto]. }
  assert (V : forall r, In r (map (simplex64_fold np) (chunks (n - 1) (prod s) x)) -> length r = n /\
     existsb (fun v => flt v fzero) r = false /\ flt tol64 (fabs (fsub (np_sum np r) fone)) = false).
  { intros r Hr. apply in_map_iff in Hr. destruct Hr as (y & <- & Hy). destruct (R y Hy) as [My Ly]. split.
    - unfold simplex64_fold. rewrite map_length. cbn [length]. lia.
    - pose proof (simplex_moderate_valid np C y My) as V. unfold simplex64_valid in V. apply andb_true_iff in V.
      destruct V as [V1 V2]. apply negb_true_iff in V1, V2. auto. }
  rewrite flat_map_concat. rewrite chunks_concat; [|intros r Hr; apply (V r Hr)|rewrite map_length; unfold chunks; rewrite map_length, seq_length; auto].
  replace (existsb (fun v => flt v fzero) (concat (map (simplex64_fold np) (chunks (n - 1) (prod s) x)))) with false.
  2:{ symmetry. apply not_true_iff_false. intros H. apply existsb_exists in H. destruct H as (a & Ha & H).
    apply in_concat in Ha. destruct Ha as (r & Hr & Ha). destruct (V r Hr) as (_ & V1 & _).
    apply not_true_iff_false in V1. apply V1. apply existsb_exists. exists a. auto. }
  match goal with |- (if ?e then _ else _) = _ => replace e with false; [reflexivity|] end.
  symmetry. apply not_true_iff_false. intros H. apply existsb_exists in H. destruct H as (r & Hr & H).
  destruct (V r Hr) as (_ & _ & V2). congruence.
Qed.

Lemma mat64_arr64 : forall n m i j, i < n -> j < n -> mat64 n (dat (arr64 n m)) i j = m i j.
Proof.
  intros n m i j Hi Hj. unfold mat64, arr64. cbn [dat].
  change (nth (i * n + j) (grid n m) fnan = m i j). apply grid_nth; auto.
Qed.

Lemma vfold_psd : forall sz fl dlb dv fd, valid_near (PPsd sz fl dlb dv fd).
Proof.
  intros sz fl dlb dv fd x v (Hf & c & Pc & _) (N & Ed & Bd) U L S H. cbn [flat_len plint pl_n] in L.
  cbn [pfold64] in H. rewrite L, Nat.eqb_refl in H. cbn [negb] in H. inversion H; subst v. clear H.
  cbn [pvalid64]. unfold arr64 at 1. cbn [shp]. rewrite shape_eqb_refl. cbn [negb]. destruct (vv_or vv dv); auto.
  destruct (exact_fin dlb c Ed Pc) as [Fl _].
  assert (L' : length x = T sz) by (rewrite L, Hf; reflexivity).
  pose proof (unpack64_valid np C gram G sz x (small_tame sz x N L' S) (bound64 dlb) Fl Bd) as V.
  set (m := unpack64 np gram sz (bound64 dlb) x) in *. unfold psd64_valid in V. apply andb_true_iff in V. destruct V as [V1 V2].
  apply negb_true_iff in V1.
  assert (E1 : existsb (fun i => flt (mat64 sz (dat (arr64 sz m)) i i) (bound64 dlb)) (seq 0 sz) = false).
  { apply not_true_iff_false. intros H. apply existsb_exists in H. destruct H as (i & Hi & H). pose proof Hi as Hi'. apply in_seq in Hi'.
    rewrite mat64_arr64 in H by lia. apply not_true_iff_false in V1. apply V1. apply existsb_exists. exists i. auto. }
  rewrite E1.
  assert (E2 : forallb (fun i => forallb (fun j => feq (mat64 sz (dat (arr64 sz m)) j i) (mat64 sz (dat (arr64 sz m)) i j)) (seq 0 sz)) (seq 0 sz) = true).
  { apply forallb_forall. intros i Hi. apply forallb_forall. intros j Hj.
    rewrite forallb_forall in V2. specialize (V2 i Hi). rewrite forallb_forall in V2. specialize (V2 j Hj).
    apply in_seq in Hi, Hj. rewrite !mat64_arr64 by lia. exact V2. }
  rewrite E2. reflexivity.
Qed.

Lemma vfold_items : forall its x off d, Forall (fun kq => valid_near (snd kq)) its -> NoDup (map fst its) ->
  all_items (fun _ q => usable q) its -> all_items (fun _ q => modest q) its -> all_items (fun _ q => unit_bounds q) its -> small64 x ->
  off + lsum (map (fun kq => pl_n (flat_len (snd kq) true)) its) <= length x ->
  fold_items (fun q y => pfold64 np gram q (dat y)) true x its (plint off) = Ok d ->
  all_items (fun k q => exists w, dict_get d k = Some w /\ pvalid64 np q w vv = Ok None) its.
Proof.
  induction its as [|[k q] its IHi]; intros x off d F ND U M B S L E; [exact I|].
  inversion F; subst. inversion ND; subst. destruct U as [Uq U]. destruct M as [Mq M]. destruct B as [Bq B].
  rewrite fold_items_cons in E by (apply usable_int; auto). unfold lsum in L. cbn [map snd fold_right] in L. cbn [snd] in H1.
  apply bind_ok in E. destruct E as (v & Ev & E). apply bind_ok in E. destruct E as (r & Er & E). inversion E; subst d. clear E.
  cbn [vec dat] in Ev. cbn [all_items]. split.
  - exists v. split. { cbn [dict_get]. rewrite key_eqb_refl. auto. }
    apply (H1 (slice x off (pl_n (flat_len q true)))); auto. { apply slice_length. lia. } { apply small_slice. auto. }
  - assert (A := IHi x (off + pl_n (flat_len q true)) r H2 H4 U M B S ltac:(unfold lsum; lia) Er).
    clear -A H3. cbn [fst] in H3.
    assert (Q : forall its, ~ In k (map fst its) ->
        all_items (fun k q => exists w, dict_get r k = Some w /\ pvalid64 np q w vv = Ok None) its ->
        all_items (fun k0 q => exists w, dict_get ((k, v) :: r) k0 = Some w /\ pvalid64 np q w vv = Ok None) its).
    { induction its0 as [|[k' q'] its' IH]; intros N B; cbn [all_items] in *; auto. destruct B as [(v' & B1 & B2) B].
      cbn [map fst] in N. split.
      - exists v'. rewrite !dict_get_cons_ne by (intros E; apply N; left; auto). auto.
      - apply IH; auto. intros I. apply N. right. auto. }
    apply Q; auto.
Qed.

Theorem valid_near_all : forall p, valid_near p.
Proof.
  apply (pat_ind' valid_near).
  - apply vfold_num.
  - apply vfold_simplex.
  - apply vfold_psd.
  - intros s b fd IH x v Hu M U L S H. pose proof Hu as (Hs & Hp & Hd & Hub).
    destruct (pfold_blocks s b fd x v Hu M L S H) as (a & -> & Sa & La & Bl).
    cbn [pvalid64]. unfold ndim. rewrite Sa. cbn [folded_shape]. rewrite Nat.eqb_refl, shape_eqb_refl. cbn [negb].
    apply (validate_cells_seq' _ (fun sub => pvalid64 np b (FArr sub) vv) a s (folded_shape b) Sa).
    intros i Hi. apply (IH (chunk (pl_n (flat_len b true)) x i)); auto.
    { apply (chunk_length _ _ _ _ (prod s)); auto. rewrite L. cbn [flat_len plen_mul pl_n]. rewrite np_prod_int by auto. reflexivity. }
    { apply small_slice. auto. }
  - intros items l fl fd lk IH x v Hu M B L S H. pose proof Hu as (_ & ND & _ & Hfl & U). cbn [modest unit_bounds] in M, B.
    cbn [pfold64] in H. rewrite L, Nat.eqb_refl in H. cbn [negb] in H. apply bind_ok in H. destruct H as (d & Ed & H). inversion H; subst v.
    cbn [pvalid64]. apply validate_items_ok. eapply vfold_items; eauto.
    rewrite L. subst fl. cbn [flat_len plint pl_n]. lia.
Qed.
End TreeV.
