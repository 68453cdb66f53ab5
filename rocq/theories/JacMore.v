(** * Products of the Jacobians, log determinants, error cases. *)
From Coq Require Import Reals Lra Lia.
From Verif Require Import Base Num Nd Numeric Simplex Psd Pattern Spec ListFacts PatFacts
  NonFree NumFacts CholFacts Free Contract Indices2 Jac SpecJac JacBase JacFacts.
Local Open Scope list_scope.
Local Open Scope nat_scope.

Definition real_of (x : num) : R := match x with Fin r => r | _ => 0%R end.

Lemma fin_real : forall J i j, finite_entries J -> i < m_rows J -> j < m_cols J ->
  m_at J i j = Fin (real_of (m_at J i j)).
Proof. intros J i j H Hi Hj. destruct (H i j Hi Hj) as (d & ->). auto. Qed.

Lemma nsum_seq : forall n f, nsum (map (fun k => Fin (f k)) (seq 0 n)) = Fin (Rsum n f).
Proof.
  intros. rewrite <- (map_map f Fin), nsum_fin. f_equal.
  induction n; auto. rewrite seq_S, map_app, Rlsum_app, IHn. simpl. lra.
Qed.

Lemma mat_prod_real : forall a b i j f g,
  (forall k, k < m_cols a -> m_at a i k = Fin (f k)) ->
  (forall k, k < m_cols a -> m_at b k j = Fin (g k)) ->
  mat_prod a b i j = Fin (Rsum (m_cols a) (fun k => f k * g k)%R).
Proof.
  intros a b i j f g Ha Hb. unfold mat_prod. rewrite <- nsum_seq. f_equal.
  apply map_ext_in. intros k Hk. apply in_seq in Hk. rewrite Ha, Hb by lia. auto.
Qed.

Lemma Rsum_add : forall n m f, (Rsum (n + m) f = Rsum n f + Rsum m (fun k => f (n + k)%nat))%R.
Proof.
  induction m; intros f; [rewrite Nat.add_0_r; simpl; lra|].
  rewrite Nat.add_succ_r. cbn [Rsum]. rewrite IHm. lra.
Qed.

Lemma block2_fin : forall a b, finite_entries a -> finite_entries b -> finite_entries (block2 a b).
Proof.
  intros a b Ha Hb i j Hi Hj. cbn [block2 m_at m_rows m_cols] in *.
  destruct (Nat.ltb_spec i (m_rows a)); destruct (Nat.ltb_spec j (m_cols a)); eauto.
  apply Hb; lia.
Qed.

Lemma block2_identity : forall a b a' b' n n',
  finite_entries a -> finite_entries b -> finite_entries a' -> finite_entries b' ->
  product_is_identity a b n -> product_is_identity a' b' n' ->
  product_is_identity (block2 a a') (block2 b b') (n + n').
Proof.
  intros a b a' b' n n' Fa Fb Fa' Fb' (R1 & C1 & M1 & P1) (R2 & C2 & M2 & P2).
  split; [simpl; lia|]. split; [simpl; lia|]. split; [simpl; lia|]. intros i j Hi Hj.
  pose proof (block2_fin a a' Fa Fa') as FA. pose proof (block2_fin b b' Fb Fb') as FB.
  rewrite (mat_prod_real _ _ i j (fun k => real_of (m_at (block2 a a') i k))
             (fun k => real_of (m_at (block2 b b') k j))).
  2:{ intros. apply fin_real; auto. simpl; lia. }
  2:{ intros k Hk. apply fin_real; auto; simpl in *; lia. }
  f_equal. change (m_cols (block2 a a')) with (m_cols a + m_cols a'). rewrite Rsum_add.
  cbn [block2 m_at].
  assert (forall i j, i < n -> j < n -> Rsum (m_cols a) (fun k => real_of (m_at a i k) * real_of (m_at b k j))%R
     = (if i =? j then 1 else 0)%R) as Q1.
  { intros i0 j0 Hi0 Hj0. pose proof (P1 i0 j0 Hi0 Hj0) as E.
    rewrite (mat_prod_real _ _ i0 j0 (fun k => real_of (m_at a i0 k)) (fun k => real_of (m_at b k j0))) in E.
    - injection E. auto.
    - intros. apply fin_real; auto; lia.
    - intros. apply fin_real; auto; lia. }
  assert (forall i j, i < n' -> j < n' -> Rsum (m_cols a') (fun k => real_of (m_at a' i k) * real_of (m_at b' k j))%R
     = (if i =? j then 1 else 0)%R) as Q2.
  { intros i0 j0 Hi0 Hj0. pose proof (P2 i0 j0 Hi0 Hj0) as E.
    rewrite (mat_prod_real _ _ i0 j0 (fun k => real_of (m_at a' i0 k)) (fun k => real_of (m_at b' k j0))) in E.
    - injection E. auto.
    - intros. apply fin_real; auto; lia.
    - intros. apply fin_real; auto; lia. }
  destruct (Nat.ltb_spec i (m_rows a)) as [Hia|Hia];
  destruct (Nat.ltb_spec j (m_cols b)) as [Hjb|Hjb].
  - rewrite (Rsum_zero (m_cols a')), Rplus_0_r, <- (Q1 i j) by (try lia;
      intros k Hk; rewrite (proj2 (Nat.ltb_ge _ _)) by lia; simpl; ring).
    apply Rsum_ext. intros k Hk. rewrite (proj2 (Nat.ltb_lt k (m_cols a))) by lia.
    rewrite (proj2 (Nat.ltb_lt k (m_rows b))) by lia. auto.
  - rewrite (proj2 (Nat.eqb_neq i j)) by lia. rewrite !Rsum_zero; [ring| |].
    + intros k Hk. rewrite (proj2 (Nat.ltb_ge _ _)) by lia. simpl. ring.
    + intros k Hk. rewrite (proj2 (Nat.ltb_lt k (m_rows b))) by lia. simpl. ring.
  - rewrite (proj2 (Nat.eqb_neq i j)) by lia. rewrite !Rsum_zero; [ring| |].
    + intros k Hk. rewrite (proj2 (Nat.ltb_ge (m_cols a + k) (m_rows b))) by lia. simpl. ring.
    + intros k Hk. rewrite (proj2 (Nat.ltb_lt k (m_cols a))) by lia. simpl. ring.
  - rewrite (Rsum_zero (m_cols a)), Rplus_0_l.
    + transitivity (if i - n =? j - n then 1 else 0)%R.
      * rewrite <- Q2 by lia. apply Rsum_ext. intros k Hk.
        rewrite (proj2 (Nat.ltb_ge (m_cols a + k) (m_cols a))) by lia.
        rewrite (proj2 (Nat.ltb_ge (m_cols a + k) (m_rows b))) by lia.
        replace (m_cols a + k - m_cols a) with k by lia.
        replace (m_cols a + k - m_rows b) with k by lia. rewrite R1, C1. auto.
      * destruct (Nat.eqb_spec (i - n) (j - n)); destruct (Nat.eqb_spec i j); auto; lia.
    + intros k Hk. rewrite (proj2 (Nat.ltb_lt k (m_cols a))) by lia. simpl. ring.
Qed.

Lemma zero_identity : product_is_identity zero_mat zero_mat 0.
Proof. repeat split. intros. lia. Qed.

(** ** leaves *)
Lemma diags_fin : forall ds, finite_entries (diags (map Fin ds)).
Proof.
  intros ds i j Hi Hj. cbn [diags m_at m_rows m_cols] in *. rewrite map_length in *.
  destruct (i =? j); [rewrite nth_fin by auto|]; eauto.
Qed.

Lemma diags_identity : forall ds es, length es = length ds ->
  (forall i, i < length ds -> (nth i ds 0 * nth i es 0 = 1)%R) ->
  product_is_identity (diags (map Fin ds)) (diags (map Fin es)) (length ds).
Proof.
  intros ds es L H. split; [simpl; rewrite map_length; auto|]. split; [simpl; rewrite map_length; auto|].
  split; [simpl; rewrite !map_length; auto|]. intros i j Hi Hj.
  rewrite (mat_prod_real _ _ i j (fun k => if i =? k then nth i ds 0 else 0)%R
             (fun k => if k =? j then nth k es 0 else 0)%R).
  - f_equal. cbn [diags m_cols]. rewrite map_length. rewrite (Rsum_single _ _ i Hi).
    + rewrite Nat.eqb_refl. destruct (Nat.eqb_spec i j); [apply H; auto|ring].
    + intros k Hk Hki. rewrite (proj2 (Nat.eqb_neq i k)) by lia. ring.
  - intros k Hk. cbn [diags m_at m_cols] in *. rewrite map_length in Hk.
    destruct (i =? k); [rewrite nth_fin by auto|]; auto.
  - intros k Hk. cbn [diags m_at m_cols] in *. rewrite map_length in Hk.
    destruct (k =? j); [rewrite nth_fin by lia|]; auto.
Qed.

Lemma simplex_fin : forall fr s, Forall (Rlt 0) s -> finite_entries (simplex_jac fr (map Fin s)).
Proof.
  intros fr s Hs i j Hi Hj. destruct fr; cbn [simplex_jac m_at m_rows m_cols] in *; rewrite map_length in *.
  - unfold unconstrain_row_jac. destruct j.
    + rewrite nth_fin by lia. rewrite ndiv_fin; eauto.
      pose proof (Forall_nth' _ _ s 0 0%R Hs Hj). lra.
    + destruct (i =? j); eauto. rewrite nth_fin by lia. rewrite ndiv_fin; eauto.
      pose proof (Forall_nth' _ _ s (S j) 0%R Hs Hj). lra.
  - unfold constrain_row_jac. rewrite !nth_fin by lia. cbn [nmul]. destruct (i =? S j); cbn [nadd]; eauto.
Qed.

Lemma simplex_identity : forall s, s <> [] -> Forall (Rlt 0) s ->
  product_is_identity (simplex_jac true (map Fin s)) (simplex_jac false (map Fin s)) (length s - 1).
Proof.
  intros s Hne Hs. split; [simpl; rewrite map_length; auto|]. split; [simpl; rewrite map_length; auto|].
  split; [simpl; rewrite !map_length; auto|]. intros i j Hi Hj.
  assert (forall k, k < length s -> (0 < nth k s 0)%R) as Hp.
  { intros. apply (Forall_nth' _ (Rlt 0)); auto. }
  rewrite (mat_prod_real _ _ i j
    (fun k => match k with O => -1 / nth 0 s 0 | S k' => if i =? k' then 1 / nth k s 0 else 0 end)%R
    (fun k => -1 * (nth k s 0 * nth (S j) s 0) + (if k =? S j then nth k s 0 else 0))%R).
  - f_equal. cbn [simplex_jac m_cols]. rewrite map_length.
    destruct (length s) as [|m] eqn:L; [lia|]. rewrite Rsum_S_first. cbn [Nat.eqb].
    rewrite (Rsum_single m _ i).
    + rewrite Nat.eqb_refl. pose proof (Hp 0 ltac:(lia)). pose proof (Hp (S i) ltac:(lia)).
      destruct (Nat.eqb_spec i j) as [->|Hij]; field; lra.
    + lia.
    + intros k Hk Hki. rewrite (proj2 (Nat.eqb_neq i k)) by lia. ring.
  - intros k Hk. cbn [simplex_jac m_at m_cols] in *. rewrite map_length in Hk.
    unfold unconstrain_row_jac. destruct k.
    + rewrite nth_fin by lia. apply ndiv_fin. pose proof (Hp 0 Hk). lra.
    + destruct (i =? k); auto. rewrite nth_fin by lia. apply ndiv_fin. pose proof (Hp (S k) Hk). lra.
  - intros k Hk. cbn [simplex_jac m_at m_cols] in *. rewrite map_length in Hk.
    unfold constrain_row_jac. rewrite !nth_fin by lia. cbn [nmul].
    destruct (k =? S j); reflexivity.
Qed.

(** ** all patterns *)
Lemma inv_num : forall ad k s lb ub dv fd v,
  usable (PNum k s lb ub dv fd) -> interior (PNum k s lb ub dv fd) v ->
  jacobians_inverse ad (PNum k s lb ub dv fd) v /\
  exists ds, Forall (Rlt 0) ds /\
    jacobian ad true (PNum k s lb ub dv fd) v = Ok (diags (map Fin ds)) /\
    jacobian ad false (PNum k s lb ub dv fd) v = Ok (diags (map Fin (map Rinv ds))) /\
    length ds = prod s /\
    log_abs_det true (PNum k s lb ub dv fd) v = Ok (Fin (Rlsum (map ln ds))) /\
    log_abs_det false (PNum k s lb ub dv fd) v = Ok (Fin (Rlsum (map ln (map Rinv ds)))).
Proof.
  intros ad k s lb ub dv fd [a|dct] Hu H; [|contradiction].
  pose proof (interior_fv_arr _ _ Hu H) as (Hok & Hsf).
  assert (length (dat a) = prod s) as Hlen.
  { unfold nd_ok in Hok. rewrite Hok. simpl in Hsf. destruct Hsf as [->|[-> ->]]; auto. }
  destruct H as (_ & Hb).
  assert (exists ds, Forall (Rlt 0) ds /\ length ds = length (dat a) /\
    num_jac_array true (pyval lb) (pyval ub) a = map Fin ds /\
    num_jac_array false (pyval lb) (pyval ub) a = map Fin (map Rinv ds)) as (ds & Hd & Ld & E1 & E2).
  { unfold num_jac_array. revert Hb. generalize (dat a). clear. induction l as [|x l IH]; intros Hb.
    - exists []. repeat split; auto.
    - inversion Hb; subst. destruct H1 as ((r & ->) & Hlb & Hub).
      destruct (jac1_inverse _ _ r Hlb Hub) as (d & Hd & D1 & D2).
      destruct (IH H2) as (ds & F & L & M1 & M2). exists (d :: ds).
      cbn [map length]. rewrite D1, D2, M1, M2, L. repeat split; auto. }
  assert (forall es, Forall (Rlt 0) es ->
    nsum (map (fun x => nlog (nabs x)) (map Fin es)) = Fin (Rlsum (map ln es))) as Hlog.
  { clear. intros es H. rewrite map_map, <- nsum_fin, map_map. f_equal. apply map_ext_in.
    intros x Hx. rewrite Forall_forall in H. pose proof (H x Hx). cbn [nabs].
    rewrite Rabs_right by lra. apply nlog_pos. auto. }
  assert (Forall (Rlt 0) (map Rinv ds)) as Hd'.
  { apply Forall_forall. intros x Hx. apply in_map_iff in Hx. destruct Hx as (y & <- & Hy).
    rewrite Forall_forall in Hd. apply Rinv_0_lt_compat. auto. }
  split.
  - exists (diags (map Fin ds)), (diags (map Fin (map Rinv ds))). cbn [jacobian]. rewrite E1, E2.
    split; auto. split; auto. split; [apply diags_fin|]. split; [apply diags_fin|].
    cbn [flat_len plint pl_n]. unfold plint. cbn [pl_n].
    replace (prod s) with (length ds) by lia. apply diags_identity; [rewrite map_length; auto|].
    intros i Hi. rewrite (nth_map_gen _ _ Rinv _ _ 0%R 0%R) by auto.
    pose proof (Forall_nth' _ _ ds i 0%R Hd Hi). field. lra.
  - exists ds. split; auto. cbn [jacobian log_abs_det]. unfold num_log_det. rewrite E1, E2, !Hlog by auto.
    repeat split; auto. lia.
Qed.

Lemma bdiag_fin : forall Js, Forall finite_entries Js -> finite_entries (bdiag Js).
Proof.
  induction Js as [|J Js IH]; intros H.
  - intros i j Hi. simpl in Hi. lia.
  - inversion H; subst. apply block2_fin; auto.
Qed.

Lemma inv_simplex : forall ad n s dv fd v,
  usable (PSimplex n s dv fd) -> 0 < prod s -> interior (PSimplex n s dv fd) v ->
  jacobians_inverse ad (PSimplex n s dv fd) v.
Proof.
  intros ad n s dv fd [a|dct] Hu Hs H; [|contradiction].
  destruct H as (Hsh & rows & Lr & Ed & Hr). cbn [usable] in Hu.
  assert (forall r, In r rows -> length r = n) as Hrn.
  { intros r Hin. rewrite Forall_forall in Hr. apply (Hr r Hin). }
  assert (forall fr, map (fun item => simplex_jac fr (dat (subarr a item (length s)))) (indices s)
          = map (fun r => simplex_jac fr (map Fin r)) rows) as EJ.
  { intros fr. transitivity (map (simplex_jac fr) (chunks n (prod s) (dat a))).
    - unfold chunks. rewrite map_map, <- ravel_indices, map_map. apply map_ext. intros it.
      rewrite (subarr_chunk _ a it s [n]) by auto. cbn [dat prod fold_right].
      rewrite Nat.mul_1_r. auto.
    - rewrite Ed, chunks_map, chunks_concat, map_map by auto. auto. }
  assert (forall fr, jacobian ad fr (PSimplex n s dv fd) (FArr a)
     = Ok (bdiag (map (fun r => simplex_jac fr (map Fin r)) rows))) as HJ.
  { intros fr. cbn [jacobian]. rewrite Hsh, shape_eqb_refl. cbn [negb]. rewrite EJ.
    apply block_diag_ok. destruct rows; [simpl in Lr; lia|discriminate]. }
  exists (bdiag (map (fun r => simplex_jac true (map Fin r)) rows)),
    (bdiag (map (fun r => simplex_jac false (map Fin r)) rows)).
  split; auto. split; auto.
  assert (forall fr, Forall finite_entries (map (fun r => simplex_jac fr (map Fin r)) rows)) as HF.
  { intros fr. apply Forall_forall. intros J HJ'. apply in_map_iff in HJ'. destruct HJ' as (r & <- & Hin).
    apply simplex_fin. rewrite Forall_forall in Hr. apply (Hr r Hin). }
  split; [apply bdiag_fin; auto|]. split; [apply bdiag_fin; auto|].
  cbn [flat_len]. rewrite simplex_flen, <- Lr.
  clear EJ HJ Ed Lr HF. induction rows as [|r rows IH]; [apply zero_identity|].
  inversion Hr as [|? ? (L & Hp & _) Hr']; subst. cbn [map].
  change (bdiag (?J :: ?Js)) with (block2 J (bdiag Js)).
  cbn [length Nat.mul].
  apply (block2_identity (simplex_jac true (map Fin r)) (simplex_jac false (map Fin r))
           (bdiag (map (fun r0 => simplex_jac true (map Fin r0)) rows))
           (bdiag (map (fun r0 => simplex_jac false (map Fin r0)) rows))).
  - apply simplex_fin; auto.
  - apply simplex_fin; auto.
  - apply bdiag_fin. apply Forall_forall. intros J HJ'. apply in_map_iff in HJ'. destruct HJ' as (r' & <- & Hin).
    apply simplex_fin. rewrite Forall_forall in Hr'. apply (Hr' r' Hin).
  - apply bdiag_fin. apply Forall_forall. intros J HJ'. apply in_map_iff in HJ'. destruct HJ' as (r' & <- & Hin).
    apply simplex_fin. rewrite Forall_forall in Hr'. apply (Hr' r' Hin).
  - apply simplex_identity; auto. intros ->. simpl in Hu. lia.
  - apply IH; auto. intros. apply Hrn. right; auto.
Qed.

Lemma inv_items : forall ad d its,
  all_items (fun k q => exists w, dict_get d k = Some w /\ jacobians_inverse ad q w) its ->
  exists Js1 Js2, jac_items (jacobian ad true) d its = Ok Js1 /\
    jac_items (jacobian ad false) d its = Ok Js2 /\
    length Js1 = length its /\ length Js2 = length its /\
    finite_entries (bdiag Js1) /\ finite_entries (bdiag Js2) /\
    product_is_identity (bdiag Js1) (bdiag Js2)
      (lsum (map (fun kq => pl_n (flat_len (snd kq) true)) its)).
Proof.
  intros ad d. induction its as [|[k q] its IH]; intros H.
  - exists [], []. split; auto. split; auto. split; auto. split; auto.
    split; [intros i j Hi; simpl in Hi; lia|]. split; [intros i j Hi; simpl in Hi; lia|]. apply zero_identity.
  - destruct H as ((w & Hw & J1 & J2 & E1 & E2 & F1 & F2 & P) & H).
    destruct (IH H) as (Js1 & Js2 & G1 & G2 & L1 & L2 & FF1 & FF2 & PP).
    exists (J1 :: Js1), (J2 :: Js2). cbn [jac_items map snd length]. rewrite Hw, E1, E2, G1, G2, L1, L2. cbn [bind].
    split; auto. split; auto. split; auto. split; auto.
    split; [apply (block2_fin J1 (bdiag Js1)); auto|]. split; [apply (block2_fin J2 (bdiag Js2)); auto|].
    apply (block2_identity J1 J2 (bdiag Js1) (bdiag Js2)); auto.
Qed.

Lemma inv_cells : forall ad b (g : list nat -> fv num) its,
  (forall it, In it its -> jacobians_inverse ad b (g it)) ->
  exists Js1 Js2, mapM (fun it => jacobian ad true b (g it)) its = Ok Js1 /\
    mapM (fun it => jacobian ad false b (g it)) its = Ok Js2 /\
    length Js1 = length its /\ length Js2 = length its /\
    finite_entries (bdiag Js1) /\ finite_entries (bdiag Js2) /\
    product_is_identity (bdiag Js1) (bdiag Js2) (length its * pl_n (flat_len b true)).
Proof.
  intros ad b g. induction its as [|it its IH]; intros H.
  - exists [], []. split; auto. split; auto. split; auto. split; auto.
    split; [intros i j Hi; simpl in Hi; lia|]. split; [intros i j Hi; simpl in Hi; lia|]. apply zero_identity.
  - destruct (H it (or_introl eq_refl)) as (J1 & J2 & E1 & E2 & F1 & F2 & P).
    destruct IH as (Js1 & Js2 & G1 & G2 & L1 & L2 & FF1 & FF2 & PP).
    { intros. apply H. right. auto. }
    exists (J1 :: Js1), (J2 :: Js2). cbn [mapM length]. rewrite E1, E2, G1, G2, L1, L2. cbn [bind].
    split; auto. split; auto. split; auto. split; auto.
    split; [apply (block2_fin J1 (bdiag Js1)); auto|]. split; [apply (block2_fin J2 (bdiag Js2)); auto|].
    apply (block2_identity J1 J2 (bdiag Js1) (bdiag Js2)); auto.
Qed.

Theorem all_inv : forall ad p v,
  usable p -> simplexes_nonempty p -> interior p v -> at_psd (jacobians_inverse ad) p v -> jacobians_inverse ad p v.
Proof.
  intros ad.
  apply (pat_ind' (fun p => forall v, usable p -> simplexes_nonempty p -> interior p v ->
    at_psd (jacobians_inverse ad) p v -> jacobians_inverse ad p v)).
  - intros. apply inv_num; auto.
  - intros. apply inv_simplex; auto.
  - intros sz fl dl dv fd v Hu _ Hi Hp. exact Hp.
  - intros s b fd IH [a|d] Hu Hn Hi Hp; [|contradiction].
    destruct (inv_cells ad b (fun it => FArr (subarr a it (length s))) (indices s))
      as (Js1 & Js2 & G1 & G2 & L1 & L2 & F1 & F2 & P).
    { intros it Hit. apply IH; auto; [apply Hu|]. eapply interior_block; eauto. }
    destruct Hu as (Hs & Hpp & Hd & Hub). destruct Hi as (Hsh & _).
    rewrite indices_length in L1, L2, P.
    exists (bdiag Js1), (bdiag Js2). cbn [jacobian]. rewrite Hsh, shape_eqb_refl. cbn [negb].
    rewrite G1, G2. cbn [bind].
    split; [apply block_diag_ok; intros ->; simpl in L1; lia|].
    split; [apply block_diag_ok; intros ->; simpl in L2; lia|].
    split; auto. split; auto. cbn [flat_len]. rewrite np_prod_int by auto. exact P.
  - intros items l fl fd lk IH [a|d] Hu Hn Hi Hp; [contradiction|].
    destruct Hu as (Hne & _ & Hl & Hfl & Hu). simpl in Hn, Hi, Hp.
    destruct (inv_items ad d items) as (Js1 & Js2 & G1 & G2 & L1 & L2 & F1 & F2 & P).
    { apply all_items_Forall in Hu, Hn, Hi, Hp. apply all_items_Forall.
      rewrite Forall_forall in *. intros kq Hkq. destruct (Hi _ Hkq) as (w & Hw & Hiw).
      exists w. auto. }
    exists (bdiag Js1), (bdiag Js2). cbn [jacobian]. rewrite G1, G2. cbn [bind].
    split; [apply block_diag_ok; intros ->; destruct items; [contradiction|discriminate]|].
    split; [apply block_diag_ok; intros ->; destruct items; [contradiction|discriminate]|].
    split; auto. split; auto. cbn [flat_len]. rewrite Hfl. exact P.
Qed.

(** ** determinants *)
Definition diag_fun (ds : list R) (i j : nat) : R := if i =? j then nth i ds 0%R else 0%R.

Definition Rlprod (l : list R) : R := fold_right Rmult 1%R l.

Lemma det_ext : forall n m m', (forall i j, i < n -> j < n -> m i j = m' i j) -> det n m = det n m'.
Proof.
  induction n; intros m m' H; auto. cbn [det]. apply Rsum_ext. intros j Hj. rewrite H by lia.
  f_equal. apply IHn. intros i k Hi Hk. destruct (k <? j); apply H; lia.
Qed.

Lemma det_diag : forall ds, det (length ds) (diag_fun ds) = Rlprod ds.
Proof.
  induction ds as [|d ds IH]; auto. cbn [length det Rlprod fold_right].
  rewrite (Rsum_single _ _ 0); [|lia|].
  2:{ intros j Hj H0. unfold diag_fun. destruct j; [lia|]. cbn [Nat.eqb]. ring. }
  fold (Rlprod ds). rewrite <- IH. unfold diag_fun at 1. cbn [Nat.eqb nth pow].
  rewrite Rmult_1_l. reflexivity.
Qed.

Lemma Rlprod_pos : forall ds, Forall (Rlt 0) ds -> (0 < Rlprod ds)%R.
Proof. induction 1; simpl; [lra|]. apply Rmult_lt_0_compat; auto. Qed.

Lemma ln_prod : forall ds, Forall (Rlt 0) ds -> ln (Rlprod ds) = Rlsum (map ln ds).
Proof.
  induction 1; simpl; [apply ln_1|]. rewrite ln_mult; auto; [|apply Rlprod_pos; auto].
  rewrite <- IHForall. auto.
Qed.

Lemma Rlprod_app : forall a b, (Rlprod (a ++ b) = Rlprod a * Rlprod b)%R.
Proof. induction a; intros; simpl; [ring|]. rewrite IHa. ring. Qed.

(** [J] is the diagonal matrix of [ds]. *)
Definition is_diag (J : matrix) (ds : list R) : Prop :=
  m_rows J = length ds /\ m_cols J = length ds /\
  forall i j, i < length ds -> j < length ds -> m_at J i j = Fin (diag_fun ds i j).

Lemma diags_is_diag : forall ds, is_diag (diags (map Fin ds)) ds.
Proof.
  intros ds. split; [simpl; apply map_length|]. split; [simpl; apply map_length|].
  intros i j Hi Hj. simpl. unfold diag_fun. destruct (i =? j); [rewrite nth_fin by auto|]; auto.
Qed.

Lemma block2_is_diag : forall a b ds es, is_diag a ds -> is_diag b es -> is_diag (block2 a b) (ds ++ es).
Proof.
  intros a b ds es (R1 & C1 & E1) (R2 & C2 & E2).
  split; [simpl; rewrite app_length; lia|]. split; [simpl; rewrite app_length; lia|].
  intros i j Hi Hj. rewrite app_length in *. cbn [block2 m_at]. rewrite R1, C1. unfold diag_fun.
  destruct (Nat.ltb_spec i (length ds)); destruct (Nat.ltb_spec j (length ds)).
  - rewrite E1 by auto. unfold diag_fun. rewrite app_nth1 by auto. auto.
  - rewrite (proj2 (Nat.eqb_neq i j)) by lia. auto.
  - rewrite (proj2 (Nat.eqb_neq i j)) by lia. auto.
  - rewrite E2 by lia. unfold diag_fun. rewrite app_nth2 by lia.
    destruct (Nat.eqb_spec i j); destruct (Nat.eqb_spec (i - length ds) (j - length ds)); auto; lia.
Qed.

Definition numeric_good ad (p : pat) (v : fv num) : Prop :=
  exists ds J1 J2, Forall (Rlt 0) ds /\
    jacobian ad true p v = Ok J1 /\ is_diag J1 ds /\
    jacobian ad false p v = Ok J2 /\ is_diag J2 (map Rinv ds) /\
    length ds = pl_n (flat_len p true) /\ length ds = pl_n (flat_len p false) /\
    log_abs_det true p v = Ok (Fin (Rlsum (map ln ds))) /\
    log_abs_det false p v = Ok (Fin (Rlsum (map ln (map Rinv ds)))).

Lemma numeric_good_items : forall ad d its,
  all_items (fun k q => exists w, dict_get d k = Some w /\ numeric_good ad q w) its ->
  exists ds Js1 Js2, Forall (Rlt 0) ds /\
    jac_items (jacobian ad true) d its = Ok Js1 /\ is_diag (bdiag Js1) ds /\
    jac_items (jacobian ad false) d its = Ok Js2 /\ is_diag (bdiag Js2) (map Rinv ds) /\
    length Js1 = length its /\ length Js2 = length its /\
    length ds = lsum (map (fun kq => pl_n (flat_len (snd kq) true)) its) /\
    length ds = lsum (map (fun kq => pl_n (flat_len (snd kq) false)) its) /\
    (forall acc, log_det_items (log_abs_det true) d its (Fin acc)
                 = Ok (Fin (acc + Rlsum (map ln ds)))) /\
    (forall acc, log_det_items (log_abs_det false) d its (Fin acc)
                 = Ok (Fin (acc + Rlsum (map ln (map Rinv ds))))).
Proof.
  intros ad d. induction its as [|[k q] its IH]; intros H.
  - exists [], [], []. split; auto. split; auto. split; [repeat split; intros; simpl in *; lia|].
    split; auto. split; [repeat split; intros; simpl in *; lia|].
    repeat split; auto; intros; cbn; f_equal; f_equal; ring.
  - destruct H as ((w & Hw & ds & J1 & J2 & Hd & E1 & D1 & E2 & D2 & L1 & L2 & G1 & G2) & H).
    destruct (IH H) as (ds' & Js1 & Js2 & Hd' & E1' & D1' & E2' & D2' & N1 & N2 & L1' & L2' & G1' & G2').
    exists (ds ++ ds'), (J1 :: Js1), (J2 :: Js2).
    cbn [jac_items log_det_items map snd length]. rewrite Hw, E1, E2, E1', E2'. cbn [bind].
    split; [apply Forall_app; auto|]. split; auto.
    split; [apply (block2_is_diag J1 (bdiag Js1)); auto|]. split; auto.
    split; [rewrite map_app; apply (block2_is_diag J2 (bdiag Js2)); auto|].
    split; [lia|]. split; [lia|]. rewrite app_length.
    split; [cbn [lsum fold_right]; unfold lsum in *; lia|].
    split; [cbn [lsum fold_right]; unfold lsum in *; lia|].
    split; intros acc.
    + rewrite G1. cbn [bind nadd]. rewrite G1', map_app, Rlsum_app. do 2 f_equal. ring.
    + rewrite G2. cbn [bind nadd]. rewrite G2', !map_app, Rlsum_app. do 2 f_equal. ring.
Qed.

Theorem all_numeric_good : forall ad p v,
  usable p -> numeric_only p -> interior p v -> numeric_good ad p v.
Proof.
  intros ad. apply (pat_ind' (fun p => forall v, usable p -> numeric_only p -> interior p v -> numeric_good ad p v)).
  - intros k s lb ub dv fd v Hu _ Hi.
    destruct (inv_num ad k s lb ub dv fd v Hu Hi) as (_ & ds & Hd & E1 & E2 & L & G1 & G2).
    exists ds, (diags (map Fin ds)), (diags (map Fin (map Rinv ds))).
    repeat (split; auto using diags_is_diag).
  - intros. contradiction.
  - intros. contradiction.
  - intros. contradiction.
  - intros items l fl fd lk IH [a|d] Hu Hn Hi; [contradiction|].
    destruct Hu as (Hne & _ & Hl & Hfl & Hu). simpl in Hn, Hi.
    destruct (numeric_good_items ad d items)
      as (ds & Js1 & Js2 & Hd & E1 & D1 & E2 & D2 & N1 & N2 & L1 & L2 & G1 & G2).
    { apply all_items_Forall in Hu, Hn, Hi. apply all_items_Forall.
      rewrite Forall_forall in *. intros kq Hkq. destruct (Hi _ Hkq) as (w & Hw & Hiw).
      exists w. auto. }
    exists ds, (bdiag Js1), (bdiag Js2). cbn [jacobian log_abs_det flat_len].
    rewrite E1, E2, Hl, Hfl, G1, G2. cbn [bind].
    split; auto. split; [apply block_diag_ok; intros ->; destruct items; [contradiction|discriminate]|].
    split; auto. split; [apply block_diag_ok; intros ->; destruct items; [contradiction|discriminate]|].
    split; auto. split; auto. split; auto. rewrite !Rplus_0_l. auto.
Qed.

Lemma log_det_not_numeric : forall fr p v, usable p -> interior p v ->
  (numeric_only p /\ exists x, log_abs_det fr p v = Ok x) \/
  (~ numeric_only p /\ log_abs_det fr p v = Err NotImplementedError).
Proof.
  intros fr. apply (pat_ind' (fun p => forall v, usable p -> interior p v ->
   (numeric_only p /\ exists x, log_abs_det fr p v = Ok x) \/
   (~ numeric_only p /\ log_abs_det fr p v = Err NotImplementedError))).
  - intros k s lb ub dv fd [a|d] Hu Hi; [|contradiction]. left. split; [exact I|]. eexists; reflexivity.
  - intros n s dv fd v _ _. right. split; auto.
  - intros sz fl dl dv fd v _ _. right. split; auto.
  - intros s b fd _ v _ _. right. split; auto.
  - intros items l fl fd lk IH [a|d] Hu Hi; [contradiction|].
    destruct Hu as (_ & _ & _ & _ & Hu). simpl in Hi. cbn [numeric_only log_abs_det].
    generalize (Fin 0) as acc. induction items as [|[k q] items IHi]; intros acc.
    + left. split; [exact I|]. eexists; reflexivity.
    + inversion IH as [|? ? Hq IH']; subst. destruct Hu as (Hu1 & Hu). destruct Hi as ((w & Hw & Hiw) & Hi).
      cbn [log_det_items all_items]. rewrite Hw. cbn [snd] in Hq.
      destruct (Hq w Hu1 Hiw) as [(N & x & E)|(N & E)]; rewrite E; cbn [bind].
      * destruct (IHi IH' Hu Hi (nadd acc x)) as [(N' & y & E')|(N' & E')].
        -- left. split; [split; auto|]. eauto.
        -- right. split; auto. intros (_ & K). auto.
      * right. split; auto. intros (K & _). auto.
Qed.
