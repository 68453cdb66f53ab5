(** * The Jacobian statements in the form of the property theorems. *)
From Coq Require Import Reals Lra Lia.
From Verif Require Import Base Num Nd Numeric Simplex Psd Pattern Spec ListFacts PatFacts NonFree
  NumFacts CholFacts Free Contract Jac SpecJac JacBase JacFacts JacMore JacPsd.
Local Open Scope list_scope.
Local Open Scope nat_scope.

Theorem numeric_jacobian : forall ad freeing k shape lb ub dv fd v,
  usable (PNum k shape lb ub dv fd) -> interior (PNum k shape lb ub dv fd) v ->
  exists J, jacobian ad freeing (PNum k shape lb ub dv fd) v = Ok J /\
    true_jacobian freeing (PNum k shape lb ub dv fd) v J /\
    m_rows J = prod shape /\ m_cols J = prod shape /\
    forall i j, i < prod shape -> j < prod shape -> i <> j -> m_at J i j = Fin 0.
Proof.
  intros ad fr k s lb ub dv fd v Hu Hi.
  destruct (good_true ad fr _ _ (good_num ad fr k s lb ub dv fd v Hu Hi)) as (J & HJ & HT & Hr & Hc).
  exists J. split; auto. split; auto. split; [rewrite Hr; destruct fr; auto|].
  split; [rewrite Hc; destruct fr; auto|].
  intros i j _ _ Hij. destruct v as [a|d]; [|contradiction]. cbn [jacobian] in HJ.
  injection HJ as <-. cbn [m_at diags]. rewrite (proj2 (Nat.eqb_neq i j)); auto.
Qed.

Theorem simplex_jacobian : forall ad freeing n shape dv fd v,
  usable (PSimplex n shape dv fd) -> 0 < prod shape -> interior (PSimplex n shape dv fd) v ->
  exists J Js, jacobian ad freeing (PSimplex n shape dv fd) v = Ok J /\
    true_jacobian freeing (PSimplex n shape dv fd) v J /\
    length Js = prod shape /\
    Forall (fun B => m_rows B = (if freeing then n - 1 else n) /\
                     m_cols B = (if freeing then n else n - 1)) Js /\
    block_diagonal Js J.
Proof.
  intros ad fr n s dv fd v Hu Hs Hi.
  destruct (good_true ad fr _ _ (good_simplex ad fr n s dv fd v Hu Hs Hi)) as (J & HJ & HT & Hr & Hc).
  destruct v as [a|d]; [|contradiction].
  exists J, (map (fun item => simplex_jac fr (dat (subarr a item (length s)))) (indices s)).
  split; auto. split; auto. split; [rewrite map_length, indices_length; auto|].
  pose proof (interior_fv_arr _ _ Hu Hi) as (Hok & _). destruct Hi as (Hsh & _).
  split.
  - apply Forall_forall. intros B HB. apply in_map_iff in HB. destruct HB as (it & <- & Hit).
    assert (length (dat (subarr a it (length s))) = n) as L.
    { rewrite (subarr_chunk _ a it s [n]) by auto. cbn [dat prod fold_right]. rewrite Nat.mul_1_r.
      apply slice_length. pose proof (ravel_lt s it Hit). unfold nd_ok in Hok.
      rewrite Hok, Hsh, prod_app. cbn [prod fold_right]. nia. }
    unfold simplex_jac. destruct fr; cbn [m_rows m_cols]; rewrite L; auto.
  - cbn [jacobian] in HJ. rewrite Hsh, shape_eqb_refl in HJ. cbn [negb] in HJ.
    rewrite block_diag_ok in HJ.
    + injection HJ as <-. apply bdiag_block.
    + intros E. apply map_eq_nil in E. apply (f_equal (@length _)) in E.
      rewrite indices_length in E. simpl in E. lia.
Qed.

Theorem simplex_jacobian_empty : forall ad freeing n shape dv fd a,
  prod shape = 0 -> shp a = shape ++ [n] ->
  jacobian ad freeing (PSimplex n shape dv fd) (FArr a) = Err ValueError.
Proof.
  intros ad fr n s dv fd a Hs Ha. cbn [jacobian]. rewrite Ha, shape_eqb_refl. cbn [negb].
  destruct (indices s) eqn:E; auto. apply (f_equal (@length _)) in E. rewrite indices_length in E.
  simpl in E. lia.
Qed.

Theorem inverse_jacobians : forall ad p v,
  usable p -> simplexes_nonempty p -> no_psd p -> interior p v ->
  exists J1 J2 : matrix, jacobian ad true p v = Ok J1 /\ jacobian ad false p v = Ok J2 /\
    product_is_identity J1 J2 (pl_n (flat_len p true)).
Proof.
  intros ad p v Hu Hs Hn Hi.
  destruct (all_inv ad p v Hu Hs Hi (no_psd_at _ _ _ Hn)) as (J1 & J2 & H1 & H2 & _ & _ & H3).
  exists J1, J2. auto.
Qed.

Theorem inverse_jacobians_psd : forall ad p v,
  usable p -> simplexes_nonempty p -> interior p v ->
  at_psd (jacobians_inverse ad) p v -> jacobians_inverse ad p v.
Proof. exact all_inv. Qed.

Theorem container_jacobian : forall ad freeing p v,
  usable p -> simplexes_nonempty p -> no_psd p -> interior p v ->
  exists J, jacobian ad freeing p v = Ok J /\ true_jacobian freeing p v J /\
    m_rows J = pl_n (flat_len p freeing) /\ m_cols J = pl_n (flat_len p (negb freeing)).
Proof.
  intros ad fr p v Hu Hs Hn Hi. apply good_true. apply all_good; auto. apply no_psd_at; auto.
Qed.

Theorem container_jacobian_psd : forall ad freeing p v,
  usable p -> simplexes_nonempty p -> interior p v ->
  at_psd (jacobian_true ad freeing) p v ->
  exists J, jacobian ad freeing p v = Ok J /\ true_jacobian freeing p v J /\
    m_rows J = pl_n (flat_len p freeing) /\ m_cols J = pl_n (flat_len p (negb freeing)).
Proof. intros ad fr p v Hu Hs Hi Hp. apply good_true. apply all_good; auto. Qed.

Theorem psd_unfreeing_differentiable :
  exists ad, forall p v, usable p -> interior p v -> at_psd (jacobian_true ad false) p v.
Proof. exists psd_ad. exact psd_ad_at. Qed.

Lemma jac_items_inv : forall jq d its Js, jac_items jq d its = Ok Js ->
  Forall2 (fun kq Jk => exists w, dict_get d (fst kq) = Some w /\ jq (snd kq) w = Ok Jk) its Js.
Proof.
  induction its as [|[k q] its IH]; intros Js H; cbn [jac_items] in H.
  - injection H as <-. constructor.
  - destruct (dict_get d k) as [w|] eqn:E; [|discriminate].
    destruct (jq q w) as [m|] eqn:Em; [|discriminate]. cbn [bind] in H.
    destruct (jac_items jq d its) as [r|] eqn:Er; [|discriminate]. injection H as <-.
    constructor; eauto.
Qed.

Lemma block_diag_inv : forall Js J, block_diag Js = Ok J -> Js <> [] /\ block_diagonal Js J.
Proof.
  intros [|B Js] J H; [discriminate|]. split; [discriminate|].
  rewrite block_diag_ok in H by discriminate. injection H as <-. apply bdiag_block.
Qed.

Theorem dict_jacobian_blocks : forall ad freeing items l fl fd lk d J,
  jacobian ad freeing (PDict items l fl fd lk) (FDict d) = Ok J ->
  exists Js,
    Forall2 (fun kq Jk => exists w, dict_get d (fst kq) = Some w /\
                                    jacobian ad freeing (snd kq) w = Ok Jk) items Js /\
    block_diagonal Js J.
Proof.
  intros ad fr items l fl fd lk d J H. cbn [jacobian] in H.
  destruct (jac_items (jacobian ad fr) d items) as [Js|] eqn:E; [|discriminate]. cbn [bind] in H.
  exists Js. split; [apply jac_items_inv in E; exact E|apply (block_diag_inv _ _ H)].
Qed.

Theorem array_jacobian_blocks : forall ad freeing s b fd a J,
  jacobian ad freeing (PArr s b fd) (FArr a) = Ok J ->
  exists Js,
    Forall2 (fun item Jk =>
      jacobian ad freeing b (FArr (subarr a item (length s))) = Ok Jk) (indices s) Js /\
    block_diagonal Js J.
Proof.
  intros ad fr s b fd a J H. cbn [jacobian] in H.
  destruct (negb _); [discriminate|].
  destruct (mapM _ (indices s)) as [Js|] eqn:E; [|discriminate]. cbn [bind] in H.
  exists Js. split; [apply mapM_ok_inv in E; exact E|apply (block_diag_inv _ _ H)].
Qed.

Lemma det_is_diag : forall J ds m, is_diag J ds ->
  (forall i j, i < m_rows J -> j < m_cols J -> m_at J i j = Fin (m i j)) ->
  det (length ds) m = Rlprod ds.
Proof.
  intros J ds m (Hr & Hc & H) Hm. rewrite <- det_diag. apply det_ext. intros i j Hi Hj.
  specialize (H i j Hi Hj). rewrite Hm in H by lia. injection H as H. auto.
Qed.

Theorem log_determinants : forall ad p v,
  usable p -> numeric_only p -> interior p v ->
  exists J1 J2 m1 m2 r,
    jacobian ad true p v = Ok J1 /\ jacobian ad false p v = Ok J2 /\
    (forall i j, i < m_rows J1 -> j < m_cols J1 -> m_at J1 i j = Fin (m1 i j)) /\
    (forall i j, i < m_rows J2 -> j < m_cols J2 -> m_at J2 i j = Fin (m2 i j)) /\
    m_cols J1 = m_rows J1 /\ m_cols J2 = m_rows J2 /\
    det (m_rows J1) m1 <> 0%R /\ det (m_rows J2) m2 <> 0%R /\
    log_abs_det true p v = Ok (Fin r) /\ log_abs_det false p v = Ok (Fin (- r)) /\
    r = ln (Rabs (det (m_rows J1) m1)) /\ (- r)%R = ln (Rabs (det (m_rows J2) m2)).
Proof.
  intros ad p v Hu Hn Hi.
  destruct (all_numeric_good ad p v Hu Hn Hi)
    as (ds & J1 & J2 & Hd & E1 & D1 & E2 & D2 & L1 & L2 & G1 & G2).
  assert (Forall (Rlt 0) (map Rinv ds)) as Hd'.
  { apply Forall_forall. intros x Hx. apply in_map_iff in Hx. destruct Hx as (y & <- & Hy).
    rewrite Forall_forall in Hd. apply Rinv_0_lt_compat. auto. }
  exists J1, J2, (diag_fun ds), (diag_fun (map Rinv ds)), (Rlsum (map ln ds)).
  pose proof D1 as (R1 & C1 & M1). pose proof D2 as (R2 & C2 & M2).
  assert (Rlsum (map ln (map Rinv ds)) = - Rlsum (map ln ds))%R as Hneg.
  { clear - Hd. induction Hd; simpl; [ring|]. rewrite IHHd, ln_Rinv by auto. ring. }
  rewrite R1, C1, R2, C2, !det_diag. 
  pose proof (Rlprod_pos _ Hd) as P1. pose proof (Rlprod_pos _ Hd') as P2.
  repeat (split; auto); try lra.
  - rewrite G2, Hneg. auto.
  - rewrite Rabs_right by lra. rewrite ln_prod by auto. auto.
  - rewrite Rabs_right by lra. rewrite ln_prod by auto. auto.
Qed.

Theorem log_determinants_unsupported : forall freeing p v,
  usable p -> interior p v -> ~ numeric_only p ->
  log_abs_det freeing p v = Err NotImplementedError.
Proof.
  intros fr p v Hu Hi Hn. destruct (log_det_not_numeric fr p v Hu Hi) as [(N & _)|(_ & E)]; auto.
  contradiction.
Qed.
