(** * Gradients by reverse mode: arbitrary cotangents. *)
From Coq Require Import Reals NArith Lra Lia.
From Verif Require Import Base Num Nd Numeric Simplex Psd Pattern Spec ListFacts PatFacts NonFree
  NumFacts CholFacts Free Contract Jac SpecJac JacBase JacFacts JacMore JacPsd CholDiff PsdDiff
  AlongFacts JacProps FunWrap Api SpecOptim SpecEnd EndFacts GradFacts RevPsd SpecRev RevFacts.
From Verif Require PsdProps.
Local Open Scope list_scope.
Local Open Scope nat_scope.

Lemma Rsum_delta : forall n a (f : nat -> R), a < n ->
  Rsum n (fun k => if k =? a then f k else 0%R) = f a.
Proof.
  intros n a f Ha. rewrite (Rsum_single n _ a Ha).
  - rewrite Nat.eqb_refl. auto.
  - intros k Hk Hne. rewrite (proj2 (Nat.eqb_neq k a) Hne). auto.
Qed.

Lemma unpack_vjp_gen : forall n v s g, length v = T n -> length g = n * n ->
  unpack_vjp (map Fin v) (mat_of n (mkNd s (map Fin g))) =
  Ok (map Fin (map (fun k => Rsum (n * n) (fun r => nth r g 0 * dgram n v k (r / n) (r mod n))%R) (seq 0 (T n)))).
Proof.
  intros n v s gl Lv Lg.
  unfold unpack_vjp. rewrite (unvectorize_T _ n) by (rewrite map_length; auto). cbn [bind fst snd].
  pose proof (mat_of_fin n s gl Lg) as HG.
  set (g := fun i j => nth (i * n + j) gl 0%R) in *.
  pose proof (matmul_vjp_fin n _ _ _ _ (exp_diag_unvec n v Lv) HG) as HM.
  pose proof (exp_vjp_fin n _ _ _ _ (unvec_fin n v Lv) HM) as HE. cbv beta in HE.
  unfold unvectorize_vjp, vectorize_ld_nd. cbn [shp to_nd]. rewrite Nat.eqb_refl. f_equal.
  fold (to_nd n (exp_diag_vjp (unvec_entry (map Fin v))
     (matmul_transpose_vjp n (exp_diag (unvec_entry (map Fin v))) (mat_of n {| shp := s; dat := map Fin gl |})))).
  apply (list_eq_nth _ _ _ NaN).
  - unfold vectorize_ld. rewrite !map_length, tril_length, seq_length. auto.
  - unfold vectorize_ld. intros k Hk. rewrite map_length, tril_length in Hk.
    destruct (tril_surj n k Hk) as (i & j & Hj & Hi & ->).
    rewrite (nth_map_gen _ _ _ _ _ NaN (0, 0)) by (rewrite tril_length; auto).
    rewrite nth_tril by auto. cbn [fst snd].
    rewrite (nth_map_gen _ _ _ _ _ NaN 0%R) by (rewrite map_length, seq_length; auto).
    rewrite (nth_map_gen _ _ _ _ _ 0%R 0), seq_nth by (rewrite ?seq_length; auto). cbn [Nat.add].
    rewrite PsdProps.mat_of_nd by lia. rewrite HE by lia. f_equal.
    set (w := if i =? j then exp (nth (ld_ind i j) v 0%R) else 1%R).
    assert (forall e, e < n -> forall l, l < n -> dchol v (ld_ind i j) e l =
        if (e =? i) && (l =? j) then w else 0%R) as ED.
    { intros e He l Hl. unfold dchol. destruct (Nat.leb_spec l e) as [Hle|Hle]; cbn [andb].
      - destruct (Nat.eqb_spec (ld_ind e l) (ld_ind i j)) as [E|E].
        + apply ld_ind_inj in E; auto. destruct E as (-> & ->). rewrite !Nat.eqb_refl. auto.
        + destruct (Nat.eqb_spec e i) as [->|]; auto. destruct (Nat.eqb_spec l j) as [->|]; auto. congruence.
      - destruct (Nat.eqb_spec e i) as [->|]; auto. destruct (Nat.eqb_spec l j) as [->|]; auto. lia. }
    assert (forall a b, a < n -> b < n -> dgram n v (ld_ind i j) a b =
       ((if a =? i then w * chol_of v b j else 0) + (if b =? i then chol_of v a j * w else 0))%R) as EG.
    { intros a b Ha Hb. unfold dgram. rewrite (Rsum_single n _ j).
      - rewrite !ED by lia. rewrite Nat.eqb_refl, !andb_true_r. destruct (a =? i), (b =? i); ring.
      - lia.
      - intros l Hl Hne. rewrite !ED by lia. rewrite (proj2 (Nat.eqb_neq l j) Hne), !andb_false_r. ring. }
    rewrite Rsum_mul.
    rewrite (Rsum_ext n _ (fun a => (if a =? i then Rsum n (fun b => g i b * (w * chol_of v b j)) else 0) + g a i * (chol_of v a j * w))%R).
    + rewrite Rsum_plus, Rsum_delta by auto. unfold rdiag_vjp.
      rewrite (Rsum_ext n (fun b => g i b * (w * chol_of v b j))%R (fun b => (g i b * chol_of v b j) * w)%R) by (intros; ring).
      rewrite (Rsum_ext n (fun b => g b i * (chol_of v b j * w))%R (fun b => (chol_of v b j * g b i) * w)%R) by (intros; ring).
      rewrite !Rsum_scal_r. unfold w. destruct (Nat.eqb_spec i j) as [->|]; [rewrite Nat.leb_refl|]; ring.
    + intros a Ha.
      rewrite (Rsum_ext n _ (fun b => (if a =? i then g i b * (w * chol_of v b j) else 0) +
         (if b =? i then g a b * (chol_of v a j * w) else 0))%R).
      * rewrite Rsum_plus, Rsum_delta by auto. f_equal. destruct (a =? i); auto. apply Rsum_zero. auto.
      * intros b Hb. destruct (div_pos n a b Hb) as (-> & ->). fold (g a b). rewrite EG by auto.
        destruct (Nat.eqb_spec a i) as [->|]; destruct (b =? i); ring.
Qed.

Lemma untake_gen : forall n g, length g = T n ->
  fin_mat n (untake n (map Fin g)) (fun i j => if j <=? i then nth (ld_ind i j) g 0%R else 0%R).
Proof.
  intros n g Lg i j Hi Hj. unfold untake.
  rewrite (map2_seq _ _ _ _ _ _ (0, 0) NaN) by (rewrite map_length, tril_length; auto).
  rewrite tril_length.
  set (f := fun l => if (fst (nth l (tril n) (0, 0)) =? i) && (snd (nth l (tril n) (0, 0)) =? j)
              then nth l g 0%R else 0%R).
  rewrite (map_ext_in _ (fun l => Fin (f l))).
  - rewrite nsum_seq. f_equal. destruct (Nat.leb_spec j i).
    + rewrite (Rsum_single _ _ (ld_ind i j)).
      * unfold f. rewrite nth_tril by auto. cbn [fst snd]. rewrite !Nat.eqb_refl. auto.
      * apply ld_ind_lt; auto.
      * intros l Hl Hne. unfold f. destruct (tril_surj n l Hl) as (a & b & Hb & Ha & ->).
        rewrite nth_tril by auto. cbn [fst snd]. destruct (Nat.eqb_spec a i) as [->|]; auto.
        destruct (Nat.eqb_spec b j) as [->|]; auto. congruence.
    + apply Rsum_zero. intros l Hl. unfold f. destruct (tril_surj n l Hl) as (a & b & Hb & Ha & ->).
      rewrite nth_tril by auto. cbn [fst snd]. destruct (Nat.eqb_spec a i) as [->|]; auto.
      destruct (Nat.eqb_spec b j) as [->|]; auto. lia.
  - intros l Hl. apply in_seq in Hl. unfold f.
    rewrite (nth_map_gen _ _ _ _ _ NaN 0%R) by lia. destruct (_ && _); auto.
Qed.

(** Sums over the lower triangle. *)
Lemma Rsum_tril : forall n (F : nat -> nat -> R), (forall i j, i < j -> F i j = 0%R) ->
  Rsum n (fun i => Rsum n (F i)) =
  Rsum (T n) (fun k => F (fst (nth k (tril n) (0, 0))) (snd (nth k (tril n) (0, 0)))).
Proof.
  intros n F HF. rewrite <- (Rlsum_seq (T n)), <- tril_length.
  transitivity (Rlsum (map (fun ij => F (fst ij) (snd ij)) (tril n))).
  - clear -HF.
    assert (forall m, m <= n -> Rsum m (fun i => Rsum n (F i)) = Rlsum (map (fun ij => F (fst ij) (snd ij)) (tril m))) as E.
    { induction m; intros Hm; auto. cbn [Rsum]. rewrite tril_S, map_app, Rlsum_app, <- IHm by lia. f_equal.
      rewrite map_map. cbn [fst snd]. rewrite Rlsum_seq.
      apply Rsum_trunc; [lia|]. intros. apply HF. lia. }
    apply E. auto.
  - f_equal. apply (list_eq_nth _ _ _ 0%R).
    + rewrite !map_length, seq_length. auto.
    + intros k Hk. rewrite map_length in Hk.
      rewrite (nth_map_gen _ _ _ _ _ 0%R (0, 0)) by auto.
      rewrite (nth_map_gen _ _ _ _ _ 0%R 0), seq_nth by (rewrite ?seq_length; auto). auto.
Qed.

Lemma pack_vjp_gen : forall solve n c x g s, solves solve -> length x = n * n -> pivots_pos n c x ->
  length g = T n ->
  exists (b : mat) (rb : nat -> nat -> R),
    pack_vjp solve n (mat_of n (mkNd s (map Fin x))) (Fin c) (map Fin g) = Ok b /\
    fin_mat n b rb /\ (forall i j, i < n -> j < n -> rb i j = rb j i) /\
    forall h, symmetric_direction n h ->
      Rsum n (fun i => Rsum n (fun j => rb i j * nth (i * n + j) h 0))%R =
      Rsum (T n) (fun k => nth k g 0 * dfree n c x h k)%R.
Proof.
  intros solve n c x g s Hs Lx Hp Lg. unfold pack_vjp.
  set (L := rl (rmat n c x) n).
  assert (lower L) as HL by apply rl_lower.
  assert (forall i, i < n -> (0 < L i i)%R) as Hd.
  { intros i Hi. unfold L. rewrite rl_diag by auto. apply sqrt_lt_R0, Hp; auto. }
  assert (forall i, i < n -> L i i <> 0%R) as Hd0 by (intros i Hi; apply Rgt_not_eq, Hd; auto).
  destruct (cholesky_gram L n (fun i j => nsub (mat_of n (mkNd s (map Fin x)) i j) (make_diagonal (fun _ => Fin c) i j)) HL Hd)
    as (C & HC & HCe).
  { intros i j Hi Hj. rewrite mat_of_fin by (auto; lia). unfold make_diagonal.
    unfold L; rewrite <- (rl_gram (rmat n c x) n Hp i j Hi Hj). unfold rmat. destruct (i =? j); cbn; f_equal; ring. }
  rewrite HC. cbn [bind]. unfold cholesky_vjp.
  pose proof (log_vjp_fin n _ _ _ _ HCe (untake_gen n g Lg) Hd0) as HG.
  set (G := rdiag_vjp (fun k => / L k k)%R (fun i j => if j <=? i then nth (ld_ind i j) g 0%R else 0%R)) in *.
  pose proof (transpose_fin n _ _ HCe) as HT. cbv beta in HT.
  pose proof (phi_fin n _ _ (mul_fin n _ _ _ _ HT HG)) as HX. cbv beta in HX.
  pose proof (transpose_fin n _ _ HX) as HXT. cbv beta in HXT.
  destruct (Hs n _ _ (fun i j => L j i) _ HT HXT) as (Y & ry & EY & HY & SY);
    [intros; apply HL; auto|auto|].
  rewrite EY. cbn [bind].
  pose proof (transpose_fin n _ _ HY) as HYT. cbv beta in HYT.
  destruct (Hs n _ _ (fun i j => L j i) _ HT HYT) as (S & rs & ES & HS & SS);
    [intros; apply HL; auto|auto|].
  rewrite ES. cbn [bind].
  eexists. exists (fun i j => ((rs i j + rs j i) / 2)%R). split; [reflexivity|]. split; [|split].
  - intros i j Hi Hj. cbv beta. rewrite !HS by auto. cbn [nadd]. rewrite ndiv_fin by lra. auto.
  - intros i j _ _. f_equal. ring.
  - intros h (Lh & Sh). set (H := fun i j => nth (i * n + j) h 0%R).
    set (D := dl (rmat n c x) H n).
    refine (eq_trans (gradient_pairing n L rs ry G D H HL Hd0 _ _ _ _) _).
    + intros a b Hab. apply dl_lower. auto.
    + exact SY.
    + intros i j Hi Hj. apply (SS i j Hi Hj).
    + apply dl_symmetric; auto.
    + rewrite (Rsum_tril n (fun i j => G i j * D i j)%R).
      * apply Rsum_ext. intros k Hk. unfold dfree. fold H. fold D. fold L.
        destruct (tril_surj n k Hk) as (i & j & Hj & Hi & ->).
        rewrite nth_tril by auto. cbn [fst snd]. unfold G, rdiag_vjp.
        destruct (Nat.eqb_spec i j) as [->|].
        -- rewrite Nat.leb_refl. ring.
        -- rewrite (proj2 (Nat.leb_le j i)) by auto. ring.
      * intros i j Hij. unfold D. rewrite dl_lower by auto. ring.
Qed.

(** ** In terms of the patterns *)
Theorem unpack_vjp_product : forall solve n fl dlb dv fd v x g,
  0 < n -> usable (PPsd n fl dlb dv fd) -> interior (PPsd n fl dlb dv fd) v ->
  flatten (PPsd n fl dlb dv fd) v (Some true) None = Ok (map Fin x) -> length g = n * n ->
  exists J d, jacobian (reverse_ad solve) false (PPsd n fl dlb dv fd) v = Ok J /\
    unpack_vjp (map Fin x) (mat_of n (mkNd [n; n] (map Fin g))) = Ok (map Fin d) /\
    pulled_back J g d.
Proof.
  intros solve sz fl dlb dv fd v x g Hn Hu Hi Hx Lg.
  destruct (psd_vectors sz fl dlb dv fd v Hu Hi) as (c & xf & Hc & Lxf & Hfree & Hflat).
  change (flatten_ snum (PPsd sz fl dlb dv fd) v true None = Ok (map Fin x)) in Hx.
  rewrite Hfree in Hx. injection Hx as Hx. apply map_fin_inj' in Hx. subst x.
  eexists. eexists. split; [|split; [apply unpack_vjp_gen; auto|]].
  - destruct v as [a|d]; [|contradiction]. cbn [jacobian negb]. rewrite Hfree. cbn [bind].
    apply (reverse_unfree_rows solve sz fl dlb dv fd (FArr a) c xf); auto.
  - split; [rewrite map_length, seq_length; auto|]. cbn [m_cols m_rows m_at]. intros j Hj.
    exists (fun i => dgram sz xf j (i / sz) (i mod sz)). split.
    + intros i Hi'. rewrite (nth_map_gen _ _ _ _ _ [] 0), seq_nth by (rewrite ?seq_length; auto).
      rewrite (nth_map_gen _ _ _ _ _ NaN 0%R) by (rewrite map_length, seq_length; auto).
      rewrite (nth_map_gen _ _ _ _ _ 0%R 0), seq_nth by (rewrite ?seq_length; auto). auto.
    + rewrite (nth_map_gen _ _ _ _ _ 0%R 0), seq_nth by (rewrite ?seq_length; auto). auto.
Qed.

Lemma Rsum_g_lim : forall n (g : list R) (f : R -> list R) x d,
  (forall k, k < n -> derivable_pt_lim (fun t => nth k (f t) 0%R) x (d k)) ->
  derivable_pt_lim (fun t => Rsum n (fun k => nth k g 0 * nth k (f t) 0)%R) x (Rsum n (fun k => nth k g 0 * d k)%R).
Proof.
  intros n g f x d H. apply (Rsum_lim n (fun t k => (nth k g 0 * nth k (f t) 0)%R)). intros k Hk.
  apply (derivable_pt_lim_scal (fun t => nth k (f t) 0%R)). auto.
Qed.

Theorem pack_vjp_derivative : forall solve n fl dlb dv fd v x g, solves solve ->
  usable (PPsd n fl dlb dv fd) -> interior (PPsd n fl dlb dv fd) v ->
  flatten (PPsd n fl dlb dv fd) v (Some false) None = Ok (map Fin x) -> length g = fl ->
  exists (b : mat) (rb : nat -> nat -> R),
    pack_vjp solve n (mat_of n (mkNd [n; n] (map Fin x))) (pyval dlb) (map Fin g) = Ok b /\
    (forall i j, i < n -> j < n -> b i j = Fin (rb i j) /\ rb i j = rb j i) /\
    forall h, symmetric_direction n h ->
      exists r G, (0 < r)%R /\
        (forall t, (Rabs t < r)%R -> transform true (PPsd n fl dlb dv fd) (map Fin (line x h t)) = Ok (map Fin (G t)) /\
                                     length (G t) = fl) /\
        derivable_pt_lim (fun t => Rsum fl (fun k => nth k g 0 * nth k (G t) 0)%R) 0
          (Rsum n (fun i => Rsum n (fun j => rb i j * nth (i * n + j) h 0)))%R.
Proof.
  intros solve sz fl dlb dv fd v x g Hs Hu Hi Hx Lg.
  destruct (psd_vectors sz fl dlb dv fd v Hu Hi) as (c & xf & Hc & Lxf & Hfree & Hflat).
  change (flatten_ snum (PPsd sz fl dlb dv fd) v false None = Ok (map Fin x)) in Hx.
  rewrite Hflat in Hx. injection Hx as Hx. apply map_fin_inj' in Hx.
  assert (pivots_pos sz c x) as Hp by (rewrite <- Hx; apply flat_of_pivots).
  assert (length x = sz * sz) as Lx by (rewrite <- Hx; apply rrows_length).
  pose proof Hu as (Hfl & _). change (fl = T sz) in Hfl.
  destruct (pack_vjp_gen solve sz c x g [sz; sz] Hs Lx Hp ltac:(congruence)) as (b & rb & E & Hb & Hsy & Hh).
  exists b, rb. rewrite Hc. split; [exact E|]. split; [intros i j H1 H2; split; [apply Hb; auto|apply Hsy; auto]|].
  intros h Sh. assert (length h = sz * sz) as Lh by apply Sh.
  destruct (leaf_curve sz fl dlb dv fd c x Hc Lx Hp (line x h) 0 h 1) as ((r & Hr & Hd) & Hder); try lra.
  - apply line_zero. congruence.
  - intros. rewrite line_length; congruence.
  - intros. apply line_lim. congruence.
  - exists r, (fun t => PsdDiff.fvec sz c (line x h t)). split; [auto|]. split.
    + intros t Ht. split; [apply Hd; rewrite Rminus_0_r; auto|rewrite PsdDiff.fvec_length; auto].
    + rewrite (Hh h Sh), Hfl. apply (Rsum_g_lim (T sz) g (fun t => PsdDiff.fvec sz c (line x h t))). auto.
Qed.

(** ** Gradients of objectives *)
Theorem reverse_gradient : forall S (f : callable (obj R) S) solve p n v x gr Phi,
  usable p -> simplexes_nonempty p -> psds_nonempty p -> flat_length p (Some true) = Ok (plint n) ->
  (forall w z, admissible p w -> flatten p w (Some false) None = Ok (map Fin z) -> returns f w (Phi z)) ->
  interior p v -> flatten p v (Some false) None = Ok (map Fin x) -> has_gradient Phi x gr ->
  exists g H y J D, free_objective f p = Ok g /\
    (forall z, length z = n -> returns g (FArr (vec (map Fin z))) (H z)) /\
    flatten p v (Some true) None = Ok (map Fin y) /\ length y = n /\
    jacobian (reverse_ad solve) false p v = Ok J /\ partials H y D /\ pulled_back J gr D.
Proof.
  intros S f solve p n v x gr Phi Hu Hs Hn Hl Hf Hi Hx Hg.
  apply (free_gradient_psd S f (reverse_ad solve) p n v x gr Phi); auto.
  eapply at_psd_impl; [|exact Hu|exact Hi|apply psds_nonempty_at; exact Hn].
  intros. apply reverse_unfree_leaf; auto.
Qed.

Lemma pulled_back_unique : forall J g d d', pulled_back J g d -> pulled_back J g d' -> d = d'.
Proof.
  intros J g d d' (L & H) (L' & H'). apply (list_eq_nth _ _ _ 0%R); [congruence|].
  intros j Hj. rewrite L in Hj. destruct (H j Hj) as (c & Hc & ->). destruct (H' j Hj) as (c' & Hc' & ->).
  apply Rsum_ext. intros i Hi. specialize (Hc i Hi). rewrite (Hc' i Hi) in Hc. injection Hc as ->. auto.
Qed.

(** One backward pass through [_unpack_posdef_matrix] from the gradient of an
    objective of the matrix gives the gradient of the objective of the free vector. *)
Theorem backward_gradient : forall S (f : callable (obj R) S) n fl dlb dv fd v x gr Phi,
  0 < n -> usable (PPsd n fl dlb dv fd) ->
  (forall w z, admissible (PPsd n fl dlb dv fd) w ->
     flatten (PPsd n fl dlb dv fd) w (Some false) None = Ok (map Fin z) -> returns f w (Phi z)) ->
  interior (PPsd n fl dlb dv fd) v ->
  flatten (PPsd n fl dlb dv fd) v (Some false) None = Ok (map Fin x) -> has_gradient Phi x gr ->
  length gr = n * n ->
  exists g H y D, free_objective f (PPsd n fl dlb dv fd) = Ok g /\
    (forall z, length z = fl -> returns g (FArr (vec (map Fin z))) (H z)) /\
    flatten (PPsd n fl dlb dv fd) v (Some true) None = Ok (map Fin y) /\ length y = fl /\
    unpack_vjp (map Fin y) (mat_of n (mkNd [n; n] (map Fin gr))) = Ok (map Fin D) /\
    partials H y D.
Proof.
  intros S f sz fl dlb dv fd v x gr Phi Hn Hu Hf Hi Hx Hg Lg.
  set (nosolve := fun (_ : nat) (_ _ : mat) => @Err mat Unmodelled).
  destruct (reverse_gradient S f nosolve (PPsd sz fl dlb dv fd) fl v x gr Phi Hu I Hn eq_refl Hf Hi Hx Hg)
    as (g & H & y & J & D & H1 & H2 & H3 & H4 & H5 & H6 & H7).
  destruct (unpack_vjp_product nosolve sz fl dlb dv fd v y gr Hn Hu Hi H3 Lg) as (J' & d & E1 & E2 & E3).
  rewrite H5 in E1. injection E1 as <-. rewrite (pulled_back_unique _ _ _ _ E3 H7) in E2.
  exists g, H, y, D. auto 10.
Qed.
