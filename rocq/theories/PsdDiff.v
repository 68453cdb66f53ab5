(** * The freeing map of a PSD pattern is differentiable along curves; its
    Jacobian and the one of the unfreeing map are inverse to each other. *)
From Coq Require Import Reals Lra Lia.
From Verif Require Import Base Num Nd Numeric Simplex Psd Pattern Spec ListFacts PatFacts NonFree
  NumFacts CholFacts Free Contract Jac SpecJac JacBase JacFacts JacMore JacPsd CholDiff.
Local Open Scope list_scope.
Local Open Scope nat_scope.

(** The matrix held in a flat vector, less the diagonal bound, and its free
    vector. *)
Definition rmat (n : nat) (c : R) (w : list R) (i j : nat) : R :=
  (nth (i * n + j) w 0 - (if i =? j then c else 0))%R.
Definition fvec (n : nat) (c : R) (w : list R) : list R :=
  map (fun ij => diag_map ln (rl (rmat n c w) n) (fst ij) (snd ij)) (tril n).
Definition pivots_pos (n : nat) (c : R) (w : list R) : Prop :=
  forall j, j < n -> (0 < pivot (rmat n c w) j)%R.

Lemma fvec_length : forall n c w, length (fvec n c w) = T n.
Proof. intros. unfold fvec. rewrite map_length, tril_length. auto. Qed.

Lemma pack_lower : forall n (A : mat) c L,
  lower L -> (forall i, i < n -> (0 < L i i)%R) ->
  (forall i j, i < n -> j <= i -> A i j = Fin (add_diag c (gram n L) i j)) ->
  pack_posdef n A (Fin c) = Ok (vectorize_ld n (fun i j => Fin (diag_map ln L i j))).
Proof.
  intros n A c L Hlow Hd HA. unfold pack_posdef.
  destruct (cholesky_gram L n
     (fun i j => nsub (A i j) (make_diagonal (fun _ => Fin c) i j)) Hlow Hd) as (C & HC & HCe).
  { intros i j Hi Hj. rewrite HA by lia. unfold make_diagonal, add_diag.
    destruct (i =? j); simpl; f_equal; ring. }
  rewrite HC. cbn [bind]. f_equal. apply vectorize_ext. intros i j Hij Hi.
  apply (log_diag_fin n C L HCe Hd); lia.
Qed.

Lemma pack_fvec : forall sz s c w, length w = sz * sz -> pivots_pos sz c w ->
  pack_posdef sz (mat_of sz (mkNd s (map Fin w))) (Fin c) = Ok (map Fin (fvec sz c w)).
Proof.
  intros sz s c w Lw Hp. rewrite (pack_lower sz _ c (rl (rmat sz c w) sz)).
  - f_equal. unfold vectorize_ld, fvec. rewrite !map_map. reflexivity.
  - apply rl_lower.
  - intros i Hi. rewrite rl_diag by auto. apply sqrt_lt_R0, Hp; auto.
  - intros i j Hi Hj. unfold mat_of, add_diag. cbn [dat].
    rewrite <- (rl_gram (rmat sz c w) sz Hp i j Hi Hj). unfold rmat.
    rewrite (nth_map_gen _ _ _ _ _ NaN 0%R) by (rewrite Lw; nia).
    f_equal. destruct (i =? j); ring.
Qed.

Lemma psd_free : forall sz fl dlb dv fd c w, pyval dlb = Fin c ->
  length w = sz * sz -> pivots_pos sz c w ->
  transform true (PPsd sz fl dlb dv fd) (map Fin w) = Ok (map Fin (fvec sz c w)).
Proof.
  intros sz fl dlb dv fd c w Hc Lw Hp. rewrite transform_eq. cbn [negb].
  assert (require_valid snum (PPsd sz fl dlb dv fd) (FArr (mkNd [sz; sz] (map Fin w))) (Some false) = Ok tt) as Hv.
  { unfold require_valid. cbn [validate]. unfold psd_validate. cbn [shp].
    unfold shape_eqb. destruct (list_eq_dec Nat.eq_dec [sz; sz] [sz; sz]); [|congruence]. reflexivity. }
  assert (fold_ snum (PPsd sz fl dlb dv fd) (vec (map Fin w)) false (Some false)
          = Ok (FArr (mkNd [sz; sz] (map Fin w)))) as Hf.
  { cbn [fold_]. unfold vec. cbn [atleast_1d shp]. unfold ndim, size, reshape. cbn [shp length].
    cbn [Nat.eqb negb flat_len plint pl_n]. unfold size. cbn [shp prod fold_right dat].
    rewrite map_length, Lw. rewrite !Nat.mul_1_r, Nat.eqb_refl. cbn [negb bind].
    rewrite Hv. reflexivity. }
  rewrite Hf. cbn [bind flatten_]. rewrite Hv. cbn [bind]. rewrite Hc.
  unfold nd_map. cbn [shp dat]. rewrite map_map. cbn [to_num snum].
  rewrite pack_fvec by auto. cbn [bind]. f_equal. rewrite map_id. auto.
Qed.

(** The derivative of the free vector in direction [h]. *)
Definition dfree (n : nat) (c : R) (w h : list R) (k : nat) : R :=
  let ij := nth k (tril n) (0, 0) in
  let d := dl (rmat n c w) (fun i j => nth (i * n + j) h 0%R) n (fst ij) (snd ij) in
  if fst ij =? snd ij then (/ rl (rmat n c w) n (fst ij) (snd ij) * d)%R else d.

Lemma nth_tril_in : forall n k, k < T n -> In (nth k (tril n) (0, 0)) (tril n).
Proof. intros. apply nth_In. rewrite tril_length. auto. Qed.

Lemma near_pos : forall f x d, derivable_pt_lim f x d -> (0 < f x)%R ->
  exists r, (0 < r)%R /\ forall t, (Rabs (t - x) < r)%R -> (0 < f t)%R.
Proof.
  intros f x d Hd Hf.
  assert (continuity_pt f x) as Hc by (apply derivable_continuous_pt; exists d; exact Hd).
  destruct (Hc (f x) Hf) as (del & Hdel & H). exists del. split; auto.
  intros t Ht. destruct (Req_dec t x) as [->|Hne]; auto.
  assert (Rabs (f t - f x) < f x)%R as E.
  { apply (H t). split; [split; [exact I|auto]|exact Ht]. }
  apply Rabs_def2 in E. lra.
Qed.
Lemma near_all : forall n (P : nat -> R -> Prop) x,
  (forall j, j < n -> exists r, (0 < r)%R /\ forall t, (Rabs (t - x) < r)%R -> P j t) ->
  exists r, (0 < r)%R /\ forall t, (Rabs (t - x) < r)%R -> forall j, j < n -> P j t.
Proof.
  induction n; intros P x H; [exists 1%R; split; [lra|intros; lia]|].
  destruct (IHn P x) as (r & Hr & H1); [intros; apply H; lia|].
  destruct (H n) as (r' & Hr' & H2); [lia|]. exists (Rmin r r'). split; [apply Rmin_pos; auto|].
  intros t Ht j Hj. pose proof (Rmin_l r r'). pose proof (Rmin_r r r').
  destruct (Nat.eq_dec j n) as [->|]; [apply H2; lra|apply H1; [lra|lia]].
Qed.

Section Curve.
  Variables (n : nat) (c : R) (w : R -> list R) (t0 : R) (h : list R).
  Hypothesis Hw : forall k, derivable_pt_lim (fun t => nth k (w t) 0%R) t0 (nth k h 0%R).
  Hypothesis Hp : pivots_pos n c (w t0).

  Let Ha : forall i j, derivable_pt_lim (fun t => rmat n c (w t) i j) t0 (nth (i * n + j) h 0%R).
  Proof.
    intros i j. unfold rmat. rewrite <- (Rminus_0_r (nth (i * n + j) h 0%R)).
    apply (derivable_pt_lim_minus (fun t => nth (i * n + j) (w t) 0%R) (fun _ => if i =? j then c else 0%R)); auto.
    apply derivable_pt_lim_const.
  Qed.

  Lemma curve_pivots : exists r, (0 < r)%R /\ forall t, (Rabs (t - t0) < r)%R -> pivots_pos n c (w t).
  Proof.
    apply (near_all n (fun j t => (0 < pivot (rmat n c (w t)) j)%R)). intros j Hj.
    apply (near_pos (fun t => pivot (rmat n c (w t)) j) t0
      (nth (j * n + j) h 0 - Rsum j (fun l =>
          dl (rmat n c (w t0)) (fun i j => nth (i * n + j) h 0) j j l * rl (rmat n c (w t0)) j j l +
          rl (rmat n c (w t0)) j j l * dl (rmat n c (w t0)) (fun i j => nth (i * n + j) h 0) j j l))%R);
      [|apply Hp; auto].
    unfold pivot.
    apply (derivable_pt_lim_minus (fun t => rmat n c (w t) j j)
      (fun t => Rsum j (fun l => (rl (rmat n c (w t)) j j l * rl (rmat n c (w t)) j j l)%R))); auto.
    apply (Rsum_lim j (fun t l => (rl (rmat n c (w t)) j j l * rl (rmat n c (w t)) j j l)%R)). intros l Hl.
    assert (derivable_pt_lim (fun t => rl (rmat n c (w t)) j j l) t0
       (dl (rmat n c (w t0)) (fun i j => nth (i * n + j) h 0%R) j j l)) as E.
    { apply (rl_lim (fun t => rmat n c (w t)) (fun i j => nth (i * n + j) h 0%R) t0 n Ha); [lia|].
      intros; apply Hp; lia. }
    apply (derivable_pt_lim_mult (fun t => rl (rmat n c (w t)) j j l) (fun t => rl (rmat n c (w t)) j j l)); auto.
  Qed.

  Lemma curve_free : forall k, k < T n ->
    derivable_pt_lim (fun t => nth k (fvec n c (w t)) 0%R) t0 (dfree n c (w t0) h k).
  Proof.
    intros k Hk. unfold fvec, dfree.
    pose proof (nth_tril_in n k Hk) as Hin.
    apply (lim_ext (fun t => diag_map ln (rl (rmat n c (w t)) n) (fst (nth k (tril n) (0, 0))) (snd (nth k (tril n) (0, 0)))) _ _ _ 1%R);
      [lra|intros; rewrite (nth_map_gen _ _ _ _ _ 0%R (0, 0)) by (rewrite tril_length; auto); auto|].
    destruct (nth k (tril n) (0, 0)) as [i j]. cbn [fst snd]. apply in_tril in Hin.
    assert (derivable_pt_lim (fun t => rl (rmat n c (w t)) n i j) t0
       (dl (rmat n c (w t0)) (fun i j => nth (i * n + j) h 0%R) n i j)) as E.
    { apply (rl_lim (fun t => rmat n c (w t)) (fun i j => nth (i * n + j) h 0%R) t0 n Ha); auto. }
    unfold diag_map. destruct (Nat.eqb_spec i j) as [->|]; auto.
    apply (derivable_pt_lim_comp (fun t => rl (rmat n c (w t)) n j j) ln); auto.
    apply derivable_pt_lim_ln. rewrite rl_diag by lia. apply sqrt_lt_R0, Hp. lia.
  Qed.
End Curve.

(** The derivative is linear in the direction. *)
Definition unit_vec (N l : nat) : list R := map (fun k => if k =? l then 1%R else 0%R) (seq 0 N).
Lemma nth_unit_vec : forall N l k, nth k (unit_vec N l) 0%R = if (k =? l) && (k <? N) then 1%R else 0%R.
Proof.
  intros N l k. unfold unit_vec. destruct (Nat.ltb_spec k N).
  - rewrite (nth_map_gen _ _ _ _ _ 0%R 0) by (rewrite seq_length; auto). rewrite seq_nth by auto.
    rewrite andb_true_r. auto.
  - rewrite nth_overflow by (rewrite map_length, seq_length; auto). rewrite andb_false_r. auto.
Qed.
Lemma Rsum_pick : forall n l f, (forall k, k < n -> k <> l -> f k = 0%R) ->
  Rsum n f = if l <? n then f l else 0%R.
Proof.
  induction n; intros l f H; simpl; auto.
  rewrite (IHn l) by (intros; apply H; lia).
  destruct (Nat.ltb_spec l n), (Nat.ltb_spec l (S n)); try lia.
  - rewrite (H n) by lia. ring.
  - replace l with n by lia. ring.
  - rewrite (H n) by lia. ring.
Qed.
Lemma dfree_sum : forall n c w h k, pivots_pos n c w -> k < T n -> length h = n * n ->
  dfree n c w h k = Rsum (n * n) (fun l => (dfree n c w (unit_vec (n * n) l) k * nth l h 0)%R).
Proof.
  intros n c w h k Hp Hk Lh. unfold dfree. pose proof (nth_tril_in n k Hk) as Hin.
  destruct (nth k (tril n) (0, 0)) as [i j]. cbn [fst snd].
  assert (dl (rmat n c w) (fun i j => nth (i * n + j) h 0%R) n i j =
    Rsum (n * n) (fun l => (dl (rmat n c w) (fun i j => nth (i * n + j) (unit_vec (n * n) l) 0%R) n i j * nth l h 0)%R)) as E.
  { rewrite (dl_ext _ _ (fun i j => Rsum (n * n) (fun l => (nth l h 0 * nth (i * n + j) (unit_vec (n * n) l) 0)%R))).
    - rewrite dl_sum by auto. apply Rsum_ext. intros l Hl. ring.
    - intros a b Hab. rewrite (Rsum_pick _ (a * n + b)).
      + rewrite nth_unit_vec, Nat.eqb_refl. cbn [andb].
        destruct (Nat.ltb_spec (a * n + b) (n * n)); [ring|]. apply nth_overflow. lia.
      + intros l Hl Hne. rewrite nth_unit_vec. destruct (Nat.eqb_spec (a * n + b) l); [lia|].
        cbn [andb]. ring. }
  destruct (i =? j); auto. rewrite E. rewrite <- Rsum_scal. apply Rsum_ext. intros; ring.
Qed.

(** ** The flat and free vectors of a PSD value *)
Definition flat_of (n : nat) (c : R) (w : list R) : list R := rrows n (add_diag c (gram n (chol_of w))).

Lemma rmat_rrows : forall n c m i j, i < n -> j < n ->
  rmat n c (rrows n m) i j = (m i j - (if i =? j then c else 0))%R.
Proof.
  intros n c m i j Hi Hj. unfold rmat. rewrite nth_rrows by nia.
  replace ((i * n + j) / n) with i by (rewrite Nat.div_add_l, Nat.div_small by lia; lia).
  replace ((i * n + j) mod n) with j; auto.
  rewrite Nat.add_comm, Nat.mod_add by lia. rewrite Nat.mod_small; auto.
Qed.
Lemma flat_of_pivots : forall n c w, pivots_pos n c (flat_of n c w).
Proof.
  intros n c w. unfold pivots_pos. apply (pivot_pos _ (chol_of w)).
  - apply chol_of_lower.
  - intros; apply chol_of_diag.
  - intros i j Hi Hj. unfold flat_of. rewrite rmat_rrows by lia. unfold add_diag. ring.
Qed.
Lemma fvec_flat_of : forall n c w, length w = T n -> fvec n c (flat_of n c w) = w.
Proof.
  intros n c w Lw. pose proof (pack_unpack n w c Lw) as E. rewrite rows_rrows in E.
  fold (flat_of n c w) in E.
  rewrite pack_fvec in E; [|unfold flat_of; apply rrows_length|apply flat_of_pivots].
  injection E as E. apply map_fin_inj' in E. auto.
Qed.

Lemma psd_unfree : forall sz fl dlb dv fd c w, usable (PPsd sz fl dlb dv fd) -> pyval dlb = Fin c ->
  length w = T sz ->
  transform false (PPsd sz fl dlb dv fd) (map Fin w) = Ok (map Fin (flat_of sz c w)).
Proof.
  intros sz fl dlb dv fd c w Hu Hc Lw. pose proof Hu as (Hfl & _). rewrite transform_eq. cbn [negb].
  destruct (free_flatten_of_fold (Some false) None (PPsd sz fl dlb dv fd) w Hu) as (v & Hv & Hiv & _).
  { cbn. rewrite Hfl. exact Lw. }
  rewrite Hv. cbn [bind]. cbn [fold_ vec] in Hv. unfold vec in Hv. cbn in Hv.
  rewrite map_length, Hfl in Hv. change (sz * (sz + 1) / 2) with (T sz) in Hv.
  rewrite Nat.mul_1_r, Lw, Nat.eqb_refl in Hv. cbn [negb] in Hv.
  assert (map (to_num snum) (map Fin w) = map Fin w) as E by apply map_id.
  cbn in E. rewrite map_id, Hc, (unpack_fin sz) in Hv by auto. cbn [bind] in Hv.
  injection Hv as <-. rewrite flatten_lenient; auto.
  - cbn [entries nd_map dat]. rewrite map_id, rows_rrows. auto.
  - simpl. auto.
  - apply interior_fv_arr in Hiv; auto. apply Hiv.
  - apply interior_shape; auto.
Qed.

Lemma psd_vectors : forall sz fl dlb dv fd v, usable (PPsd sz fl dlb dv fd) ->
  interior (PPsd sz fl dlb dv fd) v ->
  exists c xf, pyval dlb = Fin c /\ length xf = T sz /\
    flatten_ snum (PPsd sz fl dlb dv fd) v true None = Ok (map Fin xf) /\
    flatten_ snum (PPsd sz fl dlb dv fd) v false None = Ok (map Fin (flat_of sz c xf)).
Proof.
  intros sz fl dl dv fd [a|d] Hu Hi; [|contradiction].
  destruct (free_fold_of_flatten None (Some false) _ _ Hu Hi) as (x & Hx & Lx & Hf).
  pose proof Hi as (Hs & m & c & Ed & Hc & Hsym & Hpd).
  pose proof Hu as (Hfl & _). exists c, x.
  cbn [flat_len pl_n plint] in Lx. assert (length x = T sz) as Lx' by (rewrite Lx; cbn; unfold T; auto).
  split; [auto|]. split; [auto|]. split; [auto|].
  assert (map Fin (rrows sz m) = dat a) as Ed' by (rewrite <- rows_rrows; auto).
  assert (flatten_ snum (PPsd sz fl dl dv fd) (FArr a) false None = Ok (dat a)) as Hy.
  { cbn [flatten_]. rewrite interior_require; [cbn [bind]; auto|auto|exact Hi]. }
  rewrite Hy. f_equal.
  pose proof (psd_unfree sz fl dl dv fd c x Hu Hc Lx') as T1. rewrite transform_eq in T1. cbn [negb] in T1.
  rewrite Hf in T1. cbn [bind] in T1. rewrite flatten_lenient in T1; auto.
  - cbn [entries canon dat] in T1. injection T1 as T1. exact T1.
  - simpl; auto.
  - cbn. unfold nd_ok. cbn [shp dat]. rewrite ?Hs, Ed, rows_of_length. unfold prod. cbn [fold_right]. lia.
Qed.

(** ** Lines and coordinates *)
Lemma line_length : forall x h t, length x = length h -> length (line x h t) = length x.
Proof. unfold line. induction x; destruct h; simpl; intros; auto; try discriminate. Qed.
Lemma nth_line : forall x h t k, length x = length h ->
  nth k (line x h t) 0%R = (nth k x 0 + t * nth k h 0)%R.
Proof.
  unfold line. induction x; destruct h; simpl; intros t k E; try discriminate.
  - destruct k; ring.
  - destruct k; auto.
Qed.
Lemma line_zero : forall x h, length x = length h -> line x h 0 = x.
Proof.
  unfold line. induction x; destruct h; simpl; intros E; auto; try discriminate.
  f_equal; [ring|auto].
Qed.
Lemma line_lim : forall x h k, length x = length h ->
  derivable_pt_lim (fun t => nth k (line x h t) 0%R) 0 (nth k h 0%R).
Proof.
  intros x h k E.
  apply (lim_ext (fun t => (nth k x 0 + t * nth k h 0)%R) _ _ _ 1%R);
    [lra|intros; rewrite nth_line by auto; auto|].
  pose proof (derivable_pt_lim_plus (fun _ => nth k x 0%R) (fun t => (t * nth k h 0)%R) 0 _ _
    (derivable_pt_lim_const (nth k x 0%R) 0)
    (derivable_pt_lim_mult (fun t => t) (fun _ => nth k h 0%R) 0 _ _
       (derivable_pt_lim_id 0) (derivable_pt_lim_const (nth k h 0%R) 0))) as H.
  cbv beta in H. replace (0 + (1 * nth k h 0 + 0 * 0))%R with (nth k h 0%R) in H by ring. exact H.
Qed.
Lemma upd_lim : forall x l k, l < length x ->
  derivable_pt_lim (fun t => nth k (upd x l t) 0%R) (nth l x 0%R) (nth k (unit_vec (length x) l) 0%R).
Proof.
  intros x l k Hl. rewrite nth_unit_vec.
  apply (lim_ext (fun t => if k =? l then t else nth k x 0%R) _ _ _ 1%R);
    [lra|intros; rewrite nth_upd by auto; auto|].
  destruct (Nat.eqb_spec k l) as [->|].
  - rewrite (proj2 (Nat.ltb_lt l (length x))) by auto. apply derivable_pt_lim_id.
  - apply derivable_pt_lim_const.
Qed.

Section Leaf.
  Variables (sz fl : nat) (dlb : pynum) (dv : bool) (fd : option bool) (c : R) (x : list R).
  Hypothesis Hc : pyval dlb = Fin c.
  Hypothesis Lx : length x = sz * sz.
  Hypothesis Hp : pivots_pos sz c x.
  Notation p := (PPsd sz fl dlb dv fd).

  (** Along any differentiable curve the free vector is defined and differentiable. *)
  Lemma leaf_curve : forall (w : R -> list R) t0 h r0, (0 < r0)%R -> w t0 = x ->
    (forall t, (Rabs (t - t0) < r0)%R -> length (w t) = sz * sz) ->
    (forall k, derivable_pt_lim (fun t => nth k (w t) 0%R) t0 (nth k h 0%R)) ->
    (exists r, (0 < r)%R /\ forall t, (Rabs (t - t0) < r)%R ->
       transform true p (map Fin (w t)) = Ok (map Fin (fvec sz c (w t)))) /\
    forall k, k < T sz -> derivable_pt_lim (fun t => nth k (fvec sz c (w t)) 0%R) t0 (dfree sz c x h k).
  Proof.
    intros w t0 h r0 Hr0 E Lw Hw. subst x. split; [|intros k Hk; apply curve_free; auto].
    destruct (curve_pivots sz c w t0 h Hw Hp) as (r & Hr & H).
    exists (Rmin r r0). split; [apply Rmin_pos; auto|]. intros t Ht.
    pose proof (Rmin_l r r0). pose proof (Rmin_r r r0).
    apply psd_free; auto; [apply Lw; lra|apply H; lra].
  Qed.

  Lemma leaf_along : forall J h, length h = sz * sz -> m_rows J = T sz -> m_cols J = sz * sz ->
    (forall k, k < T sz -> exists row : nat -> R,
       (forall l, l < sz * sz -> m_at J k l = Fin (row l)) /\
       Rsum (sz * sz) (fun l => row l * nth l h 0)%R = dfree sz c x h k) ->
    derivative_along (transform true p) x (fvec sz c x) J h.
  Proof.
    intros J h Lh HJr HJc HJ.
    destruct (leaf_curve (line x h) 0 h 1) as ((r & Hr & Hd) & Hder); try lra.
    - apply line_zero. congruence.
    - intros. rewrite line_length; congruence.
    - intros. apply line_lim. congruence.
    - split; [apply psd_free; auto|]. rewrite fvec_length, Lx. split; [auto|]. split; [auto|].
      exists r, (fun t => fvec sz c (line x h t)). split; [auto|]. split.
      + intros t Ht. split; [apply Hd; rewrite Rminus_0_r; auto|apply fvec_length].
      + intros k Hk. destruct (HJ k Hk) as (row & H1 & H2). exists row. split; auto.
        rewrite H2. apply Hder. auto.
  Qed.

  Lemma leaf_along_inv : forall J h k, length h = sz * sz -> k < T sz ->
    derivative_along (transform true p) x (fvec sz c x) J h ->
    exists row : nat -> R, (forall l, l < sz * sz -> m_at J k l = Fin (row l)) /\
       Rsum (sz * sz) (fun l => row l * nth l h 0)%R = dfree sz c x h k.
  Proof.
    intros J h k Lh Hk (_ & _ & _ & r & G & Hr & HG & HD).
    rewrite fvec_length, Lx in HD. destruct (HD k Hk) as (row & H1 & H2). exists row. split; auto.
    destruct (leaf_curve (line x h) 0 h 1) as ((r' & Hr' & Hd) & Hder); try lra.
    - apply line_zero. congruence.
    - intros. rewrite line_length; congruence.
    - intros. apply line_lim. congruence.
    - eapply uniqueness_limite; [exact H2|].
      apply (lim_ext (fun t => nth k (fvec sz c (line x h t)) 0%R) _ _ _ (Rmin r r'));
        [apply Rmin_pos; auto| |apply Hder; auto].
      intros t Ht. rewrite Rminus_0_r in Ht.
      pose proof (Rmin_l r r'). pose proof (Rmin_r r r').
      destruct (HG t) as (E1 & _); [lra|]. rewrite (Hd t) in E1 by (rewrite Rminus_0_r; lra).
      injection E1 as E1. apply map_fin_inj' in E1. rewrite E1. auto.
  Qed.

  Lemma leaf_partials : forall J, m_rows J = T sz -> m_cols J = sz * sz ->
    (forall k l, k < T sz -> l < sz * sz -> m_at J k l = Fin (dfree sz c x (unit_vec (sz * sz) l) k)) ->
    derivative_at (transform true p) x (fvec sz c x) J.
  Proof.
    intros J HJr HJc HJ. split; [apply psd_free; auto|]. rewrite fvec_length.
    split; [auto|]. split; [rewrite Lx; auto|]. intros l Hl.
    destruct (leaf_curve (fun t => upd x l t) (nth l x 0%R) (unit_vec (length x) l) 1) as ((r & Hr & Hd) & Hder); try lra.
    - apply upd_same.
    - intros. rewrite upd_length. auto.
    - intros. apply upd_lim. auto.
    - exists r, (fun t => fvec sz c (upd x l t)). split; [auto|]. split.
      + intros t Ht. split; [apply Hd; auto|apply fvec_length].
      + intros k Hk. exists (dfree sz c x (unit_vec (sz * sz) l) k). split; [apply HJ; lia|].
        rewrite <- Lx at 1. apply Hder. auto.
  Qed.

  Lemma leaf_partials_inv : forall J k l, k < T sz -> l < sz * sz ->
    derivative_at (transform true p) x (fvec sz c x) J ->
    m_at J k l = Fin (dfree sz c x (unit_vec (sz * sz) l) k).
  Proof.
    intros J k l Hk Hl (_ & _ & _ & HD). rewrite Lx in HD.
    destruct (HD l Hl) as (r & G & Hr & HG & HJ). rewrite fvec_length in HJ.
    destruct (HJ k Hk) as (d & -> & H2). f_equal.
    destruct (leaf_curve (fun t => upd x l t) (nth l x 0%R) (unit_vec (length x) l) 1) as ((r' & Hr' & Hd) & Hder); try lra.
    - apply upd_same.
    - intros. rewrite upd_length. auto.
    - intros. apply upd_lim. rewrite Lx. auto.
    - eapply uniqueness_limite; [exact H2|]. rewrite <- Lx at 1.
      apply (lim_ext (fun t => nth k (fvec sz c (upd x l t)) 0%R) _ _ _ (Rmin r r'));
        [apply Rmin_pos; auto| |apply Hder; auto].
      intros t Ht. pose proof (Rmin_l r r'). pose proof (Rmin_r r r').
      destruct (HG t) as (E1 & _); [lra|]. rewrite (Hd t) in E1 by lra.
      injection E1 as E1. apply map_fin_inj' in E1. rewrite E1. auto.
  Qed.
End Leaf.

Definition is_psd (p : pat) : Prop := match p with PPsd _ _ _ _ _ => True | _ => False end.

(** Partial derivatives suffice along every direction. *)
Lemma partials_symmetric : forall ad p v, usable p -> interior p v -> is_psd p ->
  jacobian_true ad true p v -> jacobian_on_symmetric ad p v.
Proof.
  intros ad [| |sz fl dlb dv fd| |] v Hu Hi Hp; try contradiction; clear Hp.
  intros (J & HJ & x & y & Hx & Hy & HD).
  destruct (psd_vectors sz fl dlb dv fd v Hu Hi) as (c & xf & Hc & Lxf & Hfree & Hflat).
  change (flatten_ snum (PPsd sz fl dlb dv fd) v false None = Ok (map Fin x)) in Hx.
  change (flatten_ snum (PPsd sz fl dlb dv fd) v true None = Ok (map Fin y)) in Hy.
  rewrite Hflat in Hx. injection Hx as Hx. apply map_fin_inj' in Hx.
  rewrite Hfree in Hy. injection Hy as Hy. apply map_fin_inj' in Hy. subst x y.
  pose proof (flat_of_pivots sz c xf) as Hp.
  assert (length (flat_of sz c xf) = sz * sz) as Lx by apply rrows_length.
  exists J, (flat_of sz c xf), xf. split; [auto|]. split; [exact Hflat|]. split; [exact Hfree|].
  intros h (Lh & _). rewrite <- (fvec_flat_of sz c xf Lxf) in HD at 2.
  rewrite <- (fvec_flat_of sz c xf Lxf) at 2.
  pose proof HD as (_ & HJr & HJc & _). rewrite fvec_length in HJr. rewrite Lx in HJc.
  apply leaf_along; auto. intros k Hk.
  exists (fun l => dfree sz c (flat_of sz c xf) (unit_vec (sz * sz) l) k). split.
  - intros l Hl. eapply leaf_partials_inv; eauto.
  - rewrite <- dfree_sum; auto.
Qed.

Lemma dgram_sym : forall n v j i i', dgram n v j i i' = dgram n v j i' i.
Proof. intros. unfold dgram. apply Rsum_ext. intros. ring. Qed.

(** Right on symmetric directions, and true partial derivatives of the unfreeing
    map: the product is the identity. *)
Lemma leaf_inverse : forall ad p v, usable p -> interior p v -> is_psd p ->
  jacobian_on_symmetric ad p v -> jacobian_true ad false p v -> jacobians_inverse ad p v.
Proof.
  intros ad [| |sz fl dlb dv fd| |] v Hu Hi Hp; try contradiction; clear Hp.
  intros (J1 & x1 & y1 & HJ1 & Hx1 & Hy1 & HD1) (J2 & HJ2 & y2 & x2 & Hy2 & Hx2 & HD2).
  destruct (psd_vectors sz fl dlb dv fd v Hu Hi) as (c & xf & Hc & Lxf & Hfree & Hflat).
  change (flatten_ snum (PPsd sz fl dlb dv fd) v false None = Ok (map Fin x1)) in Hx1.
  change (flatten_ snum (PPsd sz fl dlb dv fd) v false None = Ok (map Fin x2)) in Hx2.
  change (flatten_ snum (PPsd sz fl dlb dv fd) v true None = Ok (map Fin y1)) in Hy1.
  change (flatten_ snum (PPsd sz fl dlb dv fd) v true None = Ok (map Fin y2)) in Hy2.
  rewrite Hflat in Hx1, Hx2. rewrite Hfree in Hy1, Hy2.
  injection Hx1 as Hx1. injection Hx2 as Hx2. injection Hy1 as Hy1. injection Hy2 as Hy2.
  apply map_fin_inj' in Hx1, Hx2, Hy1, Hy2. subst x1 x2 y1 y2.
  pose proof Hu as (Hfl & _).
  set (x := flat_of sz c xf) in *.
  assert (pivots_pos sz c x) as Hp by apply flat_of_pivots.
  assert (length x = sz * sz) as Lx by apply rrows_length.
  assert (fvec sz c x = xf) as Ef by (apply fvec_flat_of; auto).
  (* entries of the unfreeing Jacobian *)
  pose proof HD2 as (_ & R2 & C2 & HD2').
  assert (forall l k, l < sz * sz -> k < T sz ->
     m_at J2 l k = Fin (dgram sz xf k (l / sz) (l mod sz))) as EJ2.
  { intros l k Hl Hk. rewrite Lxf in HD2'. destruct (HD2' k Hk) as (r & G & Hr & HG & Hd).
    rewrite Lx in Hd. destruct (Hd l Hl) as (d & -> & Hlim). f_equal.
    eapply uniqueness_limite; [exact Hlim|].
    apply (lim_ext (fun t => add_diag c (gram sz (chol_of (upd xf k t))) (l / sz) (l mod sz)) _ _ _ r);
      [auto| |apply gram_lim; rewrite Lxf; auto].
    intros t Ht. destruct (HG t Ht) as (E & _).
    rewrite (psd_unfree sz fl dlb dv fd c) in E by (auto; rewrite upd_length; auto).
    injection E as E. apply map_fin_inj' in E. rewrite <- E. unfold flat_of. rewrite nth_rrows by auto. auto. }
  set (col := fun k => map (fun l => dgram sz xf k (l / sz) (l mod sz)) (seq 0 (sz * sz))).
  assert (forall k, length (col k) = sz * sz) as Lcol by (intros; unfold col; rewrite map_length, seq_length; auto).
  assert (forall k l, l < sz * sz -> nth l (col k) 0%R = dgram sz xf k (l / sz) (l mod sz)) as Ncol.
  { intros k l Hl. unfold col. rewrite (nth_map_gen _ _ _ _ _ 0%R 0) by (rewrite seq_length; auto).
    rewrite seq_nth by auto. auto. }
  assert (forall k, symmetric_direction sz (col k)) as Scol.
  { intros k. split; auto. intros i j Hi' Hj. rewrite !Ncol by nia.
    replace ((i * sz + j) / sz) with i by (rewrite Nat.div_add_l, Nat.div_small by lia; lia).
    replace ((j * sz + i) / sz) with j by (rewrite Nat.div_add_l, Nat.div_small by lia; lia).
    replace ((i * sz + j) mod sz) with j by (rewrite Nat.add_comm, Nat.mod_add, Nat.mod_small by lia; lia).
    replace ((j * sz + i) mod sz) with i by (rewrite Nat.add_comm, Nat.mod_add, Nat.mod_small by lia; lia).
    apply dgram_sym. }
  assert (forall i k, i < T sz -> k < T sz -> exists row : nat -> R,
     (forall l, l < sz * sz -> m_at J1 i l = Fin (row l)) /\
     Rsum (sz * sz) (fun l => row l * nth l (col k) 0)%R = if i =? k then 1%R else 0%R) as EJ1.
  { intros i k Hi' Hk. pose proof (HD1 (col k) (Scol k)) as A. rewrite <- Ef in A.
    destruct (leaf_along_inv sz fl dlb dv fd c x Hc Lx Hp J1 (col k) i (Lcol k) Hi' A) as (row & H1 & H2).
    exists row. split; auto. rewrite H2.
    destruct (leaf_curve sz fl dlb dv fd c x Hc Lx Hp (fun t => flat_of sz c (upd xf k t)) (nth k xf 0%R) (col k) 1)
      as (_ & Hder); try lra.
    - rewrite upd_same. auto.
    - intros. apply rrows_length.
    - intros l. destruct (Nat.lt_ge_cases l (sz * sz)).
      + rewrite Ncol by auto.
        apply (lim_ext (fun t => add_diag c (gram sz (chol_of (upd xf k t))) (l / sz) (l mod sz)) _ _ _ 1%R);
          [lra| |apply gram_lim; rewrite Lxf; auto].
        intros t _. unfold flat_of. rewrite nth_rrows by auto. auto.
      + rewrite (nth_overflow (col k)) by (rewrite Lcol; auto).
        apply (lim_ext (fun _ => 0%R) _ _ _ 1%R); [lra| |apply derivable_pt_lim_const].
        intros t _. rewrite nth_overflow; auto. unfold flat_of. rewrite rrows_length. auto.
    - eapply uniqueness_limite; [exact (Hder i Hi')|].
      apply (lim_ext (fun t => nth i (upd xf k t) 0%R) _ _ _ 1%R); [lra| |].
      + intros t _. rewrite fvec_flat_of by (rewrite upd_length; auto). auto.
      + pose proof (upd_lim xf k i) as U. rewrite nth_unit_vec, Lxf in U.
        rewrite (proj2 (Nat.ltb_lt i (T sz))), andb_true_r in U by auto. apply U. auto. }
  assert (m_rows J1 = T sz /\ m_cols J1 = sz * sz) as (R1 & C1).
  { destruct (HD1 (map (fun _ => 0%R) (seq 0 (sz * sz)))) as (_ & R1 & C1 & _).
    - split; [rewrite map_length, seq_length; auto|]. intros i j Hi' Hj.
      rewrite !(nth_map_gen _ _ _ _ _ 0%R 0) by (rewrite seq_length; nia). auto.
    - rewrite Lxf in R1. rewrite Lx in C1. auto. }
  exists J1, J2. split; [auto|]. split; [auto|].
  rewrite Lx in R2. rewrite Lxf in C2.
  split; [|split].
  - intros i l Hi' Hl. rewrite R1 in Hi'. rewrite C1 in Hl.
    destruct (EJ1 i i Hi' Hi') as (row & H1 & _). exists (row l). auto.
  - intros l k Hl Hk. rewrite R2 in Hl. rewrite C2 in Hk. eexists. apply EJ2; auto.
  - cbn [flat_len plint pl_n]. rewrite Hfl. change (sz * (sz + 1) / 2) with (T sz).
    split; [auto|]. split; [auto|]. split; [congruence|]. intros i k Hi' Hk.
    destruct (EJ1 i k Hi' Hk) as (row & H1 & H2). unfold mat_prod. rewrite C1.
    rewrite <- H2, <- nsum_seq. f_equal. apply map_ext_in. intros l Hl. apply in_seq in Hl.
    rewrite H1, EJ2, Ncol by lia. reflexivity.
Qed.

(** ** Trees *)
Lemma at_psd_impl : forall (P Q : pat -> fv num -> Prop),
  (forall p v, usable p -> interior p v -> is_psd p -> P p v -> Q p v) ->
  forall p v, usable p -> interior p v -> at_psd P p v -> at_psd Q p v.
Proof.
  intros P Q H. apply (pat_ind' (fun p => forall v, usable p -> interior p v -> at_psd P p v -> at_psd Q p v)).
  - intros; exact I.
  - intros; exact I.
  - intros. apply H; simpl; auto.
  - intros s b fd IH [a|d] Hu Hi HP; [|exact I]. intros it Hit. apply IH; [apply Hu| |apply HP; auto].
    eapply interior_block; eauto.
  - intros items l fl fd lk IH [a|d] Hu Hi HP; [exact I|]. destruct Hu as (_ & _ & _ & _ & Hu).
    simpl in Hi. apply all_items_Forall in Hu, Hi. apply all_items_Forall.
    cbn [at_psd] in HP. apply all_items_Forall in HP.
    rewrite Forall_forall in *. intros kq Hkq w Hw. destruct (Hi _ Hkq) as (w' & Hw' & Hiw).
    pose proof Hw as Hw0. rewrite Hw in Hw'. injection Hw' as ->.
    apply IH; auto.
Qed.
Lemma at_psd_and : forall (P Q : pat -> fv num -> Prop) p v,
  at_psd P p v -> at_psd Q p v -> at_psd (fun p v => P p v /\ Q p v) p v.
Proof.
  intros P Q. apply (pat_ind' (fun p => forall v, at_psd P p v -> at_psd Q p v -> at_psd (fun p v => P p v /\ Q p v) p v)).
  - intros; exact I.
  - intros; exact I.
  - intros; simpl; auto.
  - intros s b fd IH [a|d] HP HQ; [|exact I]. intros it Hit. apply IH; [apply HP|apply HQ]; auto.
  - intros items l fl fd lk IH [a|d] HP HQ; [exact I|].
    cbn [at_psd] in *. apply all_items_Forall in HP, HQ. apply all_items_Forall.
    rewrite Forall_forall in *. intros kq Hkq w Hw. apply IH; auto.
Qed.

Theorem inverse_from_derivatives : forall ad p v,
  usable p -> simplexes_nonempty p -> interior p v ->
  at_psd (jacobian_on_symmetric ad) p v -> at_psd (jacobian_true ad false) p v ->
  jacobians_inverse ad p v.
Proof.
  intros ad p v Hu Hs Hi H1 H2. apply all_inv; auto.
  apply (at_psd_impl (fun p v => jacobian_on_symmetric ad p v /\ jacobian_true ad false p v)); auto.
  - intros q w Hu' Hi' Hq (A & B). apply leaf_inverse; auto.
  - apply at_psd_and; auto.
Qed.

Theorem partial_derivatives_symmetric : forall ad p v, usable p -> interior p v ->
  at_psd (jacobian_true ad true) p v -> at_psd (jacobian_on_symmetric ad) p v.
Proof. intros ad. apply at_psd_impl. intros. apply partials_symmetric; auto. Qed.

(** ** Oracles that meet the assumptions *)
Definition real_of (y : num) : R := match y with Fin r => r | _ => 0%R end.
Lemma real_of_map : forall x, map real_of (map Fin x) = x.
Proof. intros. rewrite map_map. apply map_id. Qed.

(** Partial derivatives; and the same with the columns of an entry and of its
    mirror image averaged, as autograd's gradient of [cholesky] does. *)
Definition mirror (n l : nat) : nat := (l mod n) * n + l / n.
Definition full_ad (sym : bool) (freeing : bool) (p : pat) (x : list num) : res matrix :=
  if freeing then
    match p with
    | PPsd n _ dlb _ _ =>
        let w := map real_of x in
        let c := real_of (pyval dlb) in
        Ok (mkMat (T n) (n * n) (fun k l =>
          Fin (if sym then
                 ((dfree n c w (unit_vec (n * n) l) k + dfree n c w (unit_vec (n * n) (mirror n l)) k) / 2)%R
               else dfree n c w (unit_vec (n * n) l) k)))
    | _ => Err Unmodelled
    end
  else psd_ad false p x.

Lemma full_ad_free_leaf : forall p v, usable p -> interior p v -> is_psd p ->
  jacobian_true (full_ad false) true p v.
Proof.
  intros [| |sz fl dlb dv fd| |] v Hu Hi Hp; try contradiction; clear Hp.
  destruct (psd_vectors sz fl dlb dv fd v Hu Hi) as (c & xf & Hc & Lxf & Hfree & Hflat).
  eexists. split.
  - destruct v as [a|d]; [|contradiction]. cbn [jacobian negb]. rewrite Hflat. cbn [bind full_ad].
    rewrite real_of_map, Hc. reflexivity.
  - exists (flat_of sz c xf), xf. split; [exact Hflat|]. split; [exact Hfree|].
    rewrite <- (fvec_flat_of sz c xf Lxf) at 2.
    apply leaf_partials; auto; [apply rrows_length|apply flat_of_pivots].
Qed.
Lemma full_ad_unfree : forall s p v, jacobian_true psd_ad false p v -> is_psd p -> jacobian_true (full_ad s) false p v.
Proof.
  intros s [| |sz fl dlb dv fd| |] v (J & HJ & H) Hp; try contradiction.
  exists J. split; auto.
Qed.

Lemma mirror_lt : forall n l, l < n * n -> mirror n l < n * n.
Proof.
  intros n l H. assert (n <> 0) by (intros ->; lia). unfold mirror.
  pose proof (Nat.mod_upper_bound l n H0). assert (l / n < n) by (apply Nat.div_lt_upper_bound; auto). nia.
Qed.
Lemma mirror_inv : forall n l, l < n * n -> mirror n (mirror n l) = l.
Proof.
  intros n l H. assert (n <> 0) as Hn by (intros ->; lia). unfold mirror.
  pose proof (Nat.mod_upper_bound l n Hn). assert (l / n < n) by (apply Nat.div_lt_upper_bound; auto).
  rewrite (Nat.add_comm (l mod n * n)), Nat.mod_add, Nat.div_add by auto.
  rewrite (Nat.mod_small (l / n)), (Nat.div_small (l / n)) by auto.
  pose proof (Nat.div_mod l n Hn). lia.
Qed.
Lemma Rsum_pair : forall N f (s : nat -> nat), (forall l, l < N -> s l < N) ->
  (forall l, l < N -> s (s l) = l) -> Rsum N (fun l => f (s l)) = Rsum N f.
Proof.
  intros N f s H1 H2.
  transitivity (Rsum N (fun l => Rsum N (fun k => (if (k =? s l)%nat then f k else 0)%R))).
  - apply Rsum_ext. intros l Hl. rewrite (Rsum_pick _ (s l)).
    + rewrite (proj2 (Nat.ltb_lt (s l) N)), Nat.eqb_refl by auto. auto.
    + intros k _ Hne. destruct (Nat.eqb_spec k (s l)); [lia|auto].
  - rewrite Rsum_swap. apply Rsum_ext. intros k Hk. rewrite (Rsum_pick _ (s k)).
    + rewrite (proj2 (Nat.ltb_lt (s k) N)), H2, Nat.eqb_refl by auto. auto.
    + intros l Hl Hne. destruct (Nat.eqb_spec k (s l)) as [E|]; auto. exfalso. apply Hne. rewrite E, H2; auto.
Qed.

Lemma full_ad_sym_leaf : forall p v, usable p -> interior p v -> is_psd p ->
  jacobian_on_symmetric (full_ad true) p v.
Proof.
  intros [| |sz fl dlb dv fd| |] v Hu Hi Hp; try contradiction; clear Hp.
  destruct (psd_vectors sz fl dlb dv fd v Hu Hi) as (c & xf & Hc & Lxf & Hfree & Hflat).
  eexists. exists (flat_of sz c xf), xf. split; [|split; [exact Hflat|split; [exact Hfree|]]].
  - destruct v as [a|d]; [|contradiction]. cbn [jacobian negb]. rewrite Hflat. cbn [bind full_ad].
    rewrite real_of_map, Hc. reflexivity.
  - intros h (Lh & Sh). rewrite <- (fvec_flat_of sz c xf Lxf) at 2.
    pose proof (flat_of_pivots sz c xf) as Hp.
    apply leaf_along; auto; [apply rrows_length|].
    intros k Hk. eexists. split; [intros l Hl; reflexivity|]. cbn [real_of].
    set (e := fun l => dfree sz c (flat_of sz c xf) (unit_vec (sz * sz) l) k).
    transitivity (/ 2 * Rsum (sz * sz) (fun l => e l * nth l h 0)%R + / 2 * Rsum (sz * sz) (fun l => e (mirror sz l) * nth (mirror sz l) h 0)%R)%R.
    + rewrite <- !Rsum_scal, <- Rsum_plus. apply Rsum_ext. intros l Hl.
      replace (nth (mirror sz l) h 0%R) with (nth l h 0%R); [fold (e l) (e (mirror sz l)); field|].
      assert (sz <> 0) as Hn by (intros ->; lia). pose proof (Nat.mod_upper_bound l sz Hn).
      assert (l / sz < sz) by (apply Nat.div_lt_upper_bound; auto).
      unfold mirror. rewrite <- (Sh (l / sz) (l mod sz)) by auto.
      pose proof (Nat.div_mod l sz Hn) as E. f_equal. lia.
    + rewrite (Rsum_pair (sz * sz) (fun l => (e l * nth l h 0)%R) (mirror sz)) by (apply mirror_lt || apply mirror_inv).
      rewrite (dfree_sum sz c _ h k Hp Hk Lh). unfold e. field.
Qed.

Lemma at_psd_leaf : forall (Q : pat -> fv num -> Prop),
  (forall p v, usable p -> interior p v -> is_psd p -> Q p v) ->
  forall p v, usable p -> interior p v -> at_psd Q p v.
Proof.
  intros Q H p v Hu Hi.
  apply (at_psd_impl (fun _ _ => True)); auto. clear.
  revert v. apply (pat_ind' (fun p => forall v, at_psd (fun _ _ => True) p v)); try (intros; exact I).
  - intros s b fd IH [a|d]; [|exact I]. intros it _. apply IH.
  - intros items l fl fd lk IH [a|d]; [exact I|]. cbn [at_psd]. apply all_items_Forall.
    rewrite Forall_forall in *. intros kq Hkq w _. apply IH; auto.
Qed.

Theorem psd_differentiable :
  exists ad, forall p v, usable p -> interior p v ->
    at_psd (jacobian_true ad true) p v /\ at_psd (jacobian_true ad false) p v.
Proof.
  exists (full_ad false). intros p v Hu Hi. split; apply at_psd_leaf; auto.
  - intros. apply full_ad_free_leaf; auto.
  - intros. apply full_ad_unfree; auto. apply psd_ad_true; auto.
Qed.

(** A freeing Jacobian with equal columns for an entry and its mirror image is
    not the matrix of partial derivatives. *)
Lemma dl_stable : forall A h m m' i k, k < m -> m <= m' -> dl A h m' i k = dl A h m i k.
Proof.
  intros A h m m' i k Hk Hm. induction Hm; auto. cbn [dl].
  destruct (Nat.eqb_spec k m0); [lia|auto].
Qed.
Theorem symmetrised_not_partials : forall ad n fl dlb dv fd v J,
  2 <= n -> usable (PPsd n fl dlb dv fd) -> interior (PPsd n fl dlb dv fd) v ->
  jacobian ad true (PPsd n fl dlb dv fd) v = Ok J ->
  (forall k i j, k < fl -> i < n -> j < n -> m_at J k (i * n + j) = m_at J k (j * n + i)) ->
  ~ jacobian_true ad true (PPsd n fl dlb dv fd) v.
Proof.
  intros ad sz fl dlb dv fd v J Hn Hu Hi HJ Hm (J' & HJ' & x & y & Hx & Hy & HD).
  rewrite HJ in HJ'. injection HJ' as <-.
  destruct (psd_vectors sz fl dlb dv fd v Hu Hi) as (c & xf & Hc & Lxf & Hfree & Hflat).
  change (flatten_ snum (PPsd sz fl dlb dv fd) v false None = Ok (map Fin x)) in Hx.
  change (flatten_ snum (PPsd sz fl dlb dv fd) v true None = Ok (map Fin y)) in Hy.
  rewrite Hflat in Hx. injection Hx as Hx. apply map_fin_inj' in Hx.
  rewrite Hfree in Hy. injection Hy as Hy. apply map_fin_inj' in Hy. subst x y.
  pose proof (flat_of_pivots sz c xf) as Hp.
  assert (length (flat_of sz c xf) = sz * sz) as Lx by apply rrows_length.
  rewrite <- (fvec_flat_of sz c xf Lxf) in HD at 2.
  assert (3 <= T sz) as HT by (apply (T_mono 2 sz); lia).
  pose proof Hu as (Hfl & _). change (fl = T sz) in Hfl.
  assert (nth 1 (tril sz) (0, 0) = (1, 0)) as E1 by (apply (nth_tril sz 1 0 (0, 0)); lia).
  assert (dfree sz c (flat_of sz c xf) (unit_vec (sz * sz) (0 * sz + 1)) 1 = 0%R) as Z.
  { unfold dfree. rewrite E1. cbn [fst snd Nat.eqb].
    rewrite (dl_ext _ _ (fun _ _ => 0%R)); [apply dl_zero; auto|].
    intros i j Hij. rewrite nth_unit_vec. destruct (Nat.eqb_spec (i * sz + j) (0 * sz + 1)); auto.
    exfalso. destruct i; [lia|]. nia. }
  assert (dfree sz c (flat_of sz c xf) (unit_vec (sz * sz) (1 * sz + 0)) 1 <> 0%R) as NZ.
  { unfold dfree. rewrite E1. cbn [fst snd Nat.eqb]. rewrite (dl_stable _ _ 1) by lia.
    cbn [dl Nat.eqb Nat.ltb Nat.leb Rsum]. rewrite !nth_unit_vec.
    rewrite (proj2 (Nat.eqb_neq (0 * sz + 0) (1 * sz + 0))) by lia. rewrite Nat.eqb_refl.
    rewrite (proj2 (Nat.ltb_lt (1 * sz + 0) (sz * sz))) by nia. cbn [andb].
    pose proof (sqrt_lt_R0 _ (Hp 0 ltac:(lia))) as Hs. unfold Rsqr. intros E.
    apply (f_equal (fun z => z * sqrt (pivot (rmat sz c (flat_of sz c xf)) 0)))%R in E.
    field_simplify in E; lra. }
  pose proof (Hm 1 0 1 ltac:(lia) ltac:(lia) ltac:(lia)) as E.
  rewrite !(leaf_partials_inv sz fl dlb dv fd c _ Hc Lx Hp J 1) in E by (auto; nia).
  injection E as E. apply NZ. etransitivity; [symmetry; exact E|exact Z].
Qed.

Theorem symmetrised_accepted :
  exists ad, forall p v, usable p -> interior p v ->
    at_psd (jacobian_on_symmetric ad) p v /\ at_psd (jacobian_true ad false) p v /\
    at_psd (fun q w => forall n fl dlb dv fd J, q = PPsd n fl dlb dv fd ->
              jacobian ad true q w = Ok J ->
              forall k i j, i < n -> j < n -> m_at J k (i * n + j) = m_at J k (j * n + i)) p v.
Proof.
  exists (full_ad true). intros p v Hu Hi.
  split; [|split]; apply at_psd_leaf; auto.
  - intros. apply full_ad_sym_leaf; auto.
  - intros. apply full_ad_unfree; auto. apply psd_ad_true; auto.
  - clear. intros q w Hu Hi _ n fl dlb dv fd J -> HJ k i j Hi' Hj.
    destruct w as [a|d]; [|contradiction]. cbn [jacobian negb] in HJ.
    destruct (flatten_ _ _ _ _ _) as [x|]; [|discriminate]. cbn [bind full_ad] in HJ.
    injection HJ as <-. cbn [m_at]. f_equal.
    assert (mirror n (i * n + j) = j * n + i) as M1.
    { unfold mirror. rewrite (Nat.add_comm (i * n)), Nat.mod_add, Nat.div_add, Nat.mod_small, Nat.div_small by lia. lia. }
    assert (mirror n (j * n + i) = i * n + j) as M2.
    { unfold mirror. rewrite (Nat.add_comm (j * n)), Nat.mod_add, Nat.div_add, Nat.mod_small, Nat.div_small by lia. lia. }
    rewrite M1, M2. field.
Qed.
