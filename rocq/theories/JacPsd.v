(** * The unfreeing map of a PSD pattern has partial derivatives everywhere, so
    that the assumption made on [autograd.jacobian] can be met. *)
From Coq Require Import Reals Lra Lia.
From Verif Require Import Base Num Nd Numeric Simplex Psd Pattern Spec ListFacts PatFacts NonFree
  NumFacts CholFacts Free Contract Jac SpecJac JacBase JacFacts JacMore.
Local Open Scope list_scope.
Local Open Scope nat_scope.

Definition rrows (n : nat) (m : nat -> nat -> R) : list R :=
  flat_map (fun i => map (m i) (seq 0 n)) (seq 0 n).

Lemma rows_rrows : forall n m, rows_of n m = map Fin (rrows n m).
Proof.
  intros n m. unfold rows_of, rrows. generalize (seq 0 n) at 2 4. induction l; auto.
  simpl. rewrite map_app, map_map, IHl. auto.
Qed.
Lemma rrows_length : forall n m, length (rrows n m) = n * n.
Proof. intros. rewrite <- (map_length Fin), <- rows_rrows. apply rows_of_length. Qed.

Lemma nth_rrows : forall n m k, k < n * n ->
  nth k (rrows n m) 0%R = m (k / n) (k mod n).
Proof.
  intros n m k Hk. assert (n <> 0) as Hn by (intros ->; lia).
  pose proof (Nat.div_mod k n Hn) as E. pose proof (Nat.mod_upper_bound k n Hn) as Hm.
  assert (k / n < n) as Hd by (apply Nat.div_lt_upper_bound; auto).
  pose proof (mat_of_rows n m (k / n) (k mod n) Hd Hm) as H.
  unfold mat_of in H. cbn [dat] in H. rewrite rows_rrows in H.
  replace (k / n * n + k mod n) with k in H by lia.
  rewrite (nth_map_gen _ _ Fin _ _ NaN 0%R) in H by (rewrite rrows_length; auto).
  injection H as H. exact H.
Qed.

(** Derivative of entry [(i, k)] of the Cholesky factor in coordinate [j]. *)
Definition dchol (v : list R) (j i k : nat) : R :=
  if (k <=? i) && (ld_ind i k =? j) then (if i =? k then exp (nth j v 0%R) else 1%R) else 0%R.
Definition dgram (n : nat) (v : list R) (j i i' : nat) : R :=
  Rsum n (fun k => (dchol v j i k * chol_of v i' k + chol_of v i k * dchol v j i' k)%R).

Lemma chol_lim : forall v j i k, j < length v ->
  derivable_pt_lim (fun t => chol_of (upd v j t) i k) (nth j v 0%R) (dchol v j i k).
Proof.
  intros v j i k Hj. unfold chol_of, dchol, diag_map. destruct (k <=? i); cbn [andb].
  2:{ apply derivable_pt_lim_const. }
  destruct (Nat.eqb_spec i k) as [->|Hik].
  - apply (lim_ext (fun t => exp (if ld_ind k k =? j then t else nth (ld_ind k k) v 0%R)) _ _ _ 1%R);
      [lra|intros; rewrite nth_upd by auto; auto|].
    destruct (ld_ind k k =? j); [apply derivable_pt_lim_exp|].
    apply (derivable_pt_lim_const (exp (nth (ld_ind k k) v 0%R))).
  - apply (lim_ext (fun t => if ld_ind i k =? j then t else nth (ld_ind i k) v 0%R) _ _ _ 1%R);
      [lra|intros; rewrite nth_upd by auto; auto|].
    destruct (ld_ind i k =? j); [apply derivable_pt_lim_id|].
    apply (derivable_pt_lim_const (nth (ld_ind i k) v 0%R)).
Qed.

Lemma Rsum_lim : forall n (f : R -> nat -> R) x d,
  (forall k, k < n -> derivable_pt_lim (fun t => f t k) x (d k)) ->
  derivable_pt_lim (fun t => Rsum n (f t)) x (Rsum n d).
Proof.
  induction n; intros f x d H; simpl; [apply derivable_pt_lim_const|].
  apply (derivable_pt_lim_plus (fun t => Rsum n (f t)) (fun t => f t n)); auto.
Qed.

Lemma gram_lim : forall n v j i i' c, j < length v ->
  derivable_pt_lim (fun t => add_diag c (gram n (chol_of (upd v j t))) i i') (nth j v 0%R)
    (dgram n v j i i').
Proof.
  intros n v j i i' c Hj. unfold add_diag. rewrite <- (Rplus_0_r (dgram n v j i i')).
  apply (derivable_pt_lim_plus (fun t => gram n (chol_of (upd v j t)) i i')
           (fun _ => if i =? i' then c else 0%R)); [|apply derivable_pt_lim_const].
  unfold gram, dgram. apply (Rsum_lim n (fun t k => (chol_of (upd v j t) i k * chol_of (upd v j t) i' k)%R)).
  intros k Hk.
  pose proof (derivable_pt_lim_mult (fun t => chol_of (upd v j t) i k) (fun t => chol_of (upd v j t) i' k)
    (nth j v 0%R) _ _ (chol_lim v j i k Hj) (chol_lim v j i' k Hj)) as H.
  cbv beta in H. rewrite !upd_same in H. exact H.
Qed.

(** A Jacobian oracle for the unfreeing direction, by formula. *)
Definition psd_ad (freeing : bool) (p : pat) (x : list num) : res matrix :=
  match p with
  | PPsd n _ _ _ _ =>
      let v := map (fun y => match y with Fin r => r | _ => 0%R end) x in
      Ok (mkMat (n * n) (length x) (fun k j => Fin (dgram n v j (k / n) (k mod n))))
  | _ => Err Unmodelled
  end.

Lemma psd_ad_true : forall p v, usable p -> interior p v ->
  (match p with PPsd _ _ _ _ _ => True | _ => False end) ->
  jacobian_true psd_ad false p v.
Proof.
  intros [| |sz fl dl dv fd| |] [a|d] Hu Hi Hp; try contradiction; clear Hp.
  destruct (free_fold_of_flatten None (Some false) _ _ Hu Hi) as (x & Hx & Lx & Hf).
  destruct Hi as (Hs & m & c & Ed & Hc & Hsym & Hpd).
  pose proof Hu as (Hfl & _).
  cbn [flat_len pl_n plint] in Lx. assert (length x = T sz) as Lx' by (rewrite Lx; cbn; unfold T; auto).
  assert (forall w, length w = T sz ->
    transform false (PPsd sz fl dl dv fd) (map Fin w)
    = Ok (map Fin (rrows sz (add_diag c (gram sz (chol_of w)))))) as HT.
  { intros w Lw. rewrite transform_eq. cbn [negb].
    destruct (free_flatten_of_fold (Some false) None (PPsd sz fl dl dv fd) w Hu) as (v & Hv & Hiv & _).
    { cbn. rewrite Hfl. exact Lw. }
    rewrite Hv. cbn [bind]. cbn [fold_ vec] in Hv. unfold vec in Hv. cbn in Hv.
    rewrite map_length, Hfl in Hv. change (sz * (sz + 1) / 2) with (T sz) in Hv.
    rewrite Nat.mul_1_r, Lw, Nat.eqb_refl in Hv. cbn [negb] in Hv.
    assert (map (to_num snum) (map Fin w) = map Fin w) as E by apply map_id.
    cbn in E. rewrite map_id, Hc, (unpack_fin sz) in Hv by auto. cbn [bind] in Hv.
    injection Hv as <-. rewrite flatten_lenient; auto.
    - cbn [entries nd_map dat]. rewrite map_id, rows_rrows. auto.
    - simpl. auto.
    - apply interior_fv_arr in Hiv; auto. apply Hiv.
    - apply interior_shape; auto. }
  assert (map Fin (rrows sz m) = dat a) as Ed' by (rewrite <- rows_rrows; auto).
  assert (flatten_ snum (PPsd sz fl dl dv fd) (FArr a) false None = Ok (map Fin (rrows sz m))) as Hy.
  { cbn [flatten_]. rewrite interior_require; [cbn [bind]; rewrite Ed'; auto|auto|].
    exact (conj Hs (ex_intro _ m (ex_intro _ c (conj Ed (conj Hc (conj Hsym Hpd)))))). }
  set (J := mkMat (sz * sz) (length x) (fun k j => Fin (dgram sz x j (k / sz) (k mod sz)))).
  exists J. split.
  - cbn [jacobian negb]. rewrite Hx. cbn [bind psd_ad]. unfold J. do 2 f_equal.
    + rewrite map_length. auto.
    + rewrite map_map, map_id. auto.
  - exists x, (rrows sz m). split; [exact Hx|]. split; [exact Hy|].
    split; [|split; [cbn [m_rows J]; rewrite rrows_length; auto|split; [auto|]]].
    + rewrite HT by auto. f_equal. f_equal.
      pose proof Hf as K. rewrite <- (map_id (map Fin x)) in K.
      assert (exists w, fold_ snum (PPsd sz fl dl dv fd) (vec (map Fin x)) true (Some false) = Ok w /\
                 flatten_ snum (PPsd sz fl dl dv fd) w false (Some false) = Ok (map Fin (rrows sz m))) as (w & W1 & W2).
      { exists (canon (PPsd sz fl dl dv fd) (FArr a)). split; [exact Hf|].
        rewrite flatten_lenient; auto.
        - cbn [entries canon dat]. rewrite Ed'. destruct a; auto.
        - simpl; auto.
        - cbn. unfold nd_ok. cbn [shp dat]. rewrite ?Hs, Ed, rows_of_length. unfold prod. cbn [fold_right]. lia. }
      pose proof (HT x Lx') as T1. rewrite transform_eq in T1. cbn [negb] in T1. rewrite W1 in T1.
      cbn [bind] in T1. rewrite W2 in T1. injection T1 as T1. apply map_fin_inj' in T1. auto.
    + intros j Hj. exists 1%R, (fun t => rrows sz (add_diag c (gram sz (chol_of (upd x j t))))).
      split; [lra|]. split.
      * intros t _. split; [apply HT; rewrite upd_length; auto|]. rewrite !rrows_length. auto.
      * rewrite rrows_length. intros i Hi. exists (dgram sz x j (i / sz) (i mod sz)). split; auto.
        apply (lim_ext (fun t => add_diag c (gram sz (chol_of (upd x j t))) (i / sz) (i mod sz)) _ _ _ 1%R);
          [lra| |apply gram_lim; auto].
        intros t _. rewrite nth_rrows by auto. auto.
Qed.

Lemma psd_ad_at : forall p v, usable p -> interior p v ->
  at_psd (jacobian_true psd_ad false) p v.
Proof.
  apply (pat_ind' (fun p => forall v, usable p -> interior p v ->
    at_psd (jacobian_true psd_ad false) p v)).
  - intros; exact I.
  - intros; exact I.
  - intros. apply psd_ad_true; auto.
  - intros s b fd IH [a|d] Hu Hi; [|exact I]. intros it Hit. apply IH; [apply Hu|].
    eapply interior_block; eauto.
  - intros items l fl fd lk IH [a|d] Hu Hi; [exact I|]. destruct Hu as (_ & _ & _ & _ & Hu).
    simpl in Hi. apply all_items_Forall in Hu, Hi. apply all_items_Forall.
    rewrite Forall_forall in *. intros kq Hkq w Hw. destruct (Hi _ Hkq) as (w' & Hw' & Hiw).
    apply IH; auto. rewrite Hw in Hw'. injection Hw' as ->. auto.
Qed.
