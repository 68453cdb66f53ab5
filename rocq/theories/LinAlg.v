(** * Linear algebra over the reals with matrices as functions. *)
From Coq Require Import Reals Lra Lia.
From Verif Require Import Base Num Nd Spec ListFacts NumFacts CholFacts Jac Optim SpecOptim.
Local Open Scope list_scope.
Local Open Scope nat_scope.

(** ** products *)
Lemma mm_assoc : forall n a b c i j,
  Rmatmul n (Rmatmul n a b) c i j = Rmatmul n a (Rmatmul n b c) i j.
Proof.
  intros. unfold Rmatmul.
  transitivity (Rsum n (fun k => Rsum n (fun l => (a i l * b l k) * c k j))%R).
  { apply Rsum_ext. intros k _. rewrite Rsum_scal_r. auto. }
  rewrite Rsum_swap. apply Rsum_ext. intros l _. rewrite <- Rsum_scal.
  apply Rsum_ext. intros k _. ring.
Qed.
Lemma mm_ext : forall n a a' b b', Rmat_eq n a a' -> Rmat_eq n b b' ->
  Rmat_eq n (Rmatmul n a b) (Rmatmul n a' b').
Proof.
  intros n a a' b b' Ha Hb i j Hi Hj. unfold Rmatmul. apply Rsum_ext. intros k Hk.
  rewrite Ha, Hb; auto.
Qed.
Lemma mm_id_l : forall n a, Rmat_eq n (Rmatmul n Rid a) a.
Proof.
  intros n a i j Hi Hj. unfold Rmatmul, Rid. rewrite (Rsum_single n _ i Hi).
  - rewrite Nat.eqb_refl. ring.
  - intros k Hk Hne. rewrite (proj2 (Nat.eqb_neq i k)) by auto. ring.
Qed.
Lemma mm_id_r : forall n a, Rmat_eq n (Rmatmul n a Rid) a.
Proof.
  intros n a i j Hi Hj. unfold Rmatmul, Rid. rewrite (Rsum_single n _ j Hj).
  - rewrite Nat.eqb_refl. ring.
  - intros k Hk Hne. rewrite (proj2 (Nat.eqb_neq k j)) by auto. ring.
Qed.
Lemma meq_refl : forall n a, Rmat_eq n a a.
Proof. intros n a i j _ _. auto. Qed.
Lemma meq_sym : forall n a b, Rmat_eq n a b -> Rmat_eq n b a.
Proof. intros n a b H i j Hi Hj. symmetry. auto. Qed.
Lemma meq_trans : forall n a b c, Rmat_eq n a b -> Rmat_eq n b c -> Rmat_eq n a c.
Proof. intros n a b c H K i j Hi Hj. rewrite H, K; auto. Qed.
Lemma meq_assoc : forall n a b c, Rmat_eq n (Rmatmul n (Rmatmul n a b) c) (Rmatmul n a (Rmatmul n b c)).
Proof. intros n a b c i j _ _. apply mm_assoc. Qed.
Lemma mm_trans : forall n a b i j, Rtrans (Rmatmul n a b) i j = Rmatmul n (Rtrans b) (Rtrans a) i j.
Proof. intros. unfold Rtrans, Rmatmul. apply Rsum_ext. intros. ring. Qed.
Lemma id_trans : Rmat_eq 0 (Rtrans Rid) Rid. Proof. intros i j Hi. lia. Qed.
Lemma meq_id_trans : forall n, Rmat_eq n (Rtrans Rid) Rid.
Proof. intros n i j _ _. unfold Rtrans, Rid. rewrite Nat.eqb_sym. auto. Qed.
Lemma meq_tr : forall n a b, Rmat_eq n a b -> Rmat_eq n (Rtrans a) (Rtrans b).
Proof. intros n a b H i j Hi Hj. apply H; auto. Qed.

Lemma mv_mm : forall n a b x i, Rmatvec n (Rmatmul n a b) x i = Rmatvec n a (Rmatvec n b x) i.
Proof.
  intros. unfold Rmatvec, Rmatmul.
  transitivity (Rsum n (fun k => Rsum n (fun l => (a i l * b l k) * x k))%R).
  { apply Rsum_ext. intros k _. rewrite Rsum_scal_r. auto. }
  rewrite Rsum_swap. apply Rsum_ext. intros l _. rewrite <- Rsum_scal.
  apply Rsum_ext. intros k _. ring.
Qed.
Lemma mv_ext : forall n a a' x x' i, i < n -> Rmat_eq n a a' -> (forall k, k < n -> x k = x' k) ->
  Rmatvec n a x i = Rmatvec n a' x' i.
Proof. intros. unfold Rmatvec. apply Rsum_ext. intros k Hk. rewrite H0, H1; auto. Qed.
Lemma mv_id : forall n x i, i < n -> Rmatvec n Rid x i = x i.
Proof.
  intros n x i Hi. unfold Rmatvec, Rid. rewrite (Rsum_single n _ i Hi).
  - rewrite Nat.eqb_refl. ring.
  - intros k Hk Hne. rewrite (proj2 (Nat.eqb_neq i k)) by auto. ring.
Qed.
Lemma mv_lin : forall n m a x b y i,
  (Rmatvec n m (fun k => a * x k + b * y k) i = a * Rmatvec n m x i + b * Rmatvec n m y i)%R.
Proof.
  intros. unfold Rmatvec. rewrite <- !Rsum_scal, <- Rsum_plus. apply Rsum_ext. intros; ring.
Qed.
Lemma mv_unit : forall n m j i, j < n -> Rmatvec n m (fun k => Rid k j) i = m i j.
Proof.
  intros n m j i Hj. unfold Rmatvec, Rid. rewrite (Rsum_single n _ j Hj).
  - rewrite Nat.eqb_refl. ring.
  - intros k Hk Hne. rewrite (proj2 (Nat.eqb_neq k j)) by auto. ring.
Qed.

(** ** square matrices with orthonormal columns *)
Lemma sum_sq_zero : forall n f, Rsum n (fun k => f k * f k)%R = 0%R -> forall i, i < n -> f i = 0%R.
Proof.
  intros n f H i Hi. destruct (Req_EM_T (f i) 0) as [E|E]; auto.
  pose proof (Rsum_sq_pos n f i Hi E). lra.
Qed.

Lemma trace_id : forall n, Rsum n (fun i => Rid i i) = INR n.
Proof.
  induction n; [auto|]. rewrite S_INR. simpl Rsum. rewrite IHn. unfold Rid. rewrite Nat.eqb_refl. ring.
Qed.

Lemma orthonormal_rows : forall n V, orthonormal n V -> Rmat_eq n (Rmatmul n V (Rtrans V)) Rid.
Proof.
  intros n V H.
  set (P := Rmatmul n V (Rtrans V)).
  set (Q := fun i j => (Rid i j - P i j)%R).
  assert (Rmat_eq n (Rmatmul n P P) P) as HP.
  { unfold P. eapply meq_trans; [apply meq_assoc|]. apply mm_ext; [apply meq_refl|].
    eapply meq_trans; [apply meq_sym, meq_assoc|].
    eapply meq_trans; [apply mm_ext; [exact H|apply meq_refl]|]. apply mm_id_l. }
  assert (forall i j, P i j = P j i) as Hs.
  { intros i j. unfold P, Rmatmul, Rtrans. apply Rsum_ext. intros; ring. }
  assert (Rsum n (fun i => P i i) = INR n) as Ht.
  { rewrite <- trace_id. unfold P, Rmatmul, Rtrans. rewrite Rsum_swap. apply Rsum_ext.
    intros k Hk. rewrite <- (H k k Hk Hk). unfold Rmatmul, Rtrans. auto. }
  assert (Rsum n (fun i => Rsum n (fun j => Q i j * Q i j)) = 0)%R as HQ.
  { transitivity (Rsum n (fun i => Rid i i - P i i)%R).
    - apply Rsum_ext. intros i Hi.
      transitivity (Rsum n (fun j => (Rid i j * Rid j i - Rid i j * P j i) - (P i j * Rid j i - P i j * P j i)))%R.
      { apply Rsum_ext. intros j Hj. unfold Q. rewrite (Hs j i).
        replace (Rid j i) with (Rid i j) by (unfold Rid; rewrite Nat.eqb_sym; auto). ring. }
      rewrite !Rsum_minus.
      pose proof (mm_id_l n Rid i i Hi Hi) as E1. pose proof (mm_id_l n P i i Hi Hi) as E2.
      pose proof (mm_id_r n P i i Hi Hi) as E3. pose proof (HP i i Hi Hi) as E4.
      unfold Rmatmul at 1 in E1. unfold Rmatmul at 1 in E2. unfold Rmatmul at 1 in E3.
      unfold Rmatmul at 1 in E4. rewrite E1, E2, E3, E4. ring.
    - rewrite Rsum_minus, trace_id, Ht. ring. }
  assert (forall m (g : nat -> R), (forall i, i < m -> (0 <= g i)%R) -> Rsum m g = 0%R ->
            forall i, i < m -> g i = 0%R) as Hz.
  { clear. induction m; intros g Hg Hs i Hi; [lia|]. simpl in Hs.
    assert (0 <= Rsum m g)%R by (apply Rsum_nonneg; auto).
    assert (0 <= g m)%R by auto.
    destruct (Nat.eq_dec i m) as [->|]; [lra|]. apply IHm; auto; try lia. lra. }
  intros i j Hi Hj.
  assert (Rsum n (fun j => Q i j * Q i j)%R = 0%R) as HQi.
  { apply (Hz n (fun i => Rsum n (fun j => Q i j * Q i j)%R)); auto.
    intros a _. apply Rsum_nonneg. intros b _. apply Rle_0_sqr. }
  pose proof (sum_sq_zero n (Q i) HQi j Hj) as E. unfold Q in E. lra.
Qed.

(** ** injective square matrices are invertible *)
Definition injective (n : nat) (M : nat -> nat -> R) : Prop :=
  forall x, (forall i, i < n -> Rmatvec n M x i = 0%R) -> forall i, i < n -> x i = 0%R.

Lemma finite_choice : forall n (P : nat -> (nat -> R) -> Prop),
  (forall j, j < n -> exists x, P j x) -> exists X : nat -> nat -> R, forall j, j < n -> P j (X j).
Proof.
  induction n; intros P H.
  - exists (fun _ _ => 0%R). intros; lia.
  - destruct (IHn P) as (X & HX); auto. destruct (H n) as (x & Hx); auto.
    exists (fun j => if j =? n then x else X j). intros j Hj.
    destruct (Nat.eqb_spec j n) as [->|]; auto. apply HX. lia.
Qed.

Lemma injective_invertible : forall n M, injective n M -> exists B, inverse_matrices n M B.
Proof.
  intros n M HM.
  set (A := Rmatmul n (Rtrans M) M).
  assert (symmetric n A) as Hs.
  { intros i j _ _. unfold A, Rmatmul, Rtrans. apply Rsum_ext. intros; ring. }
  assert (pos_def n A) as Hp.
  { intros x (i & Hi & Hx).
    assert (Rsum n (fun i => Rsum n (fun j => x i * A i j * x j)) =
            Rsum n (fun k => Rmatvec n M x k * Rmatvec n M x k))%R as ->.
    { unfold A, Rmatmul, Rtrans.
      transitivity (Rsum n (fun i => Rsum n (fun j => Rsum n (fun k => (M k i * x i) * (M k j * x j))))%R).
      { apply Rsum_ext. intros a _. apply Rsum_ext. intros b _.
        rewrite <- Rsum_scal, <- Rsum_scal_r. apply Rsum_ext. intros; ring. }
      transitivity (Rsum n (fun i => Rsum n (fun k => Rsum n (fun j => (M k i * x i) * (M k j * x j))))%R).
      { apply Rsum_ext. intros a _. apply Rsum_swap. }
      rewrite Rsum_swap. apply Rsum_ext. intros k _. unfold Rmatvec.
      rewrite <- Rsum_scal_r. apply Rsum_ext. intros a _. rewrite <- Rsum_scal. auto. }
    destruct (Req_EM_T (Rsum n (fun k => Rmatvec n M x k * Rmatvec n M x k)%R) 0) as [E|E].
    - exfalso. apply Hx. apply HM; auto. apply sum_sq_zero. auto.
    - assert (0 <= Rsum n (fun k => Rmatvec n M x k * Rmatvec n M x k))%R; [|lra].
      apply Rsum_nonneg. intros; apply Rle_0_sqr. }
  destruct (pos_def_chol n A Hs Hp) as (L & Hlow & Hd & HA).
  destruct (finite_choice n (fun j y => forall k, k < n -> Rsum n (fun i => L i k * y i)%R = Rid k j))
    as (Yt & HY).
  { intros j Hj. destruct (backward_solve L n (fun k => Rid k j)) as (y & Hy); auto.
    - intros i Hi. pose proof (Hd i Hi). lra.
    - exists y. auto. }
  set (Y := Rtrans Yt).
  assert (Rmat_eq n (Rmatmul n (Rtrans L) Y) Rid) as HLY.
  { intros i j Hi Hj. unfold Rmatmul, Rtrans, Y. apply HY; auto. }
  set (Q := Rmatmul n M Y).
  assert (orthonormal n Q) as HQ.
  { unfold orthonormal, Q.
    eapply meq_trans.
    { apply mm_ext; [|apply meq_refl]. intros i j _ _. apply mm_trans. }
    eapply meq_trans; [apply meq_assoc|].
    eapply meq_trans.
    { apply mm_ext; [apply meq_refl|]. apply meq_sym, meq_assoc. }
    eapply meq_trans.
    { apply mm_ext; [apply meq_refl|]. apply mm_ext; [|apply meq_refl].
      intros i j Hi Hj. exact (HA i j Hi Hj). }
    eapply meq_trans.
    { apply mm_ext; [apply meq_refl|].
      assert (Rmat_eq n (gram n L) (Rmatmul n L (Rtrans L))) as G by (intros i j _ _; reflexivity).
      eapply meq_trans; [apply mm_ext; [exact G|apply meq_refl]|]. apply meq_assoc. }
    eapply meq_trans.
    { apply mm_ext; [apply meq_refl|]. apply mm_ext; [apply meq_refl|exact HLY]. }
    eapply meq_trans.
    { apply mm_ext; [apply meq_refl|]. apply mm_id_r. }
    eapply meq_trans.
    { intros i j _ _. symmetry. apply (mm_trans n (Rtrans L) Y). }
    eapply meq_trans; [apply meq_tr; exact HLY|]. apply meq_id_trans. }
  apply orthonormal_rows in HQ.
  exists (Rmatmul n Y (Rtrans Q)).
  assert (Rmat_eq n (Rmatmul n M (Rmatmul n Y (Rtrans Q))) Rid) as HR.
  { eapply meq_trans; [apply meq_sym, meq_assoc|]. exact HQ. }
  split; auto.
  intros i j Hi Hj. set (B := Rmatmul n Y (Rtrans Q)) in *.
  assert (forall k, k < n -> (Rmatmul n B M k j - Rid k j)%R = 0%R) as Hz; [|specialize (Hz i Hi); lra].
  apply (HM (fun k => Rmatmul n B M k j - Rid k j)%R). intros k Hk.
  transitivity (Rmatvec n M (fun k => 1 * Rmatmul n B M k j + (-1) * Rid k j)%R k).
  { apply mv_ext; auto; [apply meq_refl|]. intros; ring. }
  rewrite mv_lin. rewrite mv_unit by auto.
  change (Rmatvec n M (fun k0 => Rmatmul n B M k0 j) k) with (Rmatmul n M (Rmatmul n B M) k j).
  rewrite <- mm_assoc. rewrite (mm_ext n _ Rid M M HR (meq_refl n M) k j Hk Hj).
  rewrite mm_id_l by auto. ring.
Qed.

Lemma left_inverse_injective : forall n M B, Rmat_eq n (Rmatmul n B M) Rid -> injective n M.
Proof.
  intros n M B H x Hx i Hi. rewrite <- (mv_id n x i Hi).
  rewrite <- (mv_ext n _ _ x x i Hi H) by auto. rewrite mv_mm. unfold Rmatvec at 1.
  apply Rsum_zero. intros k Hk. rewrite Hx by auto. ring.
Qed.

Lemma inverse_unique : forall n A B C, Rmat_eq n (Rmatmul n B A) Rid -> Rmat_eq n (Rmatmul n A C) Rid ->
  Rmat_eq n B C.
Proof.
  intros n A B C H K.
  eapply meq_trans; [apply meq_sym, mm_id_r|].
  eapply meq_trans; [apply mm_ext; [apply meq_refl|apply meq_sym, K]|].
  eapply meq_trans; [apply meq_sym, meq_assoc|].
  eapply meq_trans; [apply mm_ext; [exact H|apply meq_refl]|]. apply mm_id_l.
Qed.

(** A one-sided inverse of a square matrix is two-sided. *)
Lemma one_sided_inverse : forall n A B, Rmat_eq n (Rmatmul n A B) Rid -> Rmat_eq n (Rmatmul n B A) Rid.
Proof.
  intros n A B H.
  destruct (injective_invertible n B) as (C & H1 & H2); [eapply left_inverse_injective; eauto|].
  pose proof (inverse_unique n B A C H H1) as E.
  eapply meq_trans; [apply mm_ext; [apply meq_refl|exact E]|]. exact H1.
Qed.

(** ** numpy products of finite arrays *)
Lemma fvec_length : forall n x, length (fvec n x) = n.
Proof. intros. unfold fvec. rewrite map_length, seq_length. auto. Qed.
Lemma nth_fvec : forall n x i d, i < n -> nth i (fvec n x) d = Fin (x i).
Proof.
  intros. unfold fvec. rewrite (nth_map_gen _ _ _ _ _ d 0) by (rewrite seq_length; auto).
  rewrite seq_nth by auto. auto.
Qed.
Lemma fvec_ext : forall n x y, (forall i, i < n -> x i = y i) -> fvec n x = fvec n y.
Proof. intros. unfold fvec. apply map_ext_in. intros i Hi. apply in_seq in Hi. rewrite H; auto. lia. Qed.
Lemma fvec_inj : forall n x y, fvec n x = fvec n y -> forall i, i < n -> x i = y i.
Proof.
  intros n x y H i Hi. pose proof (nth_fvec n x i NaN Hi) as E. rewrite H, nth_fvec in E by auto.
  injection E as E. auto.
Qed.
Lemma fvec_list : forall l, map Fin l = fvec (length l) (fun i => nth i l 0%R).
Proof.
  intros l. apply (nth_ext _ _ NaN NaN); rewrite map_length; [rewrite fvec_length; auto|].
  intros i Hi. rewrite nth_fvec by auto. rewrite (nth_map_gen _ _ Fin _ _ NaN 0%R) by auto. auto.
Qed.
Lemma fvec_S : forall n x, fvec (S n) x = fvec n x ++ [Fin (x n)].
Proof. intros. unfold fvec. rewrite seq_S, map_app. auto. Qed.

Lemma nsum_fvec : forall n f, nsum (map (fun k => Fin (f k)) (seq 0 n)) = Fin (Rsum n f).
Proof.
  intros n f. rewrite <- Rlsum_seq, <- nsum_fin, map_map. auto.
Qed.

Lemma matvec_array : forall r c m s x, is_array r c m s ->
  matvec s (fvec c x) = Ok (fvec r (Rmatvec c m x)).
Proof.
  intros r c m s x (Hr & Hc & H). unfold matvec. rewrite Hr, Hc, fvec_length, Nat.eqb_refl.
  f_equal. unfold fvec at 2. apply map_ext_in. intros i Hi. apply in_seq in Hi.
  unfold Rmatvec. rewrite <- nsum_fvec. f_equal. apply map_ext_in. intros j Hj. apply in_seq in Hj.
  rewrite H, nth_fvec by lia. auto.
Qed.
Lemma array_trans : forall r c m s, is_array r c m s -> is_array c r (Rtrans m) (transpose s).
Proof.
  intros r c m s (Hr & Hc & H). split; [exact Hc|]. split; [exact Hr|].
  intros i j Hi Hj. cbn [transpose m_at]. rewrite H; auto.
Qed.
Lemma array_fmat : forall n m, is_array n n m (fmat n m).
Proof. intros. repeat split; auto. Qed.
Lemma map2_fvec : forall (f : num -> num -> num) (g : R -> R -> R) n x y,
  (forall a b, f (Fin a) (Fin b) = Fin (g a b)) ->
  map2 f (fvec n x) (fvec n y) = fvec n (fun i => g (x i) (y i)).
Proof.
  intros f g n x y H. unfold fvec. generalize (seq 0 n). induction l; simpl; auto.
  rewrite H, IHl. auto.
Qed.
