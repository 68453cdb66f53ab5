(** * Matrices at the leaves of patterns: float64 folding against exact folding. *)
From Coq Require Import Reals Lra Lia ZArith Psatz.
From Flocq Require Import Core IEEE754.BinarySingleNaN.
From Verif Require Import Base Num Nd ListFacts Pattern Spec NumFacts Psd CholFacts Flt SpecFlt FltMat SpecFltMat
  FltChol SpecFltChol FltPat SpecFltPat FltBase FltExp FltNum FltNum2 FltMatProps FltCholFacts FltForm FltLeaf.
Local Open Scope R_scope.

Lemma rsum_sum : forall n f, Rsum n f = sum_to n f.
Proof. induction n as [|n IH]; intros f; cbn [Rsum]; [reflexivity|]. rewrite IH, sum_S. reflexivity. Qed.

Section Grid.
Context {A : Type} (n : nat) (g : nat -> nat -> A).
Definition grid : list A := flat_map (fun i => map (fun j => g i j) (seq 0 n)) (seq 0 n).
Lemma grid_length : length grid = (n * n)%nat.
Proof.
  unfold grid. rewrite flat_map_concat. rewrite (concat_length_uniform _ n).
  - rewrite map_length, seq_length. reflexivity.
  - intros x Hx. apply in_map_iff in Hx. destruct Hx as (i & <- & _). rewrite map_length. apply seq_length.
Qed.
Lemma grid_nth : forall i j d, (i < n)%nat -> (j < n)%nat -> nth (i * n + j) grid d = g i j.
Proof.
  intros i j d Hi Hj. unfold grid. rewrite flat_map_concat.
  assert (E := chunk_concat A n (map (fun i => map (fun j => g i j) (seq 0 n)) (seq 0 n)) i []).
  rewrite map_length, seq_length in E. 
  assert (nth (i * n + j) (concat (map (fun i => map (fun j => g i j) (seq 0 n)) (seq 0 n))) d =
          nth j (chunk n (concat (map (fun i => map (fun j => g i j) (seq 0 n)) (seq 0 n))) i) d) as ->.
  { unfold chunk. rewrite nth_slice by auto. reflexivity. }
  rewrite E; auto.
  - rewrite (nth_map_gen _ _ _ _ i [] 0%nat) by (rewrite seq_length; auto). rewrite seq_nth by auto.
    rewrite (nth_map_gen _ _ _ _ j d 0%nat) by (rewrite seq_length; auto). rewrite seq_nth by auto. reflexivity.
  - intros x Hx. apply in_map_iff in Hx. destruct Hx as (k & <- & _). rewrite map_length. apply seq_length.
Qed.
End Grid.

Lemma small_tame : forall n x, (n <= Z.to_nat 1000000)%nat -> length x = T n -> small64 x -> tame n x.
Proof.
  intros n x N L S. split; auto. intros i j H.
  destruct (nth_error x (i * (i + 1) / 2 + j)) as [v|] eqn:E.
  - exists v. split; auto. apply nth_error_In in E. unfold small64 in S. rewrite Forall_forall in S.
    destruct (S v E) as [F B]. split; auto. split.
    + eapply Rle_trans; [exact B|]. apply Rle_trans with (pow2 7); [|apply pow2_mono; lia].
      rewrite pow2_Z by lia. cbn. lra.
    + intros _. apply Rabs_le_inv in B. lra.
  - exfalso. apply nth_error_None in E.
    change (i * (i + 1) / 2)%nat with (T i) in E. assert (T (Datatypes.S i) <= T n)%nat as B by (apply T_mono; lia). rewrite T_S in B. lia.
Qed.

Lemma factor_chol : forall n x i k, length x = T n -> (i < n)%nat -> (k < n)%nat ->
  chol_of (map val x) i k = exact_factor x i k.
Proof.
  intros n x i k L Hi Hk. unfold chol_of, exact_factor, diag_map, entry64.
  assert (N : forall i j, (j <= i)%nat -> nth (ld_ind i j) (map val x) 0 = val (nth (i * (i + 1) / 2 + j) x fnan)).
  { intros a b H. replace 0 with (val fnan) by reflexivity. rewrite map_nth. unfold ld_ind. f_equal. f_equal. lia. }
  destruct (Nat.leb_spec k i) as [G|G]; destruct (Nat.ltb_spec i k) as [G'|G']; try lia; auto.
  rewrite N by auto. destruct (Nat.eqb_spec i k) as [->|E]; reflexivity.
Qed.

(** The bound on what is computed with in terms of the exact matrix. *)
Lemma weight_le : forall n x, (forall i, (i < n)%nat -> Rabs (entry64 x i i) <= 100) ->
  forall i j, (i < n)%nat -> (j < n)%nat ->
  let D i := sum_to n (fun k => exact_factor x i k * exact_factor x i k) in
  sum_to n (fun k => magnitude x i k * magnitude x j k) <= (sqrt (D i) + 100) * (sqrt (D j) + 100).
Proof.
  intros n x B i j Hi Hj D.
  assert (P : forall i, 0 <= D i).
  { intros a. apply sum_nonneg. intros. fold (Rsqr (exact_factor x a k)). apply Rle_0_sqr. }
  assert (S : forall i, (i < n)%nat -> sum_to n (fun k => magnitude x i k * magnitude x i k) <= Rsqr (sqrt (D i) + 100)).
  { intros a Ha.
    assert (E : sum_to n (fun k => magnitude x a k * magnitude x a k) =
      D a + (2 * exp (entry64 x a a) * Rabs (entry64 x a a) + Rabs (entry64 x a a) * Rabs (entry64 x a a))).
    { assert (O := sum_only n a (fun k => if Nat.eqb k a then 2 * exp (entry64 x a a) * Rabs (entry64 x a a) + Rabs (entry64 x a a) * Rabs (entry64 x a a) else 0) Ha).
      cbn beta in O. rewrite Nat.eqb_refl in O. rewrite <- O.
      2:{ intros k _ Ne. destruct (Nat.eqb_spec k a); [lia|reflexivity]. }
      unfold D. rewrite <- sum_plus. apply sum_ext. intros k Hk. unfold magnitude, exact_factor.
      destruct (Nat.ltb_spec a k) as [G|G].
      - destruct (Nat.eqb_spec k a); [lia|ring].
      - rewrite (Nat.eqb_sym k a). destruct (Nat.eqb_spec a k) as [->|Ne]; [ring|].
        rewrite <- Rabs_mult. rewrite Rabs_pos_eq; [ring|]. fold (Rsqr (entry64 x a k)). apply Rle_0_sqr. }
    rewrite E. specialize (B a Ha). pose proof (Rabs_pos (entry64 x a a)) as Q. pose proof (exp_pos (entry64 x a a)) as Q'.
    assert (exp (entry64 x a a) <= sqrt (D a)).
    { rewrite <- (sqrt_Rsqr (exp (entry64 x a a))) by lra. apply sqrt_le_1_alt. unfold D.
      assert (O := sum_only n a (fun k => if Nat.eqb k a then Rsqr (exp (entry64 x a a)) else 0) Ha).
      cbn beta in O. rewrite Nat.eqb_refl in O. rewrite <- O.
      2:{ intros k _ Ne. destruct (Nat.eqb_spec k a); [lia|reflexivity]. }
      apply sum_le. intros k Hk. unfold exact_factor. destruct (Nat.eqb_spec k a) as [->|Ne].
      - rewrite Nat.ltb_irrefl, Nat.eqb_refl. unfold Rsqr. lra.
      - match goal with |- 0 <= ?z * ?z => fold (Rsqr z); apply Rle_0_sqr end. }
    unfold Rsqr. pose proof (sqrt_sqrt (D a) (P a)) as SS. set (t := sqrt (D a)) in *. rewrite <- SS.
    set (e := exp (entry64 x a a)) in *. set (y := Rabs (entry64 x a a)) in *.
    assert (e * y <= t * 100) by (apply Rmult_le_compat; lra).
    assert (y * y <= 100 * 100) by (apply Rmult_le_compat; lra). lra. }
  pose proof (cauchy_sqrt (fun k => magnitude x i k) (fun k => magnitude x j k) (seq 0 n) _ _ (S i Hi) (S j Hj)) as Cc.
  rewrite sqrt_mult in Cc by apply Rle_0_sqr.
  pose proof (sqrt_pos (D i)). pose proof (sqrt_pos (D j)).
  rewrite !sqrt_Rsqr in Cc by lra. eapply Rle_trans; [|exact Cc].
  unfold sum_to. apply FltForm.sum_le with (f := fun k => magnitude x i k * magnitude x j k)
    (g := fun k => Rabs (magnitude x i k * magnitude x j k)). intros. apply Rle_abs.
Qed.

Section Leaf.
Variables (np : np64) (gram : gram64).
Hypothesis C : np_contract np.
Hypothesis G : gram_contract gram.

Lemma psd_leaf : forall n dlb c x, (n <= Z.to_nat 1000000)%nat -> exact_bound dlb -> pyval dlb = Fin c ->
  Rabs (val (bound64 dlb)) <= pow2 1000 -> length x = T n -> small64 x ->
  let e := add_diag c (CholFacts.gram n (chol_of (map val x))) in
  let m := unpack64 np gram n (bound64 dlb) x in
  forall i j, (i < n)%nat -> (j < n)%nat -> fin (m i j) /\
    on_psd fold_err n (val (bound64 dlb)) (fun i j => val (m i j)) e i j.
Proof.
  intros n dlb c x N E P Bc L S e m i j Hi Hj.
  destruct (exact_fin dlb c E P) as [Fl Vl]. pose proof (small_tame n x N L S) as Tm.
  pose proof (unpack64_entries np C gram G n x Tm _ Fl Bc i j Hi Hj) as (F & _ & _). split; [exact F|].
  cbn [on_psd fold_err].
  assert (Eg : forall a b, (a < n)%nat -> (b < n)%nat ->
    e a b = sum_to n (fun k => exact_factor x a k * exact_factor x b k) + (if Nat.eqb a b then val (bound64 dlb) else 0)).
  { intros a b Ha Hb. unfold e, add_diag, CholFacts.gram. rewrite rsum_sum, Vl. f_equal.
    apply sum_ext. intros k Hk. rewrite !(factor_chol n) by auto. reflexivity. }
  pose proof (unpack64_accurate np C gram G n x Tm _ Fl Bc i j Hi Hj) as A. cbv zeta in A. rewrite <- Eg in A by auto.
  eapply Rle_trans; [exact A|]. apply Rplus_le_compat_r, Rmult_le_compat_l; [left; apply pow2_pos|].
  apply Rplus_le_compat_r, Rmult_le_compat_l; [apply pos_INR|].
  rewrite !Eg by auto. rewrite !Nat.eqb_refl.
  assert (Rr : forall z b, z + b - b = z) by (intros; ring). rewrite !Rr.
  apply weight_le; auto. intros a Ha. destruct Tm as [_ Tm]. destruct (Tm a a ltac:(lia)) as (v & Ev & Fv & _).
  unfold entry64. rewrite (nth_error_nth _ _ _ Ev). unfold small64 in S. rewrite Forall_forall in S.
  apply (S v). apply nth_error_In in Ev. exact Ev.
Qed.

End Leaf.
