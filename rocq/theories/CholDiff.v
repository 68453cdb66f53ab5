(** * The Cholesky factor as a differentiable function of the matrix, and the
    freeing map of a PSD pattern along lines and curves. *)
From Coq Require Import Reals Lra Lia.
From Verif Require Import Base Num Nd Numeric Simplex Psd Pattern Spec ListFacts PatFacts NonFree
  NumFacts CholFacts Free Contract Jac SpecJac JacBase JacFacts JacMore JacPsd.
Local Open Scope list_scope.
Local Open Scope nat_scope.

(** ** Real column-by-column factorisation *)
Fixpoint rl (A : nat -> nat -> R) (m : nat) : nat -> nat -> R :=
  match m with
  | O => fun _ _ => 0%R
  | S j =>
      fun i k =>
        if k =? j then
          if i <? j then 0%R
          else if i =? j then sqrt (A j j - Rsum j (fun l => rl A j j l * rl A j j l))%R
          else ((A i j - Rsum j (fun l => rl A j i l * rl A j j l)) /
                sqrt (A j j - Rsum j (fun l => rl A j j l * rl A j j l)))%R
        else rl A j i k
  end.
Definition pivot (A : nat -> nat -> R) (j : nat) : R :=
  (A j j - Rsum j (fun l => rl A j j l * rl A j j l))%R.

Lemma rl_stable : forall A m m' i k, k < m -> m <= m' -> rl A m' i k = rl A m i k.
Proof.
  intros A m m' i k Hk Hm. induction Hm; auto. cbn [rl].
  destruct (Nat.eqb_spec k m0); [lia|auto].
Qed.
Lemma rl_col : forall A m i j, j < m ->
  rl A m i j = if i <? j then 0%R else if i =? j then sqrt (pivot A j)
    else ((A i j - Rsum j (fun l => rl A m i l * rl A m j l)) / sqrt (pivot A j))%R.
Proof.
  intros A m i j Hj. rewrite (rl_stable A (S j) m) by lia. cbn [rl]. rewrite Nat.eqb_refl.
  destruct (i <? j); auto. destruct (i =? j); auto. unfold pivot. do 2 f_equal.
  apply Rsum_ext. intros l Hl. rewrite !(rl_stable A j m) by lia. auto.
Qed.
Lemma rl_beyond : forall A m i k, m <= k -> rl A m i k = 0%R.
Proof.
  induction m; intros i k H; auto. cbn [rl]. destruct (Nat.eqb_spec k m); [lia|]. apply IHm. lia.
Qed.
Lemma rl_lower : forall A m, lower (rl A m).
Proof.
  intros A m i j Hij. destruct (Nat.lt_ge_cases j m).
  - rewrite rl_col by auto. rewrite (proj2 (Nat.ltb_lt i j)) by auto. auto.
  - apply rl_beyond. auto.
Qed.
Lemma rl_diag : forall A m i, i < m -> rl A m i i = sqrt (pivot A i).
Proof. intros. rewrite rl_col by auto. rewrite Nat.ltb_irrefl, Nat.eqb_refl. auto. Qed.

Lemma gram_cut : forall n L i j, lower L -> j < n ->
  gram n L i j = (Rsum j (fun k => L i k * L j k) + L i j * L j j)%R.
Proof.
  intros n L i j HL Hj. unfold gram.
  rewrite (Rsum_trunc n (S j)) by (lia || intros k Hk; rewrite (HL j k) by lia; ring). auto.
Qed.

Lemma rl_gram : forall A n, (forall j, j < n -> (0 < pivot A j)%R) ->
  forall i j, i < n -> j <= i -> A i j = gram n (rl A n) i j.
Proof.
  intros A n Hp i j Hi Hj. rewrite gram_cut by (apply rl_lower || lia).
  rewrite rl_diag by lia. pose proof (sqrt_lt_R0 _ (Hp j ltac:(lia))) as Hs.
  rewrite (rl_col A n i j) by lia. rewrite (proj2 (Nat.ltb_ge i j)) by lia.
  destruct (Nat.eqb_spec i j) as [->|].
  - rewrite sqrt_sqrt by (apply Rlt_le, Hp; lia). unfold pivot.
    rewrite (Rsum_ext j (fun l => (rl A n j l * rl A n j l)%R) (fun l => (rl A j j l * rl A j j l)%R)).
    + ring.
    + intros l Hl. rewrite !(rl_stable A j n) by lia. auto.
  - field. lra.
Qed.

(** The factor of a matrix is found from any factorisation. *)
Lemma rl_unique : forall A L n, lower L -> (forall i, i < n -> (0 < L i i)%R) ->
  (forall i j, i < n -> j <= i -> A i j = gram n L i j) ->
  forall m, m <= n -> forall i k, i < n -> k < m -> rl A m i k = L i k.
Proof.
  intros A L n HL Hd HA. induction m; intros Hm i k Hi Hk; [lia|].
  destruct (Nat.eq_dec k m) as [->|].
  - cbn [rl]. rewrite Nat.eqb_refl.
    assert (forall a, a < n -> m <= a -> (A a m - Rsum m (fun l => rl A m a l * rl A m m l) = L a m * L m m)%R) as E.
    { intros a Ha Hma. rewrite HA by lia. rewrite gram_cut by (auto || lia).
      rewrite (Rsum_ext m (fun l => (rl A m a l * rl A m m l)%R) (fun l => (L a l * L m l)%R)).
      + ring.
      + intros l Hl. rewrite !IHm by lia. auto. }
    rewrite (E m) by lia. rewrite sqrt_square by (apply Rlt_le, Hd; lia).
    destruct (Nat.ltb_spec i m); [rewrite HL; auto|].
    destruct (Nat.eqb_spec i m) as [->|]; auto.
    rewrite E by lia. field. apply Rgt_not_eq, Hd. lia.
  - cbn [rl]. destruct (Nat.eqb_spec k m); [lia|]. apply IHm; lia.
Qed.

Lemma pivot_pos : forall A L n, lower L -> (forall i, i < n -> (0 < L i i)%R) ->
  (forall i j, i < n -> j <= i -> A i j = gram n L i j) ->
  forall j, j < n -> (0 < pivot A j)%R.
Proof.
  intros A L n HL Hd HA j Hj. unfold pivot. rewrite HA by lia. rewrite gram_cut by auto.
  rewrite (Rsum_ext j (fun l => (rl A j j l * rl A j j l)%R) (fun l => (L j l * L j l)%R)).
  - pose proof (Hd j Hj). nra.
  - intros l Hl. rewrite !(rl_unique A L n HL Hd HA) by lia. auto.
Qed.

(** ** Derivative of the factor *)
Fixpoint dl (A h : nat -> nat -> R) (m : nat) : nat -> nat -> R :=
  match m with
  | O => fun _ _ => 0%R
  | S j =>
      fun i k =>
        let L := rl A j in
        let D := dl A h j in
        let s := sqrt (pivot A j) in
        let ds := (/ (2 * s) * (h j j - Rsum j (fun l => D j l * L j l + L j l * D j l)))%R in
        if k =? j then
          if i <? j then 0%R
          else if i =? j then ds
          else (((h i j - Rsum j (fun l => D i l * L j l + L i l * D j l)) * s -
                 ds * (A i j - Rsum j (fun l => L i l * L j l))) / Rsqr s)%R
        else D i k
  end.

Lemma rl_lim : forall (a : R -> nat -> nat -> R) h t0 n,
  (forall i j, derivable_pt_lim (fun t => a t i j) t0 (h i j)) ->
  forall m, m <= n -> (forall j, j < m -> (0 < pivot (a t0) j)%R) ->
  forall i k, derivable_pt_lim (fun t => rl (a t) m i k) t0 (dl (a t0) h m i k).
Proof.
  intros a h t0 n Ha. induction m; intros Hm Hp i k; [apply derivable_pt_lim_const|].
  assert (IH := IHm ltac:(lia) ltac:(intros; apply Hp; lia)). clear IHm.
  assert (forall i j, derivable_pt_lim (fun t => (a t i m - Rsum m (fun l => rl (a t) m i l * rl (a t) m j l))%R) t0
    (h i m - Rsum m (fun l => dl (a t0) h m i l * rl (a t0) m j l + rl (a t0) m i l * dl (a t0) h m j l))%R) as Hnum.
  { intros i' j'.
    apply (derivable_pt_lim_minus (fun t => a t i' m) (fun t => Rsum m (fun l => (rl (a t) m i' l * rl (a t) m j' l)%R))); auto.
    apply (Rsum_lim m (fun t l => (rl (a t) m i' l * rl (a t) m j' l)%R)). intros l Hl.
    apply (derivable_pt_lim_mult (fun t => rl (a t) m i' l) (fun t => rl (a t) m j' l)); auto. }
  assert (0 < pivot (a t0) m)%R as Hpm by (apply Hp; lia).
  assert (derivable_pt_lim (fun t => sqrt (a t m m - Rsum m (fun l => rl (a t) m m l * rl (a t) m m l))%R) t0
    (/ (2 * sqrt (pivot (a t0) m)) * (h m m - Rsum m (fun l => dl (a t0) h m m l * rl (a t0) m m l + rl (a t0) m m l * dl (a t0) h m m l)))%R) as Hs.
  { apply (derivable_pt_lim_comp (fun t => (a t m m - Rsum m (fun l => rl (a t) m m l * rl (a t) m m l))%R) sqrt); auto.
    apply derivable_pt_lim_sqrt. exact Hpm. }
  cbn [rl dl]. destruct (k =? m); [|apply IH].
  destruct (i <? m); [apply derivable_pt_lim_const|].
  destruct (i =? m); [exact Hs|].
  apply (derivable_pt_lim_div (fun t => (a t i m - Rsum m (fun l => rl (a t) m i l * rl (a t) m m l))%R)
     (fun t => sqrt (a t m m - Rsum m (fun l => rl (a t) m m l * rl (a t) m m l))%R)); auto.
  apply Rgt_not_eq, sqrt_lt_R0. exact Hpm.
Qed.

Lemma dl_lower : forall A h m i k, i < k \/ m <= k -> dl A h m i k = 0%R.
Proof.
  induction m; intros i k H; auto. cbn [dl]. destruct (Nat.eqb_spec k m) as [->|].
  - destruct (Nat.ltb_spec i m); auto. lia.
  - apply IHm. lia.
Qed.

(** The derivative is linear in the direction, and depends on it only through
    the entries of the lower triangle. *)
Lemma Rsum_lin : forall n c f g, Rsum n (fun k => (c * f k + g k)%R) = (c * Rsum n f + Rsum n g)%R.
Proof. induction n; intros; simpl; [ring|]. rewrite IHn. ring. Qed.
Lemma dl_lin : forall A c h g m i k,
  (forall j, j < m -> (0 < pivot A j)%R) ->
  dl A (fun i j => (c * h i j + g i j)%R) m i k = (c * dl A h m i k + dl A g m i k)%R.
Proof.
  induction m; intros i k Hp; [cbn; ring|].
  assert (IH := fun i k => IHm i k ltac:(intros; apply Hp; lia)). clear IHm.
  pose proof (sqrt_lt_R0 _ (Hp m ltac:(lia))) as Hs.
  cbn [dl]. destruct (k =? m); [|apply IH]. destruct (i <? m); [ring|].
  assert (forall i j, Rsum m (fun l => (dl A (fun i j => c * h i j + g i j) m i l * rl A m j l +
       rl A m i l * dl A (fun i j => c * h i j + g i j) m j l)%R) =
    (c * Rsum m (fun l => dl A h m i l * rl A m j l + rl A m i l * dl A h m j l) +
     Rsum m (fun l => dl A g m i l * rl A m j l + rl A m i l * dl A g m j l))%R) as E.
  { intros i' j'. rewrite <- Rsum_lin. apply Rsum_ext. intros l Hl. rewrite !IH. ring. }
  rewrite !E. unfold Rsqr. destruct (i =? m); field; lra.
Qed.
Lemma dl_ext : forall A h g m i k, (forall i j, j <= i -> h i j = g i j) ->
  dl A h m i k = dl A g m i k.
Proof.
  induction m; intros i k H; auto. cbn [dl]. destruct (k =? m); auto.
  destruct (Nat.ltb_spec i m); auto.
  assert (forall i j, Rsum m (fun l => (dl A h m i l * rl A m j l + rl A m i l * dl A h m j l)%R) =
     Rsum m (fun l => (dl A g m i l * rl A m j l + rl A m i l * dl A g m j l)%R)) as E.
  { intros i' j'. apply Rsum_ext. intros l Hl. rewrite !IHm by auto. auto. }
  rewrite !E, !H by lia. auto.
Qed.
Lemma dl_zero : forall A m i k, (forall j, j < m -> (0 < pivot A j)%R) ->
  dl A (fun _ _ => 0%R) m i k = 0%R.
Proof.
  intros A m i k Hp. pose proof (dl_lin A 1 (fun _ _ => 0%R) (fun _ _ => 0%R) m i k Hp) as E.
  rewrite (dl_ext A _ (fun _ _ => 0%R)) in E by (intros; ring). lra.
Qed.
Lemma dl_sum : forall A n (c : nat -> R) h m i k, (forall j, j < m -> (0 < pivot A j)%R) ->
  dl A (fun i j => Rsum n (fun l => c l * h l i j)%R) m i k = Rsum n (fun l => (c l * dl A (h l) m i k)%R).
Proof.
  intros A n c h m i k Hp. induction n; [apply dl_zero; auto|]. simpl Rsum.
  rewrite (dl_ext A _ (fun i j => (c n * h n i j + Rsum n (fun l => c l * h l i j))%R)) by (intros; ring).
  rewrite dl_lin, IHn by auto. ring.
Qed.
