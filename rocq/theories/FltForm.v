(** * Quadratic forms close to a product of triangular factors. *)
From Coq Require Import Reals Lra Lia List.
From Flocq Require Import Core.
From Verif Require Import Base Flt SpecFlt FltSimp FltMat SpecFltMat FltChol SpecFltChol.
Import ListNotations.
Local Open Scope R_scope.

(** ** Sums *)
Lemma sum_S : forall n f, sum_to (S n) f = sum_to n f + f n.
Proof. intros. unfold sum_to. rewrite seq_S, map_app, rsum_app. unfold rsum at 2. cbn [map fold_right Nat.add]. lra. Qed.
Lemma sum_0 : forall f, sum_to 0 f = 0.
Proof. reflexivity. Qed.
Lemma sum_ext : forall n f g, (forall k, (k < n)%nat -> f k = g k) -> sum_to n f = sum_to n g.
Proof.
  induction n as [|n IH]; intros f g H; [reflexivity|]. rewrite !sum_S, (IH f g), (H n) by (intros; try apply H; lia). reflexivity.
Qed.
Lemma sum_plus : forall n f g, sum_to n (fun k => f k + g k) = sum_to n f + sum_to n g.
Proof. induction n as [|n IH]; intros; [rewrite !sum_0; lra|]. rewrite !sum_S, IH. lra. Qed.
Lemma sum_mult : forall n c f, sum_to n (fun k => c * f k) = c * sum_to n f.
Proof. induction n as [|n IH]; intros; [rewrite !sum_0; lra|]. rewrite !sum_S, IH. lra. Qed.
Lemma sum_mult_r : forall n c f, sum_to n (fun k => f k * c) = sum_to n f * c.
Proof. induction n as [|n IH]; intros; [rewrite !sum_0; lra|]. rewrite !sum_S, IH. lra. Qed.
Lemma sum_zero : forall n f, (forall k, (k < n)%nat -> f k = 0) -> sum_to n f = 0.
Proof. induction n as [|n IH]; intros f H; [reflexivity|]. rewrite sum_S, IH, H by (intros; try apply H; lia). lra. Qed.
Lemma sum_swap : forall n p f, sum_to n (fun i => sum_to p (fun j => f i j)) = sum_to p (fun j => sum_to n (fun i => f i j)).
Proof.
  induction n as [|n IH]; intros p f.
  - symmetry. apply sum_zero. reflexivity.
  - rewrite sum_S, IH, <- sum_plus. apply sum_ext. intros k _. rewrite sum_S. reflexivity.
Qed.
Lemma sum_le : forall n f g, (forall k, (k < n)%nat -> f k <= g k) -> sum_to n f <= sum_to n g.
Proof.
  induction n as [|n IH]; intros f g H; [rewrite !sum_0; lra|]. rewrite !sum_S.
  pose proof (H n ltac:(lia)). pose proof (IH f g ltac:(intros; apply H; lia)). lra.
Qed.
Lemma sum_nonneg : forall n f, (forall k, (k < n)%nat -> 0 <= f k) -> 0 <= sum_to n f.
Proof. intros n f H. rewrite <- (sum_zero n (fun _ => 0)) by reflexivity. apply sum_le. auto. Qed.
Lemma sum_only : forall n i f, (i < n)%nat -> (forall k, (k < n)%nat -> k <> i -> f k = 0) -> sum_to n f = f i.
Proof.
  induction n as [|n IH]; intros i f Hi H; [lia|]. rewrite sum_S. destruct (Nat.eq_dec i n) as [->|Ne].
  - rewrite sum_zero by (intros; apply H; lia). lra.
  - rewrite (IH i) by (intros; try apply H; lia). rewrite (H n) by lia. lra.
Qed.
Lemma sum_below : forall n J f, (J <= n)%nat -> sum_to n (fun k => if Nat.ltb k J then f k else 0) = sum_to J f.
Proof.
  induction n as [|n IH]; intros J f H.
  - replace J with 0%nat by lia. reflexivity.
  - rewrite sum_S. destruct (Nat.eq_dec J (S n)) as [->|Ne].
    + rewrite sum_S. replace (n <? S n)%nat with true by (symmetry; apply Nat.ltb_lt; lia).
      f_equal. apply sum_ext. intros k Hk. replace (k <? S n)%nat with true by (symmetry; apply Nat.ltb_lt; lia). reflexivity.
    + rewrite IH by lia. replace (n <? J)%nat with false by (symmetry; apply Nat.ltb_ge; lia). lra.
Qed.
Lemma sum_cut_to : forall n j f, (j <= n)%nat -> (forall k, (j <= k < n)%nat -> f k = 0) -> sum_to n f = sum_to j f.
Proof.
  intros n j f Hj H. rewrite <- (sum_below n j f Hj). apply sum_ext. intros k Hk.
  destruct (Nat.ltb_spec k j); [reflexivity|apply H; lia].
Qed.

(** ** Forms *)
Lemma form_gram : forall n J T z, form n (fun i j => sum_to J (fun k => T i k * T j k)) z =
  sum_to J (fun k => sum_to n (fun i => z i * T i k) * sum_to n (fun i => z i * T i k)).
Proof.
  intros n J T z. unfold form.
  transitivity (sum_to n (fun i => sum_to J (fun k => z i * T i k * sum_to n (fun j => z j * T j k)))).
  - apply sum_ext. intros i _.
    transitivity (sum_to n (fun j => sum_to J (fun k => z i * T i k * (z j * T j k)))).
    + apply sum_ext. intros j _. rewrite <- sum_mult. rewrite <- sum_mult_r. apply sum_ext. intros k _. ring.
    + rewrite sum_swap. apply sum_ext. intros k _. apply sum_mult.
  - rewrite sum_swap. apply sum_ext. intros k _. apply sum_mult_r.
Qed.
Lemma form_ext : forall n f g z, (forall i j, (i < n)%nat -> (j < n)%nat -> z i <> 0 -> z j <> 0 -> f i j = g i j) -> form n f z = form n g z.
Proof.
  intros n f g z H. apply sum_ext. intros i Hi. apply sum_ext. intros j Hj.
  destruct (Req_dec (z i) 0) as [E|E]; [rewrite E; ring|]. destruct (Req_dec (z j) 0) as [E'|E']; [rewrite E'; ring|].
  rewrite H by auto. reflexivity.
Qed.
Lemma form_plus : forall n f g z, form n (fun i j => f i j + g i j) z = form n f z + form n g z.
Proof.
  intros. unfold form. rewrite <- sum_plus. apply sum_ext. intros i _. rewrite <- sum_plus. apply sum_ext. intros j _. ring.
Qed.
Lemma form_bound : forall n f g c z, (forall i j, (i < n)%nat -> (j < n)%nat -> z i <> 0 -> z j <> 0 -> Rabs (f i j) <= c * (g i * g j)) ->
  Rabs (form n f z) <= c * (sum_to n (fun i => Rabs (z i) * g i) * sum_to n (fun i => Rabs (z i) * g i)).
Proof.
  intros n f g c z H.
  assert (A: forall i j, (i < n)%nat -> (j < n)%nat -> Rabs (z i * f i j * z j) <= c * (Rabs (z i) * g i * (Rabs (z j) * g j))).
  { intros i j Hi Hj. rewrite !Rabs_mult.
    destruct (Req_dec (z i) 0) as [E|E]; [rewrite E, Rabs_R0; lra|]. destruct (Req_dec (z j) 0) as [E'|E']; [rewrite E', Rabs_R0; lra|].
    replace (c * (Rabs (z i) * g i * (Rabs (z j) * g j))) with (Rabs (z i) * (c * (g i * g j)) * Rabs (z j)) by ring.
    apply Rmult_le_compat_r; [apply Rabs_pos|]. apply Rmult_le_compat_l; [apply Rabs_pos|]. apply H; auto. }
  assert (B: c * (sum_to n (fun i => Rabs (z i) * g i) * sum_to n (fun i => Rabs (z i) * g i)) =
    sum_to n (fun i => sum_to n (fun j => c * (Rabs (z i) * g i * (Rabs (z j) * g j))))).
  { rewrite <- sum_mult_r, <- sum_mult. apply sum_ext. intros i _. rewrite sum_mult. f_equal. rewrite sum_mult. reflexivity. }
  rewrite B. apply Rabs_le. split.
  - assert (N: - sum_to n (fun i => sum_to n (fun j => c * (Rabs (z i) * g i * (Rabs (z j) * g j)))) =
      sum_to n (fun i => sum_to n (fun j => (-1) * (c * (Rabs (z i) * g i * (Rabs (z j) * g j)))))).
    { rewrite (sum_ext n (fun i => sum_to n (fun j => (-1) * (c * (Rabs (z i) * g i * (Rabs (z j) * g j)))))
        (fun i => (-1) * sum_to n (fun j => c * (Rabs (z i) * g i * (Rabs (z j) * g j))))) by (intros; apply sum_mult).
      rewrite sum_mult. lra. }
    rewrite N. apply sum_le. intros i Hi. apply sum_le. intros j Hj. specialize (A i j Hi Hj). apply Rabs_le_inv in A. lra.
  - apply sum_le. intros i Hi. apply sum_le. intros j Hj. specialize (A i j Hi Hj). apply Rabs_le_inv in A. lra.
Qed.
Lemma form_pair : forall n f i j a c, (i < n)%nat -> (j < n)%nat -> i <> j ->
  form n f (fun k => if Nat.eqb k i then a else if Nat.eqb k j then c else 0) =
  a * f i i * a + a * f i j * c + c * f j i * a + c * f j j * c.
Proof.
  intros n f i j a c Hi Hj Ne.
  assert (S2: forall g, sum_to n (fun k => g k * (if Nat.eqb k i then a else if Nat.eqb k j then c else 0)) = g i * a + g j * c).
  { intros g. rewrite (sum_ext n _ (fun k => (if Nat.eqb k i then g i * a else 0) + (if Nat.eqb k j then g j * c else 0))).
    - rewrite sum_plus. rewrite (sum_only n i) by (auto; intros k _ K; rewrite (proj2 (Nat.eqb_neq k i) K); reflexivity).
      rewrite (sum_only n j) by (auto; intros k _ K; rewrite (proj2 (Nat.eqb_neq k j) K); reflexivity).
      rewrite !Nat.eqb_refl. reflexivity.
    - intros k _. destruct (Nat.eqb_spec k i) as [->|]; [rewrite (proj2 (Nat.eqb_neq i j) Ne); lra|].
      destruct (Nat.eqb_spec k j) as [->|]; lra. }
  unfold form. rewrite (sum_ext n _ (fun k => (f k i * a + f k j * c) * (if Nat.eqb k i then a else if Nat.eqb k j then c else 0))).
  - rewrite S2. ring.
  - intros k _. rewrite S2. ring.
Qed.

(** ** Back substitution *)
Lemma back_solve : forall J (T : nat -> nat -> R), (forall k, (k < J)%nat -> T k k <> 0) -> (forall r k, (r < k)%nat -> T r k = 0) ->
  forall v : nat -> R, exists x, forall k, (k < J)%nat -> sum_to J (fun r => x r * T r k) = v k.
Proof.
  induction J as [|J IH]; intros T P Z v; [exists (fun _ => 0); intros; lia|].
  destruct (IH T (fun k H => P k ltac:(lia)) Z (fun k => v k - v J / T J J * T J k)) as (x & Hx).
  exists (fun r => if Nat.eqb r J then v J / T J J else x r). intros k Hk. rewrite sum_S, Nat.eqb_refl.
  rewrite (sum_ext J _ (fun r => x r * T r k)).
  2:{ intros r Hr. rewrite (proj2 (Nat.eqb_neq r J)) by lia. reflexivity. }
  destruct (Nat.eq_dec k J) as [->|Ne].
  - rewrite sum_zero by (intros r Hr; rewrite Z by lia; ring). field. apply P. lia.
  - rewrite Hx by lia. ring.
Qed.

(** ** What is left on the diagonal *)
Lemma schur_left : forall n J (B T : nat -> nat -> R) (g : nat -> R) e e' i,
  (J <= i < n)%nat -> (forall k, (k < J)%nat -> T k k <> 0) -> (forall r k, (r < k)%nat -> T r k = 0) ->
  (forall a b, (a < n)%nat -> (b < n)%nat -> B a b = B b a) -> (forall a, 0 <= g a) -> 0 <= e' <= e ->
  (forall k a, (k < J)%nat -> (k <= a < n)%nat -> Rabs (B a k - sum_to J (fun q => T a q * T k q)) <= e' * (g a * g k)) ->
  (forall z, e * (sum_to n (fun a => Rabs (z a) * g a) * sum_to n (fun a => Rabs (z a) * g a)) <= form n B z) ->
  (e - e') * (g i * g i) <= B i i - sum_to J (fun q => T i q * T i q).
Proof.
  intros n J B T g e e' i Hi P Z Sy G He R Df.
  destruct (back_solve J T P Z (fun k => T i k)) as (x & Hx).
  set (z := fun r => (if Nat.ltb r J then x r else 0) + (if Nat.eqb r i then -1 else 0)).
  assert (Zk: forall k, (k < J)%nat -> sum_to n (fun r => z r * T r k) = 0).
  { intros k Hk. rewrite (sum_ext n _ (fun r => (if Nat.ltb r J then x r * T r k else 0) + (if Nat.eqb r i then - T i k else 0))).
    - rewrite sum_plus, sum_below by lia. rewrite (sum_only n i) by (try lia; intros r _ K; rewrite (proj2 (Nat.eqb_neq r i) K); reflexivity).
      rewrite Nat.eqb_refl, Hx by auto. lra.
    - intros r _. unfold z. destruct (Nat.ltb_spec r J); destruct (Nat.eqb_spec r i) as [->|]; try lia; lra. }
  set (M := fun a b => sum_to J (fun q => T a q * T b q)).
  set (E := fun a b => B a b - M a b - (if Nat.eqb a i then if Nat.eqb b i then B i i - M i i else 0 else 0)).
  set (E0 := fun a b => if Nat.eqb a i then if Nat.eqb b i then B i i - M i i else 0 else 0).
  assert (F: form n B z = form n M z + (form n E z + form n E0 z)).
  { rewrite <- !form_plus. apply form_ext. intros a b _ _ _ _. unfold E, E0. ring. }
  assert (F1: form n M z = 0).
  { unfold M. rewrite form_gram. apply sum_zero. intros k Hk. rewrite Zk by auto. ring. }
  assert (Zi: z i = -1).
  { unfold z. rewrite Nat.eqb_refl. destruct (Nat.ltb_spec i J); [lia|lra]. }
  assert (F2: form n E0 z = B i i - M i i).
  { unfold form. rewrite (sum_only n i) by (try lia; intros a _ K; unfold E0; rewrite (proj2 (Nat.eqb_neq a i) K); apply sum_zero; intros; ring).
    rewrite (sum_only n i) by (try lia; intros b _ K; unfold E0; rewrite (proj2 (Nat.eqb_neq b i) K), Nat.eqb_refl; ring).
    unfold E0. rewrite !Nat.eqb_refl, Zi. ring. }
  assert (F3: Rabs (form n E z) <= e' * (sum_to n (fun a => Rabs (z a) * g a) * sum_to n (fun a => Rabs (z a) * g a))).
  { apply form_bound. intros a b Ha Hb Za Zb.
    assert (Sup: forall r, (r < n)%nat -> z r <> 0 -> (r < J)%nat \/ r = i).
    { intros r Hr Zr. unfold z in Zr. destruct (Nat.ltb_spec r J); [auto|]. destruct (Nat.eqb_spec r i); [auto|]. lra. }
    assert (Pos: 0 <= e' * (g a * g b)) by (apply Rmult_le_pos; [lra|apply Rmult_le_pos; auto]).
    unfold E. destruct (Nat.eqb_spec a i) as [->|Na]; [destruct (Nat.eqb_spec b i) as [->|Nb]|].
    - rewrite Rminus_diag_eq by reflexivity. rewrite Rabs_R0. auto.
    - destruct (Sup b Hb Zb) as [Lb|]; [|contradiction]. rewrite Rminus_0_r. apply R; lia.
    - destruct (Sup a Ha Za) as [La|]; [|contradiction]. rewrite Rminus_0_r. destruct (Nat.le_ge_cases a b) as [Le|Le].
      + rewrite Sy by auto. unfold M. rewrite (sum_ext J _ (fun q => T b q * T a q)) by (intros; ring).
        rewrite (Rmult_comm (g a)). apply R; lia.
      + destruct (Sup b Hb Zb) as [Lb| ->]; [apply R; lia|lia]. }
  specialize (Df z). rewrite F, F1, F2 in Df. apply Rabs_le_inv in F3.
  set (r := sum_to n (fun a => Rabs (z a) * g a)) in *.
  assert (Rr: g i <= r).
  { pose proof (sum_only n i (fun a => if Nat.eqb a i then g i else 0) ltac:(lia)
      ltac:(intros a _ K; cbn beta; rewrite (proj2 (Nat.eqb_neq a i) K); reflexivity)) as O.
    cbn beta in O. rewrite Nat.eqb_refl in O. rewrite <- O at 1. apply sum_le. intros a _.
    destruct (Nat.eqb_spec a i) as [->|]; [rewrite Zi, Rabs_left; lra|]. apply Rmult_le_pos; [apply Rabs_pos|auto]. }
  assert (g i * g i <= r * r) by (apply Rmult_le_compat; auto).
  apply Rle_trans with ((e - e') * (r * r)); [apply Rmult_le_compat_l; lra|]. fold (M i i). lra.
Qed.

(** A matrix close to a product has no clearly negative direction. *)
Lemma form_near_gram : forall n J (B T : nat -> nat -> R) (g : nat -> R) e,
  (forall a b, (a < n)%nat -> (b < n)%nat -> Rabs (B a b - sum_to J (fun q => T a q * T b q)) <= e * (g a * g b)) ->
  forall z, - (e * (sum_to n (fun a => Rabs (z a) * g a) * sum_to n (fun a => Rabs (z a) * g a))) <= form n B z.
Proof.
  intros n J B T g e R z. set (M := fun a b => sum_to J (fun q => T a q * T b q)).
  assert (F: form n B z = form n M z + form n (fun a b => B a b - M a b) z).
  { rewrite <- form_plus. apply form_ext. intros. ring. }
  assert (F1: 0 <= form n M z).
  { unfold M. rewrite form_gram. apply sum_nonneg. intros. apply Rle_0_sqr. }
  pose proof (form_bound n (fun a b => B a b - M a b) g e z (fun a b Ha Hb _ _ => R a b Ha Hb)) as F2.
  apply Rabs_le_inv in F2. lra.
Qed.
