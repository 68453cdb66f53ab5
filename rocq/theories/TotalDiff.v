(** * Differentiable functions of several variables. *)
From Coq Require Import Reals Lra Lia.
From Verif Require Import Base Num Nd Pattern Spec ListFacts CholFacts Jac SpecJac JacBase JacMore PsdDiff
  SpecEnd GradFacts AdMat SpecDir SpecSecond.
Local Open Scope list_scope.
Local Open Scope nat_scope.

Definition lin (n : nat) (c : nat -> R) (x z : list R) : R := Rsum n (fun j => c j * (nth j z 0 - nth j x 0))%R.
Definition fre (n : nat) (F : list R -> R) (x : list R) (c : nat -> R) : Prop :=
  forall eps, (0 < eps)%R -> exists delta, (0 < delta)%R /\
    forall z, length z = n -> (distance x z < delta)%R -> (Rabs (F z - F x - lin n c x z) <= eps * distance x z)%R.
Definition dif (n : nat) (F : list R -> R) (x : list R) : Prop := exists c, fre n F x c.

Lemma distance_pos : forall x z, (0 <= distance x z)%R.
Proof. intros. apply rs_nonneg. intros. apply Rabs_pos. Qed.
Lemma distance_member : forall x z i, i < length x -> (Rabs (nth i z 0 - nth i x 0) <= distance x z)%R.
Proof. intros x z i Hi. apply (Rsum_member (length x) (fun i => Rabs (nth i z 0 - nth i x 0))%R); auto. intros. apply Rabs_pos. Qed.
Lemma distance_self : forall x, distance x x = 0%R.
Proof. intros x. apply Rsum_zero. intros i _. rewrite Rminus_diag_eq, Rabs_R0; auto. Qed.

Lemma lin_bound : forall n c x z, length x = n ->
  (Rabs (lin n c x z) <= Rsum n (fun j => Rabs (c j)) * distance x z)%R.
Proof.
  intros n c x z L. eapply Rle_trans; [apply Rsum_abs|]. unfold distance. rewrite L, <- Rsum_scal. apply Rsum_le. intros j Hj.
  rewrite Rabs_mult. apply Rmult_le_compat_r; [apply Rabs_pos|].
  apply (Rsum_member n (fun j => Rabs (c j))); auto. intros. apply Rabs_pos.
Qed.

Lemma fre_ext : forall n F F' x c, length x = n -> (forall z, length z = n -> F z = F' z) -> fre n F x c -> fre n F' x c.
Proof.
  intros n F F' x c L E H eps He. destruct (H eps He) as (d & Hd & P). exists d. split; auto.
  intros z Lz Hz. rewrite <- !E by auto. auto.
Qed.
Lemma dif_ext : forall n F F' x, length x = n -> (forall z, length z = n -> F z = F' z) -> dif n F x -> dif n F' x.
Proof. intros n F F' x L E (c & H). exists c. eapply fre_ext; eauto. Qed.

Lemma dif_const : forall n x a, dif n (fun _ => a) x.
Proof.
  intros n x a. exists (fun _ => 0%R). intros eps He. exists 1%R. split; [lra|]. intros z Lz _.
  unfold lin. rewrite Rsum_zero by (intros; ring). pose proof (distance_pos x z).
  replace (a - a - 0)%R with 0%R by ring. rewrite Rabs_R0. apply Rmult_le_pos; lra.
Qed.
Lemma dif_coord : forall n x i, i < n -> dif n (fun z => nth i z 0%R) x.
Proof.
  intros n x i Hi. exists (fun j => if j =? i then 1%R else 0%R). intros eps He. exists 1%R. split; [lra|]. intros z Lz _.
  unfold lin. rewrite (Rsum_single n _ i Hi). 2:{ intros j Hj Hne. rewrite (proj2 (Nat.eqb_neq j i)) by auto. ring. }
  rewrite Nat.eqb_refl. replace (nth i z 0 - nth i x 0 - 1 * (nth i z 0 - nth i x 0))%R with 0%R by ring.
  rewrite Rabs_R0. apply Rmult_le_pos; [lra|apply distance_pos].
Qed.

(** Near [x] the change is at most a multiple of the distance. *)
Lemma fre_lipschitz : forall n F x c, length x = n -> fre n F x c ->
  exists C delta, (0 < C)%R /\ (0 < delta)%R /\
    forall z, length z = n -> (distance x z < delta)%R -> (Rabs (F z - F x) <= C * distance x z)%R.
Proof.
  intros n F x c L H. destruct (H 1%R ltac:(lra)) as (d & Hd & P).
  exists (Rsum n (fun j => Rabs (c j)) + 1)%R, d.
  assert (0 <= Rsum n (fun j => Rabs (c j)))%R by (apply Rsum_ge0; intros; apply Rabs_pos). split; [lra|]. split; auto.
  intros z Lz Hz. specialize (P z Lz Hz). pose proof (lin_bound n c x z L).
  replace (F z - F x)%R with ((F z - F x - lin n c x z) + lin n c x z)%R by ring.
  eapply Rle_trans; [apply Rabs_triang|]. lra.
Qed.

Lemma dif_plus : forall n F G x, dif n F x -> dif n G x -> dif n (fun z => F z + G z)%R x.
Proof.
  intros n F G x (c & HF) (e & HG). exists (fun j => c j + e j)%R. intros eps He.
  destruct (HF (eps / 2)%R ltac:(lra)) as (d1 & Hd1 & P1). destruct (HG (eps / 2)%R ltac:(lra)) as (d2 & Hd2 & P2).
  exists (Rmin d1 d2). split; [apply Rmin_pos; auto|]. intros z Lz Hz.
  specialize (P1 z Lz ltac:(eapply Rlt_le_trans; [exact Hz|apply Rmin_l])).
  specialize (P2 z Lz ltac:(eapply Rlt_le_trans; [exact Hz|apply Rmin_r])).
  replace (F z + G z - (F x + G x) - lin n (fun j => c j + e j) x z)%R
    with ((F z - F x - lin n c x z) + (G z - G x - lin n e x z))%R.
  - eapply Rle_trans; [apply Rabs_triang|]. lra.
  - unfold lin. rewrite (Rsum_ext n (fun j => (c j + e j) * _)%R (fun j => c j * (nth j z 0 - nth j x 0) + e j * (nth j z 0 - nth j x 0))%R).
    + rewrite Rsum_plus. ring.
    + intros; ring.
Qed.

Lemma dif_mult : forall n F G x, length x = n -> dif n F x -> dif n G x -> dif n (fun z => F z * G z)%R x.
Proof.
  intros n F G x L (c & HF) (e & HG). exists (fun j => G x * c j + F x * e j)%R.
  destruct (fre_lipschitz n F x c L HF) as (C1 & r1 & PC1 & Pr1 & L1).
  destruct (fre_lipschitz n G x e L HG) as (C2 & r2 & PC2 & Pr2 & L2).
  intros eps He. set (B := (Rabs (F x) + Rabs (G x) + 1)%R).
  assert (0 < B)%R as PB by (unfold B; pose proof (Rabs_pos (F x)); pose proof (Rabs_pos (G x)); lra).
  assert (0 < eps / (2 * B))%R as He1 by (apply Rdiv_lt_0_compat; lra).
  destruct (HF _ He1) as (d1 & Hd1 & P1). destruct (HG _ He1) as (d2 & Hd2 & P2).
  assert (0 < eps / (2 * (C1 * C2)))%R as He2 by (apply Rdiv_lt_0_compat; [lra|apply Rmult_lt_0_compat; [lra|apply Rmult_lt_0_compat; auto]]).
  exists (Rmin (Rmin (Rmin d1 d2) (Rmin r1 r2)) (eps / (2 * (C1 * C2))))%R.
  split; [repeat apply Rmin_pos; auto|]. intros z Lz Hz.
  apply Rmin_Rgt in Hz. destruct Hz as (Hz & Z5). apply Rmin_Rgt in Hz. destruct Hz as (Hz & Hz').
  apply Rmin_Rgt in Hz. destruct Hz as (Z1 & Z2). apply Rmin_Rgt in Hz'. destruct Hz' as (Z3 & Z4).
  apply Rgt_lt in Z1, Z2, Z3, Z4, Z5.
  specialize (P1 z Lz Z1). specialize (P2 z Lz Z2). specialize (L1 z Lz Z3). specialize (L2 z Lz Z4).
  set (D := distance x z) in *. assert (0 <= D)%R as PD by apply distance_pos.
  replace (F z * G z - F x * G x - lin n (fun j => G x * c j + F x * e j) x z)%R
    with (G x * (F z - F x - lin n c x z) + F x * (G z - G x - lin n e x z) + (F z - F x) * (G z - G x))%R.
  2:{ unfold lin. rewrite (Rsum_ext n (fun j => (G x * c j + F x * e j) * _)%R
        (fun j => G x * (c j * (nth j z 0 - nth j x 0)) + F x * (e j * (nth j z 0 - nth j x 0)))%R) by (intros; ring).
      rewrite Rsum_plus, !Rsum_scal. ring. }
  set (a := (F z - F x - lin n c x z)%R) in *. set (b := (G z - G x - lin n e x z)%R) in *.
  assert (Rabs ((F z - F x) * (G z - G x)) <= eps / 2 * D)%R as K3.
  { rewrite Rabs_mult. eapply Rle_trans; [apply Rmult_le_compat; [apply Rabs_pos|apply Rabs_pos|exact L1|exact L2]|].
    replace (C1 * D * (C2 * D))%R with (C1 * C2 * D * D)%R by ring. apply Rmult_le_compat_r; auto.
    assert (0 < C1 * C2)%R by (apply Rmult_lt_0_compat; auto).
    apply Rlt_le in Z5. eapply Rle_trans; [apply Rmult_le_compat_l; [lra|exact Z5]|]. right. field. lra. }
  assert (Rabs (G x * a + F x * b) <= eps / 2 * D)%R as K12.
  { eapply Rle_trans; [apply Rabs_triang|]. rewrite !Rabs_mult.
    assert (Rabs (G x) * Rabs a <= Rabs (G x) * (eps / (2 * B) * D))%R by (apply Rmult_le_compat_l; auto; apply Rabs_pos).
    assert (Rabs (F x) * Rabs b <= Rabs (F x) * (eps / (2 * B) * D))%R by (apply Rmult_le_compat_l; auto; apply Rabs_pos).
    assert ((Rabs (G x) + Rabs (F x)) * (eps / (2 * B) * D) <= B * (eps / (2 * B) * D))%R.
    { apply Rmult_le_compat_r; [apply Rmult_le_pos; lra|unfold B; lra]. }
    replace (B * (eps / (2 * B) * D))%R with (eps / 2 * D)%R in * by (field; lra). lra. }
  eapply Rle_trans; [apply Rabs_triang|]. lra.
Qed.

Lemma dif_comp : forall n F x (phi : R -> R) d, length x = n -> dif n F x -> derivable_pt_lim phi (F x) d -> dif n (fun z => phi (F z)) x.
Proof.
  intros n F x phi d L (c & HF) HD. exists (fun j => d * c j)%R.
  destruct (fre_lipschitz n F x c L HF) as (C & r & PC & Pr & HL).
  intros eps He.
  assert (0 < eps / (2 * C))%R as He1 by (apply Rdiv_lt_0_compat; lra).
  assert (0 < eps / (2 * (Rabs d + 1)))%R as He2 by (apply Rdiv_lt_0_compat; pose proof (Rabs_pos d); lra).
  destruct (HD _ He1) as ([e Pe] & PD). cbn in PD. destruct (HF _ He2) as (d1 & Hd1 & P1).
  exists (Rmin (Rmin r d1) (e / C))%R. split; [repeat apply Rmin_pos; auto; apply Rdiv_lt_0_compat; lra|].
  intros z Lz Hz. apply Rmin_Rgt in Hz. destruct Hz as (Hz & Z3). apply Rmin_Rgt in Hz. destruct Hz as (Z1 & Z2).
  apply Rgt_lt in Z1, Z2, Z3. specialize (HL z Lz Z1). specialize (P1 z Lz Z2).
  set (D := distance x z) in *. assert (0 <= D)%R as PDD by apply distance_pos.
  set (h := (F z - F x)%R) in *.
  assert (Rabs h < e)%R as Hh.
  { eapply Rle_lt_trans; [exact HL|]. apply (Rmult_lt_compat_l C) in Z3; auto. replace (C * (e / C))%R with e in Z3 by (field; lra). auto. }
  assert (Rabs (phi (F z) - phi (F x) - d * h) <= eps / 2 * D)%R as K1.
  { destruct (Req_dec h 0) as [E0|N].
    - assert (F z = F x) as -> by (unfold h in E0; lra). rewrite E0. replace (phi (F x) - phi (F x) - d * 0)%R with 0%R by ring.
      rewrite Rabs_R0. apply Rmult_le_pos; lra.
    - specialize (PD h N Hh). replace (F x + h)%R with (F z) in PD by (unfold h; ring).
      replace (phi (F z) - phi (F x) - d * h)%R with (((phi (F z) - phi (F x)) / h - d) * h)%R by (field; auto).
      rewrite Rabs_mult. apply Rle_trans with (eps / (2 * C) * (C * D))%R.
      + apply Rmult_le_compat; [apply Rabs_pos|apply Rabs_pos|lra|auto].
      + right. field. lra. }
  replace (phi (F z) - phi (F x) - lin n (fun j => d * c j) x z)%R
    with ((phi (F z) - phi (F x) - d * h) + d * (h - lin n c x z))%R.
  2:{ unfold lin. rewrite (Rsum_ext n (fun j => d * c j * _)%R (fun j => d * (c j * (nth j z 0 - nth j x 0)))%R) by (intros; ring).
      rewrite Rsum_scal. ring. }
  eapply Rle_trans; [apply Rabs_triang|]. rewrite Rabs_mult.
  assert (Rabs d * Rabs (h - lin n c x z) <= eps / 2 * D)%R.
  { apply Rle_trans with ((Rabs d + 1) * (eps / (2 * (Rabs d + 1)) * D))%R.
    - apply Rmult_le_compat; [apply Rabs_pos|apply Rabs_pos|lra|exact P1].
    - right. field. pose proof (Rabs_pos d). lra. }
  lra.
Qed.

Lemma dif_sum : forall n k (F : nat -> list R -> R) x, (forall i, i < k -> dif n (F i) x) -> dif n (fun z => Rsum k (fun i => F i z)) x.
Proof.
  induction k; intros F x H; cbn; [apply dif_const|]. apply dif_plus; [apply IHk; auto|]. apply H. lia.
Qed.
Lemma dif_div : forall n F G x, length x = n -> dif n F x -> dif n G x -> G x <> 0%R -> dif n (fun z => F z / G z)%R x.
Proof.
  intros n F G x L HF HG N. unfold Rdiv. apply dif_mult; auto.
  apply (dif_comp n G x Rinv (- / (G x * G x))%R); auto.
  pose proof (derivable_pt_lim_div (fun _ => 1%R) (fun y => y) (G x) 0 1 (derivable_pt_lim_const 1 _) (derivable_pt_lim_id _) N) as D.
  cbv beta in D. replace ((0 * G x - 1 * 1) / Rsqr (G x))%R with (- / (G x * G x))%R in D by (unfold Rsqr; field; auto).
  eapply (lim_ext _ _ _ _ 1); [lra| |exact D]. intros t _. unfold div_fct. lra.
Qed.

(** Parts of the vector. *)
Lemma nth_firstn_R : forall n (x : list R) j, j < n -> nth j (firstn n x) 0%R = nth j x 0%R.
Proof. induction n; intros [|a x] j Hj; try lia; auto. destruct j; cbn; auto. apply IHn. lia. Qed.
Lemma nth_skipn_R : forall n (x : list R) j, nth j (skipn n x) 0%R = nth (n + j) x 0%R.
Proof. induction n; intros [|a x] j; cbn; auto. destruct j; auto. Qed.

Lemma distance_split : forall n x z, n <= length x ->
  distance x z = (distance (firstn n x) (firstn n z) + distance (skipn n x) (skipn n z))%R.
Proof.
  intros n x z H. unfold distance. rewrite firstn_length, skipn_length, Nat.min_l by auto.
  replace (length x) with (n + (length x - n)) at 1 by lia. rewrite Rsum_add. f_equal; apply Rsum_ext; intros i Hi.
  - rewrite !nth_firstn_R by auto. auto.
  - rewrite !nth_skipn_R. auto.
Qed.
Lemma dif_firstn : forall n n' F x, length x = n + n' -> dif n F (firstn n x) -> dif (n + n') (fun z => F (firstn n z)) x.
Proof.
  intros n n' F x L (c & H). exists (fun j => if j <? n then c j else 0%R). intros eps He.
  destruct (H eps He) as (d & Hd & P). exists d. split; auto. intros z Lz Hz.
  pose proof (distance_split n x z ltac:(lia)) as E. pose proof (distance_pos (skipn n x) (skipn n z)).
  specialize (P (firstn n z) ltac:(rewrite firstn_length; lia) ltac:(lra)).
  replace (lin (n + n') (fun j => if j <? n then c j else 0%R) x z) with (lin n c (firstn n x) (firstn n z)).
  - eapply Rle_trans; [exact P|]. apply Rmult_le_compat_l; lra.
  - unfold lin. rewrite Rsum_add, (Rsum_zero n').
    + rewrite Rplus_0_r. apply Rsum_ext. intros j Hj. rewrite (proj2 (Nat.ltb_lt j n)), !nth_firstn_R by auto. auto.
    + intros j Hj. rewrite (proj2 (Nat.ltb_ge (n + j) n)) by lia. ring.
Qed.
Lemma dif_skipn : forall n n' F x, length x = n + n' -> dif n' F (skipn n x) -> dif (n + n') (fun z => F (skipn n z)) x.
Proof.
  intros n n' F x L (c & H). exists (fun j => if j <? n then 0%R else c (j - n)). intros eps He.
  destruct (H eps He) as (d & Hd & P). exists d. split; auto. intros z Lz Hz.
  pose proof (distance_split n x z ltac:(lia)) as E. pose proof (distance_pos (firstn n x) (firstn n z)).
  specialize (P (skipn n z) ltac:(rewrite skipn_length; lia) ltac:(lra)).
  replace (lin (n + n') (fun j => if j <? n then 0%R else c (j - n)) x z) with (lin n' c (skipn n x) (skipn n z)).
  - eapply Rle_trans; [exact P|]. apply Rmult_le_compat_l; lra.
  - unfold lin. rewrite Rsum_add, (Rsum_zero n).
    + rewrite Rplus_0_l. apply Rsum_ext. intros j Hj. rewrite (proj2 (Nat.ltb_ge (n + j) n)), !nth_skipn_R by lia.
      do 2 f_equal. lia.
    + intros j Hj. rewrite (proj2 (Nat.ltb_lt j n)) by lia. ring.
Qed.

(** The derivative along a line. *)
Lemma fre_line : forall n F x c h, length x = n -> length h = n -> fre n F x c ->
  derivable_pt_lim (fun t => F (line x h t)) 0 (Rsum n (fun j => c j * nth j h 0)%R).
Proof.
  intros n F x c h L Lh H eps He. set (B := (Rsum n (fun j => Rabs (nth j h 0)) + 1)%R).
  assert (0 < B)%R as PB by (unfold B; assert (0 <= Rsum n (fun j => Rabs (nth j h 0%R)))%R by (apply Rsum_ge0; intros; apply Rabs_pos); lra).
  assert (forall t, distance x (line x h t) <= B * Rabs t)%R as HDt.
  { intros t. unfold distance. rewrite L. rewrite (Rsum_ext n _ (fun j => Rabs (nth j h 0) * Rabs t)%R).
    - rewrite Rsum_scal_r. apply Rmult_le_compat_r; [apply Rabs_pos|unfold B; lra].
    - intros j Hj. rewrite nth_line by lia. rewrite <- Rabs_mult. f_equal. ring. }
  destruct (H (eps / (2 * B))%R ltac:(apply Rdiv_lt_0_compat; lra)) as (d & Hd & P).
  assert (0 < d / B)%R as Hdb by (apply Rdiv_lt_0_compat; lra).
  exists (mkposreal _ Hdb). intros t N Ht. cbn in Ht. rewrite Rplus_0_l, line_zero by lia.
  assert (0 < Rabs t)%R as Pt by (apply Rabs_pos_lt; auto).
  assert (distance x (line x h t) < d)%R as Z.
  { eapply Rle_lt_trans; [apply HDt|]. apply (Rmult_lt_compat_l B) in Ht; auto. replace (B * (d / B))%R with d in Ht by (field; lra). auto. }
  specialize (P (line x h t) ltac:(rewrite line_length; lia) Z).
  replace (lin n c x (line x h t)) with (t * Rsum n (fun j => c j * nth j h 0))%R in P.
  2:{ unfold lin. rewrite <- Rsum_scal. apply Rsum_ext. intros j Hj. rewrite nth_line by lia. ring. }
  set (s := Rsum n (fun j => c j * nth j h 0)%R) in *.
  replace ((F (line x h t) - F x) / t - s)%R with ((F (line x h t) - F x - t * s) / t)%R by (field; auto).
  unfold Rdiv at 1. rewrite Rabs_mult, Rabs_inv.
  apply Rle_lt_trans with (eps / (2 * B) * (B * Rabs t) * / Rabs t)%R.
  - apply Rmult_le_compat_r; [left; apply Rinv_0_lt_compat; auto|]. eapply Rle_trans; [exact P|].
    apply Rmult_le_compat_l; [|apply HDt]. left. apply Rdiv_lt_0_compat; lra.
  - replace (eps / (2 * B) * (B * Rabs t) * / Rabs t)%R with (eps / 2)%R by (field; lra). lra.
Qed.
