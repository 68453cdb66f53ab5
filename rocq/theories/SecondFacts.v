(** * Quadratic forms and second-order expansions. *)
From Coq Require Import Reals Lra Lia.
From Verif Require Import Base Num Nd Pattern Spec ListFacts CholFacts Jac SpecJac JacBase JacMore PsdDiff
  SpecEnd GradFacts AdMat SpecDir SpecSecond TotalDiff.
Local Open Scope list_scope.
Local Open Scope nat_scope.

Lemma step_length : forall x z, length x = length z -> length (step x z) = length x.
Proof. unfold step. induction x; destruct z; intros H; try discriminate; cbn; auto. Qed.
Lemma nth_step : forall x z i, length x = length z -> nth i (step x z) 0%R = (nth i z 0 - nth i x 0)%R.
Proof.
  unfold step. induction x; destruct z; intros i H; try discriminate; destruct i; cbn; try lra; auto.
Qed.
Lemma lin_step : forall n c x z, length x = n -> length z = n -> lin n c x z = Rsum n (fun j => c j * nth j (step x z) 0)%R.
Proof. intros n c x z Lx Lz. apply Rsum_ext. intros j _. rewrite nth_step by lia. auto. Qed.

(** Quadratic forms of functions. *)
Definition qf (n : nat) (M : nat -> nat -> R) (h : nat -> R) : R := Rsum n (fun i => Rsum n (fun j => M i j * h i * h j)%R).
Lemma quadratic_qf : forall n M h, quadratic n M h = qf n M (fun i => nth i h 0%R).
Proof. reflexivity. Qed.
Lemma qf_ext : forall n M h k, (forall i, i < n -> h i = k i) -> qf n M h = qf n M k.
Proof. intros n M h k H. apply Rsum_ext. intros i Hi. apply Rsum_ext. intros j Hj. rewrite !H by auto. auto. Qed.
Definition msum (n : nat) (M : nat -> nat -> R) : R := Rsum n (fun i => Rsum n (fun j => Rabs (M i j))).
Lemma msum_pos : forall n M, (0 <= msum n M)%R.
Proof. intros. apply Rsum_ge0. intros. apply Rsum_ge0. intros. apply Rabs_pos. Qed.

Lemma qf_close : forall n M d e rho sig,
  (forall i, i < n -> (Rabs (d i - e i) <= rho)%R) -> (forall i, i < n -> (Rabs (d i) <= sig)%R) ->
  (forall i, i < n -> (Rabs (e i) <= sig)%R) ->
  (Rabs (qf n M d - qf n M e) <= msum n M * (2 * (rho * sig)))%R.
Proof.
  intros n M d e rho sig Hr Hd He. unfold qf, msum. rewrite <- Rsum_minus, <- Rsum_scal_r. apply Rsum_abs_le. intros i Hi.
  rewrite <- Rsum_minus, <- Rsum_scal_r. apply Rsum_abs_le. intros j Hj.
  replace (M i j * d i * d j - M i j * e i * e j)%R with (M i j * ((d i - e i) * d j + e i * (d j - e j)))%R by ring.
  rewrite Rabs_mult. apply Rmult_le_compat_l; [apply Rabs_pos|].
  eapply Rle_trans; [apply Rabs_triang|]. rewrite !Rabs_mult.
  assert (Rabs (d i - e i) * Rabs (d j) <= rho * sig)%R by (apply Rmult_le_compat; auto using Rabs_pos).
  assert (Rabs (e i) * Rabs (d j - e j) <= sig * rho)%R by (apply Rmult_le_compat; auto using Rabs_pos). lra.
Qed.
Lemma qf_bound : forall n M d sig, (forall i, i < n -> (Rabs (d i) <= sig)%R) -> (Rabs (qf n M d) <= msum n M * (sig * sig))%R.
Proof.
  intros n M d sig Hd. unfold qf, msum. rewrite <- Rsum_scal_r. apply Rsum_abs_le. intros i Hi.
  rewrite <- Rsum_scal_r. apply Rsum_abs_le. intros j Hj. rewrite Rmult_assoc, !Rabs_mult.
  apply Rmult_le_compat_l; [apply Rabs_pos|]. apply Rmult_le_compat; auto using Rabs_pos.
Qed.

(** The form of [M] at the product of [c] with [w]. *)
Lemma qf_pull : forall n m c M w,
  qf m M (fun i => Rsum n (fun a => c i a * w a)%R) =
  qf n (fun a b => Rsum m (fun i => Rsum m (fun j => c i a * M i j * c j b)%R)) w.
Proof.
  intros n m c M w. unfold qf.
  transitivity (Rsum m (fun i => Rsum m (fun j => Rsum n (fun a => Rsum n (fun b => c i a * M i j * c j b * w a * w b)%R)))).
  - apply Rsum_ext. intros i _. apply Rsum_ext. intros j _.
    rewrite (Rmult_comm (M i j)), Rmult_assoc, <- Rsum_scal_r. apply Rsum_ext. intros a _.
    rewrite <- !Rsum_scal. apply Rsum_ext. intros b _. ring.
  - transitivity (Rsum m (fun i => Rsum n (fun a => Rsum m (fun j => Rsum n (fun b => c i a * M i j * c j b * w a * w b)%R)))).
    { apply Rsum_ext. intros i _. apply Rsum_swap. }
    rewrite Rsum_swap. apply Rsum_ext. intros a _.
    transitivity (Rsum m (fun i => Rsum n (fun b => Rsum m (fun j => c i a * M i j * c j b * w a * w b)%R))).
    { apply Rsum_ext. intros i _. apply Rsum_swap. }
    rewrite Rsum_swap. apply Rsum_ext. intros b _.
    rewrite <- !Rsum_scal_r. apply Rsum_ext. intros i _. rewrite <- !Rsum_scal_r. auto.
Qed.

(** ** Composition *)
Lemma hessian_ext : forall F F' x gr M, (forall z, length z = length x -> F z = F' z) -> has_hessian F x gr M -> has_hessian F' x gr M.
Proof.
  intros F F' x gr M E (L & H). split; auto. intros eps He. destruct (H eps He) as (d & Hd & P). exists d. split; auto.
  intros z Lz Hz. rewrite <- !E by auto. auto.
Qed.

Lemma fre_all : forall n m (G : list R -> list R) y (c : nat -> nat -> R),
  (forall i, i < m -> fre n (fun z => nth i (G z) 0%R) y (c i)) ->
  forall eps, (0 < eps)%R -> exists delta, (0 < delta)%R /\
    forall i, i < m -> forall z, length z = n -> (distance y z < delta)%R ->
      (Rabs (nth i (G z) 0 - nth i (G y) 0 - lin n (c i) y z) <= eps * distance y z)%R.
Proof.
  intros n m G y c H eps He.
  apply (common_delta m (fun i delta => forall z, length z = n -> (distance y z < delta)%R ->
      (Rabs (nth i (G z) 0 - nth i (G y) 0 - lin n (c i) y z) <= eps * distance y z)%R)).
  - intros i d d' (H1 & H2) K z Lz Hz. apply K; auto. lra.
  - intros i Hi. destruct (H i Hi eps He) as (d & Hd & P). exists d. auto.
Qed.

Definition csum (m n : nat) (c : nat -> nat -> R) : R := Rsum m (fun i => Rsum n (fun j => Rabs (c i j))).
Lemma csum_pos : forall m n c, (0 <= csum m n c)%R.
Proof. intros. apply Rsum_ge0. intros. apply Rsum_ge0. intros. apply Rabs_pos. Qed.
Lemma csum_member : forall m n c i, i < m -> (Rsum n (fun j => Rabs (c i j)) <= csum m n c)%R.
Proof.
  intros m n c i Hi. apply (Rsum_member m (fun i => Rsum n (fun j => Rabs (c i j)))); auto.
  intros. apply Rsum_ge0. intros. apply Rabs_pos.
Qed.
Lemma distance_le : forall x z s, (forall i, i < length x -> (Rabs (nth i z 0 - nth i x 0) <= s)%R) ->
  (distance x z <= INR (length x) * s)%R.
Proof.
  intros x z s H. unfold distance. apply Rle_trans with (Rsum (length x) (fun _ => s)).
  - apply Rsum_le. auto.
  - right. clear. induction (length x); [cbn; ring|]. cbn [Rsum]. rewrite IHn, S_INR. ring.
Qed.

Lemma hessian_chain : forall n m (G : list R -> list R) y x c Phi gr M,
  length y = n -> length x = m -> G y = x -> (forall z, length z = n -> length (G z) = m) ->
  (forall i, i < m -> fre n (fun z => nth i (G z) 0%R) y (c i)) ->
  has_hessian Phi x gr M -> (forall z, length z = n -> dot gr (step x (G z)) = 0%R) ->
  has_hessian (fun z => Phi (G z)) y (repeat 0%R n)
    (fun a b => Rsum m (fun i => Rsum m (fun j => c i a * M i j * c j b)%R)).
Proof.
  intros n m G y x c Phi gr M Ly Lx Gy LG HF (Lg & HH) HO. split; [rewrite repeat_length; auto|].
  intros eps He. rewrite Ly. set (sig := (csum m n c + 1)%R). pose proof (csum_pos m n c) as Pc.
  assert (0 < sig)%R as Ps by (unfold sig; lra).
  set (B := (msum m M + 1)%R). pose proof (msum_pos m M) as Pm. assert (0 < B)%R as PB by (unfold B; lra).
  set (q := (INR m * sig + 1)%R). pose proof (pos_INR m) as Pi.
  assert (0 <= INR m * sig)%R as P0 by (apply Rmult_le_pos; lra). assert (0 < q)%R as Pq by (unfold q; lra).
  set (e1 := Rmin 1 (eps / (2 * (B * sig)))).
  assert (0 < B * sig)%R as PBs by (apply Rmult_lt_0_compat; auto).
  assert (0 < e1)%R as He1 by (apply Rmin_pos; [lra|apply Rdiv_lt_0_compat; lra]).
  assert (0 < q * q)%R as Pqq by (apply Rmult_lt_0_compat; auto).
  destruct (fre_all n m G y c HF e1 He1) as (d1 & Hd1 & A).
  destruct (HH (eps / (2 * (q * q)))%R) as (d2 & Hd2 & P); [apply Rdiv_lt_0_compat; lra|].
  exists (Rmin d1 (d2 / q)). split; [apply Rmin_pos; auto; apply Rdiv_lt_0_compat; auto|].
  intros z Lz Hz. apply Rmin_Rgt in Hz. destruct Hz as (Z1 & Z2). apply Rgt_lt in Z1, Z2.
  set (D := distance y z) in *. assert (0 <= D)%R as PD by apply distance_pos.
  assert (length (G z) = m) as Lgz by auto.
  assert (forall i, i < m -> (Rabs (lin n (c i) y z) <= sig * D)%R) as Bl.
  { intros i Hi. eapply Rle_trans; [apply lin_bound; auto|]. apply Rmult_le_compat_r; auto.
    pose proof (csum_member m n c i Hi). unfold sig. lra. }
  assert (forall i, i < m -> (Rabs (nth i (G z) 0 - nth i x 0 - lin n (c i) y z) <= e1 * D)%R) as Br.
  { intros i Hi. specialize (A i Hi z Lz Z1). rewrite Gy in A. exact A. }
  assert (forall i, i < m -> (Rabs (nth i (G z) 0 - nth i x 0) <= sig * D)%R) as Bd.
  { intros i Hi. specialize (Br i Hi).
    replace (nth i (G z) 0 - nth i x 0)%R with ((nth i (G z) 0 - nth i x 0 - lin n (c i) y z) + lin n (c i) y z)%R by ring.
    eapply Rle_trans; [apply Rabs_triang|]. pose proof (lin_bound n (c i) y z Ly) as K. fold D in K.
    pose proof (csum_member m n c i Hi). assert (e1 <= 1)%R by (apply Rmin_l).
    assert (e1 * D <= 1 * D)%R by (apply Rmult_le_compat_r; auto).
    assert (Rsum n (fun j => Rabs (c i j)) * D <= csum m n c * D)%R by (apply Rmult_le_compat_r; auto). unfold sig. lra. }
  assert (distance x (G z) <= q * D)%R as Dx.
  { eapply Rle_trans; [apply (distance_le x (G z) (sig * D)); intros i Hi; apply Bd; lia|]. rewrite Lx. unfold q. lra. }
  assert (distance x (G z) < d2)%R as Dx2.
  { eapply Rle_lt_trans; [exact Dx|]. apply (Rmult_lt_compat_l q) in Z2; auto. replace (q * (d2 / q))%R with d2 in Z2 by (field; lra). auto. }
  specialize (P (G z) ltac:(lia) Dx2). rewrite HO in P by auto. rewrite Lx in P. rewrite Gy.
  assert (distance x (G z) * distance x (G z) <= (q * D) * (q * D))%R as Dq.
  { apply Rmult_le_compat; auto using distance_pos. }
  assert (eps / (2 * (q * q)) * (distance x (G z) * distance x (G z)) <= eps / 2 * (D * D))%R as P'.
  { eapply Rle_trans; [apply Rmult_le_compat_l; [left; apply Rdiv_lt_0_compat; lra|exact Dq]|]. right. field. lra. }
  (* the two quadratic forms *)
  set (K := fun a b => Rsum m (fun i => Rsum m (fun j => c i a * M i j * c j b)%R)).
  assert (quadratic n K (step y z) = qf m M (fun i => lin n (c i) y z)) as EK.
  { rewrite quadratic_qf. unfold K. rewrite <- qf_pull. apply qf_ext. intros i _. symmetry. apply lin_step; auto. }
  assert (Rabs (quadratic m M (step x (G z)) - quadratic n K (step y z)) <= eps * (D * D))%R as KK.
  { rewrite EK, quadratic_qf.
    eapply Rle_trans; [apply (qf_close m M _ _ (e1 * D) (sig * D))%R|].
    - intros i Hi. rewrite nth_step by lia. auto.
    - intros i Hi. rewrite nth_step by lia. auto.
    - auto.
    - assert (e1 <= eps / (2 * (B * sig)))%R as E1 by (apply Rmin_r).
      replace (msum m M * (2 * (e1 * D * (sig * D))))%R with ((msum m M * sig * (2 * e1)) * (D * D))%R by ring.
      apply Rmult_le_compat_r; [apply Rmult_le_pos; auto|].
      apply Rle_trans with (B * sig * (2 * (eps / (2 * (B * sig)))))%R; [|right; field; lra].
      apply Rmult_le_compat; [apply Rmult_le_pos; lra|lra| |lra]. apply Rmult_le_compat_r; unfold B; lra. }
  replace (dot (repeat 0%R n) (step y z)) with 0%R.
  2:{ symmetry. apply Rsum_zero. intros i _. replace (nth i (repeat 0%R n) 0%R) with 0%R; [ring|]. clear.
      revert i. induction n; destruct i; cbn; auto. }
  set (a := quadratic m M (step x (G z))) in *. set (b := quadratic n K (step y z)) in *.
  replace (Phi (G z) - Phi x - 0 - b / 2)%R with ((Phi (G z) - Phi x - 0 - a / 2) + (a - b) / 2)%R by lra.
  eapply Rle_trans; [apply Rabs_triang|].
  assert (Rabs ((a - b) / 2) <= eps / 2 * (D * D))%R.
  { unfold Rdiv at 1. rewrite Rabs_mult, (Rabs_right (/ 2)) by lra. lra. }
  lra.
Qed.

(** A Hessian comes with its gradient. *)
Lemma hessian_gradient : forall Phi x gr M, has_hessian Phi x gr M -> has_gradient Phi x gr.
Proof.
  intros Phi x gr M (L & H). split; auto. intros eps He. set (n := length x) in *.
  destruct (H 1%R ltac:(lra)) as (d & Hd & P). set (B := (msum n M + 1)%R). pose proof (msum_pos n M) as Pm.
  assert (0 < B)%R as PB by (unfold B; lra).
  set (q := (INR n + 1)%R). pose proof (pos_INR n) as Pi. assert (0 < q)%R as Pq by (unfold q; lra).
  exists (Rmin (d / q) (eps / (B * q)))%R. assert (0 < B * q)%R as PBq by (apply Rmult_lt_0_compat; auto).
  split; [apply Rmin_pos; apply Rdiv_lt_0_compat; auto|]. intros z Lz Hz.
  set (D := distance x z). assert (0 <= D)%R as PD by apply distance_pos.
  set (mu := Rmin (d / q) (eps / (B * q))) in *.
  assert (0 < mu)%R as Pmu by (apply Rmin_pos; apply Rdiv_lt_0_compat; auto).
  assert (D <= INR n * mu)%R as HD. { apply distance_le. intros i Hi. left. auto. }
  assert (D < q * mu)%R as HD' by (unfold q; lra).
  assert (q * mu <= d)%R as M1.
  { apply Rle_trans with (q * (d / q))%R; [apply Rmult_le_compat_l; [lra|apply Rmin_l]|right; field; lra]. }
  assert (B * (q * mu) <= eps)%R as M2.
  { apply Rle_trans with (B * (q * (eps / (B * q))))%R; [|right; field; lra].
    apply Rmult_le_compat_l; [lra|]. apply Rmult_le_compat_l; [lra|apply Rmin_r]. }
  specialize (P z Lz ltac:(fold D; lra)). fold D in P.
  replace (Rsum n (fun i => nth i gr 0 * (nth i z 0 - nth i x 0))%R) with (dot gr (step x z)).
  2:{ unfold dot. rewrite step_length by lia. apply Rsum_ext. intros i _. rewrite nth_step by lia. auto. }
  change (Rsum n (fun i => Rabs (nth i z 0 - nth i x 0)%R)) with D.
  assert (Rabs (quadratic n M (step x z)) <= msum n M * (D * D))%R as Q.
  { rewrite quadratic_qf. apply qf_bound. intros i Hi. rewrite nth_step by lia. apply distance_member. auto. }
  set (a := quadratic n M (step x z)) in *.
  replace (Phi z - Phi x - dot gr (step x z))%R with ((Phi z - Phi x - dot gr (step x z) - a / 2) + a / 2)%R by lra.
  eapply Rle_trans; [apply Rabs_triang|].
  assert (Rabs (a / 2) = Rabs a / 2)%R as -> by (unfold Rdiv; rewrite Rabs_mult, (Rabs_right (/ 2)) by lra; auto).
  assert (B * (D * D) <= eps * D)%R.
  { replace (B * (D * D))%R with ((B * D) * D)%R by ring. apply Rmult_le_compat_r; auto.
    apply Rle_trans with (B * (q * mu))%R; auto. apply Rmult_le_compat_l; lra. }
  assert (B * (D * D) = msum n M * (D * D) + 1 * (D * D))%R by (unfold B; ring).
  assert (0 <= msum n M * (D * D))%R by (apply Rmult_le_pos; auto; apply Rmult_le_pos; auto). lra.
Qed.

(** ** Positive definite forms are bounded below *)
Lemma qf_S : forall n K h, qf (S n) K h =
  (qf n K h + h n * Rsum n (fun i => (K i n + K n i) * h i) + K n n * h n * h n)%R.
Proof.
  intros n K h. unfold qf. cbn [Rsum]. rewrite Rsum_plus, <- Rsum_scal.
  rewrite (Rsum_ext n (fun i => h n * ((K i n + K n i) * h i))%R (fun i => K i n * h i * h n + K n i * h n * h i)%R) by (intros; ring).
  rewrite Rsum_plus. lra.
Qed.
Lemma qf_square : forall n b h, qf n (fun i j => b i * b j)%R h = (Rsum n (fun i => b i * h i) * Rsum n (fun i => b i * h i))%R.
Proof.
  intros n b h. unfold qf. rewrite <- Rsum_scal_r. apply Rsum_ext. intros i _. rewrite <- Rsum_scal. apply Rsum_ext. intros j _. ring.
Qed.
Lemma qf_minus : forall n K L a h, qf n (fun i j => K i j - L i j * a)%R h = (qf n K h - qf n L h * a)%R.
Proof.
  intros n K L a h. unfold qf. rewrite <- Rsum_scal_r, <- Rsum_minus. apply Rsum_ext. intros i _.
  rewrite <- Rsum_scal_r, <- Rsum_minus. apply Rsum_ext. intros j _. ring.
Qed.

Lemma definite_uniform : forall n K, (forall h, (exists i, i < n /\ h i <> 0%R) -> (0 < qf n K h)%R) ->
  exists lam, (0 < lam)%R /\
    forall h, (lam * (Rsum n (fun i => Rabs (h i)) * Rsum n (fun i => Rabs (h i))) <= qf n K h)%R.
Proof.
  induction n; intros K H.
  { exists 1%R. split; [lra|]. intros h. cbn. lra. }
  set (a := K n n). set (b := fun i => ((K i n + K n i) / 2)%R).
  assert (0 < a)%R as Pa.
  { specialize (H (fun i => if i =? n then 1%R else 0%R)). rewrite qf_S, Nat.eqb_refl in H.
    rewrite (Rsum_zero n) in H. 2:{ intros i Hi. rewrite (proj2 (Nat.eqb_neq i n)) by lia. ring. }
    rewrite (qf_ext n K _ (fun _ => 0%R)) in H. 2:{ intros i Hi. rewrite (proj2 (Nat.eqb_neq i n)) by lia. auto. }
    assert (qf n K (fun _ => 0%R) = 0%R) as E. { apply Rsum_zero. intros. apply Rsum_zero. intros. ring. }
    rewrite E in H. assert (0 < 0 + 1 * 0 + K n n * 1 * 1)%R; [|unfold a; lra]. apply H. exists n. split; auto. rewrite Nat.eqb_refl. lra. }
  assert (forall h, qf (S n) K h = a * ((h n + Rsum n (fun i => b i * h i) / a) * (h n + Rsum n (fun i => b i * h i) / a))
            + qf n (fun i j => K i j - b i * b j * / a) h)%R as Sq.
  { intros h. rewrite qf_S, (qf_minus n K (fun i j => b i * b j)%R (/ a)%R), qf_square.
    rewrite (Rsum_ext n (fun i => (K i n + K n i) * h i)%R (fun i => 2 * (b i * h i))%R) by (intros; unfold b; field).
    rewrite Rsum_scal. fold a. set (s := Rsum n (fun i => b i * h i)%R). field. lra. }
  destruct (IHn (fun i j => K i j - b i * b j * / a)%R) as (lam & Pl & HL).
  { intros h (i & Hi & Ni). set (s := Rsum n (fun i => b i * h i)%R).
    specialize (H (fun j => if j =? n then (- s / a)%R else h j)).
    assert (EQ : forall j, j < n -> (if j =? n then (- s / a)%R else h j) = h j).
    { intros j Hj. rewrite (proj2 (Nat.eqb_neq j n)) by lia. auto. }
    rewrite Sq, Nat.eqb_refl in H.
    rewrite (Rsum_ext n _ (fun i => b i * h i)%R) in H. 2:{ intros j Hj. rewrite EQ by auto. auto. }
    fold s in H. rewrite (qf_ext n _ _ h EQ) in H.
    replace (a * ((- s / a + s / a) * (- s / a + s / a)))%R with 0%R in H by (field; lra). rewrite Rplus_0_l in H. apply H.
    exists i. split; [lia|]. rewrite EQ by auto. auto. }
  set (C := (1 + Rsum n (fun i => Rabs (b i)) / a)%R).
  assert (0 <= Rsum n (fun i => Rabs (b i)))%R as Pb by (apply Rsum_ge0; intros; apply Rabs_pos).
  assert (1 <= C)%R as PC. { unfold C. assert (0 <= Rsum n (fun i => Rabs (b i)) / a)%R; [|lra]. apply Rmult_le_pos; auto. left. apply Rinv_0_lt_compat. auto. }
  assert (0 < C * C)%R as PCC by nra.
  exists (Rmin (lam / (2 * (C * C))) (a / 2)). split; [apply Rmin_pos; [apply Rdiv_lt_0_compat; lra|lra]|].
  intros h. rewrite Sq. set (s := Rsum n (fun i => b i * h i)%R). set (A := Rsum n (fun i => Rabs (h i))). cbn [Rsum]. fold A.
  assert (0 <= A)%R as PA by (apply Rsum_ge0; intros; apply Rabs_pos).
  set (g := (h n + s / a)%R). specialize (HL h). fold A in HL.
  assert (Rabs s <= Rsum n (fun i => Rabs (b i)) * A)%R as Bs.
  { unfold s, A. rewrite <- Rsum_scal. apply Rsum_abs_le. intros i Hi. rewrite Rabs_mult. apply Rmult_le_compat_r; [apply Rabs_pos|].
    apply (Rsum_member n (fun i => Rabs (b i))); auto. intros. apply Rabs_pos. }
  assert (Rabs (h n) <= Rabs g + Rsum n (fun i => Rabs (b i)) / a * A)%R as Bh.
  { replace (h n) with (g + - (s / a))%R by (unfold g; ring). eapply Rle_trans; [apply Rabs_triang|]. apply Rplus_le_compat_l.
    rewrite Rabs_Ropp. unfold Rdiv. rewrite Rabs_mult, (Rabs_right (/ a)) by (left; apply Rinv_0_lt_compat; auto).
    replace (Rsum n (fun i => Rabs (b i)) * / a * A)%R with (Rsum n (fun i => Rabs (b i)) * A * / a)%R by ring.
    apply Rmult_le_compat_r; auto. left. apply Rinv_0_lt_compat. auto. }
  assert (A + Rabs (h n) <= C * A + Rabs g)%R as Bt by (unfold C; lra).
  set (t := (A + Rabs (h n))%R) in *. assert (0 <= t)%R as Pt by (unfold t; pose proof (Rabs_pos (h n)); lra).
  assert (t * t <= 2 * (C * C) * (A * A) + 2 * (g * g))%R as Tt.
  { apply Rle_trans with ((C * A + Rabs g) * (C * A + Rabs g))%R; [apply Rmult_le_compat; auto|].
    assert (g * g = Rabs g * Rabs g)%R as -> by (rewrite <- Rabs_mult, Rabs_right; [auto|apply Rle_ge, Rle_0_sqr]).
    pose proof (Rle_0_sqr (C * A - Rabs g)) as K0. unfold Rsqr in K0. nra. }
  set (mu := Rmin (lam / (2 * (C * C))) (a / 2)).
  assert (0 < mu)%R as Pmu by (apply Rmin_pos; [apply Rdiv_lt_0_compat; lra|lra]).
  apply Rle_trans with (mu * (2 * (C * C) * (A * A) + 2 * (g * g)))%R; [apply Rmult_le_compat_l; lra|].
  assert (0 <= A * A)%R by (apply Rmult_le_pos; auto). assert (0 <= g * g)%R by apply Rle_0_sqr.
  assert (mu * (2 * (C * C) * (A * A)) <= lam * (A * A))%R.
  { apply Rle_trans with (lam / (2 * (C * C)) * (2 * (C * C) * (A * A)))%R; [|right; field; lra].
    apply Rmult_le_compat_r; [apply Rmult_le_pos; lra|apply Rmin_l]. }
  assert (mu * (2 * (g * g)) <= a * (g * g))%R.
  { apply Rle_trans with (a / 2 * (2 * (g * g)))%R; [|right; field]. apply Rmult_le_compat_r; [lra|apply Rmin_r]. }
  lra.
Qed.

(** On lists. *)
Lemma not_zero_nth : forall h, ~ zero_vector h <-> exists i, i < length h /\ nth i h 0%R <> 0%R.
Proof.
  induction h as [|a h IH]; split.
  - intros N. exfalso. apply N. constructor.
  - intros (i & Hi & _). cbn in Hi. lia.
  - intros N. destruct (Req_dec a 0) as [->|Na].
    + destruct (proj1 IH) as (i & Hi & Ni); [intros Z; apply N; constructor; auto|]. exists (S i). split; [cbn; lia|auto].
    + exists 0. split; [cbn; lia|auto].
  - intros (i & Hi & Ni) Z. inversion Z as [|? ? Za Zh]; subst. destruct i; [cbn in Ni; lra|].
    apply (proj2 IH); auto. exists i. split; [cbn in Hi; lia|auto].
Qed.
Lemma definite_lists : forall n K, (forall h, length h = n -> ~ zero_vector h -> (0 < quadratic n K h)%R) ->
  exists lam, (0 < lam)%R /\ forall h,
    (lam * (Rsum n (fun i => Rabs (nth i h 0%R)) * Rsum n (fun i => Rabs (nth i h 0%R))) <= quadratic n K h)%R.
Proof.
  intros n K H. destruct (definite_uniform n K) as (lam & Pl & HL).
  - intros h (i & Hi & Ni). set (l := map h (seq 0 n)).
    assert (forall j, j < n -> nth j l 0%R = h j) as N.
    { intros j Hj. unfold l. rewrite (nth_map_gen _ _ _ _ _ 0%R 0), seq_nth by (rewrite ?seq_length; auto). auto. }
    rewrite <- (qf_ext n K (fun j => nth j l 0%R) h N).
    assert (length l = n) as Ll by (unfold l; rewrite map_length, seq_length; auto).
    apply (H l Ll). apply not_zero_nth. exists i. rewrite Ll, N; auto.
  - exists lam. split; auto. intros h. apply (HL (fun i => nth i h 0%R)).
Qed.

(** A stationary point with positive curvature is a strict local minimum. *)
Lemma hessian_minimum : forall F y K lam, has_hessian F y (repeat 0%R (length y)) K -> (0 < lam)%R ->
  (forall h, (lam * (Rsum (length y) (fun i => Rabs (nth i h 0%R)) * Rsum (length y) (fun i => Rabs (nth i h 0%R)))
              <= quadratic (length y) K h)%R) ->
  strict_local_minimum_on (fun z => length z = length y) F y.
Proof.
  intros F y K lam (_ & H) Pl HL. destruct (H (lam / 4)%R ltac:(lra)) as (d & Hd & P). exists d. split; auto.
  intros z Lz Hz N. specialize (P z Lz Hz). specialize (HL (step y z)).
  replace (Rsum (length y) (fun i => Rabs (nth i (step y z) 0%R))) with (distance y z) in HL.
  2:{ apply Rsum_ext. intros i _. rewrite nth_step by lia. auto. }
  replace (dot (repeat 0%R (length y)) (step y z)) with 0%R in P.
  2:{ symmetry. apply Rsum_zero. intros i _. replace (nth i (repeat 0%R (length y)) 0%R) with 0%R; [ring|]. clear.
      revert i. induction (length y); destruct i; cbn; auto. }
  set (D := distance y z) in *. assert (0 < D)%R as PD.
  { destruct (Rle_lt_or_eq_dec 0 D (distance_pos y z)) as [|E]; auto. exfalso. apply N. apply (list_eq_nth _ _ _ 0%R); auto.
    intros i Hi. pose proof (distance_member y z i ltac:(lia)) as K1. fold D in K1. rewrite <- E in K1.
    pose proof (Rabs_pos (nth i z 0 - nth i y 0)%R). assert (Rabs (nth i z 0 - nth i y 0) = 0)%R as Z by lra.
    destruct (Req_dec (nth i z 0 - nth i y 0)%R 0) as [|Ne]; [lra|]. apply Rabs_no_R0 in Ne. lra. }
  assert (0 < lam * (D * D))%R by (apply Rmult_lt_0_compat; auto; apply Rmult_lt_0_compat; auto).
  unfold Rabs in P. destruct (Rcase_abs _) in P; lra.
Qed.
