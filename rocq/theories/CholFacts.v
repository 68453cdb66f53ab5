(** * Triangular packing and Cholesky factorisation. *)
From Coq Require Import Reals Lra Psatz.
From Verif Require Import Base Num Nd Psd Spec ListFacts NumFacts.

(** ** Rsum *)
Lemma Rsum_ext : forall n f g, (forall i, i < n -> f i = g i) -> Rsum n f = Rsum n g.
Proof. induction n; intros; simpl; auto. rewrite (IHn f g), H; auto. Qed.
Lemma Rsum_plus : forall n f g, (Rsum n (fun i => f i + g i) = Rsum n f + Rsum n g)%R.
Proof. induction n; intros; simpl; [ring|]. rewrite IHn. ring. Qed.
Lemma Rsum_minus : forall n f g, (Rsum n (fun i => f i - g i) = Rsum n f - Rsum n g)%R.
Proof. induction n; intros; simpl; [ring|]. rewrite IHn. ring. Qed.
Lemma Rsum_scal : forall n c f, (Rsum n (fun i => c * f i) = c * Rsum n f)%R.
Proof. induction n; intros; simpl; [ring|]. rewrite IHn. ring. Qed.
Lemma Rsum_scal_r : forall n c f, (Rsum n (fun i => f i * c) = Rsum n f * c)%R.
Proof. induction n; intros; simpl; [ring|]. rewrite IHn. ring. Qed.
Lemma Rsum_zero : forall n f, (forall i, i < n -> f i = 0%R) -> Rsum n f = 0%R.
Proof. induction n; intros; simpl; auto. rewrite IHn, H; auto. ring. Qed.
Lemma Rsum_swap : forall n m (f : nat -> nat -> R),
  Rsum n (fun i => Rsum m (fun j => f i j)) = Rsum m (fun j => Rsum n (fun i => f i j)).
Proof.
  induction n; intros; simpl.
  - symmetry. apply Rsum_zero. auto.
  - rewrite IHn, Rsum_plus. auto.
Qed.
Lemma Rsum_nonneg : forall n f, (forall i, i < n -> (0 <= f i)%R) -> (0 <= Rsum n f)%R.
Proof.
  induction n; intros; simpl; [lra|]. 
  assert (0 <= Rsum n f)%R by auto. specialize (H n ltac:(lia)). lra.
Qed.
Lemma Rsum_sq_pos : forall n f i, i < n -> f i <> 0%R -> (0 < Rsum n (fun k => f k * f k))%R.
Proof.
  induction n; intros f i Hi Hf; [lia|]. simpl.
  destruct (Nat.eq_dec i n) as [->|Hne].
  - assert (0 <= Rsum n (fun k => f k * f k))%R by (apply Rsum_nonneg; intros; nra). nra.
  - assert (0 < Rsum n (fun k => f k * f k))%R by (apply (IHn f i); auto; lia). nra.
Qed.
Lemma Rsum_trunc : forall n m f, m <= n -> (forall i, m <= i < n -> f i = 0%R) -> Rsum n f = Rsum m f.
Proof.
  induction n; intros m f Hm H.
  - replace m with 0 by lia. auto.
  - destruct (Nat.eq_dec m (S n)) as [->|Hne]; auto.
    simpl. rewrite (IHn m), H by (intros; try apply H; lia). ring.
Qed.
Lemma Rsum_single : forall n f i, i < n -> (forall j, j < n -> j <> i -> f j = 0%R) -> Rsum n f = f i.
Proof.
  induction n; intros f i Hi H; [lia|]. simpl.
  destruct (Nat.eq_dec i n) as [->|Hne].
  - rewrite Rsum_zero by (intros; apply H; lia). ring.
  - rewrite (IHn f i), (H n) by (try lia; intros; apply H; lia). ring.
Qed.
Lemma Rlsum_seq : forall n f, Rlsum (map f (seq 0 n)) = Rsum n f.
Proof.
  induction n; intros; auto. rewrite seq_S, map_app, Rlsum_app, IHn. simpl. ring.
Qed.
Lemma Rsum_S_first : forall n f, (Rsum (S n) f = f 0%nat + Rsum n (fun i => f (S i)))%R.
Proof. induction n; intros; [simpl; ring|]. simpl in *. rewrite IHn. ring. Qed.

(** ** triangular numbers *)
Definition T (n : nat) : nat := n * (n + 1) / 2.
Lemma T2 : forall n, 2 * T n = n * (n + 1).
Proof.
  intros. unfold T. symmetry. apply Nat.div_exact; [lia|].
  induction n; auto.
  replace (S n * (S n + 1)) with (n * (n + 1) + (n + 1) * 2) by lia.
  rewrite Nat.mod_add by lia. auto.
Qed.
Lemma T_S : forall n, T (S n) = T n + S n.
Proof. intros. pose proof (T2 n). pose proof (T2 (S n)). lia. Qed.
Lemma T_0 : T 0 = 0. Proof. reflexivity. Qed.
Lemma T_mono : forall n m, n <= m -> T n <= T m.
Proof. intros. pose proof (T2 n). pose proof (T2 m). nia. Qed.

Lemma tril_length : forall n, length (tril n) = T n.
Proof.
  unfold tril. induction n; auto. rewrite seq_S, flat_map_app, app_length, IHn. cbn [flat_map].
  rewrite app_nil_r, map_length, seq_length, T_S. simpl. lia.
Qed.

Lemma tril_S : forall n, tril (S n) = tril n ++ map (fun j => (n, j)) (seq 0 (S n)).
Proof.
  intros. unfold tril. rewrite seq_S, flat_map_app. cbn [flat_map Nat.add]. rewrite app_nil_r, seq_S. reflexivity.
Qed.

Lemma nth_tril : forall n i j d, j <= i -> i < n -> nth (ld_ind i j) (tril n) d = (i, j).
Proof.
  induction n; intros i j d Hj Hi; [lia|]. rewrite tril_S. unfold ld_ind. change (i * (i + 1) / 2) with (T i).
  destruct (Nat.eq_dec i n) as [->|Hne].
  - rewrite app_nth2 by (rewrite tril_length; lia). rewrite tril_length.
    replace (j + T n - T n) with j by lia.
    rewrite (nth_map_gen _ _ _ _ _ d 0) by (rewrite seq_length; lia).
    rewrite seq_nth by lia. auto.
  - rewrite app_nth1.
    + apply IHn; lia.
    + rewrite tril_length. assert (T (S i) <= T n) by (apply T_mono; lia). rewrite T_S in H. lia.
Qed.

Lemma in_tril : forall n i j, In (i, j) (tril n) <-> j <= i /\ i < n.
Proof.
  intros. unfold tril. rewrite in_flat_map. split.
  - intros (k & Hk & H). apply in_seq in Hk. apply in_map_iff in H.
    destruct H as (l & E & Hl). inversion E; subst. apply in_seq in Hl. lia.
  - intros (H1 & H2). exists i. split; [apply in_seq; lia|].
    apply in_map_iff. exists j. split; auto. apply in_seq. lia.
Qed.

Lemma unvec_size_T : forall n, unvec_size (T n) = n.
Proof.
  intros. unfold unvec_size.
  replace (1 + 8 * T n) with ((2 * n + 1) * (2 * n + 1)) by (pose proof (T2 n); lia).
  rewrite Nat.sqrt_square. replace (2 * n + 1 - 1) with (n * 2) by lia.
  apply Nat.div_mul. lia.
Qed.

Lemma sym_index_low : forall i j, j <= i -> sym_index i j = ld_ind i j.
Proof. intros. unfold sym_index. rewrite (proj2 (Nat.leb_le j i)); auto. Qed.

Lemma unvectorize_T : forall v n, length v = T n -> unvectorize_ld v = Ok (n, unvec_entry v).
Proof.
  intros. unfold unvectorize_ld. rewrite H, unvec_size_T. 
  change (n * (n + 1) / 2) with (T n). rewrite Nat.eqb_refl. auto.
Qed.

(** Reading the lower triangle of an unvectorised vector returns the vector. *)
Lemma vectorize_unvec : forall v n, length v = T n -> vectorize_ld n (unvec_entry v) = v.
Proof.
  intros v n H. apply (list_eq_nth _ _ _ NaN).
  - unfold vectorize_ld. rewrite map_length, tril_length. auto.
  - unfold vectorize_ld. intros p Hp. rewrite map_length, tril_length in Hp.
    rewrite (nth_map_gen _ _ _ _ _ NaN (0, 0)) by (rewrite tril_length; auto).
    assert (forall n p, p < T n -> exists i j, j <= i /\ i < n /\ p = ld_ind i j) as E.
    { clear. induction n; intros p Hp; [rewrite T_0 in Hp; lia|].
      rewrite T_S in Hp. destruct (lt_dec p (T n)).
      - destruct (IHn p l) as (i & j & H1 & H2 & H3). exists i, j. repeat split; auto.
      - exists n, (p - T n). unfold ld_ind. change (n * (n + 1) / 2) with (T n). lia. }
    destruct (E n p Hp) as (i & j & H1 & H2 & ->).
    rewrite nth_tril by auto. simpl. unfold unvec_entry.
    rewrite (proj2 (Nat.leb_le j i)), sym_index_low; auto.
Qed.

(** An unvectorised lower triangle is the lower triangle. *)
Lemma unvec_vectorize : forall n m i j, i < n -> j <= i ->
  unvec_entry (vectorize_ld n m) i j = m i j.
Proof.
  intros. unfold unvec_entry, vectorize_ld. rewrite (proj2 (Nat.leb_le j i)), sym_index_low by auto.
  rewrite (nth_map_gen _ _ _ _ _ NaN (0, 0)).
  - rewrite nth_tril by auto. auto.
  - rewrite tril_length. unfold ld_ind. change (i * (i + 1) / 2) with (T i).
    assert (T (S i) <= T n) by (apply T_mono; lia). rewrite T_S in H1. lia.
Qed.

(** ** Cholesky on products: chol (L L') = L *)
Definition lower (L : nat -> nat -> R) : Prop := forall i j, i < j -> L i j = 0%R.
Definition gram (n : nat) (L : nat -> nat -> R) : nat -> nat -> R :=
  fun i j => Rsum n (fun k => L i k * L j k)%R.

Definition Lrow (L : nat -> nat -> R) (i : nat) : list num :=
  map (fun k => Fin (L i k)) (seq 0 (S i)).

Lemma dotn_fin : forall f g n m, n <= m ->
  dotn (map (fun k => Fin (f k)) (seq 0 n)) (map (fun k => Fin (g k)) (seq 0 m))
  = Fin (Rsum n (fun k => f k * g k)%R).
Proof.
  intros f g n m H. unfold dotn.
  assert (forall o n m, n <= m ->
     map2 nmul (map (fun k => Fin (f k)) (seq o n)) (map (fun k => Fin (g k)) (seq o m))
     = map Fin (map (fun k => (f k * g k)%R) (seq o n))) as E.
  { clear. intros o n. revert o. induction n; intros o m H; simpl; auto.
    destruct m; [lia|]. simpl. rewrite IHn by lia. auto. }
  rewrite E by auto. rewrite nsum_fin, Rlsum_seq. auto.
Qed.

Lemma chol_off_spec : forall (arow : nat -> num) L n (l : nat -> R),
  (forall j, j < n -> L j j <> 0%R) ->
  (forall j, j < n -> arow j = Fin (Rsum j (fun k => l k * L j k) + l j * L j j)%R) ->
  forall c j, j + c = n ->
  chol_off arow (map (Lrow L) (seq j c)) (map (fun k => Fin (l k)) (seq 0 j))
  = map (fun k => Fin (l k)) (seq 0 n).
Proof.
  intros arow L n l Hd Ha. induction c; intros j Hj.
  - simpl. replace j with n by lia. auto.
  - cbn [seq map chol_off]. rewrite map_length, seq_length.
    assert (ndiv (nsub (arow j) (dotn (map (fun k => Fin (l k)) (seq 0 j)) (Lrow L j)))
                 (nth j (Lrow L j) NaN) = Fin (l j)) as ->.
    { unfold Lrow. rewrite dotn_fin by lia. rewrite Ha by lia.
      rewrite (nth_map_gen _ _ _ _ _ NaN 0) by (rewrite seq_length; lia).
      rewrite seq_nth by lia. cbn [nsub nneg nadd Nat.add].
      rewrite ndiv_fin by (apply Hd; lia). f_equal. field. apply Hd. lia. }
    change ([Fin (l j)]) with (map (fun k => Fin (l k)) [j]).
    rewrite <- map_app. replace (seq 0 j ++ [j]) with (seq 0 (S j)) by (rewrite seq_S; auto).
    apply IHc. lia.
Qed.

Lemma chol_rows_spec : forall L n (A : mat),
  (forall i, i < n -> (0 < L i i)%R) ->
  (forall i j, i < n -> j <= i ->
     A i j = Fin (Rsum j (fun k => L i k * L j k) + L i j * L j j)%R) ->
  chol_rows A n = Ok (map (Lrow L) (seq 0 n)).
Proof.
  induction n; intros A Hd HA; auto.
  cbn [chol_rows]. rewrite IHn by (intros; auto). cbn [bind].
  unfold chol_row. rewrite map_length, seq_length.
  assert (chol_off (A n) (map (Lrow L) (seq 0 n)) [] = map (fun k => Fin (L n k)) (seq 0 n)) as E.
  { change [] with (map (fun k => Fin (L n k)) (seq 0 0)).
    apply chol_off_spec; auto.
    - intros j Hj. specialize (Hd j). lra || (intros E0; specialize (Hd ltac:(lia)); lra).
    - intros. apply HA; lia. }
  rewrite E. rewrite dotn_fin by auto. rewrite HA by lia. cbn [nsub nneg nadd].
  replace (Rsum n (fun k => L n k * L n k) + L n n * L n n + - Rsum n (fun k => L n k * L n k))%R
    with (L n n * L n n)%R by ring.
  pose proof (Hd n ltac:(lia)) as Hn.
  unfold ngtb. cbn [nltb nsqrt]. rewrite (proj2 (Rltb_true _ _)) by nra.
  rewrite (proj2 (Rltb_false _ _)) by nra. rewrite sqrt_square by lra. cbn [bind].
  rewrite seq_S, map_app. cbn [map Nat.add]. f_equal. f_equal. unfold Lrow.
  rewrite seq_S, map_app. auto.
Qed.

(** Equality of matrices on the first n indices. *)
Definition mat_eq (n : nat) (a b : mat) : Prop := forall i j, i < n -> j < n -> a i j = b i j.

Lemma cholesky_gram : forall L n (A : mat),
  lower L -> (forall i, i < n -> (0 < L i i)%R) ->
  (forall i j, i < n -> j <= i -> A i j = Fin (gram n L i j)) ->
  exists c, cholesky n A = Ok c /\ mat_eq n c (fun i j => Fin (L i j)).
Proof.
  intros L n A Hlow Hd HA. unfold cholesky.
  rewrite (chol_rows_spec L); auto.
  - cbn [bind]. eexists. split; [reflexivity|]. intros i j Hi Hj. simpl.
    destruct (j <=? i) eqn:E.
    + apply Nat.leb_le in E.
      rewrite (nth_map_gen _ _ _ _ _ [] 0) by (rewrite seq_length; auto).
      rewrite seq_nth by auto. unfold Lrow.
      rewrite (nth_map_gen _ _ _ _ _ NaN 0) by (rewrite seq_length; lia).
      rewrite seq_nth by lia. auto.
    + apply Nat.leb_gt in E. rewrite Hlow; auto.
  - intros i j Hi Hj. rewrite HA by auto. f_equal. unfold gram.
    rewrite (Rsum_trunc n (S j)); auto; [lia|].
    intros k Hk. rewrite (Hlow j k) by lia. ring.
Qed.

(** ** Existence of the factor of a positive definite matrix *)
Lemma forward_solve : forall (L : nat -> nat -> R) (b : nat -> R) n,
  (forall j, j < n -> L j j <> 0%R) ->
  exists l : nat -> R, forall j, j < n -> (Rsum j (fun k => l k * L j k) + l j * L j j = b j)%R.
Proof.
  intros L b. induction n; intros Hd.
  - exists (fun _ => 0%R). intros; lia.
  - destruct IHn as (l & Hl); auto.
    exists (fun k => if k =? n then ((b n - Rsum n (fun k => l k * L n k)) / L n n)%R else l k).
    intros j Hj.
    assert (Rsum j (fun k => (if k =? n then ((b n - Rsum n (fun k => l k * L n k)) / L n n)%R
                             else l k) * L j k)%R = Rsum j (fun k => l k * L j k)%R) as ->.
    { apply Rsum_ext. intros k Hk. rewrite (proj2 (Nat.eqb_neq k n)) by lia. auto. }
    destruct (Nat.eq_dec j n) as [->|Hne].
    + rewrite Nat.eqb_refl. field. apply Hd. lia.
    + rewrite (proj2 (Nat.eqb_neq j n)) by auto. apply Hl. lia.
Qed.

Lemma backward_solve : forall (L : nat -> nat -> R) n (c : nat -> R),
  lower L -> (forall j, j < n -> L j j <> 0%R) ->
  exists y : nat -> R, forall k, k < n -> Rsum n (fun j => L j k * y j)%R = c k.
Proof.
  intros L. induction n; intros c Hlow Hd.
  - exists (fun _ => 0%R). intros; lia.
  - destruct (IHn (fun k => c k - L n k * (c n / L n n))%R) as (y & Hy); auto.
    exists (fun j => if j =? n then (c n / L n n)%R else y j).
    intros k Hk. simpl. rewrite Nat.eqb_refl.
    assert (Rsum n (fun j => L j k * (if j =? n then (c n / L n n)%R else y j))%R
            = Rsum n (fun j => L j k * y j)%R) as ->.
    { apply Rsum_ext. intros j Hj. rewrite (proj2 (Nat.eqb_neq j n)) by lia. auto. }
    destruct (Nat.eq_dec k n) as [->|Hne].
    + rewrite Rsum_zero. * field. apply Hd. lia.
      * intros j Hj. rewrite Hlow by auto. ring.
    + rewrite Hy by lia. ring.
Qed.

Lemma pos_def_leading : forall n m, pos_def (S n) m -> pos_def n m.
Proof.
  intros n m H x (i & Hi & Hx).
  specialize (H (fun k => if k <? n then x k else 0%R)).
  assert (exists i, i < S n /\ (if i <? n then x i else 0%R) <> 0%R) as He.
  { exists i. rewrite (proj2 (Nat.ltb_lt i n)) by auto. split; auto. }
  specialize (H He). simpl in H. rewrite Nat.ltb_irrefl in H.
  match goal with |- (0 < ?b)%R => match type of H with (0 < ?a)%R => assert (a = b)%R as E end end;
    [|rewrite E in H; auto].
  rewrite (Rsum_zero n (fun j => 0 * _ * _)%R) by (intros; ring).
  replace (0 * m n n * 0)%R with 0%R by ring.
  rewrite !Rplus_0_r. apply Rsum_ext. intros a Ha.
  rewrite (proj2 (Nat.ltb_lt a n)) by auto.
  replace (x a * m a n * 0)%R with 0%R by ring. rewrite Rplus_0_r.
  apply Rsum_ext. intros b Hb. rewrite (proj2 (Nat.ltb_lt b n)) by auto. auto.
Qed.

(** The quadratic form of a Gram matrix is a sum of squares. *)
Lemma gram_form : forall n L x,
  Rsum n (fun i => Rsum n (fun j => x i * gram n L i j * x j))%R =
  Rsum n (fun k => Rsum n (fun i => L i k * x i) * Rsum n (fun i => L i k * x i))%R.
Proof.
  intros. unfold gram.
  transitivity (Rsum n (fun i => Rsum n (fun j => Rsum n (fun k => (L i k * x i) * (L j k * x j))))%R).
  { apply Rsum_ext. intros i _. apply Rsum_ext. intros j _.
    rewrite <- Rsum_scal, <- Rsum_scal_r. apply Rsum_ext. intros; ring. }
  transitivity (Rsum n (fun i => Rsum n (fun k => Rsum n (fun j => (L i k * x i) * (L j k * x j))))%R).
  { apply Rsum_ext. intros i _. apply Rsum_swap. }
  rewrite Rsum_swap. apply Rsum_ext. intros k _.
  rewrite <- Rsum_scal_r. apply Rsum_ext. intros i _. rewrite <- Rsum_scal. auto.
Qed.

Lemma gram_pos_def : forall n L, lower L -> (forall i, i < n -> L i i <> 0%R) -> pos_def n (gram n L).
Proof.
  intros n L Hlow Hd x Hx. rewrite gram_form.
  assert (exists i, i < n /\ x i <> 0%R /\ forall j, i < j < n -> x j = 0%R) as (i & Hi & Hxi & Hlast).
  { clear -Hx. induction n.
    - destruct Hx as (i & Hi & _). lia.
    - destruct (Req_EM_T (x n) 0) as [E|E].
      + destruct IHn as (i & H1 & H2 & H3).
        { destruct Hx as (i & Hi & H). exists i. split; auto.
          destruct (Nat.eq_dec i n); [subst; contradiction|lia]. }
        exists i. repeat split; auto. intros j Hj.
        destruct (Nat.eq_dec j n); [subst; auto|]. apply H3. lia.
      + exists n. repeat split; auto. intros; lia. }
  apply (Rsum_sq_pos n (fun k => Rsum n (fun i => L i k * x i)%R) i Hi).
  rewrite (Rsum_single n _ i Hi).
  - apply Rmult_integral_contrapositive. auto.
  - intros j Hj Hne. destruct (lt_dec j i).
    + rewrite Hlow by auto. ring.
    + rewrite Hlast by lia. ring.
Qed.

Lemma pos_def_ext : forall n a b, (forall i j, i < n -> j < n -> a i j = b i j) ->
  pos_def n a -> pos_def n b.
Proof.
  intros n a b H Ha x Hx. specialize (Ha x Hx).
  rewrite (Rsum_ext n _ (fun i => Rsum n (fun j => x i * a i j * x j))%R); auto.
  intros i Hi. apply Rsum_ext. intros j Hj. rewrite H; auto.
Qed.

Lemma pos_def_chol : forall n (A : nat -> nat -> R),
  symmetric n A -> pos_def n A ->
  exists L, lower L /\ (forall i, i < n -> (0 < L i i)%R) /\
            (forall i j, i < n -> j < n -> A i j = gram n L i j).
Proof.
  induction n; intros A Hsym Hpd.
  - exists (fun _ _ => 0%R). repeat split; auto; intros; lia.
  - destruct (IHn A) as (L & Hlow & Hdiag & HA).
    { intros i j Hi Hj. apply Hsym; lia. }
    { apply pos_def_leading; auto. }
    assert (forall j, j < n -> L j j <> 0%R) as Hnz by (intros j Hj; specialize (Hdiag j Hj); lra).
    destruct (forward_solve L (fun j => A n j) n Hnz) as (l & Hl).
    destruct (backward_solve L n l Hlow Hnz) as (y & Hy).
    set (piv := (A n n - Rsum n (fun k => l k * l k))%R).
    (* l is L^-1 a: sum over all k<n *)
    assert (forall j, j < n -> Rsum n (fun k => l k * L j k)%R = A n j) as Hl'.
    { intros j Hj. rewrite (Rsum_trunc n (S j)); [|lia|].
      - simpl. rewrite Hl by auto. auto.
      - intros k Hk. rewrite Hlow by lia. ring. }
    assert (0 < piv)%R as Hpiv.
    { specialize (Hpd (fun k => if k =? n then 1%R else (- y k)%R)).
      assert (exists i, i < S n /\ (if i =? n then 1%R else (- y i)%R) <> 0%R) as He.
      { exists n. rewrite Nat.eqb_refl. split; [lia|lra]. }
      specialize (Hpd He). cbv beta in Hpd.
      assert (Rsum (S n) (fun i => Rsum (S n) (fun j =>
         (if (i =? n)%nat then 1 else - y i) * A i j * (if (j =? n)%nat then 1 else - y j)))%R = piv) as E.
      2:{ rewrite E in Hpd. auto. }
      cbn [Rsum]. rewrite !Nat.eqb_refl.
      assert (Rsum n (fun k => l k * l k)%R = Rsum n (fun j => A n j * y j)%R) as Ell.
      { transitivity (Rsum n (fun k => Rsum n (fun j => l k * (L j k * y j))))%R.
        - apply Rsum_ext. intros k Hk. rewrite Rsum_scal, Hy; auto.
        - rewrite Rsum_swap. apply Rsum_ext. intros j Hj.
          rewrite <- Hl' by auto. rewrite <- Rsum_scal_r. apply Rsum_ext. intros; ring. }
      assert (Rsum n (fun i => Rsum n (fun j => y i * A i j * y j))%R = Rsum n (fun k => l k * l k)%R) as Eq.
      { rewrite (Rsum_ext n _ (fun i => Rsum n (fun j => y i * gram n L i j * y j))%R).
        - rewrite gram_form. apply Rsum_ext. intros k Hk. rewrite Hy; auto.
        - intros i Hi. apply Rsum_ext. intros j Hj. rewrite HA; auto. }
      assert (Rsum n (fun i => Rsum n (fun j => (if (i =? n)%nat then 1 else - y i) * A i j * (if (j =? n)%nat then 1 else - y j))
                  + (if (i =? n)%nat then 1 else - y i) * A i n * 1)%R
              = (Rsum n (fun k => l k * l k) - Rsum n (fun j => A n j * y j))%R) as E1.
      { rewrite <- Eq, <- Rsum_minus. apply Rsum_ext. intros i Hi.
        rewrite (proj2 (Nat.eqb_neq i n)) by lia.
        rewrite (Rsum_ext n _ (fun j => y i * A i j * y j)%R).
        - rewrite (Hsym i n) by lia. ring.
        - intros j Hj. rewrite (proj2 (Nat.eqb_neq j n)) by lia. ring. }
      rewrite E1.
      rewrite (Rsum_ext n (fun j => 1 * A n j * _)%R (fun j => (-1) * (A n j * y j))%R).
      2:{ intros j Hj. rewrite (proj2 (Nat.eqb_neq j n)) by lia. ring. }
      rewrite Rsum_scal, Ell. unfold piv. rewrite Ell. ring. }
    set (L' := fun i j => if i =? n then (if j =? n then sqrt piv else if j <? n then l j else 0%R)
                          else L i j).
    assert (lower L') as Hlow'.
    { intros i j Hij. unfold L'. destruct (Nat.eqb_spec i n) as [->|].
      - rewrite (proj2 (Nat.eqb_neq j n)), (proj2 (Nat.ltb_ge j n)) by lia. auto.
      - apply Hlow; auto. }
    assert (forall i k, i < n -> L' i k = L i k) as HL'.
    { intros i k Hi. unfold L'. rewrite (proj2 (Nat.eqb_neq i n)) by lia. auto. }
    assert (forall k, k < n -> L' n k = l k) as HLn.
    { intros k Hk. unfold L'. rewrite Nat.eqb_refl, (proj2 (Nat.eqb_neq k n)) by lia.
      rewrite (proj2 (Nat.ltb_lt k n)) by lia. auto. }
    assert (L' n n = sqrt piv) as HLnn by (unfold L'; rewrite Nat.eqb_refl; auto).
    assert (forall j, j < n -> A n j = gram (S n) L' n j) as Hrow.
    { intros j Hj. unfold gram. cbn [Rsum]. rewrite (Hlow' j n) by auto.
      rewrite (Rsum_ext n _ (fun k => l k * L j k)%R).
      - rewrite Hl' by auto. ring.
      - intros k Hk. rewrite HLn, HL'; auto. }
    exists L'. split; auto. split.
    + intros i Hi. destruct (Nat.eq_dec i n) as [->|Hne].
      * rewrite HLnn. apply sqrt_lt_R0. auto.
      * rewrite HL' by lia. apply Hdiag. lia.
    + intros i j Hi Hj.
      destruct (Nat.eq_dec i n) as [->|Hin]; destruct (Nat.eq_dec j n) as [->|Hjn].
      * unfold gram. cbn [Rsum]. rewrite HLnn, sqrt_sqrt by lra.
        rewrite (Rsum_ext n _ (fun k => l k * l k)%R).
        -- unfold piv. ring.
        -- intros k Hk. rewrite HLn; auto.
      * apply Hrow. lia.
      * rewrite Hsym by lia. rewrite Hrow by lia. unfold gram. apply Rsum_ext. intros; ring.
      * rewrite HA by lia. unfold gram. cbn [Rsum]. rewrite (Hlow' i n) by lia.
        rewrite (Rsum_ext n (fun k => L' i k * L' j k)%R (fun k => L i k * L j k)%R).
        -- ring.
        -- intros k Hk. rewrite !HL' by lia. auto.
Qed.

(** ** The transforms of the PSD pattern on finite data *)
Definition diag_map (f : R -> R) (m : nat -> nat -> R) : nat -> nat -> R :=
  fun i j => if i =? j then f (m i j) else m i j.

Lemma exp_diag_fin : forall n (M : mat) m, mat_eq n M (fun i j => Fin (m i j)) ->
  mat_eq n (exp_diag M) (fun i j => Fin (diag_map exp m i j)).
Proof.
  intros n M m H i j Hi Hj. unfold exp_diag, make_diagonal, diag_map.
  rewrite (H i j) by auto. destruct (Nat.eqb_spec i j) as [->|].
  - rewrite H by auto. simpl. f_equal. ring.
  - simpl. f_equal. ring.
Qed.

Lemma log_diag_fin : forall n (M : mat) m, mat_eq n M (fun i j => Fin (m i j)) ->
  (forall i, i < n -> (0 < m i i)%R) ->
  mat_eq n (log_diag M) (fun i j => Fin (diag_map ln m i j)).
Proof.
  intros n M m H Hp i j Hi Hj. unfold log_diag, make_diagonal, diag_map.
  rewrite (H i j) by auto. destruct (Nat.eqb_spec i j) as [->|].
  - rewrite H by auto. rewrite nlog_pos by auto. simpl. f_equal. ring.
  - simpl. f_equal. ring.
Qed.

Lemma mul_transpose_fin : forall n (C : mat) L i j, mat_eq n C (fun i j => Fin (L i j)) ->
  i < n -> j < n -> mul_transpose n C i j = Fin (gram n L i j).
Proof.
  intros n C L i j H Hi Hj. unfold mul_transpose, gram.
  rewrite (map_ext_in _ (fun k => Fin (L i k * L j k)%R)).
  - rewrite <- (map_map (fun k => (L i k * L j k)%R) Fin), nsum_fin, Rlsum_seq. auto.
  - intros k Hk. apply in_seq in Hk. rewrite !H by lia. auto.
Qed.

Lemma vectorize_ext : forall n a b, (forall i j, j <= i -> i < n -> a i j = b i j) ->
  vectorize_ld n a = vectorize_ld n b.
Proof.
  intros. unfold vectorize_ld. apply map_ext_in. intros [i j] Hij. apply in_tril in Hij.
  apply H; tauto.
Qed.

Definition add_diag (c : R) (m : nat -> nat -> R) : nat -> nat -> R :=
  fun i j => (m i j + (if (i =? j)%nat then c else 0))%R.

Lemma flat_map_ext_in' : forall A B (f g : A -> list B) l,
  (forall a, In a l -> f a = g a) -> flat_map f l = flat_map g l.
Proof.
  induction l; intros; simpl; auto.
  rewrite H by (left; auto). rewrite IHl; auto. intros; apply H; right; auto.
Qed.

(** What unpacking a finite vector gives. *)
Definition chol_of (v : list R) : nat -> nat -> R :=
  fun i j => if j <=? i then diag_map exp (fun i j => nth (ld_ind i j) v 0%R) i j else 0%R.

Lemma chol_of_lower : forall v, lower (chol_of v).
Proof. intros v i j H. unfold chol_of. rewrite (proj2 (Nat.leb_gt j i)); auto. Qed.
Lemma chol_of_diag : forall v i, (0 < chol_of v i i)%R.
Proof.
  intros. unfold chol_of, diag_map. rewrite Nat.leb_refl, Nat.eqb_refl. apply exp_pos.
Qed.

Lemma exp_diag_unvec : forall n v, length v = T n ->
  mat_eq n (exp_diag (unvec_entry (map Fin v))) (fun i j => Fin (chol_of v i j)).
Proof.
  intros n v Hv i j Hi Hj.
  assert (mat_eq n (unvec_entry (map Fin v))
            (fun i j => Fin (if j <=? i then nth (ld_ind i j) v 0%R else 0%R))) as H.
  { intros a b Ha Hb. unfold unvec_entry. destruct (b <=? a) eqn:E; auto.
    apply Nat.leb_le in E. rewrite sym_index_low by auto.
    rewrite (nth_map_gen _ _ _ _ _ NaN 0%R); auto.
    rewrite Hv. unfold ld_ind. change (a * (a + 1) / 2) with (T a).
    assert (T (S a) <= T n) by (apply T_mono; lia). rewrite T_S in H. lia. }
  rewrite (exp_diag_fin n _ _ H i j Hi Hj). f_equal. unfold chol_of, diag_map.
  destruct (Nat.eqb_spec i j) as [->|].
  - rewrite Nat.leb_refl. auto.
  - auto.
Qed.

Lemma unpack_fin : forall n v c, length v = T n ->
  unpack_posdef (map Fin v) (Fin c)
  = Ok (mkNd [n; n] (rows_of n (add_diag c (gram n (chol_of v))))).
Proof.
  intros n v c Hv. unfold unpack_posdef.
  rewrite (unvectorize_T _ n) by (rewrite map_length; auto). cbn [bind fst snd].
  unfold to_nd, rows_of. f_equal. f_equal.
  apply flat_map_ext_in'. intros i Hi. apply in_seq in Hi.
  apply map_ext_in. intros j Hj. apply in_seq in Hj.
  rewrite (mul_transpose_fin n _ (chol_of v)) by (try apply exp_diag_unvec; auto; lia).
  unfold make_diagonal, add_diag. destruct (i =? j); auto.
Qed.

Lemma unpack_interior : forall n v c, 
  symmetric n (add_diag c (gram n (chol_of v))) /\
  pos_def n (minus_diag (add_diag c (gram n (chol_of v))) c).
Proof.
  intros. split.
  - intros i j Hi Hj. unfold add_diag, gram. rewrite (Nat.eqb_sym j i). f_equal.
    apply Rsum_ext. intros; ring.
  - apply (pos_def_ext n (gram n (chol_of v))).
    + intros i j Hi Hj. unfold minus_diag, add_diag. destruct (i =? j); ring.
    + apply gram_pos_def; [apply chol_of_lower|].
      intros i Hi. pose proof (chol_of_diag v i). lra.
Qed.

Lemma mat_of_rows : forall n m i j, i < n -> j < n ->
  mat_of n (mkNd [n; n] (rows_of n m)) i j = Fin (m i j).
Proof.
  intros n m i j Hi Hj. unfold mat_of. simpl dat. unfold rows_of. rewrite flat_map_concat.
  assert (length (map (fun j0 => Fin (m i j0)) (seq 0 n)) = n) as L
    by (rewrite map_length, seq_length; auto).
  rewrite <- (nth_slice _ _ (i * n) n j) by auto.
  change (slice _ (i * n) n) with
     (chunk n (concat (map (fun i0 => map (fun j0 => Fin (m i0 j0)) (seq 0 n)) (seq 0 n))) i).
  rewrite (chunk_concat _ n _ i []).
  - rewrite (nth_map_gen _ _ _ _ _ [] 0) by (rewrite seq_length; auto).
    rewrite seq_nth by auto.
    rewrite (nth_map_gen _ _ _ _ _ NaN 0) by (rewrite seq_length; auto).
    rewrite seq_nth by auto. auto.
  - intros x Hx. apply in_map_iff in Hx. destruct Hx as (k & <- & _).
    rewrite map_length, seq_length. auto.
  - rewrite map_length, seq_length. auto.
Qed.

Lemma rows_of_ext : forall n a b, (forall i j, i < n -> j < n -> a i j = b i j) ->
  rows_of n a = rows_of n b.
Proof.
  intros. unfold rows_of. apply flat_map_ext_in'. intros i Hi. apply in_seq in Hi.
  apply map_ext_in. intros j Hj. apply in_seq in Hj. rewrite H; auto; lia.
Qed.

Lemma rows_of_length : forall n m, length (rows_of n m) = n * n.
Proof.
  intros. unfold rows_of. rewrite flat_map_concat.
  rewrite (concat_length_uniform _ n).
  - rewrite map_length, seq_length. auto.
  - intros x Hx. apply in_map_iff in Hx. destruct Hx as (k & <- & _).
    rewrite map_length, seq_length. auto.
Qed.

Lemma pack_of_gram : forall n (A : mat) c L,
  lower L -> (forall i, i < n -> (0 < L i i)%R) ->
  (forall i j, i < n -> j < n -> A i j = Fin (add_diag c (gram n L) i j)) ->
  pack_posdef n A (Fin c) = Ok (vectorize_ld n (fun i j => Fin (diag_map ln L i j))).
Proof.
  intros n A c L Hlow Hd HA. unfold pack_posdef.
  destruct (cholesky_gram L n
     (fun i j => nsub (A i j) (make_diagonal (fun _ => Fin c) i j)) Hlow Hd) as (C & HC & HCe).
  { intros i j Hi Hj. rewrite HA by lia. unfold make_diagonal, add_diag.
    destruct (i =? j); simpl; f_equal; ring. }
  rewrite HC. cbn [bind]. f_equal. apply vectorize_ext. intros i j Hij Hi.
  apply (log_diag_fin n C L HCe Hd); lia.
Qed.

(** pack (unpack x) = x *)
Lemma pack_unpack : forall n v c, length v = T n ->
  pack_posdef n (mat_of n (mkNd [n; n] (rows_of n (add_diag c (gram n (chol_of v)))))) (Fin c)
  = Ok (map Fin v).
Proof.
  intros n v c Hv.
  rewrite (pack_of_gram n _ c (chol_of v)).
  - f_equal. transitivity (vectorize_ld n (unvec_entry (map Fin v))).
    2:{ apply vectorize_unvec. rewrite map_length. auto. }
    apply vectorize_ext. intros i j Hij Hi. unfold unvec_entry, diag_map, chol_of.
    rewrite (proj2 (Nat.leb_le j i)), sym_index_low by auto.
    assert (ld_ind i j < length v) as Hb.
    { rewrite Hv. unfold ld_ind. change (i * (i + 1) / 2) with (T i).
      assert (T (S i) <= T n) by (apply T_mono; lia). rewrite T_S in H. lia. }
    rewrite (nth_map_gen _ _ _ _ _ NaN 0%R) by auto.
    unfold diag_map. destruct (i =? j); auto. rewrite ln_exp. auto.
  - apply chol_of_lower.
  - intros; apply chol_of_diag.
  - intros i j Hi Hj. apply mat_of_rows; auto.
Qed.

(** unpack (pack A) = A for symmetric A with A - c I positive definite. *)
Lemma unpack_pack : forall n m c,
  symmetric n m -> pos_def n (minus_diag m c) ->
  exists x, pack_posdef n (mat_of n (mkNd [n; n] (rows_of n m))) (Fin c) = Ok (map Fin x) /\
    length x = T n /\ unpack_posdef (map Fin x) (Fin c) = Ok (mkNd [n; n] (rows_of n m)).
Proof.
  intros n m c Hsym Hpd.
  destruct (pos_def_chol n (minus_diag m c)) as (L & Hlow & Hd & HA); auto.
  { intros i j Hi Hj. unfold minus_diag. rewrite (Nat.eqb_sym j i), (Hsym i j) by auto. auto. }
  assert (forall i j, i < n -> j < n -> m i j = add_diag c (gram n L) i j) as Hm.
  { intros i j Hi Hj. unfold add_diag. rewrite <- HA by auto. unfold minus_diag.
    destruct (i =? j); ring. }
  set (x := map (fun ij => diag_map ln L (fst ij) (snd ij)) (tril n)).
  assert (length x = T n) as Hx by (unfold x; rewrite map_length, tril_length; auto).
  exists x. split; [|split; auto].
  - rewrite (pack_of_gram n _ c L); auto.
    + f_equal. unfold x, vectorize_ld. rewrite map_map. auto.
    + intros i j Hi Hj. rewrite mat_of_rows by auto. rewrite Hm; auto.
  - rewrite (unpack_fin n) by auto. f_equal. f_equal.
    apply rows_of_ext. intros i j Hi Hj. rewrite Hm by auto.
    unfold add_diag. f_equal.
    assert (forall a b, a < n -> b < n -> chol_of x a b = L a b) as E.
    { intros a b Ha Hb. unfold chol_of. destruct (b <=? a) eqn:Eab.
      - apply Nat.leb_le in Eab. unfold diag_map.
        assert (nth (ld_ind a b) x 0%R = diag_map ln L a b) as En.
        { unfold x. rewrite (nth_map_gen _ _ _ _ _ 0%R (0, 0)).
          - rewrite nth_tril by auto. auto.
          - rewrite tril_length. unfold ld_ind. change (a * (a + 1) / 2) with (T a).
            assert (T (S a) <= T n) by (apply T_mono; lia). rewrite T_S in H. lia. }
        rewrite En. unfold diag_map. destruct (Nat.eqb_spec a b) as [->|]; auto.
        apply exp_ln. apply Hd. auto.
      - apply Nat.leb_gt in Eab. rewrite Hlow; auto. }
    unfold gram. apply Rsum_ext. intros k Hk. rewrite !E; auto.
Qed.
