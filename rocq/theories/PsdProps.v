(** * PSD matrices: when freeing succeeds, triangle vectorisation, constructors,
    logsumexp (C46-C48, C59-C61). *)
From Coq Require Import Reals Lra SpecFloat.
From Verif Require Import Base Num Nd Numeric Simplex Psd Pattern Spec SpecPsd ListFacts PatFacts
  NonFree NumFacts CholFacts Free Contract Build Api.
Local Open Scope list_scope.
Local Open Scope nat_scope.

(** ** The Cholesky algorithm on a finite matrix *)
Lemma chol_rows_linalg : forall A n e, chol_rows A n = Err e -> e = LinAlgError.
Proof.
  induction n; intros e H; [discriminate|]. cbn [chol_rows] in H.
  destruct (chol_rows A n) as [rows|e'] eqn:E; cbn [bind] in H.
  - unfold chol_row in H. destruct (ngtb _ _); cbn [bind] in H; congruence.
  - inversion H; subst. auto.
Qed.

Lemma Lrow_ext : forall L L' i, (forall k, k <= i -> L i k = L' i k) -> Lrow L i = Lrow L' i.
Proof.
  intros. unfold Lrow. apply map_ext_in. intros k Hk. apply in_seq in Hk. f_equal. apply H. lia.
Qed.

Lemma chol_rows_inv : forall n (A : mat) (a : nat -> nat -> R) rows,
  (forall i j, i < n -> j <= i -> A i j = Fin (a i j)) ->
  chol_rows A n = Ok rows ->
  exists L, lower L /\ (forall i, i < n -> (0 < L i i)%R) /\
    (forall i j, i < n -> j <= i -> a i j = (Rsum j (fun k => L i k * L j k) + L i j * L j j)%R) /\
    rows = map (Lrow L) (seq 0 n).
Proof.
  induction n; intros A a rows HA H.
  - simpl in H. inversion H. exists (fun _ _ => 0%R). repeat split; auto; intros; lia.
  - cbn [chol_rows] in H. apply bind_ok in H. destruct H as (rows0 & H0 & H).
    destruct (IHn A a rows0) as (L & Hlow & Hd & Ha & ->); auto.
    apply bind_ok in H. destruct H as (r & Hr & H). inversion H; subst rows. clear H.
    assert (forall j, j < n -> L j j <> 0%R) as Hnz by (intros j Hj; specialize (Hd j Hj); lra).
    destruct (forward_solve L (a n) n Hnz) as (l & Hl).
    unfold chol_row in Hr. rewrite map_length, seq_length in Hr.
    assert (chol_off (A n) (map (Lrow L) (seq 0 n)) [] = map (fun k => Fin (l k)) (seq 0 n)) as E.
    { change [] with (map (fun k => Fin (l k)) (seq 0 0)). apply chol_off_spec; auto.
      intros j Hj. rewrite HA by lia. rewrite Hl; auto. }
    rewrite E in Hr. rewrite dotn_fin in Hr by auto. rewrite HA in Hr by lia. cbn [nsub nneg nadd] in Hr.
    set (piv := (a n n + - Rsum n (fun k => l k * l k))%R) in *.
    unfold ngtb in Hr. cbn [nltb nsqrt] in Hr.
    destruct (Rltb 0 piv) eqn:Ep; [|discriminate]. apply Rltb_true in Ep.
    rewrite (proj2 (Rltb_false _ _)) in Hr by lra. inversion Hr; subst r. clear Hr.
    set (L' := fun i j => if i =? n then (if j <? n then l j else if j =? n then sqrt piv else 0%R) else L i j).
    assert (forall i j, i < n -> L' i j = L i j) as HL'.
    { intros i j Hi. unfold L'. rewrite (proj2 (Nat.eqb_neq i n)) by lia. auto. }
    assert (forall j, j < n -> L' n j = l j) as Hn'.
    { intros j Hj. unfold L'. rewrite Nat.eqb_refl, (proj2 (Nat.ltb_lt j n)) by auto. auto. }
    assert (L' n n = sqrt piv) as Hnn.
    { unfold L'. rewrite Nat.eqb_refl, Nat.ltb_irrefl. auto. }
    exists L'. split; [|split; [|split]].
    + intros i j Hij. unfold L'. destruct (Nat.eqb_spec i n).
      * rewrite (proj2 (Nat.ltb_ge j n)), (proj2 (Nat.eqb_neq j n)) by lia. auto.
      * apply Hlow. auto.
    + intros i Hi. destruct (Nat.eq_dec i n) as [->|].
      * rewrite Hnn. apply sqrt_lt_R0. auto.
      * rewrite HL' by lia. apply Hd. lia.
    + intros i j Hi Hj. destruct (Nat.eq_dec i n) as [->|].
      * destruct (Nat.eq_dec j n) as [->|].
        -- rewrite Hnn, sqrt_sqrt by lra. 
           rewrite (Rsum_ext n _ (fun k => l k * l k)%R); [unfold piv; ring|].
           intros k Hk. rewrite Hn'; auto.
        -- rewrite Hn', HL' by lia. rewrite <- Hl by lia. f_equal. apply Rsum_ext. intros k Hk.
           rewrite Hn', HL' by lia. auto.
      * rewrite !HL' by lia. rewrite Ha by lia. f_equal. apply Rsum_ext. intros k Hk. rewrite !HL' by lia. auto.
    + rewrite seq_S, map_app. cbn [map Nat.add]. f_equal.
      * apply map_ext_in. intros i Hi. apply in_seq in Hi. apply Lrow_ext. intros k Hk. rewrite HL'; auto; lia.
      * f_equal. unfold Lrow. rewrite seq_S, map_app. cbn [map Nat.add]. rewrite Hnn. f_equal.
        apply map_ext_in. intros k Hk. apply in_seq in Hk. rewrite Hn'; auto. lia.
Qed.

Lemma lower_sum : forall n L i j, lower L -> i < n -> j <= i ->
  (Rsum n (fun k => L i k * L j k) = Rsum j (fun k => L i k * L j k) + L i j * L j j)%R.
Proof.
  intros n L i j Hlow Hi Hj. rewrite (Rsum_trunc n (S j)); auto; [lia|].
  intros k Hk. rewrite (Hlow j k) by lia. ring.
Qed.

Lemma gram_sym : forall n L i j, gram n L i j = gram n L j i.
Proof. intros. unfold gram. apply Rsum_ext. intros. ring. Qed.

Lemma chol_factor_unique : forall n m L L', chol_factor n m L -> chol_factor n m L' ->
  forall i j, i < n -> j < n -> L i j = L' i j.
Proof.
  intros n m L L' (H1 & H2 & H3) (H1' & H2' & H3') i j Hi Hj.
  destruct (le_lt_dec j i) as [Hji|Hij]; [|rewrite H1, H1'; auto].
  pose proof (chol_rows_spec L n (fun i j => Fin (m i j)) H2) as E.
  pose proof (chol_rows_spec L' n (fun i j => Fin (m i j)) H2') as E'.
  rewrite E in E'.
  - assert (map (Lrow L) (seq 0 n) = map (Lrow L') (seq 0 n)) as EE.
    { cut (Ok (map (Lrow L) (seq 0 n)) = Ok (map (Lrow L') (seq 0 n))); [congruence|]. apply E'.
      intros a b Ha Hb. f_equal. rewrite <- H3' by lia. apply lower_sum; auto. }
    assert (nth i (map (Lrow L) (seq 0 n)) [] = nth i (map (Lrow L') (seq 0 n)) []) as En by congruence.
    rewrite !(nth_map_gen _ _ _ _ _ [] 0) in En by (rewrite seq_length; auto).
    rewrite seq_nth in En by auto. simpl in En. unfold Lrow in En.
    assert (nth j (map (fun k => Fin (L i k)) (seq 0 (S i))) NaN = nth j (map (fun k => Fin (L' i k)) (seq 0 (S i))) NaN) as Ej.
    { f_equal. exact En. }
    rewrite !(nth_map_gen _ _ _ _ _ NaN 0) in Ej by (rewrite seq_length; lia).
    rewrite seq_nth in Ej by lia. simpl in Ej. inversion Ej. auto.
  - intros a b Ha Hb. f_equal. rewrite <- H3 by lia. apply lower_sum; auto.
Qed.

Lemma minus_diag_sym : forall n m c, symmetric n m -> symmetric n (minus_diag m c).
Proof. intros n m c H i j Hi Hj. unfold minus_diag. rewrite (Nat.eqb_sym j i), (H i j); auto. Qed.

Lemma psd_valid_fin : forall sz fl dlb dv fd m c vv, pyval dlb = Fin c ->
  symmetric sz m -> (forall i, i < sz -> (c <= m i i)%R) ->
  validate snum (PPsd sz fl dlb dv fd) (FArr (mkNd [sz; sz] (rows_of sz m))) vv = Ok None.
Proof.
  intros sz fl dlb dv fd m c vv Hc Hsym Hdiag. cbn [validate]. unfold psd_validate.
  cbn [shp]. rewrite shape_eqb_refl. cbn [negb]. destruct (vv_or vv dv); auto.
  cbn [to_num snum]. rewrite nd_map_id. rewrite Hc.
  assert (existsb (fun i => nltb (mat_of sz (mkNd [sz; sz] (rows_of sz m)) i i) (Fin c)) (seq 0 sz) = false) as ->.
  { apply existsb_false_iff. intros i Hi. apply in_seq in Hi. rewrite mat_of_rows by lia. cbn [nltb].
    apply Rltb_false. apply Hdiag. lia. }
  assert (forallb (fun i => forallb (fun j => neqb (mat_of sz (mkNd [sz; sz] (rows_of sz m)) j i)
      (mat_of sz (mkNd [sz; sz] (rows_of sz m)) i j)) (seq 0 sz)) (seq 0 sz) = true) as ->; auto.
  apply forallb_forall. intros i Hi. apply in_seq in Hi. apply forallb_forall. intros j Hj. apply in_seq in Hj.
  rewrite !mat_of_rows by lia. cbn [neqb]. rewrite (Hsym j i) by lia. apply Reqb_refl.
Qed.

Theorem psd_free_iff : forall sz fl dlb dv fd m c vv,
  usable (PPsd sz fl dlb dv fd) -> pyval dlb = Fin c ->
  symmetric sz m -> (forall i, i < sz -> (c <= m i i)%R) ->
  let p := PPsd sz fl dlb dv fd in
  let v := FArr (mkNd [sz; sz] (rows_of sz m)) in
  (pos_def sz (minus_diag m c) /\
   exists x L, flatten p v (Some true) vv = Ok (map Fin x) /\
     chol_factor sz (minus_diag m c) L /\
     (forall L', chol_factor sz (minus_diag m c) L' -> forall i j, i < sz -> j < sz -> L i j = L' i j) /\
     forall i j, j <= i -> i < sz ->
       nth_error x (i * (i + 1) / 2 + j) = Some (if i =? j then ln (L i i) else L i j)) \/
  (~ pos_def sz (minus_diag m c) /\ flatten p v (Some true) vv = Err LinAlgError).
Proof.
  intros sz fl dlb dv fd m c vv Hu Hc Hsym Hdiag p v.
  assert (flatten p v (Some true) vv =
    (y <- pack_posdef sz (mat_of sz (mkNd [sz; sz] (rows_of sz m))) (Fin c) ;; Ok y)) as EF.
  { unfold flatten, flatten_gen, p, v. cbn [free_with_default bind flatten_]. unfold require_valid.
    rewrite (psd_valid_fin sz fl dlb dv fd m c vv Hc Hsym Hdiag). cbn [bind to_num of_num snum].
    rewrite nd_map_id, Hc. destruct (pack_posdef _ _ _); cbn [bind]; auto. rewrite map_id. auto. }
  rewrite EF. unfold pack_posdef. set (A := fun i j => nsub _ _).
  assert (forall i j, i < sz -> j < sz -> A i j = Fin (minus_diag m c i j)) as HA.
  { intros i j Hi Hj. unfold A. rewrite mat_of_rows by auto. unfold make_diagonal, minus_diag.
    destruct (i =? j); simpl; f_equal; ring. }
  destruct (chol_rows A sz) as [rows|e] eqn:E.
  - left. destruct (chol_rows_inv sz A (minus_diag m c) rows) as (L & Hlow & Hd & Ha & Er).
    { intros i j Hi Hj. apply HA; lia. }
    { auto. }
    assert (chol_factor sz (minus_diag m c) L) as Hcf.
    { split; [exact Hlow|]. split; [exact Hd|]. intros i j Hi Hj.
      destruct (le_lt_dec j i).
      - rewrite lower_sum by auto. symmetry. apply Ha; auto.
      - fold (gram sz L i j). rewrite gram_sym. unfold gram. rewrite lower_sum by (auto; lia).
        rewrite <- Ha by lia. exact (minus_diag_sym sz m c Hsym j i Hj Hi). }
    split.
    + apply (pos_def_ext sz (gram sz L)); [intros; apply Hcf; auto|].
      apply gram_pos_def; auto. intros i Hi. specialize (Hd i Hi). lra.
    + destruct (cholesky_gram L sz A Hlow Hd) as (C & HC & HCe).
      { intros i j Hi Hj. rewrite HA by lia. f_equal. symmetry. apply Hcf; lia. }
      rewrite HC. cbn [bind].
      exists (map (fun ij => diag_map ln L (fst ij) (snd ij)) (tril sz)), L.
      split; [|split; [auto|split]].
      * f_equal. rewrite map_map. unfold vectorize_ld. apply map_ext_in. intros [i j] Hij. apply in_tril in Hij.
        cbn [fst snd]. apply (log_diag_fin sz C L HCe Hd); lia.
      * intros L' HL'. apply (chol_factor_unique sz (minus_diag m c)); auto.
      * intros i j Hj Hi. replace (i * (i + 1) / 2 + j) with (ld_ind i j) by (unfold ld_ind; lia).
        assert (ld_ind i j < length (tril sz)) as Hlt.
        { rewrite tril_length. unfold ld_ind. change (i * (i + 1) / 2) with (T i).
          assert (T (S i) <= T sz) by (apply T_mono; lia). rewrite T_S in H. lia. }
        rewrite nth_error_map. rewrite (nth_error_nth' _ (0, 0) Hlt). cbn [option_map].
        rewrite nth_tril by auto. cbn [fst snd]. unfold diag_map. destruct (Nat.eqb_spec i j); subst; auto.
  - right. pose proof (chol_rows_linalg _ _ _ E) as ->. unfold cholesky. rewrite E. cbn [bind]. split; auto.
    intros Hpd. destruct (pos_def_chol sz _ (minus_diag_sym sz m c Hsym) Hpd) as (L & Hlow & Hd & Ha).
    rewrite (chol_rows_spec L sz A) in E; [discriminate|auto|].
    intros i j Hi Hj. rewrite HA by lia. f_equal. rewrite Ha by lia. unfold gram. apply lower_sum; auto.
Qed.

(** ** Validation is weaker than freeability (C47) *)
Definition m47 : nat -> nat -> R := fun i j => if i =? j then 2%R else (3/2)%R.
Definition p47 : pat := PPsd 2 3 (PyInt 1) true None.
Lemma p47_usable : usable p47.
Proof. simpl. split; auto. exists 1%R. split; [reflexivity|lra]. Qed.
Theorem validates_but_not_free :
  usable p47 /\ pos_def 2 m47 /\ (forall i, i < 2 -> (1 < m47 i i)%R) /\
  validate snum p47 (FArr (mkNd [2; 2] (rows_of 2 m47))) (Some true) = Ok None /\
  flatten p47 (FArr (mkNd [2; 2] (rows_of 2 m47))) (Some true) (Some true) = Err LinAlgError.
Proof.
  assert (symmetric 2 m47) as Hs by (intros i j _ _; unfold m47; rewrite Nat.eqb_sym; auto).
  assert (forall i, i < 2 -> (1 <= m47 i i)%R) as Hd by (intros i _; unfold m47; rewrite Nat.eqb_refl; lra).
  split; [apply p47_usable|]. split; [|split; [|split]].
  - intros x (i & Hi & Hx). unfold m47. simpl.
    assert (0 < x O * x O + x 1%nat * x 1%nat)%R as Hp.
    { assert (i = 0 \/ i = 1) as [-> | ->] by lia.
      - pose proof (Rsqr_pos_lt _ Hx). pose proof (Rle_0_sqr (x 1%nat)). unfold Rsqr in *. lra.
      - pose proof (Rsqr_pos_lt _ Hx). pose proof (Rle_0_sqr (x O)). unfold Rsqr in *. lra. }
    pose proof (Rle_0_sqr (x O + x 1%nat)) as Hq. unfold Rsqr in Hq. lra.
  - intros i _. unfold m47. rewrite Nat.eqb_refl. lra.
  - apply (psd_valid_fin 2 3 (PyInt 1) true None m47 1); auto.
  - destruct (psd_free_iff 2 3 (PyInt 1) true None m47 1 (Some true) p47_usable eq_refl Hs Hd) as [(Hpd & _)|(_ & E)]; auto.
    exfalso. specialize (Hpd (fun k => if k =? 0 then 1 else -1)%R). unfold minus_diag, m47 in Hpd. simpl in Hpd.
    assert (exists i, i < 2 /\ (if i =? 0 then 1 else -1)%R <> 0%R) as He by (exists 0; simpl; split; [lia|lra]).
    specialize (Hpd He). lra.
Qed.

(** ** Lower-triangle vectorisation (C48) *)
Lemma triangular_T : forall len n, triangular len n <-> len = T n.
Proof. intros. unfold triangular. pose proof (T2 n). lia. Qed.

Lemma unvec_ok_T : forall v, (exists n, length v = T n) <-> exists r, unvectorize_ld v = Ok r.
Proof.
  intros v. split.
  - intros (n & H). rewrite (unvectorize_T v n H). eauto.
  - intros (r & H). unfold unvectorize_ld in H. destruct (_ =? _) eqn:E; [|discriminate].
    apply Nat.eqb_eq in E. exists (unvec_size (length v)). unfold T. auto.
Qed.

Theorem unvectorize_accepts : forall v n,
  triangular (length v) n ->
  exists m, unvectorize_ld v = Ok (n, m) /\
    (forall i j, j <= i -> i < n -> m i j = nth (i * (i + 1) / 2 + j) v NaN) /\
    (forall i j, i < j -> m i j = Fin 0).
Proof.
  intros v n H. apply triangular_T in H. rewrite (unvectorize_T v n H). eexists. split; [reflexivity|].
  split; intros i j Hij; unfold unvec_entry.
  - intros Hi. rewrite (proj2 (Nat.leb_le j i)), sym_index_low by auto. unfold ld_ind. f_equal. lia.
  - rewrite (proj2 (Nat.leb_gt j i)) by auto. auto.
Qed.
Theorem unvectorize_rejects : forall v,
  (forall n, ~ triangular (length v) n) -> unvectorize_ld v = Err ValueError.
Proof.
  intros v H. unfold unvectorize_ld. destruct (_ =? _) eqn:E; auto. exfalso.
  apply Nat.eqb_eq in E. apply (H (unvec_size (length v))). apply triangular_T. unfold T. auto.
Qed.
Lemma mat_of_nd : forall n m i j, i < n -> j < n -> mat_of n (to_nd n m) i j = m i j.
Proof.
  intros n m i j Hi Hj. unfold mat_of, to_nd. cbn [dat].
  assert (length (flat_map (fun i => map (fun j => m i j) (seq 0 n)) (seq 0 n)) = n * n) as HL.
  { assert (forall k, length (flat_map (fun i => map (fun j => m i j) (seq 0 n)) (seq 0 k)) = k * n) as G; [|apply G].
    induction k; auto. rewrite seq_S, flat_map_app, app_length. simpl. rewrite IHk, app_nil_r, map_length, seq_length. lia. }
  rewrite <- (nth_slice _ _ (i * n) n j NaN Hj).
  change (slice ?l (i * n) n) with (chunk n l i). rewrite flat_map_concat.
  rewrite (chunk_concat _ n _ i []).
  - rewrite (nth_map_gen _ _ _ _ _ [] 0) by (rewrite seq_length; auto). rewrite seq_nth by auto.
    rewrite (nth_map_gen _ _ _ _ _ NaN 0) by (rewrite seq_length; auto). rewrite seq_nth by auto. auto.
  - intros x Hx. apply in_map_iff in Hx. destruct Hx as (k & <- & _). rewrite map_length, seq_length. auto.
  - rewrite map_length, seq_length. auto.
Qed.

Theorem vectorize_spec : forall n m,
  exists v, vectorize_ld_nd (to_nd n m) = Ok v /\ triangular (length v) n /\
    (forall i j, j <= i -> i < n -> nth_error v (i * (i + 1) / 2 + j) = Some (m i j)).
Proof.
  intros n m. unfold vectorize_ld_nd. cbn [shp to_nd]. rewrite Nat.eqb_refl. eexists. split; [reflexivity|].
  fold (to_nd n m). unfold vectorize_ld. split.
  - apply triangular_T. rewrite map_length, tril_length. auto.
  - intros i j Hj Hi. replace (i * (i + 1) / 2 + j) with (ld_ind i j) by (unfold ld_ind; lia).
    assert (ld_ind i j < length (tril n)) as Hlt.
    { rewrite tril_length. unfold ld_ind. change (i * (i + 1) / 2) with (T i).
      assert (T (S i) <= T n) by (apply T_mono; lia). rewrite T_S in H. lia. }
    rewrite nth_error_map. rewrite (nth_error_nth' _ (0, 0) Hlt). cbn [option_map].
    rewrite nth_tril by auto. cbn [fst snd]. rewrite mat_of_nd by lia. auto.
Qed.

Theorem vectorize_of_unvectorize : forall v n m, unvectorize_ld v = Ok (n, m) ->
  vectorize_ld_nd (to_nd n m) = Ok v.
Proof.
  intros v n m H. destruct (proj2 (unvec_ok_T v) (ex_intro _ _ H)) as (k & Hk).
  rewrite (unvectorize_T v k Hk) in H. inversion H; subst. unfold vectorize_ld_nd. cbn [shp to_nd].
  rewrite Nat.eqb_refl. fold (to_nd n (unvec_entry v)). f_equal.
  rewrite <- (vectorize_unvec v n Hk) at 2. apply vectorize_ext. intros i j Hj Hi. apply mat_of_nd; lia.
Qed.
Theorem unvectorize_of_vectorize : forall n m v, vectorize_ld_nd (to_nd n m) = Ok v ->
  exists m', unvectorize_ld v = Ok (n, m') /\
    forall i j, i < n -> j < n -> m' i j = if j <=? i then m i j else Fin 0.
Proof.
  intros n m v H. destruct (vectorize_spec n m) as (v' & E & Ht & Hn). rewrite H in E. inversion E; subst v'.
  destruct (unvectorize_accepts v n Ht) as (m' & Em & Hl & Hu). exists m'. split; auto.
  intros i j Hi Hj. destruct (j <=? i) eqn:Eji.
  - apply Nat.leb_le in Eji. rewrite Hl by auto. apply nth_error_nth. auto.
  - apply Nat.leb_gt in Eji. apply Hu; auto.
Qed.

(** *** Adjoint *)
Lemma dot_app : forall a b c d, length a = length c -> (dot (a ++ b) (c ++ d) = dot a c + dot b d)%R.
Proof.
  unfold dot. induction a as [|x a IH]; intros b [|y c] d H; simpl in *; try discriminate.
  - lra.
  - rewrite IH by lia. lra.
Qed.
Lemma dot_map_seq : forall f g n, dot (map f (seq 0 n)) (map g (seq 0 n)) = Rsum n (fun i => f i * g i)%R.
Proof.
  intros f g. induction n; auto. rewrite seq_S, !map_app, dot_app by (rewrite !map_length; auto).
  rewrite IHn. simpl. unfold dot. simpl. lra.
Qed.
Lemma tril_dot : forall f g n,
  dot (map (fun ij => f (fst ij) (snd ij)) (tril n)) (map (fun ij => g (fst ij) (snd ij)) (tril n)) =
  Rsum n (fun i => Rsum (S i) (fun j => f i j * g i j))%R.
Proof.
  intros f g. induction n; auto. rewrite tril_S, !map_app, dot_app by (rewrite !map_length; auto).
  rewrite IHn. cbn [Rsum]. f_equal. rewrite !map_map. cbn [fst snd].
  exact (dot_map_seq (f n) (g n) (S n)).
Qed.
Lemma map_fst_snd_fin : forall v n, length v = T n ->
  v = map (fun ij => nth (ld_ind (fst ij) (snd ij)) v 0%R) (tril n).
Proof.
  intros v n H. apply (list_eq_nth _ _ _ 0%R); [rewrite map_length, tril_length; auto|].
  intros i Hi. rewrite (nth_map_gen _ _ _ _ _ 0%R (0, 0)) by (rewrite tril_length; lia).
  pose proof (vectorize_unvec (map Fin v) n) as E. rewrite map_length in E. specialize (E H).
  assert (nth i (vectorize_ld n (unvec_entry (map Fin v))) NaN = nth i (map Fin v) NaN) as En by (rewrite E; auto).
  unfold vectorize_ld in En. rewrite (nth_map_gen _ _ _ _ _ NaN (0, 0)) in En by (rewrite tril_length; lia).
  rewrite (nth_map_gen _ _ Fin _ _ NaN 0%R) in En by auto.
  destruct (nth i (tril n) (0, 0)) as [a b] eqn:Eab.
  assert (In (a, b) (tril n)) as Hin by (rewrite <- Eab; apply nth_In; rewrite tril_length; lia).
  apply in_tril in Hin. cbn [fst snd] in *. unfold unvec_entry in En.
  rewrite (proj2 (Nat.leb_le b a)), sym_index_low in En by lia.
  assert (ld_ind a b < length v) as Hb.
  { rewrite H. unfold ld_ind. change (a * (a + 1) / 2) with (T a).
    assert (T (S a) <= T n) by (apply T_mono; lia). rewrite T_S in H0. lia. }
  rewrite (nth_map_gen _ _ Fin _ _ NaN 0%R) in En by auto. inversion En. auto.
Qed.

Theorem unvectorize_adjoint : forall n v g, triangular (length v) n ->
  exists (U : nat -> nat -> R) (w : list R) m,
    unvectorize_ld (map Fin v) = Ok (n, m) /\
    (forall i j, i < n -> j < n -> m i j = Fin (U i j)) /\
    unvectorize_vjp (mkNd [n; n] (rows_of n g)) = Ok (map Fin w) /\
    Rsum n (fun i => Rsum n (fun j => U i j * g i j))%R = dot v w.
Proof.
  intros n v g Ht. pose proof (proj1 (triangular_T _ _) Ht) as HT.
  rewrite (unvectorize_T (map Fin v) n) by (rewrite map_length; auto).
  set (U := fun i j => if j <=? i then nth (ld_ind i j) v 0%R else 0%R).
  exists U, (map (fun ij => g (fst ij) (snd ij)) (tril n)). eexists. split; [reflexivity|]. split; [|split].
  - intros i j Hi Hj. unfold unvec_entry, U. destruct (j <=? i) eqn:E; auto. apply Nat.leb_le in E.
    rewrite sym_index_low by auto. apply nth_map_gen. rewrite HT. unfold ld_ind.
    change (i * (i + 1) / 2) with (T i). assert (T (S i) <= T n) by (apply T_mono; lia). rewrite T_S in H. lia.
  - unfold unvectorize_vjp, vectorize_ld_nd. cbn [shp]. rewrite Nat.eqb_refl. f_equal. unfold vectorize_ld.
    rewrite map_map. apply map_ext_in. intros [i j] Hij. apply in_tril in Hij. cbn [fst snd].
    apply mat_of_rows; lia.
  - rewrite (map_fst_snd_fin v n HT) at 1.
    rewrite (tril_dot (fun i j => nth (ld_ind i j) v 0%R) g).
    apply Rsum_ext. intros i Hi. rewrite (Rsum_trunc n (S i)); auto.
    + apply Rsum_ext. intros j Hj. unfold U. rewrite (proj2 (Nat.leb_le j i)) by lia. auto.
    + intros j Hj. unfold U. rewrite (proj2 (Nat.leb_gt j i)) by lia. ring.
Qed.

(** Gradients of a wrong shape: fewer than two axes, first two lengths different, more than two axes. *)
Lemma unvectorize_vjp_shapes : forall g,
  (length (shp g) < 2 -> unvectorize_vjp g = Err IndexError) /\
  (forall r c rest, shp g = r :: c :: rest -> r <> c -> unvectorize_vjp g = Err AssertionError) /\
  (forall r rest, shp g = r :: r :: rest -> rest <> [] -> unvectorize_vjp g = Err ValueError).
Proof.
  intros g. unfold unvectorize_vjp, vectorize_ld_nd. split; [|split].
  - destruct (shp g) as [|r [|c s]]; auto. cbn. lia.
  - intros r c rest -> Hne. rewrite (proj2 (Nat.eqb_neq r c)) by auto. auto.
  - intros r [|e rest] -> Hne; [contradiction|]. rewrite Nat.eqb_refl. auto.
Qed.
Lemma unvectorize_vjp_shapes_case : unvectorize_vjp (mkNd [2; 3] (repeat (Fin 1) 6)) = Err AssertionError /\
  unvectorize_vjp (mkNd [2] [Fin 1; Fin 1]) = Err IndexError /\
  unvectorize_vjp (mkNd [1; 1; 2] [Fin 1; Fin 1]) = Err ValueError.
Proof. repeat split. Qed.

(** The registered jvp is the map, and the map is linear: moving [v] by [t u]
    moves the result by [t] times the jvp of [u]. *)
Theorem unvectorize_jvp_linear : forall n v u t, triangular (length v) n -> length u = length v ->
  exists (V D W : nat -> nat -> R) mv md mw,
    unvectorize_ld (map Fin v) = Ok (n, mv) /\
    unvectorize_jvp (map Fin u) = Ok (n, md) /\
    unvectorize_ld (map Fin (map2 (fun a b => a + t * b)%R v u)) = Ok (n, mw) /\
    (forall i j, i < n -> j < n -> mv i j = Fin (V i j) /\ md i j = Fin (D i j) /\ mw i j = Fin (W i j) /\
       W i j = (V i j + t * D i j)%R).
Proof.
  intros n v u t Ht Hu. pose proof (proj1 (triangular_T _ _) Ht) as HT.
  assert (length (map2 (fun a b => a + t * b)%R v u) = length v) as HL.
  { clear - Hu. revert u Hu. induction v; intros [|b u] H; simpl in *; try discriminate; auto. }
  assert (forall k, nth k (map2 (fun a b => a + t * b)%R v u) 0%R = (nth k v 0 + t * nth k u 0)%R) as HN.
  { clear - Hu. revert u Hu. induction v; intros [|b u] H k; simpl in *; try discriminate.
    - destruct k; lra.
    - destruct k; auto. }
  set (E := fun (x : list R) i j => if j <=? i then nth (ld_ind i j) x 0%R else 0%R).
  assert (forall x i j, length x = T n -> i < n -> j < n -> unvec_entry (map Fin x) i j = Fin (E x i j)) as HE.
  { intros x i j Hx Hi Hj. unfold unvec_entry, E. destruct (j <=? i) eqn:Eq; auto. apply Nat.leb_le in Eq.
    rewrite sym_index_low by auto. apply nth_map_gen. rewrite Hx. unfold ld_ind.
    change (i * (i + 1) / 2) with (T i). assert (T (S i) <= T n) by (apply T_mono; lia). rewrite T_S in H. lia. }
  exists (E v), (E u), (E (map2 (fun a b => a + t * b)%R v u)).
  exists (unvec_entry (map Fin v)), (unvec_entry (map Fin u)), (unvec_entry (map Fin (map2 (fun a b => a + t * b)%R v u))).
  unfold unvectorize_jvp.
  split; [apply unvectorize_T; rewrite map_length; auto|].
  split; [apply unvectorize_T; rewrite map_length; congruence|].
  split; [apply unvectorize_T; rewrite map_length; congruence|].
  intros i j Hi Hj. split; [apply HE; auto|]. split; [apply HE; auto; congruence|]. split; [apply HE; auto; congruence|].
  unfold E. destruct (j <=? i); [apply HN|lra].
Qed.

(** ** Constructors (C59, C60) *)
Theorem numeric_constructor : forall k s lb ub dv fd p,
  new_numeric_kind k s lb ub dv fd = Ok p <->
  p = PNum k s lb ub dv fd /\ s <> [] /\ nlt (pyval lb) (pyval ub).
Proof. exact new_numeric_ok. Qed.
Theorem simplex_constructor : forall n s dv fd,
  ((2 <= n)%Z -> new_simplex n s dv fd = Ok (PSimplex (Z.to_nat n) s dv fd)) /\
  ((n < 2)%Z -> new_simplex n s dv fd = Err ValueError).
Proof.
  intros. unfold new_simplex. split; intros H.
  - rewrite (proj2 (Z.leb_gt n 1)) by lia. auto.
  - rewrite (proj2 (Z.leb_le n 1)) by lia. auto.
Qed.
Theorem psd_constructor : forall n d lb dv fd,
  (nlt (pyval lb) (Fin 0) -> new_psd n d lb dv fd = Err ValueError) /\
  (~ nlt (pyval lb) (Fin 0) -> exists p, new_psd n d lb dv fd = Ok p).
Proof.
  intros. unfold new_psd. destruct (nltb (pyval lb) (Fin 0)) eqn:E; split; intros H; eauto.
  - exfalso. apply H. apply nltb_nlt. auto.
  - apply nltb_nlt in H. congruence.
Qed.
Theorem array_constructor : forall s b fd,
  (is_dict b = true -> new_pattern_array s b fd = Err NotImplementedError) /\
  (is_dict b = false -> new_pattern_array s b fd = Ok (PArr s b fd)).
Proof. intros. destruct b; simpl; split; intros; auto; discriminate. Qed.

Lemma frac_flen : forall k r d, 0 < d -> r < d ->
  (k * d + r) * (k * d + r + d) / (2 * d * d) = T k + r * (2 * k * d + d + r) / (2 * d * d).
Proof.
  intros k r d Hd Hr. pose proof (T2 k) as H2.
  replace ((k * d + r) * (k * d + r + d)) with (T k * (2 * d * d) + r * (2 * k * d + d + r)).
  2:{ transitivity ((2 * T k) * (d * d) + r * (2 * k * d + d + r)); [nia|]. rewrite H2. ring. }
  rewrite Nat.div_add_l by nia. auto.
Qed.
Lemma frac_lt : forall k r d, 0 < d -> r < d -> r * (2 * k * d + d + r) / (2 * d * d) < k + 1.
Proof.
  intros k r d Hd Hr. apply Nat.div_lt_upper_bound; [nia|].
  assert (2 * k * d + d + r < 2 * d * (k + 1)) by nia. nia.
Qed.

(** [size = k + r/d]. *)
Theorem fractional_psd : forall k r (d : positive) dlb dv fd p vv,
  r < Pos.to_nat d ->
  new_psd (k * Pos.to_nat d + r) d dlb dv fd = Ok p ->
  let e := Pos.to_nat d in
  ((r * (2 * k * e + e + r) < 2 * e * e) -> new_psd k 1 dlb dv fd = Ok p) /\
  ((2 * e * e <= r * (2 * k * e + e + r)) ->
    forall x v, fold p (vec x) (Some true) vv <> Ok v).
Proof.
  intros k r d dlb dv fd p vv Hr Hp e. fold e in Hr, Hp.
  assert (0 < e) as He by (unfold e; lia).
  unfold new_psd in *. destruct (nltb (pyval dlb) (Fin 0)) eqn:E0; [discriminate|].
  fold e in Hp.
  assert (p = PPsd k (T k + r * (2 * k * e + e + r) / (2 * e * e)) dlb dv fd) as ->.
  { rewrite <- frac_flen by auto.
    assert ((k * e + r) / e = k) as <- by (rewrite Nat.div_add_l by lia; rewrite Nat.div_small by auto; lia).
    injection Hp as <-. f_equal. assert ((k * e + r) / e = k) as -> by (rewrite Nat.div_add_l by lia; rewrite Nat.div_small by auto; lia). auto. }
  split.
  - intros H. rewrite (Nat.div_small (r * (2 * k * e + e + r)) (2 * e * e) H). change (Pos.to_nat 1) with 1. rewrite Nat.div_1_r. unfold T.
    rewrite Nat.add_0_r. auto.
  - intros H x v Hf. unfold fold, fold_gen in Hf. cbn [free_with_default bind fold_] in Hf.
    rewrite atleast_vec, ndim_vec, size_vec in Hf. cbn [flat_len pl_n plint Nat.eqb negb] in Hf.
    set (q := r * (2 * k * e + e + r) / (2 * e * e)) in *.
    destruct (length x =? T k + q) eqn:EL; cbn [negb] in Hf; [|discriminate]. apply Nat.eqb_eq in EL.
    cbn [vec dat] in Hf. cbn [to_num snum] in Hf. rewrite map_id in Hf.
    assert (unvectorize_ld x = Err ValueError) as Eu.
    { apply unvectorize_rejects. intros n Hn. apply triangular_T in Hn.
      assert (1 <= q) by (unfold q; apply Nat.div_le_lower_bound; nia).
      assert (q < k + 1) by (apply frac_lt; auto).
      assert (k < n) as Hkn by (destruct (le_lt_dec n k) as [Hle|]; auto; pose proof (T_mono n k Hle); lia).
      pose proof (T_mono (S k) n Hkn). rewrite T_S in H2. lia. }
    unfold unpack_posdef in Hf. rewrite Eu in Hf. discriminate.
Qed.

(** ** logsumexp (C61) *)
Lemma rmaxl_spec : forall l x, In (rmaxl x l) (x :: l) /\ forall y, In y (x :: l) -> (y <= rmaxl x l)%R.
Proof.
  induction l as [|z l IH]; intros x.
  - simpl. split; auto. intros y [->|[]]. lra.
  - cbn [rmaxl]. destruct (IH (if Rltb x z then z else x)) as (H1 & H2). split.
    + destruct H1 as [H1|H1]; [|right; right; auto]. rewrite <- H1. destruct (Rltb x z); simpl; auto.
    + intros y Hy.
      assert (x <= (if Rltb x z then z else x) /\ z <= (if Rltb x z then z else x))%R as (Ha & Hb).
      { destruct (Rltb x z) eqn:E; [apply Rltb_true in E|apply Rltb_false in E]; lra. }
      pose proof (H2 _ (or_introl eq_refl)) as Hm.
      destruct Hy as [->|[->|Hy]]; [lra|lra|]. apply H2. right; auto.
Qed.

Theorem logsumexp_spec : forall x l,
  logsumexp (Fin x) (map Fin l) = Fin (ln (Rlsum (map exp (x :: l)))).
Proof. exact logsumexp_fin. Qed.

Theorem logsumexp_no_overflow : forall x l,
  exists M, nmaxl (Fin x) (map Fin l) = Fin M /\ In M (x :: l) /\
    forall y, In y (x :: l) -> exists r, nsub (Fin y) (nmaxl (Fin x) (map Fin l)) = Fin r /\ (r <= 0)%R.
Proof.
  intros x l. destruct (rmaxl_spec l x) as (H1 & H2). exists (rmaxl x l). rewrite nmaxl_fin.
  split; auto. split; auto. intros y Hy. specialize (H2 y Hy). simpl. eexists. split; [reflexivity|lra].
Qed.

Theorem logsumexp_shift : forall x l c,
  logsumexp (Fin (x + c)) (map Fin (map (fun y => y + c)%R l)) = nadd (logsumexp (Fin x) (map Fin l)) (Fin c).
Proof.
  intros x l c. rewrite !logsumexp_fin. cbn [nadd]. f_equal.
  assert (forall l, map exp (map (fun y => y + c)%R l) = map (fun z => exp c * z)%R (map exp l)) as E.
  { intros m. rewrite !map_map. apply map_ext. intros. rewrite exp_plus. ring. }
  change ((x + c)%R :: map (fun y => (y + c)%R) l) with (map (fun y => (y + c)%R) (x :: l)).
  rewrite E, Rlsum_scal. rewrite ln_mult.
  - rewrite ln_exp. lra.
  - apply exp_pos.
  - apply Rlsum_pos; [discriminate|]. apply Forall_forall. intros y Hy. apply in_map_iff in Hy.
    destruct Hy as (z & <- & _). apply exp_pos.
Qed.

(** ** Concrete cases *)
Lemma psd_case : usable p47 /\ symmetric 2 m47 /\ (forall i, i < 2 -> (1 <= m47 i i)%R).
Proof.
  split; [exact p47_usable|]. split; [intros i j _ _; unfold m47; rewrite Nat.eqb_sym; auto|].
  intros i _; unfold m47; rewrite Nat.eqb_refl; lra.
Qed.
Lemma triangular_case : triangular (length [1; 2; 3; 4; 5; 6]%R) 3 /\ forall n, ~ triangular 4 n.
Proof. split; [reflexivity|]. intros n. unfold triangular. intros H. assert (n = 0 \/ n = 1 \/ n = 2 \/ 3 <= n) as [-> | [-> | [-> | ?]]] by lia; nia. Qed.
(** [size = 2.5]: the free length is 4 and nothing folds; [size = 2.25] behaves
    like 2. *)
Lemma fractional_case :
  (forall vv x v, fold (PPsd 2 4 (PyInt 0) true None) (vec x) (Some true) vv <> Ok v) /\
  new_psd 9 4 (PyInt 0) true None = new_psd 2 1 (PyInt 0) true None.
Proof.
  assert (nltb (pyval (PyInt 0)) (Fin 0) = false) as E.
  { cbn [pyval nltb]. apply Rltb_false. simpl. lra. }
  split.
  - intros vv. apply (proj2 (fractional_psd 2 1 2 (PyInt 0) true None _ vv ltac:(simpl; lia) ltac:(unfold new_psd; rewrite E; reflexivity))).
    simpl. lia.
  - unfold new_psd. rewrite E. reflexivity.
Qed.

(** ** [_unvectorize_symmetric_matrix] *)
Lemma ld_bound : forall len n i j, triangular len n -> j <= i -> i < n -> i * (i + 1) / 2 + j < len.
Proof.
  intros len n i j Ht Hj Hi. apply triangular_T in Ht. rewrite Ht. change (i * (i + 1) / 2) with (T i).
  assert (T (S i) <= T n) by (apply T_mono; lia). rewrite T_S in H. lia.
Qed.
Lemma symmetric_unvectorize : forall v n, triangular (length v) n ->
  exists (S : nat -> nat -> R) m, unvectorize_symmetric (map Fin v) = Ok (n, m) /\
    (forall i j, i < n -> j < n -> m i j = Fin (S i j)) /\ symmetric n S /\
    (forall i j, j <= i -> i < n -> S i j = nth (i * (i + 1) / 2 + j) v 0%R) /\
    vectorize_ld_nd (to_nd n m) = Ok (map Fin v).
Proof.
  intros v n Ht.
  destruct (unvectorize_accepts (map Fin v) n) as (m0 & E0 & Hl & Hu); [rewrite map_length; auto|].
  assert (Hlo: forall i j, j <= i -> i < n -> m0 i j = Fin (nth (i * (i + 1) / 2 + j) v 0%R)).
  { intros i j Hj Hi. rewrite Hl by auto. apply nth_map_gen. eapply ld_bound; eauto. }
  set (m := fun i j => nsub (nadd (m0 i j) (m0 j i)) (make_diagonal (fun k => m0 k k) i j)).
  set (S := fun i j => if j <=? i then nth (i * (i + 1) / 2 + j) v 0%R else nth (j * (j + 1) / 2 + i) v 0%R).
  assert (Em: forall i j, i < n -> j < n -> m i j = Fin (S i j)).
  { intros i j Hi Hj. unfold m, S, make_diagonal. destruct (Nat.eqb_spec i j) as [->|Ne].
    - rewrite Nat.leb_refl. rewrite (Hlo j j) by lia. cbn [nadd nsub nneg]. f_equal. lra.
    - destruct (Nat.leb_spec j i).
      + rewrite (Hlo i j), (Hu j i) by lia. cbn [nadd nsub nneg]. f_equal. lra.
      + rewrite (Hlo j i), (Hu i j) by lia. cbn [nadd nsub nneg]. f_equal. lra. }
  exists S, m. split; [unfold unvectorize_symmetric; rewrite E0; reflexivity|]. split; [exact Em|]. split; [|split].
  - intros i j Hi Hj. unfold S. destruct (Nat.leb_spec j i), (Nat.leb_spec i j); try reflexivity; try lia.
    assert (i = j) by lia. subst. reflexivity.
  - intros i j Hj Hi. unfold S. rewrite (proj2 (Nat.leb_le j i)) by auto. reflexivity.
  - rewrite <- (vectorize_of_unvectorize _ _ _ E0). unfold vectorize_ld_nd. cbn [shp to_nd]. rewrite Nat.eqb_refl. f_equal.
    fold (to_nd n m). fold (to_nd n m0). apply vectorize_ext. intros i j Hj Hi. rewrite !mat_of_nd by lia.
    rewrite Em, Hlo by lia. unfold S. rewrite (proj2 (Nat.leb_le j i)) by auto. reflexivity.
Qed.
Lemma symmetric_of_vectorize : forall n S v, symmetric n S ->
  vectorize_ld_nd (mkNd [n; n] (rows_of n S)) = Ok v ->
  exists m, unvectorize_symmetric v = Ok (n, m) /\ forall i j, i < n -> j < n -> m i j = Fin (S i j).
Proof.
  intros n S v Hs E.
  assert (Ev: v = map Fin (map (fun ij => S (fst ij) (snd ij)) (tril n))).
  { unfold vectorize_ld_nd in E. cbn [shp] in E. rewrite Nat.eqb_refl in E. injection E as <-. unfold vectorize_ld.
    rewrite map_map. apply map_ext_in. intros [i j] Hij. apply in_tril in Hij. apply mat_of_rows; cbn [fst snd]; lia. }
  subst v. destruct (symmetric_unvectorize (map (fun ij => S (fst ij) (snd ij)) (tril n)) n) as (S' & m & E1 & Em & Hs' & Hl & Ev).
  { apply triangular_T. rewrite map_length. apply tril_length. }
  exists m. split; auto.
  assert (Hlow: forall i j, j <= i -> i < n -> S' i j = S i j).
  { intros i j Hj Hi. destruct (vectorize_spec n m) as (w & Ew & _ & Hw). rewrite Ev in Ew. injection Ew as <-.
    specialize (Hw i j Hj Hi). destruct (vectorize_spec n (fun i j => Fin (S i j))) as (w & Ew & _ & Hw2).
    specialize (Hw2 i j Hj Hi). unfold vectorize_ld_nd in Ew. cbn [shp to_nd] in Ew. rewrite Nat.eqb_refl in Ew.
    injection Ew as Ew. fold (to_nd n (fun i j => Fin (S i j))) in Ew.
    assert (Ew2: w = map Fin (map (fun ij => S (fst ij) (snd ij)) (tril n))).
    { rewrite <- Ew. unfold vectorize_ld. rewrite map_map. apply map_ext_in. intros [a b] Hab. apply in_tril in Hab.
      cbn [fst snd]. apply mat_of_nd; lia. }
    rewrite Ew2, Hw in Hw2. rewrite Em in Hw2 by lia. congruence. }
  intros i j Hi Hj. rewrite Em by auto. f_equal. destruct (Nat.le_gt_cases j i).
  - apply Hlow; auto.
  - rewrite Hs', Hs by auto. apply Hlow; lia.
Qed.
Lemma symmetric_rejects : forall v, (forall n, ~ triangular (length v) n) -> unvectorize_symmetric v = Err ValueError.
Proof. intros v H. unfold unvectorize_symmetric. rewrite unvectorize_rejects by auto. reflexivity. Qed.
(** An infinite diagonal entry is added twice and subtracted once. *)
Lemma symmetric_infinite : forall v n m i, triangular (length v) n -> i < n ->
  nth (i * (i + 1) / 2 + i) v NaN = PInf -> unvectorize_symmetric v = Ok (n, m) -> m i i = NaN.
Proof.
  intros v n m i Ht Hi E H. destruct (unvectorize_accepts v n Ht) as (m0 & E0 & Hl & _).
  unfold unvectorize_symmetric in H. rewrite E0 in H. cbn [bind fst snd] in H. injection H as <-.
  unfold make_diagonal. rewrite Nat.eqb_refl, (Hl i i) by lia. rewrite E. reflexivity.
Qed.
Lemma symmetric_infinite_refuted : ~ (forall v n, triangular (length v) n ->
  exists m, unvectorize_symmetric v = Ok (n, m) /\ vectorize_ld_nd (to_nd n m) = Ok v).
Proof.
  intros H. assert (Ht: triangular (length [PInf]) 1) by reflexivity.
  destruct (H [PInf] 1 Ht) as (m & E & V).
  assert (m 0 0 = NaN) by (apply (symmetric_infinite [PInf] 1 m 0); auto).
  destruct (vectorize_spec 1 m) as (w & Ew & _ & Hw). rewrite V in Ew. injection Ew as <-.
  specialize (Hw 0 0 (le_n _) (le_n _)). cbn in Hw. congruence.
Qed.
Lemma symmetric_vec_case : triangular (length [1; 2; 3]%R) 2 /\
  exists m, unvectorize_symmetric (map Fin [1; 2; 3]%R) = Ok (2, m) /\ m 0 1 = Fin 2 /\ m 1 0 = Fin 2 /\ m 1 1 = Fin 3.
Proof.
  split; [reflexivity|]. destruct (symmetric_unvectorize [1; 2; 3]%R 2 eq_refl) as (S & m & E & Em & Hs & Hl & _).
  exists m. split; auto. rewrite !Em by lia. rewrite (Hs 0 1) by lia. rewrite !Hl by lia. repeat split.
Qed.

(** ** [_sym_index] *)
Lemma sym_index_spec : forall n,
  (forall i j, i < n -> j < n -> sym_index i j = sym_index j i /\ sym_index i j < n * (n + 1) / 2 /\
     forall a b, a < n -> b < n -> sym_index a b = sym_index i j -> a = i /\ b = j \/ a = j /\ b = i) /\
  forall k, k < n * (n + 1) / 2 -> exists i j, j <= i /\ i < n /\ sym_index i j = k.
Proof.
  intros n. change (n * (n + 1) / 2) with (T n).
  assert (forall i j, j <= i -> i < n -> ld_ind i j < T n) as B.
  { intros i j Hj Hi. unfold ld_ind. change (i * (i + 1) / 2) with (T i).
    pose proof (T_S i). pose proof (T_mono (S i) n ltac:(lia)). lia. }
  assert (forall i j, i < n -> j < n -> exists a b, b <= a /\ a < n /\ sym_index i j = ld_ind a b /\
            sym_index j i = ld_ind a b /\ (a = i /\ b = j \/ a = j /\ b = i)) as S.
  { intros i j Hi Hj. unfold sym_index. destruct (Nat.leb_spec j i), (Nat.leb_spec i j); try lia.
    - assert (i = j) by lia. subst. exists j, j. repeat split; auto.
    - exists i, j. repeat split; auto.
    - exists j, i. repeat split; auto; lia. }
  split.
  - intros i j Hi Hj. destruct (S i j Hi Hj) as (p & q & H1 & H2 & E1 & E2 & E3).
    split; [congruence|]. split; [rewrite E1; auto|].
    intros a b Ha Hb E. destruct (S a b Ha Hb) as (p' & q' & H1' & H2' & E1' & _ & E3').
    rewrite E1, E1' in E.
    assert ((p', q') = (p, q)) as X.
    { rewrite <- (nth_tril n p' q' (0, 0)), <- (nth_tril n p q (0, 0)) by auto. congruence. }
    inversion X; subst. lia.
  - intros k Hk. induction n; [rewrite T_0 in Hk; lia|].
    destruct (Nat.lt_ge_cases k (T n)) as [H|H].
    + destruct IHn as (i & j & H1 & H2 & H3); auto.
      * intros i j Hj Hi. unfold ld_ind. change (i * (i + 1) / 2) with (T i).
        pose proof (T_S i). pose proof (T_mono (Datatypes.S i) n ltac:(lia)). lia.
      * intros i j Hi Hj. destruct (S i j ltac:(lia) ltac:(lia)) as (a & b & X1 & X2 & X3 & X4 & X5).
        exists a, b. repeat split; auto. lia.
      * exists i, j. auto.
    + pose proof (T_S n). exists n, (k - T n). split; [lia|]. split; [lia|].
      rewrite sym_index_low by lia. unfold ld_ind. change (n * (n + 1) / 2) with (T n). lia.
Qed.

Lemma sym_index_case : sym_index 1 3 = 7 /\ sym_index 3 1 = 7 /\ 1 < 4 /\ 3 < 4.
Proof. repeat split; try reflexivity; lia. Qed.

(** ** constructors: which exception *)
Lemma numeric_failures : forall k s lb ub dv fd,
  (pyval lb = NaN \/ pyval ub = NaN -> new_numeric_kind k s lb ub dv fd = Err AssertionError) /\
  (pyval lb <> NaN -> pyval ub <> NaN -> ~ nlt (pyval lb) (pyval ub) ->
   new_numeric_kind k s lb ub dv fd = Err ValueError) /\
  (nlt (pyval lb) (pyval ub) -> s = [] -> new_numeric_kind k s lb ub dv fd = Err ValueError).
Proof.
  intros k s lb ub dv fd. split; [|split].
  - unfold new_numeric_kind. intros [E|E]; rewrite E; [reflexivity|]. destruct (pyval lb); reflexivity.
  - intros N1 N2 H. unfold new_numeric_kind.
    assert (ngeb (pyval lb) NInf = true) as -> by (unfold ngeb, nleb; destruct (pyval lb); simpl; auto; tauto).
    assert (nleb (pyval ub) PInf = true) as -> by (unfold nleb; destruct (pyval ub); simpl; auto; tauto).
    assert (ngeb (pyval lb) (pyval ub) = true) as ->; [|reflexivity].
    unfold ngeb, nleb. destruct (pyval lb) as [l| | |], (pyval ub) as [u| | |]; simpl in *; try tauto.
    destruct (Rltb u l) eqn:A; [reflexivity|]. simpl. apply Reqb_true. apply Rltb_false in A. lra.
  - intros H ->. destruct (new_numeric_kind k [] lb ub dv fd) as [p|e] eqn:E.
    + apply new_numeric_ok in E. tauto.
    + revert E. unfold new_numeric_kind.
      destruct (negb (ngeb (pyval lb) NInf)) eqn:E1.
      { exfalso. unfold ngeb, nleb in E1. destruct (pyval lb), (pyval ub); simpl in *; try tauto; discriminate. }
      destruct (negb (nleb (pyval ub) PInf)) eqn:E2.
      { exfalso. unfold nleb in E2. destruct (pyval lb), (pyval ub); simpl in *; try tauto; discriminate. }
      destruct (ngeb (pyval lb) (pyval ub)); [congruence|].
      cbn [fold_ prod fold_right seq]. rewrite atleast_vec, ndim_vec, size_vec. simpl. congruence.
Qed.

Lemma constructor_cases :
  new_numeric_kind KArray [2] (PyInt 1) (PyInt 1) true None = Err ValueError /\
  new_numeric_kind KArray [2] (PyFloat SpecFloat.S754_nan) (PyInt 1) true None = Err AssertionError /\
  new_numeric_kind KArray [] (PyInt 0) (PyInt 1) true None = Err ValueError /\
  new_simplex 1 [3] true None = Err ValueError /\
  new_psd 2 1 (PyInt (-1)) true None = Err ValueError.
Proof.
  split; [apply (proj1 (proj2 (numeric_failures _ _ _ _ _ _))); simpl; try discriminate; lra|].
  split; [apply numeric_failures; left; reflexivity|].
  split; [apply (proj2 (proj2 (numeric_failures _ _ _ _ _ _))); simpl; auto; lra|]. split; [reflexivity|].
  apply psd_constructor. simpl. lra.
Qed.

Lemma logsumexp_case : logsumexp (Fin 0) (map Fin [0; 0]%R) = Fin (ln 3).
Proof.
  rewrite logsumexp_spec. simpl. rewrite exp_0. do 2 f_equal. ring.
Qed.
