(** * Infinities: the public methods, and what is lost. *)
From Coq Require Import Reals Lra.
From Verif Require Import Base Num Nd Numeric Simplex Psd Pattern Spec SpecBound ListFacts PatFacts
  NonFree NumFacts CholFacts Free Contract Build Api JacEdge BoundFacts BoundTree.

Lemma api_boundary_fold : forall p x vv vv', usable p -> boundary_free p x ->
  flat_length p (Some true) = Ok (plint (length x)) /\
  exists v, fold p (vec x) (Some true) vv = Ok v /\ boundary_value p v /\
    validate snum p v vv' = Ok None /\ flatten p v (Some true) vv' = Ok x.
Proof.
  intros p x vv vv' Hu H. split; [apply flat_length_some; auto; apply boundary_free_len; auto|].
  destruct (boundary_flatten_of_fold vv vv' p x Hu H) as (v & H1 & H2 & _ & H3).
  exists v. repeat split; auto. apply boundary_valid; auto.
Qed.

Lemma api_boundary_flatten : forall p v vv vv', usable p -> boundary_value p v ->
  exists x, flatten p v (Some true) vv = Ok x /\ boundary_free p x /\
    fold p (vec x) (Some true) vv' = Ok (canon p v).
Proof.
  intros p v vv vv' Hu H. destruct (boundary_fold_of_flatten vv vv' p v Hu H) as (x & H1 & H2 & H3).
  exists x. auto.
Qed.

(** finite free vectors and interior values are covered *)
Lemma interior_boundary : forall p v, usable p -> interior p v -> boundary_value p v.
Proof.
  apply (pat_ind' (fun p => forall v, usable p -> interior p v -> boundary_value p v)).
  - intros k s lb ub dv fd [a|d] (_ & Hlt) H; simpl in *; try tauto. destruct H as (H1 & H2). split; auto.
    eapply Forall_impl; [|exact H2]. intros y ((r & ->) & Hl & Hr). split; [discriminate|].
    destruct (pyval lb), (pyval ub); simpl in *; try tauto; repeat split; try lra; try tauto; try discriminate;
      intros _ _ E; inversion E; subst; lra.
  - intros n s dv fd [a|d] Hu H; simpl in *; try tauto. destruct H as (H1 & rows & H2 & H3 & H4). split; auto.
    exists rows. repeat split; auto. eapply Forall_impl; [|exact H4]. intros r (L & P & S). split; auto. split; auto.
    destruct r as [|r0 rest]; [simpl in L; lia|]. inversion P; subst. exists r0, rest. repeat split; auto.
    eapply Forall_impl; [|eassumption]. intros; lra.
  - intros sz fl d dv fd [a|dd] Hu H; simpl in *; try tauto.
  - intros s b fd IH [a|d] (_ & _ & _ & Hu) H; simpl in *; try tauto. destruct H as (H1 & H2 & H3). auto.
  - intros items l fl fd lk IH [a|d] (_ & _ & _ & _ & Hu) H; simpl in *; try tauto.
    apply all_items_Forall in H, Hu. apply all_items_Forall. rewrite Forall_forall in *.
    intros kq Hkq. destruct (H kq Hkq) as (w & H1 & H2). exists w. auto.
Qed.

Lemma finite_boundary : forall p x, usable p -> length x = pl_n (flat_len p true) -> boundary_free p (map Fin x).
Proof.
  intros p x Hu Hx. destruct (free_flatten_of_fold None None p x Hu Hx) as (v & _ & H2 & _ & H4).
  destruct (boundary_fold_of_flatten None None p v Hu (interior_boundary p v Hu H2)) as (y & E & B & _).
  rewrite H4 in E. inversion E; subst. auto.
Qed.

(** ** NaN *)
Lemma nsum_nan : forall l, In NaN l -> nsum l = NaN.
Proof.
  induction l as [|x l IH]; intros H; [destruct H|]. unfold nsum in *. simpl. destruct H as [->|H]; [reflexivity|].
  rewrite IH by auto. destruct x; reflexivity.
Qed.

Lemma nmax_top : forall l x, x = PInf \/ x = NaN \/ In PInf l \/ In NaN l -> nmaxl x l = PInf \/ nmaxl x l = NaN.
Proof.
  unfold nmaxl. induction l as [|y l IH]; intros x H; simpl.
  - destruct H as [->|[->|[[]|[]]]]; auto.
  - apply IH. destruct H as [->|[->|[[->|H]|[->|H]]]]; auto.
    + destruct y; simpl; auto.
    + destruct x; simpl; auto.
    + destruct x; simpl; auto.
Qed.

Lemma nsub_nan : forall x, nsub x NaN = NaN.
Proof. destruct x; auto. Qed.

Lemma lse_nan : forall x l, In PInf (x :: l) \/ In NaN (x :: l) -> logsumexp x l = NaN.
Proof.
  intros x l H. unfold logsumexp.
  assert (nmaxl x l = PInf \/ nmaxl x l = NaN) as [->| ->].
  { apply nmax_top. simpl in H. tauto. }
  - rewrite nsum_nan; auto. destruct H as [H|H]; apply in_map_iff; [exists PInf|exists NaN]; auto.
  - rewrite nsum_nan; auto. left. rewrite nsub_nan. auto.
Qed.

Lemma lse_none : forall x l, Forall (eq NInf) (x :: l) -> logsumexp x l = NaN.
Proof.
  intros x l H. inversion H as [|? ? <- Hl]; subst. unfold logsumexp.
  assert (nmaxl NInf l = NInf) as ->.
  { clear H. unfold nmaxl. induction Hl as [|y l <- _ IH]; auto. }
  rewrite nsum_nan; auto. left. auto.
Qed.

Lemma lse_low : forall x l, Forall low (x :: l) -> Exists finite (x :: l) ->
  logsumexp x l = Fin (ln (Rlsum (map ex (x :: l)))).
Proof.
  intros x l H E. unfold logsumexp.
  assert (exists M, nmaxl x l = Fin M) as (M & ->).
  { inversion H as [|? ? [(r & ->)| ->] Hl]; subst; [apply max_low; auto|].
    inversion E as [? ? (r & E')|? ? El]; subst; [discriminate|].
    clear H E. induction El as [y l (r & ->)|y l El IH]; inversion Hl as [|? ? [(z & ->)| ->] Hl']; subst.
    - apply (max_low l r); auto.
    - apply (max_low l z); auto.
    - apply IH; auto. }
  pose proof (exp_pos (- M)) as He.
  assert (0 < Rlsum (map ex (x :: l)))%R as Hp.
  { clear H. induction E as [y m (r & ->)|y m E IH]; unfold Rlsum in *; simpl.
    - pose proof (exp_pos r). assert (0 <= fold_right Rplus 0 (map ex m))%R; [|lra].
      clear. induction m; simpl; [lra|]. pose proof (ex_nonneg a). lra.
    - pose proof (ex_nonneg y). lra. }
  assert (map (fun y => nexp (nsub y (Fin M))) (x :: l) = map Fin (map (fun e => exp (- M) * e)%R (map ex (x :: l)))) as ->.
  { rewrite !map_map. apply map_ext_in. intros y Hy. rewrite Forall_forall in H.
    destruct (H y Hy) as [(r & ->)| ->]; simpl; f_equal; [rewrite exp_plus; ring|ring]. }
  rewrite nsum_fin, Rlsum_scal, nlog_pos by (apply Rmult_lt_0_compat; auto). cbn [nadd]. f_equal.
  rewrite ln_mult, ln_exp by auto. ring.
Qed.

(** ** what cannot be folded *)
Lemma numeric_lost : forall k shape lb ub dv fd x vv, usable (PNum k shape lb ub dv fd) ->
  finite (pyval lb) -> finite (pyval ub) -> length x = prod shape ->
  exists a, fold (PNum k shape lb ub dv fd) (vec x) (Some true) vv = Ok (FArr a) /\ shp a = shape /\
    forall i, nth_error x i = Some PInf \/ nth_error x i = Some NaN -> nth_error (dat a) i = Some NaN.
Proof.
  intros k s lb ub dv fd x vv Hu (l & Hl) (u & Hu') Hx.
  exists (mkNd s (map (constrain1 (pyval lb) (pyval ub)) x)). split; [|split]; auto.
  - unfold fold, fold_gen. cbn [free_with_default bind fold_]. rewrite atleast_vec, ndim_vec, size_vec, Hx, !Nat.eqb_refl.
    cbn [negb]. unfold num_fold_free. cbn [vec dat snum of_num to_num].
    rewrite map_id, nd_map_id. auto.
  - intros i H. cbn [dat]. rewrite nth_error_map. rewrite Hl, Hu'. destruct Hu as (_ & Hlt). rewrite Hl, Hu' in Hlt.
    simpl in Hlt. destruct H as [->| ->]; cbn [option_map]; f_equal; unfold constrain1; ev2.
Qed.

Lemma row_lost : forall x, In PInf x \/ In NaN x -> constrain_row x = repeat NaN (S (length x)).
Proof.
  intros x H. unfold constrain_row. rewrite lse_nan by (simpl; tauto).
  assert (length (Fin 0 :: x) = S (length x)) as <- by auto. generalize (Fin 0 :: x). intros l.
  induction l as [|y l IH]; auto. cbn [map repeat length]. rewrite nsub_nan, IH. auto.
Qed.

Lemma simplex_lost : forall n ashape dv fd x vv, usable (PSimplex n ashape dv fd) ->
  length x = prod ashape * (n - 1) ->
  exists a, fold (PSimplex n ashape dv fd) (vec x) (Some true) vv = Ok (FArr a) /\ shp a = ashape ++ [n] /\
    forall i, i < prod ashape ->
      (In PInf (slice x (i * (n - 1)) (n - 1)) \/ In NaN (slice x (i * (n - 1)) (n - 1)) ->
       slice (dat a) (i * n) n = repeat NaN n) /\
      (Forall low (slice x (i * (n - 1)) (n - 1)) ->
       exists r, slice (dat a) (i * n) n = map Fin r /\ ext_simplex n r).
Proof.
  intros n s dv fd x vv Hu Hx. simpl in Hu.
  exists (mkNd (s ++ [n]) (concat (map constrain_row (chunks (n - 1) (prod s) x)))). split; [|split]; auto.
  - unfold fold, fold_gen. cbn [free_with_default bind fold_ pylen vec shp flat_len]. rewrite simplex_flen, Hx, Nat.eqb_refl.
    cbn [negb]. rewrite reshape_vec.
    2:{ rewrite Hx, prod_app. simpl. lia. }
    cbn [bind dat snum of_num to_num].
    rewrite map_id, nd_map_id. unfold simplex_fold_free. rewrite flat_map_concat. auto.
  - intros i Hi. cbn [dat].
    assert (slice (concat (map constrain_row (chunks (n - 1) (prod s) x))) (i * n) n
      = constrain_row (chunk (n - 1) x i)) as ->.
    { change (chunk n (concat (map constrain_row (chunks (n - 1) (prod s) x))) i = constrain_row (chunk (n - 1) x i)).
      rewrite (chunk_concat _ _ _ i []).
      + unfold chunks. rewrite map_map. rewrite (nth_map_gen _ _ _ _ _ [] 0) by (rewrite seq_length; auto).
        rewrite seq_nth by auto. auto.
      + intros r Hr. apply in_map_iff in Hr. destruct Hr as (z & <- & Hz). apply in_chunks in Hz.
        destruct Hz as (j & Hj & ->). unfold constrain_row. rewrite map_length. simpl.
        rewrite (chunk_length _ _ _ _ (prod s)) by auto. lia.
      + unfold chunks. rewrite !map_length, seq_length. auto. }
    split; intros H.
    + rewrite row_lost by exact H. rewrite (chunk_length _ _ _ _ (prod s)) by auto. f_equal. lia.
    + exists (soft (chunk (n - 1) x i)). split; [apply constrain_row_low; exact H|].
      apply soft_simplex; auto. apply (chunk_length _ _ _ _ (prod s)); auto.
Qed.

Lemma to_nd_at : forall n m i j, i < n -> j < n -> mat_of n (to_nd n m) i j = m i j.
Proof.
  intros n m i j Hi Hj. unfold mat_of, to_nd. cbn [dat]. rewrite flat_map_concat.
  rewrite <- (nth_slice _ _ (i * n) n j) by auto.
  fold (chunk n (concat (map (fun i => map (fun j => m i j) (seq 0 n)) (seq 0 n))) i).
  rewrite (chunk_concat _ _ _ i []).
  - rewrite (nth_map_gen _ _ _ _ _ [] 0) by (rewrite seq_length; auto). rewrite seq_nth by auto.
    rewrite (nth_map_gen _ _ _ _ _ NaN 0) by (rewrite seq_length; auto). rewrite seq_nth by auto. auto.
  - intros r Hr. apply in_map_iff in Hr. destruct Hr as (k & <- & _). rewrite map_length, seq_length. auto.
  - rewrite map_length, seq_length. auto.
Qed.

Lemma psd_lost : forall sz flen dlb dv fd x vv i, usable (PPsd sz flen dlb dv fd) -> length x = flen -> i < sz ->
  (exists y, nth_error x (i * (i + 1) / 2 + i) = Some y /\ ~ finite y) ->
  exists a, fold (PPsd sz flen dlb dv fd) (vec x) (Some true) vv = Ok (FArr a) /\ shp a = [sz; sz] /\
    (forall j, j < sz -> mat_of sz a i j = NaN /\ mat_of sz a j i = NaN) /\
    exists m, validate snum (PPsd sz flen dlb dv fd) (FArr a) (Some true) = Ok (Some m).
Proof.
  intros sz fl dlb dv fd x vv i (Hfl & c & Hc & Hpos) Hx Hi (y & Hy & Hny).
  assert (length x = T sz) as Lx by (rewrite Hx, Hfl; auto).
  assert (exp_diag (unvec_entry x) i i = NaN) as Hd.
  { unfold exp_diag, make_diagonal, unvec_entry, sym_index, ld_ind. rewrite Nat.eqb_refl, Nat.leb_refl.
    rewrite (Nat.add_comm i). rewrite (nth_error_nth _ _ _ Hy).
    destruct y as [r| | |]; [exfalso; apply Hny; exists r; auto| | |]; reflexivity. }
  assert (forall j, j < sz -> mul_transpose sz (exp_diag (unvec_entry x)) i j = NaN /\
                              mul_transpose sz (exp_diag (unvec_entry x)) j i = NaN) as Hm.
  { intros j Hj. unfold mul_transpose. split; apply nsum_nan; apply in_map_iff; exists i; (split; [|apply in_seq; lia]);
      rewrite Hd; [reflexivity|]. destruct (exp_diag (unvec_entry x) j i); reflexivity. }
  eexists (to_nd sz _). split; [|split; [reflexivity|]].
  - unfold fold, fold_gen. cbn [free_with_default bind fold_ flat_len]. rewrite atleast_vec, ndim_vec, size_vec, Hx.
    cbn [plint pl_n]. rewrite !Nat.eqb_refl.
    cbn [negb vec dat snum of_num to_num]. rewrite map_id, Hc. unfold unpack_posdef. rewrite (unvectorize_T _ sz) by auto.
    cbn [bind fst snd]. rewrite nd_map_id. reflexivity.
  - assert (forall j, j < sz -> forall m, (m = fun i j => nadd (mul_transpose sz (exp_diag (unvec_entry x)) i j)
        (make_diagonal (fun _ => Fin c) i j)) -> mat_of sz (to_nd sz m) i j = NaN /\ mat_of sz (to_nd sz m) j i = NaN) as E.
    { intros j Hj m ->. rewrite !to_nd_at by auto. destruct (Hm j Hj) as (-> & ->). auto. }
    split; [intros j Hj; apply (E j Hj _ eq_refl)|].
    cbn [validate]. unfold psd_validate. cbn [to_nd shp]. rewrite shape_eqb_refl. cbn [negb snum to_num vv_or]. rewrite nd_map_id.
    match goal with |- context [existsb ?f ?l] => destruct (existsb f l) end; [eexists; reflexivity|].
    match goal with |- context [forallb ?f ?l] => destruct (forallb f l) eqn:F end; [|eexists; reflexivity].
    rewrite forallb_forall in F. specialize (F i ltac:(apply in_seq; lia)). rewrite forallb_forall in F.
    specialize (F i ltac:(apply in_seq; lia)). fold (to_nd sz (fun i j => nadd (mul_transpose sz (exp_diag (unvec_entry x)) i j)
        (make_diagonal (fun _ => Fin c) i j))) in F. rewrite (proj1 (E i Hi _ eq_refl)) in F. discriminate.
Qed.

Lemma psd_off_diagonal : forall sz flen dlb dv fd x vv i j, usable (PPsd sz flen dlb dv fd) -> length x = flen ->
  i < sz -> j < i ->
  (exists y, nth_error x (i * (i + 1) / 2 + j) = Some y /\ ~ finite y) ->
  exists a, fold (PPsd sz flen dlb dv fd) (vec x) (Some true) vv = Ok (FArr a) /\ shp a = [sz; sz] /\
    (forall k, k < j -> mat_of sz a i k = NaN /\ mat_of sz a k i = NaN) /\
    (0 < j -> exists m, validate snum (PPsd sz flen dlb dv fd) (FArr a) (Some true) = Ok (Some m)).
Proof.
  intros sz fl dlb dv fd x vv i j' (Hfl & c & Hc & Hpos) Hx Hi Hji (y & Hy & Hny).
  assert (length x = T sz) as Lx by (rewrite Hx, Hfl; auto).
  assert (~ finite (exp_diag (unvec_entry x) i j')) as Hd.
  { unfold exp_diag, make_diagonal, unvec_entry, sym_index, ld_ind.
    rewrite (proj2 (Nat.eqb_neq i j')), (proj2 (Nat.leb_le j' i)) by lia.
    rewrite (Nat.add_comm j'). rewrite (nth_error_nth _ _ _ Hy).
    destruct y as [r| | |]; [exfalso; apply Hny; exists r; auto| | |]; cbn; intros (r & E); discriminate. }
  assert (forall k, k < j' -> exp_diag (unvec_entry x) k j' = Fin 0) as Hz.
  { intros k Hk. unfold exp_diag, make_diagonal, unvec_entry.
    rewrite (proj2 (Nat.eqb_neq k j')), (proj2 (Nat.leb_gt j' k)) by lia. cbn. f_equal. ring. }
  assert (forall k, k < j' -> mul_transpose sz (exp_diag (unvec_entry x)) i k = NaN /\
                              mul_transpose sz (exp_diag (unvec_entry x)) k i = NaN) as Hm.
  { intros k Hk. unfold mul_transpose. split; apply nsum_nan; apply in_map_iff; exists j'; (split; [|apply in_seq; lia]);
      rewrite (Hz k Hk); destruct (exp_diag (unvec_entry x) i j') as [r| | |];
      try (exfalso; apply Hd; exists r; reflexivity); cbn; unfold inf_times; rewrite ?(proj2 (Rltb_false 0 0)) by lra; auto. }
  eexists (to_nd sz _). split; [|split; [reflexivity|]].
  - unfold fold, fold_gen. cbn [free_with_default bind fold_ flat_len]. rewrite atleast_vec, ndim_vec, size_vec, Hx.
    cbn [plint pl_n]. rewrite !Nat.eqb_refl.
    cbn [negb vec dat snum of_num to_num]. rewrite map_id, Hc. unfold unpack_posdef. rewrite (unvectorize_T _ sz) by auto.
    cbn [bind fst snd]. rewrite nd_map_id. reflexivity.
  - assert (forall k, k < j' -> forall m, (m = fun i j => nadd (mul_transpose sz (exp_diag (unvec_entry x)) i j)
        (make_diagonal (fun _ => Fin c) i j)) -> mat_of sz (to_nd sz m) i k = NaN /\ mat_of sz (to_nd sz m) k i = NaN) as E.
    { intros k Hk m ->. rewrite !to_nd_at by lia. destruct (Hm k Hk) as (-> & ->). auto. }
    split; [intros k Hk; apply (E k Hk _ eq_refl)|]. intros Hj0.
    cbn [validate]. unfold psd_validate. cbn [to_nd shp]. rewrite shape_eqb_refl. cbn [negb snum to_num vv_or]. rewrite nd_map_id.
    match goal with |- context [existsb ?f ?l] => destruct (existsb f l) end; [eexists; reflexivity|].
    match goal with |- context [forallb ?f ?l] => destruct (forallb f l) eqn:F end; [|eexists; reflexivity].
    rewrite forallb_forall in F. specialize (F i ltac:(apply in_seq; lia)). rewrite forallb_forall in F.
    specialize (F 0 ltac:(apply in_seq; lia)). fold (to_nd sz (fun i j => nadd (mul_transpose sz (exp_diag (unvec_entry x)) i j)
        (make_diagonal (fun _ => Fin c) i j))) in F. destruct (E 0 Hj0 _ eq_refl) as (E1 & E2). rewrite E1, E2 in F. discriminate.
Qed.

(** The value made by an infinite entry in the first column validates and does not
    flatten. *)
Lemma psd_infinite_column :
  exists a, fold (PPsd 2 3 (PyInt 0) true None) (vec [Fin 0; PInf; Fin 0]) (Some true) None = Ok (FArr a) /\
    dat a = [Fin 1; PInf; PInf; PInf] /\
    validate snum (PPsd 2 3 (PyInt 0) true None) (FArr a) (Some true) = Ok None /\
    flatten (PPsd 2 3 (PyInt 0) true None) (FArr a) (Some true) None = Err LinAlgError.
Proof.
  exists (mkNd [2; 2] [Fin 1; PInf; PInf; PInf]).
  split; [|split; [reflexivity|split]].
  - assert (exp_diag (unvec_entry [Fin 0; PInf; Fin 0]) 0 0 = Fin 1) as E00 by (cbn; rewrite exp_0; f_equal; ring).
    assert (exp_diag (unvec_entry [Fin 0; PInf; Fin 0]) 1 1 = Fin 1) as E11 by (cbn; rewrite exp_0; f_equal; ring).
    assert (exp_diag (unvec_entry [Fin 0; PInf; Fin 0]) 0 1 = Fin 0) as E01 by (cbn; f_equal; ring).
    assert (exp_diag (unvec_entry [Fin 0; PInf; Fin 0]) 1 0 = PInf) as E10 by reflexivity.
    cbn -[exp_diag unvec_entry to_nd]. unfold to_nd, nd_map. cbn -[exp_diag unvec_entry Rltb Reqb].
    rewrite E00, E01, E10, E11. cbn -[Rltb Reqb]. unfold inf_times. rewrite (Rltb_t 0 1) by lra.
    cbn -[Rltb Reqb]. do 4 f_equal. f_equal. ring.
  - cbn -[Rltb Reqb]. ev.
  - assert (forall vv, require_valid snum (PPsd 2 3 (PyInt 0) true None) (FArr (mkNd [2; 2] [Fin 1; PInf; PInf; PInf])) vv = Ok tt) as V.
    { intros [[|]|]; unfold require_valid; cbn -[Rltb Reqb]; ev. }
    unfold flatten, flatten_gen. cbn [free_with_default bind flatten_]. rewrite V. cbn [bind].
    unfold pack_posdef, cholesky, chol_rows, chol_row. cbn -[Rltb Reqb nsqrt].
    unfold dotn. cbn -[Rltb Reqb nsqrt].
    rewrite (Rltb_t 0) by lra. cbn -[Rltb Reqb].
    replace (1 + - 0 + - 0)%R with 1%R by ring. rewrite sqrt_1. ev.
Qed.

Lemma boundary_extends : forall p, usable p ->
  (forall v, interior p v -> boundary_value p v) /\
  (forall x, length x = pl_n (flat_len p true) -> boundary_free p (map Fin x)).
Proof. intros p Hu. split; intros; [apply interior_boundary; auto|apply finite_boundary; auto]. Qed.

Lemma lse_edges : forall x l,
  (Forall low (x :: l) -> Exists finite (x :: l) ->
   logsumexp x l = Fin (ln (Rlsum (map ex (x :: l))))) /\
  (Forall (eq NInf) (x :: l) -> logsumexp x l = NaN) /\
  (In PInf (x :: l) \/ In NaN (x :: l) -> logsumexp x l = NaN).
Proof. intros x l. split; [apply lse_low|]. split; [apply lse_none|apply lse_nan]. Qed.
