(** * Proofs about sparse products and solvers. *)
From Coq Require Import Reals Lra Lia ZArith.
From Verif Require Import Base Num Nd Spec ListFacts NumFacts CholFacts Jac JacBase Optim SpecOptim LinAlg OptimFacts
  OptimHist AdSupp SpecAd AdFacts AdMore.
Local Open Scope list_scope.
Local Open Scope nat_scope.

Lemma prod1 : forall n, prod [n] = n.
Proof. intros. simpl. lia. Qed.
Lemma prod2 : forall n m, prod [n; m] = n * m.
Proof. intros. simpl. lia. Qed.
(** The block matrix acting on each column of a 2-D array. *)
Definition cols_mat (l : nat) (Z : nat -> nat -> R) (a b : nat) : R :=
  if a mod l =? b mod l then Z (a / l) (b / l) else 0%R.
Lemma cols_row : forall l c Z x a, a mod l < l ->
  Rmatvec (c * l) (cols_mat l Z) x a = Rsum c (fun k => Z (a / l)%nat k * x (k * l + a mod l)%nat)%R.
Proof.
  intros l c Z x a Hm. unfold Rmatvec. rewrite Rsum_blocks. apply Rsum_ext. intros k Hk.
  rewrite (Rsum_single l _ (a mod l) Hm).
  - unfold cols_mat. destruct (divmod_block l k (a mod l) Hm) as (-> & ->). rewrite Nat.eqb_refl. auto.
  - intros j Hj Hne. unfold cols_mat. destruct (divmod_block l k j Hj) as (_ & ->).
    rewrite (proj2 (Nat.eqb_neq _ _)) by auto. ring.
Qed.
Lemma matmul_vec_acts : forall r c Zm m, is_array r c Zm m -> acts [c] [r] (matmul_nd m) Zm.
Proof.
  intros r c Zm m H x. unfold matmul_nd. cbn [shp farr dat]. rewrite prod1.
  rewrite (matvec_array _ _ _ _ _ H). cbn [bind]. unfold vec, farr. rewrite fvec_length, !prod1. auto.
Qed.
Lemma matmul_mat_acts : forall r c l Zm m, is_array r c Zm m -> acts [c; l] [r; l] (matmul_nd m) (cols_mat l Zm).
Proof.
  intros r c l Zm m (Hr & Hc & H) x. unfold matmul_nd. cbn [shp farr dat]. rewrite Hc, Hr, Nat.eqb_refl.
  f_equal. rewrite flat_map_concat_map.
  match goal with |- mkNd _ (concat ?L) = _ => set (rows := L) end.
  assert (Forall (fun w => length w = l) rows) as HF.
  { apply Forall_forall. intros w Hw. apply in_map_iff in Hw. destruct Hw as (i & <- & _). rewrite map_length. apply seq_length. }
  assert (length rows = r) as HL by (unfold rows; rewrite map_length; apply seq_length).
  apply farr_eq; auto.
  - unfold nd_ok. cbn [shp dat]. rewrite (concat_len _ l) by auto. rewrite HL, prod2. auto.
  - rewrite prod2. intros a Ha. destruct (div_lt _ _ _ Ha) as (Hd & Hm & Ea). cbn [dat].
    rewrite Ea at 1. rewrite nth_concat; auto; [|rewrite HL; auto].
    unfold rows. rewrite (nth_map_gen _ _ _ _ _ [] 0) by (rewrite seq_length; auto). rewrite seq_nth by auto.
    rewrite (nth_map_gen _ _ _ _ _ NaN 0) by (rewrite seq_length; auto). rewrite seq_nth by auto.
    cbn [Nat.add]. rewrite prod2, cols_row by auto. rewrite <- nsum_fvec. unfold fvec. f_equal. apply map_ext_in.
    intros k Hk. apply in_seq in Hk. rewrite H by lia. change (map (fun i => Fin (x i)) (seq 0 (c * l))) with (fvec (c * l) x).
    rewrite nth_fvec by nia. auto.
Qed.
Definition sp_in (r c : nat) (p : prim) : nat := match p with PZ => c | PZt => r end.
Definition sp_mat (Zm : nat -> nat -> R) (p : prim) : nat -> nat -> R := match p with PZ => Zm | PZt => Rtrans Zm end.
Lemma sp_acts_vec : forall z r c Zm p, ndim z = 2 -> is_array r c Zm (matrix_of z) ->
  acts [sp_in r c p] [sp_in r c (other p)] (sp_apply z p) (sp_mat Zm p).
Proof.
  intros z r c Zm p Hz H x. unfold sp_apply. rewrite Hz. cbn -[matmul_nd matrix_of].
  destruct p; cbn [other sp_in sp_mat].
  - apply (matmul_vec_acts _ _ _ _ H).
  - apply (matmul_vec_acts _ _ _ _ (array_trans _ _ _ _ H)).
Qed.
Lemma sp_acts_mat : forall z r c l Zm p, ndim z = 2 -> is_array r c Zm (matrix_of z) ->
  acts [sp_in r c p; l] [sp_in r c (other p); l] (sp_apply z p) (cols_mat l (sp_mat Zm p)).
Proof.
  intros z r c l Zm p Hz H x. unfold sp_apply. rewrite Hz. cbn -[matmul_nd matrix_of].
  destruct p; cbn [other sp_in sp_mat].
  - apply (matmul_mat_acts _ _ _ _ _ H).
  - apply (matmul_mat_acts _ _ _ _ _ (array_trans _ _ _ _ H)).
Qed.
Lemma other_other : forall p, other (other p) = p.
Proof. destruct p; auto. Qed.
Lemma sp_mat_other : forall Zm p, sp_mat Zm (other p) = Rtrans (sp_mat Zm p).
Proof. destruct p; auto. Qed.

(** The products, and their derivatives to every order. *)
Lemma sparse_product_value : forall z r c Zm x, shp z = [r; c] -> is_array r c Zm (matrix_of z) ->
  sp_apply z PZ (farr [c] x) = Ok (farr [r] (fun i => Rsum c (fun j => Zm i j * x j)%R)) /\
  (forall y, sp_apply z PZt (farr [r] y) = Ok (farr [c] (fun j => Rsum r (fun i => Zm i j * y i)%R))) /\
  (forall l X, sp_apply z PZ (farr [c; l] X) =
     Ok (farr [r; l] (fun a => Rsum c (fun j => Zm (a / l)%nat j * X (j * l + a mod l)%nat)%R))) /\
  (forall l Y, sp_apply z PZt (farr [r; l] Y) =
     Ok (farr [c; l] (fun a => Rsum r (fun i => Zm i (a / l)%nat * Y (i * l + a mod l)%nat)%R))).
Proof.
  intros z r c Zm x Hs H. assert (ndim z = 2) as Hz by (unfold ndim; rewrite Hs; auto).
  split; [|split; [|split]].
  - rewrite (sp_acts_vec z r c Zm PZ Hz H). rewrite prod1. auto.
  - intros y. rewrite (sp_acts_vec z r c Zm PZt Hz H). rewrite prod1. auto.
  - intros l X. rewrite (sp_acts_mat z r c l Zm PZ Hz H). f_equal. unfold farr. f_equal. apply fvec_ext.
    intros a Ha. cbn [sp_in other] in *. rewrite prod2 in *. apply cols_row. apply (div_lt _ _ _ Ha).
  - intros l X. rewrite (sp_acts_mat z r c l Zm PZt Hz H). f_equal. unfold farr. f_equal. apply fvec_ext.
    intros a Ha. cbn [sp_in other] in *. rewrite prod2 in *. apply cols_row. apply (div_lt _ _ _ Ha).
Qed.
Lemma sparse_product_derivatives : forall z r c Zm tail p path b, shp z = [r; c] ->
  is_array r c Zm (matrix_of z) -> length tail <= 1 ->
  exists m m', (derived p path = PZ /\ m = c /\ m' = r \/ derived p path = PZt /\ m = r /\ m' = c) /\
    exact_derivative (m :: tail) (m' :: tail) (sp_apply z (derived p path)) (sp_jvp z (derived p path) b) /\
    adjoint (m :: tail) (m' :: tail) (sp_jvp z (derived p path) b) (sp_vjp z (derived p path) b).
Proof.
  intros z r c Zm tail p path b Hs H Ht. assert (ndim z = 2) as Hz by (unfold ndim; rewrite Hs; auto).
  set (q := derived p path). exists (sp_in r c q), (sp_in r c (other q)).
  split; [destruct q; auto|]. unfold sp_jvp, sp_vjp.
  destruct tail as [|l [|]]; [| |simpl in Ht; lia].
  - pose proof (sp_acts_vec z r c Zm q Hz H) as HA. split.
    + apply (acts_derivative _ _ _ _ _ HA HA).
    + apply (acts_adjoint _ _ _ _ _ HA). pose proof (sp_acts_vec z r c Zm (other q) Hz H) as HB.
      rewrite other_other, sp_mat_other in HB. auto.
  - pose proof (sp_acts_mat z r c l Zm q Hz H) as HA. split.
    + apply (acts_derivative _ _ _ _ _ HA HA).
    + apply (acts_adjoint _ _ _ _ _ HA). pose proof (sp_acts_mat z r c l Zm (other q) Hz H) as HB.
      rewrite other_other in HB. eapply acts_ext; [exact HB|].
      intros i j _ _. unfold cols_mat, Rtrans. rewrite (Nat.eqb_sym (j mod l)), sp_mat_other. auto.
Qed.
(** Which primitive: the parity of the reverse steps. *)
Lemma derived_parity : forall p path,
  derived p path = if Nat.even (length (filter (fun s => match s with Reverse => true | Forward => false end) path))
                   then p else other p.
Proof.
  intros p path. revert p. induction path as [|[|] path IH]; intros p; auto.
  - cbn [filter]. change (derived p (Forward :: path)) with (derived p path). apply IH.
  - cbn [filter length]. change (derived p (Reverse :: path)) with (derived (other p) path). rewrite IH.
    rewrite Nat.even_succ, <- Nat.negb_even. destruct (Nat.even _); cbn [negb]; auto using other_other.
Qed.
Lemma sparse_product_errors : forall z p b,
  (ndim z <> 2 -> sp_apply z p b = Err ValueError) /\
  (2 < ndim b -> sp_apply z p b = Err ValueError) /\
  (forall k tail, shp b = k :: tail -> nd_ok b -> length tail <= 1 ->
     k <> (match p with PZ => nth 1 (shp z) 0 | PZt => nth 0 (shp z) 0 end) -> sp_apply z p b = Err ValueError).
Proof.
  intros z p b. unfold sp_apply. split; [|split].
  - intros H. rewrite (proj2 (Nat.eqb_neq _ _)) by auto. auto.
  - intros H. destruct (negb (ndim z =? 2)); auto.
    unfold atleast_1d. unfold ndim in *. destruct (shp b) eqn:E; [simpl in H; lia|]. rewrite E.
    rewrite (proj2 (Nat.ltb_lt _ _)) by auto. auto.
  - intros k tail Hb Hok Ht Hk. destruct (negb (ndim z =? 2)); auto.
    unfold atleast_1d. rewrite Hb. unfold ndim. rewrite Hb. destruct tail as [|l [|]]; [| |simpl in Ht; lia];
      cbn [length Nat.ltb Nat.leb]; unfold matmul_nd; rewrite Hb.
    + unfold matvec. red in Hok. rewrite Hb, prod1 in Hok. rewrite Hok.
      rewrite (proj2 (Nat.eqb_neq _ _)); auto. destruct p; auto.
    + rewrite (proj2 (Nat.eqb_neq _ _)); auto. destruct p; auto.
Qed.

(** ** solvers *)
Lemma farr1 : forall n f, farr [n] f = mkNd [n] (fvec n f).
Proof. intros. unfold farr. rewrite prod1. auto. Qed.
Lemma solves_acts : forall n M f, solves n M f -> exists B, inverse_matrices n M B /\ acts [n] [n] f B.
Proof.
  intros n M f H.
  destruct (solver_matrix n M (fun l => r <- f (mkNd [n] l) ;; Ok (dat r))) as (B & HI & HB).
  - intros y. destruct (H y) as (x & Hx & Hs). rewrite farr1 in Hx. exists x. rewrite Hx. cbn [bind farr dat].
    rewrite prod1. auto.
  - exists B. split; auto. intros x. destruct (H x) as (y & Hy & _). specialize (HB x). cbn beta in HB.
    rewrite <- farr1, Hy in HB. cbn [bind farr dat] in HB. rewrite prod1 in HB. injection HB as HB.
    rewrite Hy. rewrite !farr1, HB, prod1. auto.
Qed.
Lemma inverse_trans : forall n M B, inverse_matrices n M B -> inverse_matrices n (Rtrans M) (Rtrans B).
Proof.
  intros n M B (H1 & H2). split; intros i j Hi Hj.
  - pose proof (H2 j i Hj Hi) as E. unfold Rmatmul, Rtrans, Rid in *. rewrite (Nat.eqb_sym i j), <- E.
    apply Rsum_ext. intros; ring.
  - pose proof (H1 j i Hj Hi) as E. unfold Rmatmul, Rtrans, Rid in *. rewrite (Nat.eqb_sym i j), <- E.
    apply Rsum_ext. intros; ring.
Qed.
Lemma solver_derivatives : forall n Zm zs zts p path b,
  solves n Zm zs -> solves n (Rtrans Zm) zts ->
  exact_derivative [n] [n] (solve_apply zs zts (derived p path)) (solve_jvp zs zts (derived p path) b) /\
  adjoint [n] [n] (solve_jvp zs zts (derived p path) b) (solve_vjp zs zts (derived p path) b) /\
  solves n (match derived p path with PZ => Zm | PZt => Rtrans Zm end) (solve_apply zs zts (derived p path)).
Proof.
  intros n Zm zs zts p path b H1 H2. set (q := derived p path).
  destruct (solves_acts _ _ _ H1) as (B & (HB1 & HB2) & HB). destruct (solves_acts _ _ _ H2) as (C & (HC1 & HC2) & HC).
  destruct (inverse_trans n Zm B (conj HB1 HB2)) as (HT1 & HT2).
  assert (Rmat_eq n C (Rtrans B)) as E by (apply (inverse_unique n (Rtrans Zm)); auto).
  assert (forall q, acts [n] [n] (solve_apply zs zts q) (sp_mat B q)) as HA.
  { intros [|]; cbn [sp_mat solve_apply]; auto. apply (acts_ext _ _ _ C); auto. rewrite prod1. auto. }
  split; [|split].
  - apply (acts_derivative _ _ _ _ _ (HA q) (HA q)).
  - apply (acts_adjoint _ _ _ _ _ (HA q)). rewrite <- sp_mat_other. apply HA.
  - destruct q; auto.
Qed.
