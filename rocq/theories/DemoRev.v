(** * Back substitution as [np.linalg.solve], and the Jacobians of the demo. *)
From Coq Require Import Reals Lra Lia List.
From Verif Require Import Base Num Nd Numeric Simplex Psd Pattern Spec ListFacts PatFacts NonFree
  NumFacts CholFacts Free Contract Jac SpecJac JacBase JacFacts JacMore JacPsd CholDiff PsdDiff
  FunWrap Api SpecOptim SpecEnd EndFacts GradFacts RevPsd SpecRev RevFacts RevGrad Demo DemoJac DemoAlong DemoEnd.
Import ListNotations.
Local Open Scope list_scope.
Local Open Scope nat_scope.

(** Rows [n - m .. n - 1] of the solution of [a x = b]. *)
Fixpoint back_rows (n : nat) (a b : mat) (m : nat) : mat :=
  match m with
  | O => fun _ _ => Fin 0
  | S m' =>
      let x := back_rows n a b m' in
      let i := n - m in
      fun r j =>
        if r =? i then
          ndiv (nsub (b i j) (nsum (map (fun k => nmul (a i k) (x k j)) (seq (S i) m')))) (a i i)
        else x r j
  end.
Definition back_subst (n : nat) (a b : mat) : res mat := Ok (back_rows n a b n).

Lemma nsum_range : forall o m f, nsum (map (fun k => Fin (f k)) (seq o m)) = Fin (Rsum m (fun k => f (o + k))).
Proof.
  intros o m f. rewrite <- (nsum_seq m (fun k => f (o + k))).
  replace (seq o m) with (map (fun k => o + k) (seq 0 m)).
  - rewrite map_map. auto.
  - revert o. induction m; intros o; auto. cbn [seq map]. f_equal; [lia|].
    rewrite <- (IHm (S o)), <- seq_shift, map_map. apply map_ext. intros. lia.
Qed.

Lemma back_rows_ok : forall n a b ra rb,
  (forall i j, i < n -> j < n -> a i j = Fin (ra i j)) ->
  (forall i j, i < n -> j < n -> b i j = Fin (rb i j)) ->
  (forall i, i < n -> ra i i <> 0%R) ->
  forall m, m <= n -> exists rx : nat -> nat -> R,
    (forall i j, n - m <= i -> i < n -> j < n -> back_rows n a b m i j = Fin (rx i j)) /\
    (forall i j, n - m <= i -> i < n -> j < n ->
       (ra i i * rx i j + Rsum (n - S i) (fun k => ra i (S i + k)%nat * rx (S i + k)%nat j) = rb i j)%R).
Proof.
  intros n a b ra rb Ha Hb Hd. induction m; intros Hm.
  - exists (fun _ _ => 0%R). split; intros; lia.
  - destruct (IHm ltac:(lia)) as (rx & H1 & H2). set (i := n - S m).
    exists (fun r j => if r =? i then
        ((rb i j - Rsum m (fun k => ra i (S i + k)%nat * rx (S i + k)%nat j)) / ra i i)%R else rx r j).
    split.
    + intros r j Hr Hrn Hj. cbn [back_rows]. fold i. destruct (Nat.eqb_spec r i) as [->|Hne].
      * rewrite Hb, Ha by (unfold i; lia).
        rewrite (map_ext_in _ (fun k => Fin (ra i k * rx k j)%R)).
        -- rewrite nsum_range. unfold nsub. cbn [nneg nadd]. rewrite ndiv_fin by (apply Hd; unfold i; lia).
           f_equal. 
        -- intros k Hk. apply in_seq in Hk. rewrite Ha, H1 by (unfold i in *; lia). auto.
      * apply H1; unfold i in *; lia.
    + intros r j Hr Hrn Hj.
      rewrite (Rsum_ext (n - S r) _ (fun k => ra r (S r + k)%nat * rx (S r + k)%nat j)%R).
      2:{ intros k Hk. destruct (Nat.eqb_spec (S r + k) i); [unfold i in *; lia|reflexivity]. }
      destruct (Nat.eqb_spec r i) as [->|Hne].
      * replace (n - S i) with m by (unfold i; lia). field. apply Hd. auto.
      * apply H2; unfold i in *; lia.
Qed.

Lemma back_subst_solves : solves back_subst.
Proof.
  intros n a b ra rb Ha Hb Hu Hd. destruct (back_rows_ok n a b ra rb Ha Hb Hd n (le_n n)) as (rx & H1 & H2).
  exists (back_rows n a b n), rx. split; [reflexivity|]. split; [intros; apply H1; lia|].
  intros i j Hi Hj. rewrite <- (H2 i j) by lia.
  replace n with (i + (1 + (n - S i))) at 1 by lia. rewrite Rsum_app, (Rsum_app 1).
  rewrite (Rsum_zero i) by (intros k Hk; rewrite Hu by lia; ring). cbn [Rsum].
  rewrite Nat.add_0_r.
  rewrite (Rsum_ext (n - S i) (fun k => ra i (i + (1 + k))%nat * rx (i + (1 + k))%nat j)%R (fun k => ra i (S i + k)%nat * rx (S i + k)%nat j)%R).
  - ring.
  - intros k Hk. replace (i + (1 + k)) with (S i + k) by lia. auto.
Qed.

Lemma demo_psds : psds_nonempty demo.
Proof. cbn. repeat split; auto. Qed.

Lemma reverse_case :
  solves back_subst /\ usable demo /\ simplexes_nonempty demo /\ psds_nonempty demo /\
  interior demo demo_value /\ ~ no_psd demo /\ tangent demo demo_direction.
Proof.
  destruct along_case as (H1 & H2 & H3 & H4 & _ & H5).
  repeat (split; [solve [auto using back_subst_solves, demo_psds]|]). auto.
Qed.

(** The entries of the freeing Jacobian of the two by two member in its second row:
    both off-diagonal entries of the matrix have half of the derivative. *)
Lemma reverse_entries : forall J,
  jacobian (reverse_ad back_subst) true d_cov (FArr (mkNd [2; 2] [Fin 3; Fin 1; Fin 1; Fin 3])) = Ok J ->
  m_at J 1 1 = Fin (/ (2 * sqrt 2)) /\ m_at J 1 2 = Fin (/ (2 * sqrt 2)).
Proof.
  intros J HJ. destruct symmetrised_case as (_ & Hu & Hi & _).
  destruct (reverse_free_leaf back_subst d_cov _ back_subst_solves Hu ltac:(cbn; lia) Hi I) as (A & B).
  specialize (B 2 3 (PyInt 1) true None J eq_refl HJ 1 0 1 ltac:(lia) ltac:(lia)). cbn [Nat.mul Nat.add] in B.
  destruct A as (J' & x & y & HJ' & Hx & Hy & HD). rewrite HJ in HJ'. injection HJ' as <-.
  assert (x = [3; 1; 1; 3]%R) as ->.
  { unfold flatten, flatten_gen in Hx. cbn [free_with_default bind] in Hx. unfold d_cov in Hx. cbn [flatten_] in Hx.
    rewrite interior_require in Hx by auto. cbn [bind dat] in Hx.
    injection Hx as Hx. symmetry. apply (map_fin_inj' [3; 1; 1; 3]%R). exact Hx. }
  set (h := [0; 1; 1; 0]%R).
  assert (symmetric_direction 2 h) as Hh.
  { split; [reflexivity|]. intros [|[|i]] [|[|j]] H1 H2; try lia; reflexivity. }
  assert (pivots_pos 2 1 [3; 1; 1; 3]%R) as Hp.
  { destruct (psd_vectors 2 3 (PyInt 1) true None _ Hu Hi) as (c & xf & Hc & Lxf & Hfree & Hflat).
    cbn in Hc. injection Hc as <-. cbn [flatten_] in Hflat.
    rewrite interior_require in Hflat by auto. cbn [bind dat] in Hflat. apply (f_equal (fun r => match r with Ok z => z | Err _ => [] end)) in Hflat.
    assert (flat_of 2 1 xf = [3; 1; 1; 3]%R) as E by (apply map_fin_inj'; symmetry; exact Hflat).
    rewrite <- E. apply flat_of_pivots. }
  assert (y = PsdDiff.fvec 2 1 [3; 1; 1; 3]%R) as ->.
  { pose proof (HD h Hh) as (E & _). rewrite (psd_free 2 3 (PyInt 1) true None 1) in E by auto.
    injection E as E. symmetry. apply map_fin_inj'. exact E. }
  destruct (leaf_along_inv 2 3 (PyInt 1) true None 1 [3; 1; 1; 3]%R eq_refl eq_refl Hp J h 1 eq_refl
    ltac:(cbn; lia) (HD h Hh)) as (row & Hrow & Hsum).
  rewrite !Hrow in * by lia. injection B as B.
  assert (dfree 2 1 [3; 1; 1; 3]%R h 1 = / sqrt 2)%R as Ed.
  { unfold dfree. cbn [tril seq flat_map map app nth fst snd Nat.eqb]. rewrite (dl_stable _ _ 1) by lia.
    cbn [dl Nat.eqb Nat.ltb Nat.leb Rsum]. unfold pivot, rmat, h. cbn [rl Rsum Nat.mul Nat.add nth Nat.eqb].
    replace (3 - 1 - 0)%R with 2%R by ring. pose proof (sqrt_lt_R0 2 ltac:(lra)). unfold Rsqr. field. lra. }
  rewrite Ed in Hsum. cbn [Nat.mul Nat.add Rsum nth h] in Hsum.
  pose proof (sqrt_lt_R0 2 ltac:(lra)).
  assert (row 1%nat + row 2%nat = / sqrt 2)%R as Es by lra.
  assert (/ (2 * sqrt 2) = / sqrt 2 / 2)%R as -> by (field; lra).
  split; f_equal; lra.
Qed.

Lemma reverse_gradient_case :
  usable demo /\ simplexes_nonempty demo /\ psds_nonempty demo /\ flat_length demo (Some true) = Ok (plint 10) /\
  (forall w z, admissible demo w -> flatten demo w (Some false) None = Ok (map Fin z) ->
     returns (sum_call demo) w (Rlsum z)) /\
  interior demo demo_value /\
  exists x, flatten demo demo_value (Some false) None = Ok (map Fin x) /\
     has_gradient Rlsum x (map (fun _ => 1%R) x).
Proof.
  destruct gradient_psd_case as (H1 & H2 & H3 & H4 & H5 & H6 & _). auto 10 using demo_psds.
Qed.

Lemma backward_case :
  0 < 2 /\ usable d_cov /\ interior d_cov (FArr (mkNd [2; 2] [Fin 3; Fin 1; Fin 1; Fin 3])) /\
  (forall w z, admissible d_cov w -> flatten d_cov w (Some false) None = Ok (map Fin z) ->
     returns (sum_call d_cov) w (Rlsum z)) /\
  flatten d_cov (FArr (mkNd [2; 2] [Fin 3; Fin 1; Fin 1; Fin 3])) (Some false) None = Ok (map Fin [3; 1; 1; 3]%R) /\
  has_gradient Rlsum [3; 1; 1; 3]%R [1; 1; 1; 1]%R.
Proof.
  destruct symmetrised_case as (_ & Hu & Hi & _). split; [lia|]. split; [exact Hu|]. split; [exact Hi|].
  split; [intros; apply sum_flat; auto|]. split; [|apply (sum_gradient [3; 1; 1; 3]%R)].
  unfold flatten, flatten_gen. cbn [free_with_default bind]. unfold d_cov. cbn [flatten_].
  rewrite interior_require by auto. cbn [bind dat]. reflexivity.
Qed.

(** The gradient of the sum of the entries of the matrix of a free vector
    [a, b, c]: the entries of the matrix are [exp(2a) + 1], [b exp(a)] twice and
    [b * b + exp(2c) + 1]. *)
Lemma backward_value : forall a b c,
  unpack_vjp [Fin a; Fin b; Fin c] (mat_of 2 (mkNd [2; 2] [Fin 1; Fin 1; Fin 1; Fin 1])) =
  Ok [Fin (2 * exp a * exp a + 2 * b * exp a); Fin (2 * exp a + 2 * b); Fin (2 * exp c * exp c)].
Proof.
  intros a b c. refine (eq_trans (unpack_vjp_gen 2 [a; b; c] [2; 2] [1; 1; 1; 1]%R eq_refl eq_refl) _).
  cbn. unfold dchol, chol_of. cbn. f_equal. f_equal; [|f_equal; [|f_equal]]; f_equal; ring.
Qed.
