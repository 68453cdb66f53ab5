(** * Concrete cases and counterexamples for the autograd supplements. *)
From Coq Require Import Reals Lra Lia ZArith.
From Verif Require Import Base Num Nd Spec ListFacts NumFacts CholFacts Jac JacBase SpecJac Optim SpecOptim LinAlg OptimFacts
  OptimHist DemoOptim DetFacts AdSupp SpecAd AdFacts AdMore AdSparse AdMat.
Local Open Scope list_scope.
Local Open Scope nat_scope.

Ltac feq := repeat match goal with
  | |- Fin _ = Fin _ => f_equal; try lra
  | |- _ :: _ = _ :: _ => f_equal
  | |- Ok _ = Ok _ => f_equal
  | |- mkNd _ _ = mkNd _ _ => f_equal
  | |- ?a = ?a => reflexivity
  end.
(** Labels 0, 2 and -3 of three groups: the first and the last are the same group. *)
Definition demo_labels : list Z := [0; 2; -3]%Z.
Definition demo_x : nd num := mkNd [3; 2] (map Fin [1; 2; 3; 4; 5; 6]%R).
Lemma grouped_case : nd_ok demo_x /\ shp demo_x = [length demo_labels; 2] /\ demo_labels <> [] /\
  Forall (in_range 3) demo_labels /\ group_count 3 demo_labels (Some 3%Z) /\
  grouped_sum demo_x (GInt (vec demo_labels)) (Some 3%Z) = Ok (mkNd [3; 2] (map Fin [6; 8; 0; 0; 3; 4]%R)) /\
  grouped_sum_vjp (GInt (vec demo_labels)) (Some 3%Z) (mkNd [3; 2] (map Fin [1; 2; 3; 4; 5; 6]%R)) =
    Ok (mkNd [3; 2] (map Fin [1; 2; 5; 6; 1; 2]%R)).
Proof.
  split; [reflexivity|]. split; [reflexivity|]. split; [discriminate|]. split.
  - repeat constructor; unfold in_range; simpl; lia.
  - split; [left; reflexivity|]. split.
    + cbv -[Rplus IZR]. feq.
    + cbv -[Rplus IZR]. feq.
Qed.
(** Without [num_groups] the largest label counts; a label beyond the end raises. *)
Lemma grouped_error_case :
  grouped_sum (vec (map Fin [1; 2]%R)) (GInt (vec [0; 4]%Z)) (Some 4%Z) = Err ValueError /\
  grouped_sum (vec (map Fin [1; 2]%R)) (GInt (vec [0]%Z)) None = Err ValueError /\
  grouped_sum (vec (map Fin [1; 2]%R)) (GInt (vec [0; -3]%Z)) (Some 2%Z) = Err IndexError /\
  group_count 2 [1; -1]%Z None /\
  grouped_sum (vec (map Fin [1; 2]%R)) (GInt (vec [1; -1]%Z)) None = Ok (vec (map Fin [0; 3]%R)).
Proof.
  split; [reflexivity|]. split; [reflexivity|]. split; [reflexivity|]. split.
  - right. split; auto. simpl. auto.
  - cbv -[Rplus IZR]. feq.
Qed.
(** Labels given as floats or booleans: the forward rule works, the reverse rule does
    not. *)
Lemma float_labels_refuted : exists x num, (exists r, grouped_sum_jvp (GFloat x) num (farr [2] (fun _ => 1%R)) = Ok r) /\
  forall v, grouped_sum_vjp (GFloat x) num v = Err IndexError.
Proof.
  exists (mkNd [2] (map (fun z => Fin (IZR z)) [0; 1]%Z)), None. split; [|intros; apply grouped_vjp_float].
  unfold grouped_sum_jvp. rewrite grouped_sum_float_labels. eexists. reflexivity.
Qed.
Lemma bool_labels_refuted : exists b num,
  exact_derivative [2] [2] (fun x => grouped_sum x (GBool b) num) (grouped_sum_jvp (GBool b) num) /\
  ~ adjoint [2] [2] (grouped_sum_jvp (GBool b) num) (grouped_sum_vjp (GBool b) num).
Proof.
  exists (mkNd [2] [true; false]), None.
  assert (forall x, grouped_sum (farr [2] x) (GBool (mkNd [2] [true; false])) None =
    grouped_sum (farr [2] x) (GInt (vec [1; 0]%Z)) None) as E by reflexivity.
  destruct (grouped_sum_derivatives [1; 0]%Z None 2 []) as (HD & _).
  - discriminate.
  - repeat constructor; unfold in_range; simpl; lia.
  - right. split; auto. simpl. auto.
  - split.
    + intros x u. destruct (HD x u) as (y & d & H1 & H2 & H3). exists y, d. split; [exact H1|]. split; [exact H2|exact H3].
    + intros HA. destruct (HA (fun _ => 0%R) (fun _ => 0%R)) as (d & w & _ & H & _). discriminate H.
Qed.

(** *** replace *)
Definition demo_r : nd num := vec (map Fin [1; 2; 3]%R).
Lemma replace_case : nd_ok demo_r /\ Forall (in_range 3) [0; -1]%Z /\ distinct_rows 3 [0; -1]%Z /\
  last_at 3 [0; -1]%Z 2 1 /\
  replace_at [demo_x; demo_r] (vec (map Fin [7; 8]%R)) 1 (IInt [0; -1]%Z) =
    (Ok 2, [demo_x; demo_r; vec (map Fin [7; 2; 8]%R)]) /\
  replace (vec (map Fin [7; 8]%R)) demo_r (IInt [1; -2]%Z) = Ok (vec (map Fin [1; 8; 3]%R)) /\
  replace (scalar (Fin 5)) demo_x (IInt [1]%Z) = Ok (mkNd [3; 2] (map Fin [1; 2; 5; 5; 5; 6]%R)) /\
  replace (vec (map Fin [7; 8]%R)) demo_r (IBool [true; false; true]) = Ok (vec (map Fin [7; 2; 8]%R)) /\
  replace (vec (map Fin [7; 8]%R)) demo_r (IInt [0; 3]%Z) = Err IndexError.
Proof.
  split; [reflexivity|]. split; [repeat constructor; unfold in_range; simpl; lia|]. split.
  - intros p q k Hp Hq. destruct p as [|[|p]]; [| |simpl in Hp; lia]; (destruct q as [|[|q]]; [| |simpl in Hq; lia]);
      auto; unfold belongs; cbn [nth]; intros H1 H2; exfalso;
      apply orb_prop in H1; apply orb_prop in H2; rewrite !Z.eqb_eq in *; lia.
  - split.
    + split; [simpl; lia|]. split; [reflexivity|]. intros q H1 H2. simpl in H2. lia.
    + repeat split.
Qed.
(** A repeated index: the reverse rule counts the overwritten value. *)
Lemma duplicate_refuted : exists l n x, Forall (in_range n) l /\
  exact_derivative [length l] [n] (fun u => replace u (farr [n] x) (IInt l)) (replace_jvp_sub (farr [n] x) (IInt l)) /\
  ~ adjoint [length l] [n] (replace_jvp_sub (farr [n] x) (IInt l)) (replace_vjp_sub (IInt l)).
Proof.
  exists [0; 0]%Z, 1, (fun _ => 0%R).
  assert (Forall (in_range 1) [0; 0]%Z) as Hr by (repeat constructor; unfold in_range; simpl; lia).
  split; auto. destruct (replace_derivatives [0; 0]%Z 1 [] (fun _ => 0%R) (fun _ => 0%R) Hr) as (HD & _).
  split; [exact HD|]. intros HA.
  destruct (HA (fun i => match i with 0 => 1%R | _ => 0%R end) (fun _ => 1%R)) as (d & w & H1 & H2 & H3).
  cbn in H1, H2, H3. injection H1 as H1. injection H2 as H2 H2'. rewrite <- H1, <- H2, <- H2' in H3. lra.
Qed.
(** Replacing rows of a matrix: the value is computed, the forward rule raises. *)
Lemma matrix_rows_refuted : exists x x_sub l, (exists r, replace x_sub x (IInt l) = Ok r) /\
  replace_jvp_sub x (IInt l) x_sub = Err ValueError.
Proof. exists demo_x, (mkNd [1; 2] (map Fin [7; 8]%R)), [1]%Z. split; [eexists|]; reflexivity. Qed.
(** Replacing by a number: the reverse rule returns a vector, not a number. *)
Lemma number_refuted : exists n l, Forall (in_range n) l /\ distinct_rows n l /\
  (forall x, exact_derivative [] [n] (fun u => replace u (farr [n] x) (IInt l)) (replace_jvp_sub (farr [n] x) (IInt l))) /\
  forall x, ~ adjoint [] [n] (replace_jvp_sub (farr [n] x) (IInt l)) (replace_vjp_sub (IInt l)).
Proof.
  exists 2, [0; 1]%Z. split; [repeat constructor; unfold in_range; simpl; lia|]. split; [|split].
  - intros p q k Hp Hq. destruct p as [|[|p]]; [| |simpl in Hp; lia]; (destruct q as [|[|q]]; [| |simpl in Hq; lia]);
      auto; unfold belongs; cbn [nth]; intros H1 H2; exfalso;
      apply orb_prop in H1; apply orb_prop in H2; rewrite !Z.eqb_eq in *; lia.
  - intros x y u. exists (fun _ => y 0), (fun _ => u 0). split; [reflexivity|]. split; [reflexivity|]. intros; reflexivity.
  - intros x HA. destruct (HA (fun _ => 0%R) (fun _ => 0%R)) as (d & w & _ & H & _). discriminate H.
Qed.

(** *** sparse products *)
Definition demo_z : nd num := mkNd [2; 3] (map Fin [1; 2; 0; 0; 1; 3]%R).
Definition demo_zm : nat -> nat -> R := fun i j => nth (i * 3 + j) [1; 2; 0; 0; 1; 3]%R 0%R.
Lemma ad_sparse_case : shp demo_z = [2; 3] /\ is_array 2 3 demo_zm (matrix_of demo_z) /\
  sp_apply demo_z PZ (vec (map Fin [1; 1; 1]%R)) = Ok (vec (map Fin [3; 4]%R)) /\
  sp_apply demo_z PZt (mkNd [2; 1] (map Fin [1; 1]%R)) = Ok (mkNd [3; 1] (map Fin [1; 3; 3]%R)) /\
  derived PZ [Forward; Reverse; Reverse; Reverse] = PZt /\
  sp_apply demo_z PZ (vec (map Fin [1; 1]%R)) = Err ValueError /\
  sp_apply (vec (map Fin [1; 1]%R)) PZ (vec (map Fin [1; 1]%R)) = Err ValueError.
Proof.
  split; [reflexivity|]. split; [|split; [|split]].
  - repeat split. intros i j Hi Hj. destruct i as [|[|i]]; [| |lia]; destruct j as [|[|[|j]]]; try lia; reflexivity.
  - cbv -[Rplus Rmult IZR]. feq.
  - cbv -[Rplus Rmult IZR]. feq.
  - repeat split.
Qed.
Lemma ad_solver_case : solves 2 demo_a (matmul_nd (fmat 2 demo_b)) /\
  solves 2 (Rtrans demo_a) (matmul_nd (fmat 2 (Rtrans demo_b))).
Proof.
  assert (forall A B, inverse_matrices 2 A B -> solves 2 A (matmul_nd (fmat 2 B))) as H.
  { intros A B (H1 & _) b. exists (Rmatvec 2 B b). split.
    - rewrite (matmul_vec_acts 2 2 B _ (array_fmat 2 B)). reflexivity.
    - intros i Hi. rewrite <- mv_mm, (mv_ext 2 _ Rid b b i Hi H1) by auto. apply mv_id; auto. }
  split; apply H; [apply demo_inverse|apply inverse_trans, demo_inverse].
Qed.

(** *** matrix functions: routines meeting the contracts in every dimension *)
Definition fin_part (a : num) : R := match a with Fin r => r | _ => 0%R end.
Definition real_part (s : matrix) : nat -> nat -> R := fun i j => fin_part (m_at s i j).
Definition det_inv (s : matrix) : res matrix :=
  Ok (fmat (m_rows s) (det_inverse (m_rows s) (real_part s))).
Definition det_solve (s : matrix) (b : arr12) : res arr12 :=
  let n := m_rows s in
  let i := det_inverse n (real_part s) in
  match b with
  | A1 v => Ok (A1 (fvec n (Rmatvec n i (fun k => fin_part (nth k v NaN)))))
  | A2 m => Ok (A2 (mkMat n (m_cols m) (fun p q => Fin (Rmatvec n i (fun k => fin_part (m_at m k q)) p))))
  end.
Lemma inverse_ext : forall n a a' b b', Rmat_eq n a a' -> Rmat_eq n b b' -> inverse_matrices n a' b' ->
  inverse_matrices n a b.
Proof.
  intros n a a' b b' Ea Eb (H1 & H2). split.
  - apply (meq_trans n _ (Rmatmul n a' b')); auto. apply mm_ext; auto.
  - apply (meq_trans n _ (Rmatmul n b' a')); auto. apply mm_ext; auto.
Qed.
Lemma det_inverse_array : forall n a s, is_array n n a s -> invertible n a ->
  inverse_matrices n a (det_inverse n (real_part s)).
Proof.
  intros n a s (_ & _ & H) (b & Hb).
  assert (Rmat_eq n (det_inverse n (real_part s)) b) as E.
  { apply det_inverse_ok. destruct Hb as (H1 & H2).
    assert (Rmat_eq n (real_part s) a) as Ea by (intros i j Hi Hj; unfold real_part; rewrite H by auto; auto).
    apply (inverse_ext n _ a _ b); auto using meq_refl. split; auto. }
  apply (inverse_ext n _ a _ b); auto using meq_refl.
Qed.
Lemma det_inv_ok : inverter det_inv.
Proof.
  intros n a s Ha Hi. pose proof (det_inverse_array n a s Ha Hi) as H. destruct Ha as (Hr & _).
  exists (det_inverse n (real_part s)), (fmat n (det_inverse n (real_part s))).
  split; [unfold det_inv; rewrite Hr; auto|]. split; auto. apply array_fmat.
Qed.
Lemma det_solve_ok : linear_solver det_solve.
Proof.
  intros n a s Ha Hi. pose proof (det_inverse_array n a s Ha Hi) as (H & _). destruct Ha as (Hr & _).
  unfold det_solve. rewrite Hr. split.
  - intros b. eexists. split; [reflexivity|]. intros i Hi'.
    change (Rmatvec n a (Rmatvec n (det_inverse n (real_part s)) (fun k => fin_part (nth k (fvec n b) NaN))) i = b i).
    rewrite <- mv_mm, (mv_ext n _ Rid _ b i Hi' H); [apply mv_id; auto|].
    intros k Hk. rewrite nth_fvec by auto. auto.
  - intros m b bs (Hb1 & Hb2 & Hb3). rewrite Hb2.
    exists (fun i j => Rmatvec n (det_inverse n (real_part s)) (fun k => fin_part (m_at bs k j)) i). eexists.
    split; [reflexivity|]. split; [repeat split; auto|]. intros i j Hi' Hj.
    change (Rmatvec n a (Rmatvec n (det_inverse n (real_part s)) (fun k => fin_part (m_at bs k j))) i = b i j).
    rewrite <- mv_mm, (mv_ext n _ Rid _ (fun k => b k j) i Hi' H); [apply (mv_id n (fun k => b k j)); auto|].
    intros k Hk. rewrite Hb3 by auto. auto.
Qed.
Lemma matrix_case : inverter det_inv /\ linear_solver det_solve /\ invertible 2 demo_a /\ det 2 demo_a = 2%R /\
  (exists j, inv_jvp (fmat 2 Rid) (fmat 2 demo_b) = Ok j /\ is_array 2 2 (m2 (- 1 / 4) (3 / 4) 0 (- 1)) j) /\
  slogdet_jvp det_solve 2 (fmat 2 Rid) (fmat 2 demo_a) = Ok (Fin 0, Fin (3 / 2)).
Proof.
  split; [apply det_inv_ok|]. split; [apply det_solve_ok|]. split; [exists demo_b; apply demo_inverse|]. split.
  - cbn. lra.
  - split.
    + eexists. split; [reflexivity|]. repeat split; auto. two; cbn -[Rplus Rmult]; f_equal; cbv [demo_b m2 Rid]; cbn [Nat.eqb]; lra.
    + unfold slogdet_jvp, det_solve. cbn [Nat.ltb Nat.leb bind]. do 2 f_equal.
      cbv -[Rplus Rmult Rdiv IZR Ropp Rinv pow]. f_equal. field.
Qed.

(** *** special functions: a family with a known derivative *)
Definition demo_ga (x : R) : R := (- exp (x * x / 2))%R.
Definition demo_po (n : nat) (x : R) : R := match n with 0 => x | 1 => 1%R | _ => 0%R end.
Lemma special_case : gamma_family (fun _ => True) demo_ga demo_po /\
  exists gamma gammaln rgamma psi polygamma gammasgn,
    computes (fun _ => True) gamma demo_ga /\ computes (fun _ => True) gammaln (fun x => ln (Rabs (demo_ga x))) /\
    computes (fun _ => True) rgamma (fun x => / demo_ga x)%R /\ computes (fun _ => True) psi (demo_po 0) /\
    (forall n, computes (fun _ => True) (polygamma n) (demo_po n)) /\
    computes (fun _ => True) gammasgn (fun _ => (-1)%R) /\
    (forall x, (-1)%R = if Rltb 0 (demo_ga x) then 1%R else (-1)%R) /\
    gamma_jvp psi (Fin 2) (gamma (Fin 1)) (Fin 1) = Fin (2 * - exp (1 * 1 / 2) * 1).
Proof.
  split.
  - split; [|split].
    + intros x _. exists 1%R. split; [lra|auto].
    + intros x _. unfold demo_ga. pose proof (exp_pos (x * x / 2)). split; [lra|].
      replace (- exp (x * x / 2) * demo_po 0%nat x)%R
        with (- (exp (x * x / 2) * ((1 * x + x * 1) * / 2 + x * x * 0)))%R by (unfold demo_po; field).
      apply (derivable_pt_lim_opp (fun x => exp (x * x / 2))).
      apply (derivable_pt_lim_comp (fun x => x * x / 2)%R exp).
      * apply (derivable_pt_lim_mult (fun x => x * x)%R (fun _ => / 2)%R); [|apply derivable_pt_lim_const].
        apply (derivable_pt_lim_mult (fun x => x) (fun x => x)); apply derivable_pt_lim_id.
      * apply derivable_pt_lim_exp.
    + intros n x _. destruct n as [|[|n]]; cbn [demo_po];
        [apply derivable_pt_lim_id|apply derivable_pt_lim_const|apply derivable_pt_lim_const].
  - set (lift := fun (F : R -> R) (a : num) => match a with Fin x => Fin (F x) | _ => NaN end).
    exists (lift demo_ga), (lift (fun x => ln (Rabs (demo_ga x)))), (lift (fun x => / demo_ga x)%R), (lift (demo_po 0)),
      (fun n => lift (demo_po n)), (lift (fun _ => (-1)%R)).
    repeat (split; [intro; reflexivity || (intros ? ?; reflexivity)|]).
    split; [|reflexivity]. intros x. unfold Rltb, demo_ga. destruct (Rlt_dec 0 (- exp (x * x / 2))) as [H|H]; auto.
    pose proof (exp_pos (x * x / 2)). lra.
Qed.
