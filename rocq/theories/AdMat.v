(** * Proofs about the forward rules for matrix functions. *)
From Coq Require Import Reals Lra Lia.
From Verif Require Import Base Num Nd Spec ListFacts NumFacts CholFacts Jac JacBase SpecJac JacMore Optim SpecOptim LinAlg
  OptimFacts OptimHist DetFacts AdSupp SpecAd AdSparse.
Local Open Scope list_scope.
Local Open Scope nat_scope.

Lemma Rsum_abs : forall n f, (Rabs (Rsum n f) <= Rsum n (fun i => Rabs (f i)))%R.
Proof.
  induction n; intros f; simpl; [rewrite Rabs_R0; lra|]. eapply Rle_trans; [apply Rabs_triang|].
  specialize (IHn f). lra.
Qed.
Lemma Rsum_le : forall n f g, (forall i, i < n -> (f i <= g i)%R) -> (Rsum n f <= Rsum n g)%R.
Proof. induction n; intros f g H; simpl; [lra|]. specialize (IHn f g). pose proof (H n). apply Rplus_le_compat; auto. Qed.
Lemma Rsum_ge0 : forall n f, (forall i, i < n -> (0 <= f i)%R) -> (0 <= Rsum n f)%R.
Proof. induction n; intros f H; simpl; [lra|]. apply Rplus_le_le_0_compat; auto. Qed.
Lemma Rsum_member : forall n f i, i < n -> (forall k, k < n -> (0 <= f k)%R) -> (f i <= Rsum n f)%R.
Proof.
  induction n; intros f i Hi H; [lia|]. simpl. destruct (Nat.eq_dec i n) as [->|].
  - pose proof (Rsum_ge0 n f ltac:(auto)). lra.
  - specialize (IHn f i ltac:(lia) ltac:(auto)). pose proof (H n ltac:(lia)). lra.
Qed.

(** Sum of absolute values. *)
Definition vnorm (n : nat) (x : nat -> R) : R := Rsum n (fun i => Rabs (x i)).
Definition mnorm (n : nat) (e : nat -> nat -> R) : R := Rsum n (fun i => Rsum n (fun k => Rabs (e i k))).
Lemma vnorm_ge0 : forall n x, (0 <= vnorm n x)%R.
Proof. intros. apply Rsum_ge0. intros; apply Rabs_pos. Qed.
Lemma mnorm_ge0 : forall n e, (0 <= mnorm n e)%R.
Proof. intros. apply Rsum_ge0. intros. apply Rsum_ge0. intros; apply Rabs_pos. Qed.
Lemma entry_norm : forall n x i, i < n -> (Rabs (x i) <= vnorm n x)%R.
Proof. intros. apply (Rsum_member n (fun i => Rabs (x i))); auto. intros; apply Rabs_pos. Qed.
Lemma mv_norm : forall n e x, (vnorm n (Rmatvec n e x) <= mnorm n e * vnorm n x)%R.
Proof.
  intros n e x. unfold mnorm. rewrite <- Rsum_scal_r. apply Rsum_le. intros i Hi. unfold Rmatvec.
  eapply Rle_trans; [apply Rsum_abs|]. rewrite <- Rsum_scal_r. apply Rsum_le. intros k Hk. rewrite Rabs_mult.
  apply Rmult_le_compat_l; [apply Rabs_pos|]. apply entry_norm; auto.
Qed.
Lemma norm_step : forall n e x y t, (forall i, i < n -> x i = (y i - t * Rmatvec n e x i)%R) ->
  (vnorm n x <= vnorm n y + Rabs t * (mnorm n e * vnorm n x))%R.
Proof.
  intros n e x y t H.
  apply Rle_trans with (vnorm n y + Rabs t * vnorm n (Rmatvec n e x))%R.
  - unfold vnorm. rewrite <- Rsum_scal, <- Rsum_plus. apply Rsum_le. intros i Hi. rewrite (H i Hi) at 1.
    unfold Rminus. eapply Rle_trans; [apply Rabs_triang|]. rewrite Rabs_Ropp, Rabs_mult. lra.
  - apply Rplus_le_compat_l, Rmult_le_compat_l; [apply Rabs_pos|apply mv_norm].
Qed.
Lemma neumann : forall n e y (x : R -> nat -> R),
  near0 (fun t => forall i, i < n -> x t i = (y i - t * Rmatvec n e (x t) i)%R) ->
  forall i, i < n -> derivable_pt_lim (fun t => x t i) 0 (- Rmatvec n e y i)%R.
Proof.
  intros n e y x (d & Hd & H) i Hi eps Heps.
  pose proof (mnorm_ge0 n e) as He. pose proof (vnorm_ge0 n y) as Hy. set (c := mnorm n e) in *.
  set (K := (2 * (c * c * vnorm n y) + 1)%R).
  assert (0 <= c * c * vnorm n y)%R as Hc by (apply Rmult_le_pos; auto; apply Rmult_le_pos; auto).
  assert (0 < K)%R as HK by (unfold K; lra).
  assert (0 < / (2 * (c + 1)))%R as H2 by (apply Rinv_0_lt_compat; lra).
  assert (0 < eps / K)%R as H3 by (apply Rdiv_lt_0_compat; auto).
  assert (0 < Rmin d (Rmin (/ (2 * (c + 1))) (eps / K)))%R as Hm by (repeat apply Rmin_glb_lt; auto).
  exists (mkposreal _ Hm). cbn [pos]. intros h Hh Hlt.
  assert (Rabs h < d)%R as L1 by (eapply Rlt_le_trans; [exact Hlt|apply Rmin_l]).
  assert (Rabs h < / (2 * (c + 1)))%R as L2.
  { eapply Rlt_le_trans; [exact Hlt|]. eapply Rle_trans; [apply Rmin_r|apply Rmin_l]. }
  assert (Rabs h < eps / K)%R as L3.
  { eapply Rlt_le_trans; [exact Hlt|]. eapply Rle_trans; [apply Rmin_r|apply Rmin_r]. }
  rewrite Rplus_0_l. specialize (H h L1) as Hh'. 
  assert (forall k, k < n -> x 0%R k = y k) as H0.
  { intros k Hk. rewrite (H 0%R) by (auto; rewrite Rabs_R0; auto). ring. }
  set (xh := x h) in *.
  assert (vnorm n xh <= 2 * vnorm n y)%R as Hb.
  { pose proof (norm_step n e xh y h Hh') as HN. fold c in HN. pose proof (vnorm_ge0 n xh) as Hx.
    assert (Rabs h * (c * vnorm n xh) <= / 2 * vnorm n xh)%R as HL; [|lra].
    rewrite <- Rmult_assoc. apply Rmult_le_compat_r; auto.
    apply Rle_trans with (/ (2 * (c + 1)) * c)%R; [apply Rmult_le_compat_r; lra|].
    rewrite Rinv_mult. apply Rle_trans with (/ 2 * (/ (c + 1) * (c + 1)))%R.
    - rewrite !Rmult_assoc. apply Rmult_le_compat_l; [lra|]. apply Rmult_le_compat_l; [|lra].
      left. apply Rinv_0_lt_compat. lra.
    - rewrite Rinv_l by lra. lra. }
  assert (Rmatvec n e xh i = Rmatvec n e y i - h * Rmatvec n e (Rmatvec n e xh) i)%R as E1.
  { transitivity (Rmatvec n e (fun k => 1 * y k + (- h) * Rmatvec n e xh k)%R i).
    - apply mv_ext; auto. apply meq_refl. intros k Hk. rewrite Hh' at 1 by auto. ring.
    - rewrite mv_lin. ring. }
  assert ((xh i - x 0 i) / h - - Rmatvec n e y i = h * Rmatvec n e (Rmatvec n e xh) i)%R as ->.
  { rewrite (H0 i Hi), (Hh' i Hi), E1. field. auto. }
  rewrite Rabs_mult.
  assert (Rabs (Rmatvec n e (Rmatvec n e xh) i) < K)%R as HB.
  { eapply Rle_lt_trans; [apply entry_norm; exact Hi|]. eapply Rle_lt_trans; [apply mv_norm|]. fold c.
    apply Rle_lt_trans with (c * (c * (2 * vnorm n y)))%R; [|unfold K; lra].
    apply Rmult_le_compat_l; auto. eapply Rle_trans; [apply mv_norm|]. fold c. apply Rmult_le_compat_l; auto. }
  apply Rle_lt_trans with (Rabs h * K)%R; [apply Rmult_le_compat_l; [apply Rabs_pos|lra]|].
  apply (Rmult_lt_compat_r K) in L3; auto. replace (eps / K * K)%R with eps in L3 by (field; lra). auto.
Qed.

(** Invertible matrices stay invertible. *)
Lemma moved_system : forall n a b g y x t, Rmat_eq n (Rmatmul n b a) Rid ->
  (forall i, i < n -> Rmatvec n (moved a g t) x i = y i) ->
  forall i, i < n -> x i = (Rmatvec n b y i - t * Rmatvec n (Rmatmul n b g) x i)%R.
Proof.
  intros n a b g y x t H E i Hi.
  assert (forall k, k < n -> y k = (1 * Rmatvec n a x k + t * Rmatvec n g x k)%R) as Ey.
  { intros k Hk. rewrite <- (E k Hk). unfold Rmatvec, moved. rewrite <- !Rsum_scal, <- Rsum_plus.
    apply Rsum_ext. intros; ring. }
  rewrite (mv_ext n b b y (fun k => 1 * Rmatvec n a x k + t * Rmatvec n g x k)%R i Hi (meq_refl n b) Ey).
  rewrite mv_lin, <- !mv_mm, (mv_ext n _ Rid x x i Hi H) by auto. rewrite mv_id by auto. ring.
Qed.
Lemma moved_invertible : forall n a g, invertible n a -> near0 (fun t => invertible n (moved a g t)).
Proof.
  intros n a g (b & H1 & H2). pose proof (mnorm_ge0 n (Rmatmul n b g)) as He. set (c := mnorm n (Rmatmul n b g)) in *.
  exists (/ (c + 1))%R. split; [apply Rinv_0_lt_compat; lra|]. intros t Ht.
  apply injective_invertible. intros x Hx.
  pose proof (moved_system n a b g (fun _ => 0%R) x t H2 Hx) as Hs.
  assert (vnorm n x <= vnorm n (fun i => Rmatvec n b (fun _ => 0%R) i) + Rabs t * (c * vnorm n x))%R as HN
    by (apply norm_step; auto).
  assert (vnorm n (fun i => Rmatvec n b (fun _ => 0%R) i) = 0%R) as E0.
  { apply Rsum_zero. intros i Hi. unfold Rmatvec. rewrite Rsum_zero by (intros; ring). apply Rabs_R0. }
  rewrite E0 in HN. pose proof (vnorm_ge0 n x) as Hv.
  assert (Rabs t * c < 1)%R as HL.
  { apply Rle_lt_trans with (Rabs t * (c + 1))%R; [apply Rmult_le_compat_l; [apply Rabs_pos|lra]|].
    apply (Rmult_lt_compat_r (c + 1)) in Ht; [|lra]. rewrite Rinv_l in Ht; lra. }
  assert (vnorm n x = 0%R) as Hz.
  { apply Rle_antisym; auto. rewrite <- Rmult_assoc in HN. rewrite Rplus_0_l in HN.
    assert (vnorm n x * (1 - Rabs t * c) <= 0)%R as HM by lra.
    destruct (Rle_lt_dec (vnorm n x) 0) as [|Hp]; auto. exfalso.
    assert (0 < vnorm n x * (1 - Rabs t * c))%R by (apply Rmult_lt_0_compat; lra). lra. }
  intros i Hi. pose proof (entry_norm n x i Hi) as Hxi. rewrite Hz in Hxi. pose proof (Rabs_pos (x i)).
  destruct (Req_dec (x i) 0) as [|Hne]; auto. apply Rabs_no_R0 in Hne. lra.
Qed.
Lemma near0_and : forall P Q, near0 P -> near0 Q -> near0 (fun t => P t /\ Q t).
Proof.
  intros P Q (d & Hd & HP) (d' & Hd' & HQ). exists (Rmin d d'). split; [apply Rmin_glb_lt; auto|].
  intros t Ht. split; [apply HP|apply HQ]; eapply Rlt_le_trans; eauto; [apply Rmin_l|apply Rmin_r].
Qed.
Lemma near0_impl : forall (P Q : R -> Prop), (forall t, P t -> Q t) -> near0 P -> near0 Q.
Proof. intros P Q H (d & Hd & HP). exists d. split; auto. Qed.

(** Solutions of linear systems. *)
Lemma solve_vector_derivative : forall n a b g y, inverse_matrices n a b ->
  vector_derivative n (fun t x => solution1 n (moved a g t) y x)
    (fun i => - Rmatvec n (Rmatmul n b g) (Rmatvec n b y) i)%R.
Proof.
  intros n a b g y H. pose proof H as (H1 & H2). split.
  - apply (near0_impl (fun t => invertible n (moved a g t))); [|apply moved_invertible; exists b; auto].
    intros t (c & Hc & _). exists (Rmatvec n c y). intros i Hi.
    change (Rmatvec n (moved a g t) (Rmatvec n c y) i = y i).
    rewrite <- mv_mm, (mv_ext n _ Rid y y i Hi Hc) by auto. apply mv_id; auto.
  - intros x Hx i Hi. apply neumann; auto. revert Hx. apply near0_impl. intros t Hs k Hk.
    apply (moved_system n a); auto.
Qed.
Lemma solve_matrix_derivative : forall n m a b g y, inverse_matrices n a b ->
  matrix_derivative n m (fun t x => solution2 n m (moved a g t) y x)
    (fun i j => - Rmatvec n (Rmatmul n b g) (Rmatvec n b (fun k => y k j)) i)%R.
Proof.
  intros n m a b g y H. pose proof H as (H1 & H2). split.
  - apply (near0_impl (fun t => invertible n (moved a g t))); [|apply moved_invertible; exists b; auto].
    intros t (c & Hc & _). exists (fun i j => Rmatvec n c (fun k => y k j) i). intros i j Hi Hj.
    change (Rmatvec n (moved a g t) (Rmatvec n c (fun k => y k j)) i = y i j).
    rewrite <- mv_mm, (mv_ext n _ Rid (fun k => y k j) (fun k => y k j) i Hi Hc) by auto.
    apply (mv_id n (fun k => y k j)); auto.
  - intros x Hx i j Hi Hj. apply (neumann n (Rmatmul n b g) (Rmatvec n b (fun k => y k j)) (fun t k => x t k j)); auto.
    revert Hx. apply near0_impl. intros t Hs k Hk.
    apply (moved_system n a b g (fun k => y k j) (fun k => x t k j) t H2); auto. intros p Hp. apply Hs; auto.
Qed.
Lemma inverse_derivative : forall n a b g, inverse_matrices n a b ->
  matrix_derivative n n (fun t x => inverse_matrices n (moved a g t) x)
    (fun i j => - Rmatmul n (Rmatmul n b g) b i j)%R.
Proof.
  intros n a b g H. split.
  - apply moved_invertible. exists b. auto.
  - intros x Hx i j Hi Hj. destruct (solve_matrix_derivative n n a b g Rid H) as (_ & HD).
    replace (- Rmatmul n (Rmatmul n b g) b i j)%R
      with (- Rmatvec n (Rmatmul n b g) (Rmatvec n b (fun k => Rid k j)) i)%R.
    + apply HD; auto. revert Hx. apply near0_impl. intros t (Ht & _) p q Hp Hq. apply Ht; auto.
    + f_equal. unfold Rmatvec at 1. unfold Rmatmul at 2. apply Rsum_ext. intros k Hk. rewrite mv_unit by auto. auto.
Qed.

(** ** the rules *)
Lemma matmul_array : forall r c l a b sa sb, is_array r c a sa -> is_array c l b sb ->
  exists s, matmul sa sb = Ok s /\ is_array r l (fun i j => Rsum c (fun k => a i k * b k j)%R) s.
Proof.
  intros r c l a b sa sb (Ha1 & Ha2 & Ha3) (Hb1 & Hb2 & Hb3). unfold matmul. rewrite Ha2, Hb1, Nat.eqb_refl.
  eexists. split; [reflexivity|]. repeat split; auto. intros i j Hi Hj. cbn [m_at].
  rewrite <- nsum_fvec. f_equal. apply map_ext_in. intros k Hk. apply in_seq in Hk. rewrite Ha3, Hb3 by lia. auto.
Qed.
Lemma mneg_array : forall r c a s, is_array r c a s -> is_array r c (fun i j => - a i j)%R (mneg s).
Proof.
  intros r c a s (H1 & H2 & H3). repeat split; auto. intros i j Hi Hj. cbn [mneg m_at]. rewrite H3 by auto. auto.
Qed.
Lemma inv_jvp_derivative : forall inv n a g sa sg, inverter inv -> is_array n n a sa -> is_array n n g sg ->
  invertible n a ->
  exists ans b j D, inv sa = Ok ans /\ is_array n n b ans /\ inverse_matrices n a b /\
    inv_jvp sg ans = Ok j /\ is_array n n D j /\
    matrix_derivative n n (fun t x => inverse_matrices n (moved a g t) x) D.
Proof.
  intros inv n a g sa sg Hinv Ha Hg Hi. destruct (Hinv n a sa Ha Hi) as (b & ans & E & Hb & HI).
  destruct (matmul_array _ _ _ _ _ _ _ Hb Hg) as (s1 & E1 & H1).
  destruct (matmul_array _ _ _ _ _ _ _ H1 Hb) as (s2 & E2 & H2).
  exists ans, b, (mneg s2), (fun i j => - Rmatmul n (Rmatmul n b g) b i j)%R.
  do 3 (split; [assumption|]). split; [|split].
  - unfold inv_jvp. rewrite E1. cbn [bind]. rewrite E2. auto.
  - apply mneg_array; auto.
  - apply inverse_derivative; auto.
Qed.
Lemma solution2_inverse : forall n m a b y x, inverse_matrices n a b -> solution2 n m a y x ->
  forall i j, i < n -> j < m -> x i j = Rmatvec n b (fun k => y k j) i.
Proof.
  intros n m a b y x (H1 & H2) Hs i j Hi Hj.
  rewrite (mv_ext n b b (fun k => y k j) (Rmatvec n a (fun k => x k j)) i Hi (meq_refl n b)).
  - rewrite <- mv_mm, (mv_ext n _ Rid (fun k => x k j) (fun k => x k j) i Hi H2) by auto.
    symmetry. apply (mv_id n (fun k => x k j)); auto.
  - intros k Hk. symmetry. apply (Hs k j Hk Hj).
Qed.
Lemma solution1_inverse : forall n a b y x, inverse_matrices n a b -> solution1 n a y x ->
  forall i, i < n -> x i = Rmatvec n b y i.
Proof.
  intros n a b y x H Hs i Hi. apply (solution2_inverse n 1 a b (fun k _ => y k) (fun k _ => x k) H) with (j := 0); auto.
  intros p q Hp _. apply Hs; auto.
Qed.
Lemma vector_derivative_ext : forall n Q D D', (forall i, i < n -> D i = D' i) ->
  vector_derivative n Q D -> vector_derivative n Q D'.
Proof. intros n Q D D' E (H1 & H2). split; auto. intros x Hx i Hi. rewrite <- E by auto. auto. Qed.
Lemma matrix_derivative_ext : forall n m Q D D', (forall i j, i < n -> j < m -> D i j = D' i j) ->
  matrix_derivative n m Q D -> matrix_derivative n m Q D'.
Proof. intros n m Q D D' E (H1 & H2). split; auto. intros x Hx i j Hi Hj. rewrite <- E by auto. auto. Qed.
Lemma solve_jvp_a_vector : forall solve n a g y sa sg, linear_solver solve -> is_array n n a sa -> is_array n n g sg ->
  invertible n a ->
  exists x D, solve sa (A1 (fvec n y)) = Ok (A1 (fvec n x)) /\ solution1 n a y x /\
    jvp_solve_a solve sg (A1 (fvec n x)) sa = Ok (A1 (fvec n D)) /\
    vector_derivative n (fun t z => solution1 n (moved a g t) y z) D.
Proof.
  intros solve n a g y sa sg HS Ha Hg Hi. destruct (HS n a sa Ha Hi) as (S1 & S2).
  destruct (S1 y) as (x & E & Hx). destruct (S2 n g sg Hg) as (w & sw & Ew & Hw & Hs).
  destruct Hi as (b & Hb). exists x, (fun i => - Rmatvec n w x i)%R. do 2 (split; [assumption|]). split.
  - unfold jvp_solve_a. rewrite Ew. cbn [bind]. rewrite (matvec_array _ _ _ _ _ Hw). cbn [bind]. do 2 f_equal.
    unfold fvec. rewrite map_map. auto.
  - apply (vector_derivative_ext n _ (fun i => - Rmatvec n (Rmatmul n b g) (Rmatvec n b y) i)%R);
      [|apply (solve_vector_derivative n a b g y Hb)].
    intros i Hi. f_equal. apply mv_ext; auto.
    + intros p q Hp Hq. symmetry. apply (solution2_inverse n n a b g w Hb Hs); auto.
    + intros k Hk. symmetry. apply (solution1_inverse n a b y x Hb Hx); auto.
Qed.
Lemma solve_jvp_a_matrix : forall solve n m a g y sa sg sy, linear_solver solve -> is_array n n a sa ->
  is_array n n g sg -> is_array n m y sy -> invertible n a ->
  exists x sx D j, solve sa (A2 sy) = Ok (A2 sx) /\ is_array n m x sx /\ solution2 n m a y x /\
    jvp_solve_a solve sg (A2 sx) sa = Ok (A2 j) /\ is_array n m D j /\
    matrix_derivative n m (fun t z => solution2 n m (moved a g t) y z) D.
Proof.
  intros solve n m a g y sa sg sy HS Ha Hg Hy Hi. destruct (HS n a sa Ha Hi) as (S1 & S2).
  destruct (S2 m y sy Hy) as (x & sx & E & Hx & Hsx). destruct (S2 n g sg Hg) as (w & sw & Ew & Hw & Hs).
  destruct Hi as (b & Hb). destruct (matmul_array _ _ _ _ _ _ _ Hw Hx) as (s1 & E1 & H1).
  exists x, sx, (fun i j => - Rsum n (fun k => w i k * x k j))%R, (mneg s1). do 3 (split; [assumption|]). split; [|split].
  - unfold jvp_solve_a. rewrite Ew. cbn [bind]. rewrite E1. auto.
  - apply (mneg_array n m (fun i j => Rsum n (fun k => w i k * x k j))%R); auto.
  - apply (matrix_derivative_ext n m _ (fun i j => - Rmatvec n (Rmatmul n b g) (Rmatvec n b (fun k => y k j)) i)%R);
      [|apply (solve_matrix_derivative n m a b g y Hb)].
    intros i j Hi Hj. f_equal. unfold Rmatvec at 1. apply Rsum_ext. intros k Hk. f_equal.
    + symmetry. apply (solution2_inverse n n a b g w Hb Hs); auto.
    + symmetry. apply (solution2_inverse n m a b y x Hb Hsx); auto.
Qed.
(** The right hand side. *)
Lemma derivable_near : forall f g l, near0 (fun t => f t = g t) -> derivable_pt_lim f 0 l -> derivable_pt_lim g 0 l.
Proof.
  intros f g l (d & Hd & E) H eps Heps. destruct (H eps Heps) as (d' & H').
  assert (0 < Rmin d d')%R as Hm by (apply Rmin_glb_lt; auto; apply cond_pos).
  exists (mkposreal _ Hm). cbn [pos]. intros h Hh Hl.
  rewrite Rplus_0_l. rewrite <- (E h), <- (E 0%R).
  - specialize (H' h Hh). rewrite Rplus_0_l in H'. apply H'. eapply Rlt_le_trans; [exact Hl|apply Rmin_r].
  - rewrite Rabs_R0. auto.
  - eapply Rlt_le_trans; [exact Hl|apply Rmin_l].
Qed.
Lemma solve_rhs_matrix : forall n m a b y h, inverse_matrices n a b ->
  matrix_derivative n m (fun t x => solution2 n m a (moved y h t) x) (fun i j => Rmatvec n b (fun k => h k j) i).
Proof.
  intros n m a b y h H. pose proof H as (H1 & H2). split.
  - exists 1%R. split; [lra|]. intros t _. exists (fun i j => Rmatvec n b (fun k => moved y h t k j) i). intros i j Hi Hj.
    change (Rmatvec n a (Rmatvec n b (fun k => moved y h t k j)) i = moved y h t i j).
    rewrite <- mv_mm, (mv_ext n _ Rid _ (fun k => moved y h t k j) i Hi H1) by auto.
    apply (mv_id n (fun k => moved y h t k j)); auto.
  - intros x Hx i j Hi Hj.
    apply (derivable_near (fun t => Rmatvec n b (fun k => y k j) i + t * Rmatvec n b (fun k => h k j) i)%R).
    + revert Hx. apply near0_impl. intros t Ht. rewrite (solution2_inverse n m a b _ _ H Ht i j Hi Hj).
      rewrite <- (Rmult_1_l (Rmatvec n b (fun k => y k j) i)), <- mv_lin. apply mv_ext; auto. apply meq_refl.
      intros k Hk. unfold moved. ring.
    + apply derivable_line.
Qed.
Lemma solve_rhs_vector : forall n a b y h, inverse_matrices n a b ->
  vector_derivative n (fun t x => solution1 n a (fun i => y i + t * h i)%R x) (Rmatvec n b h).
Proof.
  intros n a b y h H. destruct (solve_rhs_matrix n 1 a b (fun k _ => y k) (fun k _ => h k) H) as (H1 & H2). split.
  - revert H1. apply near0_impl. intros t (x & Hx). exists (fun k => x k 0). intros i Hi. apply (Hx i 0); auto.
  - intros x Hx i Hi. apply (H2 (fun t k _ => x t k)) with (j := 0); auto. revert Hx. apply near0_impl.
    intros t Ht p q Hp _. apply Ht; auto.
Qed.
Lemma solve_jvp_b_vector : forall solve n a y h sa, linear_solver solve -> is_array n n a sa -> invertible n a ->
  exists x D, solve sa (A1 (fvec n y)) = Ok (A1 (fvec n x)) /\ solution1 n a y x /\
    jvp_solve_b solve (A1 (fvec n h)) sa = Ok (A1 (fvec n D)) /\
    vector_derivative n (fun t z => solution1 n a (fun i => y i + t * h i)%R z) D.
Proof.
  intros solve n a y h sa HS Ha Hi. destruct (HS n a sa Ha Hi) as (S1 & _).
  destruct (S1 y) as (x & E & Hx). destruct (S1 h) as (w & Ew & Hw). destruct Hi as (b & Hb).
  exists x, w. split; auto. split; auto. split; auto.
  apply (vector_derivative_ext n _ (Rmatvec n b h)); [|apply solve_rhs_vector; auto].
  intros i Hi. symmetry. apply (solution1_inverse n a b h w Hb Hw); auto.
Qed.
Lemma solve_jvp_b_matrix : forall solve n m a y h sa sy sh, linear_solver solve -> is_array n n a sa ->
  is_array n m y sy -> is_array n m h sh -> invertible n a ->
  exists x sx D j, solve sa (A2 sy) = Ok (A2 sx) /\ is_array n m x sx /\ solution2 n m a y x /\
    jvp_solve_b solve (A2 sh) sa = Ok (A2 j) /\ is_array n m D j /\
    matrix_derivative n m (fun t z => solution2 n m a (moved y h t) z) D.
Proof.
  intros solve n m a y h sa sy sh HS Ha Hy Hh Hi. destruct (HS n a sa Ha Hi) as (_ & S2).
  destruct (S2 m y sy Hy) as (x & sx & E & Hx & Hsx). destruct (S2 m h sh Hh) as (w & sw & Ew & Hw & Hsw).
  destruct Hi as (b & Hb).
  exists x, sx, w, sw. do 5 (split; [assumption|]).
  apply (matrix_derivative_ext n m _ (fun i j => Rmatvec n b (fun k => h k j) i)); [|apply solve_rhs_matrix; auto].
  intros i j Hi Hj. symmetry. apply (solution2_inverse n m a b h w Hb Hsw); auto.
Qed.

(** ** slogdet *)
Lemma ln_abs_derivative : forall f l, derivable_pt_lim f 0 l -> f 0%R <> 0%R ->
  derivable_pt_lim (fun t => ln (Rabs (f t))) 0 (l / f 0)%R.
Proof.
  intros f l H Hne.
  assert (near0 (fun t => (/ 2 * ln (f t * f t))%R = ln (Rabs (f t)))) as Hn.
  { exists 1%R. split; [lra|]. intros t _. destruct (Req_dec (f t) 0) as [E|E].
    - rewrite E, Rabs_R0, Rmult_0_l. unfold ln. destruct (Rlt_dec 0 0); [exfalso; eapply Rlt_irrefl; eauto|ring].
    - assert (0 < Rabs (f t))%R by (apply Rabs_pos_lt; auto).
      replace (f t * f t)%R with (Rabs (f t) * Rabs (f t))%R.
      + rewrite ln_mult by auto. lra.
      + rewrite <- Rabs_mult, Rabs_pos_eq; auto. apply Rle_0_sqr. }
  apply (derivable_near _ _ _ Hn).
  replace (l / f 0)%R with (/ 2 * (/ (f 0 * f 0) * (l * f 0 + f 0 * l)))%R by (field; auto).
  apply (derivable_pt_lim_scal (fun t => ln (f t * f t)) (/ 2) 0).
  apply (derivable_pt_lim_comp (fun t => f t * f t)%R ln 0).
  - apply (derivable_pt_lim_mult f f 0); auto.
  - apply derivable_pt_lim_ln. apply Rsqr_pos_lt in Hne. exact Hne.
Qed.
Lemma near_nonzero : forall f l, derivable_pt_lim f 0 l -> f 0%R <> 0%R -> near0 (fun t => 0 < f t * f 0)%R.
Proof.
  intros f l H Hne.
  assert (continuity_pt f 0) as Hc by (apply derivable_continuous_pt; exists l; auto).
  destruct (Hc (Rabs (f 0%R))) as (d & Hd & HC); [apply Rabs_pos_lt; auto|].
  exists d. split; auto. intros t Ht.
  destruct (Req_dec t 0) as [->|Ht0]; [apply Rsqr_pos_lt in Hne; exact Hne|].
  assert (Rabs (f t - f 0) < Rabs (f 0))%R as HB.
  { apply (HC t). split.
    - split; [exact I|]. auto.
    - cbn. unfold R_dist. rewrite Rminus_0_r. auto. }
  unfold Rabs in HB. destruct (Rcase_abs (f t - f 0%R)%R), (Rcase_abs (f 0%R)).
  - replace (f t * f 0)%R with ((- f t) * (- f 0))%R by ring. apply Rmult_lt_0_compat; lra.
  - apply Rmult_lt_0_compat; lra.
  - replace (f t * f 0)%R with ((- f t) * (- f 0))%R by ring. apply Rmult_lt_0_compat; lra.
  - apply Rmult_lt_0_compat; lra.
Qed.
Lemma slogdet_jvp_derivative : forall solve nd n a g sa sg, linear_solver solve -> is_array n n a sa ->
  is_array n n g sg -> invertible n a -> nd <= 2 ->
  exists d, slogdet_jvp solve nd sg sa = Ok (Fin 0, Fin d) /\
    derivable_pt_lim (fun t => ln (Rabs (det n (moved a g t)))) 0 d /\
    det n a <> 0%R /\ near0 (fun t => 0 < det n (moved a g t) * det n a)%R.
Proof.
  intros solve nd n a g sa sg HS Ha Hg (b & Hb) Hnd.
  pose proof Hb as (Hb1 & Hb2). pose proof (proj2 (det_invertible n a b Hb)) as Hdet.
  pose proof (inverse_trans n a b Hb) as HT.
  destruct (HS n (Rtrans a) (transpose sa) (array_trans _ _ _ _ Ha) (ex_intro _ _ HT)) as (_ & S2).
  destruct (S2 n (Rtrans g) (transpose sg) (array_trans _ _ _ _ Hg)) as (w & sw & Ew & Hw & Hsw).
  exists (Rsum n (fun k => Rmatmul n g b k k)).
  assert (derivable_pt_lim (fun t => det n (moved a g t)) 0 (Rsum n (fun k => Rmatmul n g b k k) * det n a)%R) as HD
    by (apply det_trace; auto).
  assert (det n (moved a g 0%R) = det n a) as E0 by (apply det_ext; intros; unfold moved; ring).
  split; [|split; [|split]]; auto.
  - unfold slogdet_jvp. rewrite (proj2 (Nat.ltb_ge 2 nd)) by auto. rewrite Ew. cbn [bind]. do 2 f_equal.
    destruct Hw as (Hw1 & Hw2 & Hw3). unfold mtrace. rewrite Hw1, Hw2, Nat.min_id, <- nsum_fvec. f_equal.
    apply map_ext_in. intros k Hk. apply in_seq in Hk. rewrite Hw3 by lia. f_equal.
    rewrite (solution2_inverse n n _ _ _ _ HT Hsw k k) by lia. unfold Rmatvec, Rmatmul, Rtrans. apply Rsum_ext.
    intros; ring.
  - pose proof (ln_abs_derivative _ _ HD) as HL. cbn beta in HL. rewrite E0 in HL. specialize (HL Hdet).
    replace (Rsum n (fun k => Rmatmul n g b k k)) with (Rsum n (fun k => Rmatmul n g b k k) * det n a / det n a)%R
      by (field; auto). auto.
  - pose proof (near_nonzero _ _ HD) as HL. cbn beta in HL. rewrite E0 in HL. auto.
Qed.
Lemma slogdet_jvp_stack : forall solve nd g x, 2 < nd -> slogdet_jvp solve nd g x = Err ValueError.
Proof. intros. unfold slogdet_jvp. rewrite (proj2 (Nat.ltb_lt 2 nd)); auto. Qed.

(** Stacks of matrices. *)
Lemma inv_jvp_stack_derivative : forall inv n As Gs sas sgs, inverter inv ->
  Forall2 (is_array n n) As sas -> Forall2 (is_array n n) Gs sgs -> Forall (invertible n) As ->
  length As = length Gs ->
  exists anss js, mapM inv sas = Ok anss /\ inv_jvp_stack sgs anss = Ok js /\ length js = length As /\
    forall k, k < length As -> exists D, is_array n n D (nth k js (mkMat 0 0 (fun _ _ => NaN))) /\
      matrix_derivative n n (fun t x => inverse_matrices n (moved (nth k As Rid) (nth k Gs Rid) t) x) D.
Proof.
  intros inv n As Gs sas sgs Hinv HA. revert Gs sgs. induction HA as [|a sa As sas Ha HA IH]; intros Gs sgs HG Hi HL.
  - destruct Gs; [|discriminate]. inversion HG; subst. exists [], []. repeat split; auto. intros k Hk. simpl in Hk. lia.
  - destruct Gs as [|g Gs]; [discriminate|]. inversion HG as [|? y ? l' Hg HG' E1 E2]; subst.
    inversion Hi as [|? ? Hia Hi' E1]; subst.
    destruct (inv_jvp_derivative inv n a g sa y Hinv Ha) as (ans & b & j & D & E1 & _ & _ & E2 & HD1 & HD2); auto.
    destruct (IH Gs l' HG' Hi') as (anss & js & F1 & F2 & F3 & F4); auto.
    exists (ans :: anss), (j :: js). split; [|split; [|split]].
    + cbn [mapM]. rewrite E1. cbn [bind]. rewrite F1. auto.
    + unfold inv_jvp_stack in *. cbn [length]. destruct (length l' =? length anss) eqn:El; [|discriminate].
      cbn [Nat.eqb]. rewrite El. cbn [combine mapM fst snd]. rewrite E2. cbn [bind]. rewrite F2. auto.
    + simpl. auto.
    + intros [|k] Hk; cbn [nth]; [exists D; auto|]. apply F4. simpl in Hk. lia.
Qed.

(** ** special functions *)
Lemma directional_chain : forall F x u l, derivable_pt_lim F x l -> directional F x u (u * l)%R.
Proof.
  intros F x u l H. unfold directional. rewrite (Rmult_comm u l).
  apply (derivable_pt_lim_comp (fun s => x + s * u)%R F 0).
  - apply derivable_line.
  - rewrite Rmult_0_l, Rplus_0_r. auto.
Qed.
Lemma special_function_jvps : forall ok ga po gamma gammaln rgamma psi polygamma gammasgn sgn,
  gamma_family ok ga po -> computes ok gamma ga -> computes ok gammaln (fun x => ln (Rabs (ga x))) ->
  computes ok rgamma (fun x => / ga x)%R -> computes ok psi (po 0) ->
  (forall n, computes ok (polygamma n) (po n)) ->
  computes ok gammasgn sgn -> (forall x, ok x -> sgn x = if Rltb 0 (ga x) then 1%R else (-1)%R) ->
  forall x u, ok x ->
  (exists d, gamma_jvp psi (Fin u) (gamma (Fin x)) (Fin x) = Fin d /\ directional ga x u d) /\
  (exists d, gammaln_jvp psi (Fin u) (Fin x) = Fin d /\ directional (fun y => ln (Rabs (ga y))) x u d) /\
  (exists d, rgamma_jvp psi gamma (Fin u) (Fin x) = Fin d /\ directional (fun y => / ga y)%R x u d) /\
  (exists d, psi_jvp polygamma (Fin u) (Fin x) = Fin d /\ directional (po 0) x u d) /\
  (forall n, exists d, polygamma_jvp polygamma (Fin u) n (Fin x) = Fin d /\ directional (po n) x u d) /\
  (exists d, gammasgn_jvp (Fin u) (Fin x) = Fin d /\ directional sgn x u d).
Proof.
  intros ok ga po gamma gammaln rgamma psi polygamma gammasgn sgn (H1 & H2 & H3) Hga Hln Hr Hpsi Hpo Hs Hsgn x u Hx.
  destruct (H2 x Hx) as (Hne & HD). split; [|split; [|split; [|split; [|split]]]].
  - exists (u * ga x * po 0%nat x)%R. split.
    + unfold gamma_jvp. rewrite Hga, Hpsi by auto. auto.
    + rewrite Rmult_assoc. apply directional_chain. auto.
  - exists (u * po 0%nat x)%R. split.
    + unfold gammaln_jvp. rewrite Hpsi by auto. auto.
    + unfold directional. pose proof (directional_chain ga x u _ HD) as HC. unfold directional in HC.
      pose proof (ln_abs_derivative _ _ HC) as HL. cbn beta in HL. rewrite Rmult_0_l, Rplus_0_r in HL. specialize (HL Hne).
      replace (u * po 0%nat x)%R with (u * (ga x * po 0%nat x) / ga x)%R by (field; auto). auto.
  - exists (u * (- (ga x * po 0%nat x) / (ga x)²))%R. split.
    + unfold rgamma_jvp. rewrite Hga, Hpsi by auto. cbn [nmul nneg]. rewrite ndiv_fin by lra. f_equal. unfold Rsqr. field. auto.
    + apply directional_chain. pose proof (derivable_pt_lim_div (fun _ => 1%R) ga x 0 _ (derivable_pt_lim_const 1 x) HD Hne) as HV.
      replace (- (ga x * po 0%nat x) / (ga x)²)%R with ((0 * ga x - ga x * po 0%nat x * 1) / (ga x)²)%R by (f_equal; ring).
      apply (derivable_ext (fun y => 1 / ga y)%R); [|exact HV]. intros t. unfold Rdiv. ring.
  - exists (u * po 1%nat x)%R. split; [unfold psi_jvp; rewrite Hpo by auto; auto|]. apply directional_chain; auto.
  - intros n. exists (u * po (S n)%nat x)%R. split; [unfold polygamma_jvp; rewrite Nat.add_1_r, Hpo by auto; auto|].
    apply directional_chain; auto.
  - exists 0%R. split; auto. unfold directional.
    pose proof (directional_chain ga x u _ HD) as HC. unfold directional in HC.
    pose proof (near_nonzero _ _ HC) as HN. cbn beta in HN. rewrite Rmult_0_l, Rplus_0_r in HN. specialize (HN Hne).
    assert (near0 (fun s => ok (x + s * u)%R)) as Hok.
    { destruct (H1 x Hx) as (d & Hd & Ho). exists (d / (Rabs u + 1))%R. pose proof (Rabs_pos u).
      split; [apply Rdiv_lt_0_compat; lra|]. intros s Hsl. apply Ho. replace (x + s * u - x)%R with (s * u)%R by ring.
      rewrite Rabs_mult. apply Rle_lt_trans with (Rabs s * (Rabs u + 1))%R.
      - apply Rmult_le_compat_l; [apply Rabs_pos|lra].
      - apply (Rmult_lt_compat_r (Rabs u + 1)) in Hsl; [|lra].
        replace (d / (Rabs u + 1) * (Rabs u + 1))%R with d in Hsl by (field; lra). auto. }
    apply (derivable_near (fun _ => sgn x)); [|apply derivable_pt_lim_const].
    generalize (near0_and _ _ HN Hok). apply near0_impl. intros s (Hp & Ho). rewrite (Hsgn _ Hx), (Hsgn _ Ho).
    unfold Rltb. destruct (Rlt_dec 0 (ga x)) as [Ha|Ha], (Rlt_dec 0 (ga (x + s * u)%R)) as [Hb|Hb]; auto; exfalso;
      apply Rnot_lt_le in Ha || apply Rnot_lt_le in Hb.
    + assert (0 < - ga (x + s * u) * ga x \/ ga (x + s * u) = 0)%R as [Hc|Hc].
      { destruct Hb as [Hb|Hb]; [left; apply Rmult_lt_0_compat; lra|right; auto]. }
      * lra.
      * rewrite Hc in Hp. lra.
    + assert (0 < ga (x + s * u) * - ga x)%R; [|lra]. apply Rmult_lt_0_compat; auto. destruct Ha; lra.
Qed.
