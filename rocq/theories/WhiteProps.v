(** * Curvature in preconditioned coordinates. *)
From Coq Require Import Reals Lra Lia.
From Verif Require Import Base Num Nd Pattern Spec ListFacts NumFacts CholFacts Contract Jac SpecJac JacBase JacMore JacPsd
  FunWrap Optim SpecOptim LinAlg OptimFacts SpecEnd EndFacts AdMat SpecDir SpecSecond TotalDiff SecondFacts SecondProps SpecWhite.
Local Open Scope list_scope.
Local Open Scope nat_scope.

Lemma times_length : forall n A z, length (times n A z) = n.
Proof. intros. unfold times. rewrite map_length, seq_length. auto. Qed.
Lemma nth_times : forall n A z i, i < n -> nth i (times n A z) 0%R = Rsum n (fun j => A i j * nth j z 0)%R.
Proof.
  intros n A z i Hi. unfold times. set (f := fun i => _).
  rewrite (nth_indep _ 0%R (f 0)) by (rewrite map_length, seq_length; auto). rewrite map_nth, seq_nth; auto.
Qed.
Lemma fvec_list : forall n x, length x = n -> map Fin x = fvec n (fun i => nth i x 0%R).
Proof.
  intros n x <-. unfold fvec. induction x; cbn; auto. f_equal. rewrite IHx, <- seq_shift, map_map. auto.
Qed.
Lemma list_fvec : forall n A z, fvec n (Rmatvec n A (fun i => nth i z 0%R)) = map Fin (times n A z).
Proof. intros. unfold fvec, times. rewrite map_map. auto. Qed.
Lemma matvec_times : forall n f A z, is_matvec n f A -> length z = n -> f (map Fin z) = Ok (map Fin (times n A z)).
Proof. intros n f A z H L. rewrite (fvec_list n z L), H, list_fvec. auto. Qed.

Lemma step_times : forall n A x z i, length x = n -> length z = n -> i < n ->
  nth i (step (times n A x) (times n A z)) 0%R = Rsum n (fun j => A i j * nth j (step x z) 0)%R.
Proof.
  intros n A x z i Lx Lz Hi. rewrite nth_step by (rewrite !times_length; auto). rewrite !nth_times by auto.
  rewrite <- Rsum_minus. apply Rsum_ext. intros j Hj. rewrite nth_step by lia. ring.
Qed.

Lemma linear_distance : forall n A x z, length x = n -> length z = n ->
  (distance (times n A x) (times n A z) <= (INR n * csum n n A) * distance x z)%R.
Proof.
  intros n A x z Lx Lz.
  eapply Rle_trans; [apply (distance_le _ _ (csum n n A * distance x z)%R)|].
  - intros i Hi. rewrite times_length in Hi.
    rewrite <- nth_step by (rewrite !times_length; auto). rewrite step_times by auto.
    assert (Rsum n (fun j => A i j * nth j (step x z) 0)%R = lin n (A i) x z) as -> by (symmetry; apply lin_step; auto).
    eapply Rle_trans; [apply lin_bound; auto|]. apply Rmult_le_compat_r; [apply distance_pos|].
    apply (csum_member n n A i Hi).
  - rewrite times_length. right. ring.
Qed.

(** A linear change of coordinates. *)
Lemma hessian_linear : forall n A Phi z gr M,
  length z = n -> has_hessian Phi (times n A z) gr M ->
  has_hessian (fun u => Phi (times n A u)) z (times n (Rtrans A) gr) (Rmatmul n (Rtrans A) (Rmatmul n M A)).
Proof.
  intros n A Phi z gr M Lz (Lg & H). rewrite times_length in *. split; [rewrite times_length; auto|].
  intros eps He. rewrite Lz. set (q := (INR n * csum n n A + 1)%R).
  pose proof (csum_pos n n A) as Pc. pose proof (pos_INR n) as Pn.
  assert (0 <= INR n * csum n n A)%R as P0 by (apply Rmult_le_pos; auto). assert (0 < q)%R as Pq by (unfold q; lra).
  assert (0 < q * q)%R as Pqq by (apply Rmult_lt_0_compat; auto).
  destruct (H (eps / (q * q))%R) as (d & Hd & P); [apply Rdiv_lt_0_compat; auto|].
  exists (d / q)%R. split; [apply Rdiv_lt_0_compat; auto|]. intros u Lu Hu.
  pose proof (distance_pos z u) as PD.
  assert (distance (times n A z) (times n A u) <= q * distance z u)%R as D.
  { eapply Rle_trans; [apply linear_distance; auto|]. unfold q. lra. }
  specialize (P (times n A u) (times_length _ _ _)).
  assert (distance (times n A z) (times n A u) < d)%R as D2.
  { eapply Rle_lt_trans; [exact D|]. apply (Rmult_lt_compat_l q) in Hu; auto. replace (q * (d / q))%R with d in Hu by (field; lra). auto. }
  specialize (P D2).
  replace (dot gr (step (times n A z) (times n A u))) with (dot (times n (Rtrans A) gr) (step z u)) in P.
  replace (quadratic n M (step (times n A z) (times n A u)))
    with (quadratic n (Rmatmul n (Rtrans A) (Rmatmul n M A)) (step z u)) in P.
  - eapply Rle_trans; [exact P|].
    assert (distance (times n A z) (times n A u) * distance (times n A z) (times n A u) <= (q * distance z u) * (q * distance z u))%R
      by (apply Rmult_le_compat; auto using distance_pos).
    eapply Rle_trans; [apply Rmult_le_compat_l; [left; apply Rdiv_lt_0_compat; auto|exact H0]|]. right. field. lra.
  - rewrite !quadratic_qf. symmetry. erewrite qf_ext; [|intros i Hi; apply step_times; auto].
    rewrite qf_pull. apply Rsum_ext. intros a Ha. apply Rsum_ext. intros b Hb. do 2 f_equal.
    unfold Rmatmul, Rtrans. apply Rsum_ext. intros i Hi. rewrite <- Rsum_scal. apply Rsum_ext. intros. ring.
  - unfold dot. rewrite !step_length by (rewrite ?times_length; congruence). rewrite times_length, Lz.
    transitivity (Rsum n (fun j => Rsum n (fun i => nth i gr 0 * (A i j * nth j (step z u) 0))%R)).
    + apply Rsum_ext. intros j Hj. rewrite nth_times by auto. rewrite <- Rsum_scal_r. apply Rsum_ext. intros. unfold Rtrans. ring.
    + rewrite Rsum_swap. apply Rsum_ext. intros i Hi. rewrite step_times by auto. rewrite Rsum_scal. auto.
Qed.

(** Only the symmetric part of a Hessian matters. *)
Lemma qf_mat : forall n M N h, Rmat_eq n M N -> qf n M h = qf n N h.
Proof. intros n M N h H. apply Rsum_ext. intros i Hi. apply Rsum_ext. intros j Hj. rewrite H; auto. Qed.
Lemma qf_sym : forall n M h, qf n (sym_part M) h = qf n M h.
Proof.
  intros n M h. unfold qf, sym_part.
  assert (Rsum n (fun i => Rsum n (fun j => M j i * h i * h j)%R) = Rsum n (fun i => Rsum n (fun j => M i j * h i * h j)%R)) as E.
  { rewrite Rsum_swap. apply Rsum_ext. intros. apply Rsum_ext. intros. ring. }
  replace (Rsum n (fun i => Rsum n (fun j => M i j * h i * h j)%R))
    with (1/2 * (Rsum n (fun i => Rsum n (fun j => M i j * h i * h j)%R) + Rsum n (fun i => Rsum n (fun j => M j i * h i * h j)%R)))%R
    by (rewrite E; lra).
  rewrite <- Rsum_plus, <- Rsum_scal. apply Rsum_ext. intros i Hi. rewrite <- Rsum_plus, <- Rsum_scal.
  apply Rsum_ext. intros j Hj. ring.
Qed.
Lemma hessian_form : forall Phi x gr M N, (forall h, qf (length x) M h = qf (length x) N h) ->
  has_hessian Phi x gr M -> has_hessian Phi x gr N.
Proof.
  intros Phi x gr M N E (L & H). split; auto. intros eps He. destruct (H eps He) as (d & Hd & P). exists d. split; auto.
  intros z Lz Hz. rewrite quadratic_qf, <- E, <- quadratic_qf. auto.
Qed.

Theorem pre_hessian : forall S Y (f : list num -> S -> res Y * S) ret s n A H,
  is_matvec n (unprecondition s) A -> computes n f ret H ->
  exists K, computes n (pre_call f s) ret K /\
    forall z x gr M, length z = n -> length x = n -> unprecondition s (map Fin z) = Ok (map Fin x) -> has_hessian H x gr M ->
      K z = H x /\ has_hessian K z (times n (Rtrans A) gr) (Rmatmul n (Rtrans A) (Rmatmul n M A)).
Proof.
  intros S Y f ret s n A H HA HC. exists (fun z => H (times n A z)). split.
  - intros z st Lz. unfold pre_call. rewrite (matvec_times n _ A z HA Lz). apply HC. apply times_length.
  - intros z x gr M Lz Lx E HH. rewrite (matvec_times n _ A z HA Lz) in E. injection E as E. apply map_Fin_inj in E. subst x.
    split; auto. apply hessian_linear; auto.
Qed.

(** ** The preconditioner of a Hessian *)
Lemma hessian_matrix : forall t n a H V w lo hi x h,
  hessian_array n a H -> orthonormal n V ->
  (forall m, is_array n n (sym_part H) m -> t_eigh t m = Ok (vec (fvec n w), mkNd [n; n] (rows_of n V))) ->
  (forall i, i < n -> (0 < rclamp lo hi (w i))%R) ->
  (x = None /\ h = Some (HDense a) \/ exists z, x = Some z /\ h = None /\ t_hessian t z = Ok (HDense a)) ->
  exists s, set_op t (SetHessian x h (rbound lo) (rbound hi)) = Ok s /\
    is_matvec n (unprecondition s) (with_spectrum n V (fun i => 1 / sqrt (rclamp lo hi (w i)))%R) /\
    is_matvec n (precondition s) (with_spectrum n V (fun i => sqrt (rclamp lo hi (w i)))) /\
    mutually_inverse n (precondition s) (unprecondition s).
Proof.
  intros t n a H V w lo hi x h Ha HV He Hw Hx.
  set (u := fun i => rclamp lo hi (w i)).
  destruct (transform_spectrum n V u (fun i => sqrt (u i)) sqrt_all HV) as (f & Hf & HF).
  { unfold sqrt_all, fvec. rewrite map_map. f_equal. apply map_ext_in. intros i Hi. apply in_seq in Hi.
    rewrite nsqrt_fin; auto. apply Rlt_le, Hw. lia. }
  destruct (transform_spectrum n V u (fun i => 1 / sqrt (u i))%R inv_sqrt_all HV) as (g & Hg & HG).
  { unfold inv_sqrt_all, fvec. rewrite map_map. f_equal. apply map_ext_in. intros i Hi. apply in_seq in Hi.
    assert (0 < u i)%R by (apply Hw; lia).
    rewrite nsqrt_fin by lra. rewrite ndiv_fin; auto. pose proof (sqrt_lt_R0 _ H0). lra. }
  assert (inv_sqrt_funcs (t_eigh t) a (rbound lo) (rbound hi) = Ok (f, g)) as HI.
  { destruct (hessian_array_read n a H Ha) as (m & Em & Hm).
    unfold inv_sqrt_funcs. rewrite Em. cbn [bind]. rewrite (He m Hm).
    cbn [bind fst snd vec dat shp]. rewrite truncate_fvec. cbn [bind]. rewrite fvec_length.
    fold u. rewrite Hf. cbn [bind]. rewrite Hg. reflexivity. }
  assert (forall i, i < n -> (0 < sqrt (u i))%R) as Hp by (intros i Hi; apply sqrt_lt_R0, Hw; auto).
  exists (mkPre g f). split; [|split; [|split]]; auto.
  - destruct Hx as [(-> & ->)|(z & -> & -> & Hz)]; cbn [set_op bind].
    + rewrite HI. reflexivity.
    + rewrite Hz. cbn [bind]. rewrite HI. reflexivity.
  - cbn [precondition unprecondition a_times a_inv_times].
    eapply matvecs_inverse; [exact HF|exact HG|].
    split; apply ws_inverse; auto; intros i Hi; specialize (Hp i Hi); field; lra.
Qed.

Theorem pre_truncated : forall S Y (f : list num -> S -> res Y * S) ret t n a H x gr M V w lo hi X h,
  computes n f ret H -> length x = n -> has_hessian H x gr M ->
  hessian_array n a M -> orthonormal n V -> Rmat_eq n (with_spectrum n V w) (sym_part M) ->
  (forall m, is_array n n (sym_part M) m -> t_eigh t m = Ok (vec (fvec n w), mkNd [n; n] (rows_of n V))) ->
  (forall i, i < n -> (0 < rclamp lo hi (w i))%R) ->
  (X = None /\ h = Some (HDense a) \/ exists z, X = Some z /\ h = None /\ t_hessian t z = Ok (HDense a)) ->
  exists s K z gr', set_op t (SetHessian X h (rbound lo) (rbound hi)) = Ok s /\ computes n (pre_call f s) ret K /\
    length z = n /\ precondition s (map Fin x) = Ok (map Fin z) /\ unprecondition s (map Fin z) = Ok (map Fin x) /\
    (zero_vector gr -> zero_vector gr') /\
    has_hessian K z gr' (with_spectrum n V (fun i => w i / rclamp lo hi (w i))%R).
Proof.
  intros S Y f ret t n a H x gr M V w lo hi X h HC Lx HH Ha HV HS He Hw HX.
  destruct (hessian_matrix t n a M V w lo hi X h Ha HV He Hw HX) as (s & Hs & HA & HB & HI).
  set (A := with_spectrum n V (fun i => 1 / sqrt (rclamp lo hi (w i)))%R) in *.
  set (B := with_spectrum n V (fun i => sqrt (rclamp lo hi (w i)))) in *.
  destruct (pre_hessian S Y f ret s n A H HA HC) as (K & HK & HP).
  assert (unprecondition s (map Fin (times n B x)) = Ok (map Fin x)) as EU.
  { destruct (HI (fun i => nth i x 0%R)) as (E & _). rewrite <- (fvec_list n x Lx) in E.
    rewrite (matvec_times n _ B x HB Lx) in E. exact E. }
  exists s, K, (times n B x), (times n (Rtrans A) gr). split; auto. split; auto. split; [apply times_length|].
  split; [apply matvec_times; auto|]. split; [exact EU|]. split.
  { intros Z. apply Forall_forall. intros e Ie. apply (In_nth _ _ 0%R) in Ie. destruct Ie as (i & Hi & <-).
    rewrite times_length in Hi. rewrite nth_times by auto. apply Rsum_zero. intros j Hj.
    replace (nth j gr 0%R) with 0%R; [ring|]. symmetry.
    destruct (Nat.lt_ge_cases j (length gr)) as [Lj|Lj]; [|apply nth_overflow; auto].
    unfold zero_vector in Z. rewrite Forall_forall in Z. apply Z, nth_In; auto. }
  assert (has_hessian H x gr (with_spectrum n V w)) as HH'.
  { apply (hessian_form H x gr M); auto. intros k. rewrite Lx, (qf_mat n _ _ k HS). symmetry. apply qf_sym. }
  destruct (HP (times n B x) x gr (with_spectrum n V w) (times_length _ _ _) Lx EU HH') as (_ & P).
  revert P. apply hessian_form. intros k. rewrite times_length. apply qf_mat.
  eapply meq_trans; [apply mm_ext; [|apply ws_mul; auto]|].
  { intros i j Hi Hj. unfold Rtrans, A. apply ws_sym. }
  eapply meq_trans; [apply ws_mul; auto|]. apply ws_ext. intros i Hi. pose proof (Hw i Hi) as W.
  pose proof (sqrt_lt_R0 _ W) as W'. rewrite <- (sqrt_sqrt (rclamp lo hi (w i))) at 3 by lra. field. lra.
Qed.

Theorem pre_whitened : forall S Y (f : list num -> S -> res Y * S) ret t n a H x gr M V w X h,
  computes n f ret H -> length x = n -> has_hessian H x gr M ->
  hessian_array n a M -> orthonormal n V -> Rmat_eq n (with_spectrum n V w) (sym_part M) ->
  (forall m, is_array n n (sym_part M) m -> t_eigh t m = Ok (vec (fvec n w), mkNd [n; n] (rows_of n V))) ->
  (forall i, i < n -> (0 < w i)%R) ->
  (X = None /\ h = Some (HDense a) \/ exists z, X = Some z /\ h = None /\ t_hessian t z = Ok (HDense a)) ->
  exists s K z gr', set_op t (SetHessian X h None None) = Ok s /\ computes n (pre_call f s) ret K /\
    length z = n /\ precondition s (map Fin x) = Ok (map Fin z) /\ unprecondition s (map Fin z) = Ok (map Fin x) /\
    (zero_vector gr -> zero_vector gr') /\ has_hessian K z gr' Rid.
Proof.
  intros S Y f ret t n a H x gr M V w X h HC Lx HH Ha HV HS He Hw HX.
  destruct (pre_truncated S Y f ret t n a H x gr M V w None None X h HC Lx HH Ha HV HS He Hw HX)
    as (s & K & z & gr' & A1 & A2 & A3 & A4 & A5 & A6 & A7).
  exists s, K, z, gr'. do 6 (split; [assumption|]). revert A7. apply hessian_form. intros k. rewrite A3. apply qf_mat.
  eapply meq_trans; [|apply ws_one; eauto]. apply ws_ext. intros i Hi. cbn. specialize (Hw i Hi). field. lra.
Qed.

(** Bounding the eigenvalues never makes the ratio of two of them larger. *)
Theorem clamp_ratio : forall lo hi a b, (0 < a <= b)%R -> (0 < rclamp lo hi a)%R ->
  (0 < rclamp lo hi b)%R /\ (0 < a / rclamp lo hi a <= b / rclamp lo hi b)%R /\
  ((b / rclamp lo hi b) / (a / rclamp lo hi a) <= b / a)%R.
Proof.
  intros lo hi a b (Pa & Lab) Pc.
  assert (rclamp lo hi a <= rclamp lo hi b)%R as Mc.
  { unfold rclamp, Rmax, Rmin. destruct lo, hi; repeat destruct (Rle_dec _ _); lra. }
  assert (a * rclamp lo hi b <= b * rclamp lo hi a)%R as Mr.
  { assert (forall k, (0 < k)%R -> (a * k <= b * k)%R) as Sc by (intros; apply Rmult_le_compat_r; lra).
    revert Pc Mc. unfold rclamp, Rmax, Rmin.
    assert (forall s t, (0 < s)%R -> (0 <= t <= s)%R -> (a * t <= b * s)%R) as Sd by (intros; apply Rmult_le_compat; lra).
    destruct lo as [l|], hi as [r|]; repeat destruct (Rle_dec _ _); intros; try (exfalso; lra); try (apply Sd; lra); try (rewrite (Rmult_comm a b); lra);
      try (rewrite (Rmult_comm b a); apply Rmult_le_compat_l; lra); try (rewrite (Rmult_comm a); apply Rmult_le_compat; lra). }
  set (p := rclamp lo hi a) in *. set (q := rclamp lo hi b) in *. assert (0 < q)%R as Pq by lra.
  split; auto. split; [split; [apply Rdiv_lt_0_compat; auto|]|].
  - apply Rmult_le_reg_r with (p * q)%R; [apply Rmult_lt_0_compat; auto|].
    replace (a / p * (p * q))%R with (a * q)%R by (field; lra). replace (b / q * (p * q))%R with (b * p)%R by (field; lra). auto.
  - replace (b / q / (a / p))%R with (b / a * (p / q))%R by (field; lra).
    rewrite <- (Rmult_1_r (b / a)) at 2. apply Rmult_le_compat_l; [left; apply Rdiv_lt_0_compat; lra|].
    apply Rmult_le_reg_r with q; auto. replace (p / q * q)%R with p by (field; lra). lra.
Qed.

(** ** At an optimum under constraints *)
Lemma qf_spectrum : forall n V w k, orthonormal n V -> k < n -> qf n (with_spectrum n V w) (fun i => V i k) = w k.
Proof.
  intros n V w k HV Hk.
  transitivity (qf n (Rdiag w) (fun l => Rsum n (fun i => V i l * V i k)%R)).
  - rewrite (qf_pull n n (fun l i => V i l) (Rdiag w) (fun i => V i k)). apply qf_mat. intros i j Hi Hj. rewrite ws_entry.
    apply Rsum_ext. intros l Hl. unfold Rdiag. rewrite (Rsum_single n _ l Hl).
    + rewrite Nat.eqb_refl. ring.
    + intros m Hm Hne. rewrite (proj2 (Nat.eqb_neq l m)) by auto. ring.
  - rewrite (qf_ext n _ _ (fun l => Rid l k)) by (intros l Hl; apply (HV l k Hl Hk)).
    unfold qf. rewrite (Rsum_single n _ k Hk).
    + rewrite (Rsum_single n _ k Hk); [unfold Rdiag, Rid; rewrite Nat.eqb_refl; ring|].
      intros j Hj Hne. unfold Rid. rewrite (proj2 (Nat.eqb_neq j k)) by auto. ring.
    + intros i Hi Hne. apply Rsum_zero. intros j Hj. unfold Rid. rewrite (proj2 (Nat.eqb_neq i k)) by auto. ring.
Qed.

Theorem optimum_whitened : forall S (f : callable (obj R) S) ad p n v x gr M Phi t J K V w,
  usable p -> simplexes_nonempty p -> flat_length p (Some true) = Ok (plint n) ->
  (forall u z, admissible p u -> flatten p u (Some false) None = Ok (map Fin z) -> returns f u (Phi z)) ->
  interior p v -> flatten p v (Some false) None = Ok (map Fin x) -> has_hessian Phi x gr M ->
  (forall h, feasible p x h -> dot gr h = 0%R) ->
  (forall h, feasible p x h -> ~ zero_vector h -> (0 < quadratic (length x) M h)%R) ->
  at_psd (jacobian_true ad false) p v -> jacobian ad false p v = Ok J -> pulled_form J M K ->
  orthonormal n V -> Rmat_eq n (with_spectrum n V w) (sym_part K) ->
  (forall m, is_array n n (sym_part K) m -> t_eigh t m = Ok (vec (fvec n w), mkNd [n; n] (rows_of n V))) ->
  exists g y s z P, free_objective f p = Ok g /\ flatten p v (Some true) None = Ok (map Fin y) /\
    set_op t (SetHessian None (Some (HDense (mkNd [n; n] (rows_of n K)))) None None) = Ok s /\
    precondition s (map Fin y) = Ok (map Fin z) /\ unprecondition s (map Fin z) = Ok (map Fin y) /\
    computes n (pre_call (on_vectors g) s) (fun r => ROne (OOther r)) P /\
    has_hessian P z (repeat 0%R n) Rid.
Proof.
  intros S f ad p n v x gr M Phi t J K V w U SN L C I Fx HH HO HP AT EJ HK HV HS He.
  destruct (second_order_full S f ad p n v x gr M Phi U SN L C I Fx HH HO AT)
    as (g & H & y & J' & c & A1 & A2 & A3 & A4 & A5 & A6 & A7 & A8 & A9).
  rewrite EJ in A5. injection A5 as <-.
  pose proof (proj2 (definite_iff ad p v x J M K U SN I Fx AT EJ HK) HP) as PK. rewrite A7 in PK.
  assert (has_hessian H y (repeat 0%R n) K) as HH'.
  { revert A9. apply hessian_form. intros h. rewrite A4. apply qf_mat. intros a b Ha Hb.
    destruct HK as (c' & Hc' & E). rewrite A6, A7 in *. rewrite E by auto.
    assert (forall i j, i < length x -> j < n -> c i j = c' i j) as Ec.
    { intros i j Hi Hj. specialize (A8 i j Hi Hj). rewrite (Hc' i j Hi Hj) in A8. injection A8 as ->. auto. }
    apply Rsum_ext. intros i Hi. apply Rsum_ext. intros j Hj. rewrite !Ec by auto. auto. }
  assert (forall k, k < n -> (0 < w k)%R) as Pw.
  { intros k Hk. rewrite <- (qf_spectrum n V w k HV Hk), (qf_mat n _ _ _ HS), qf_sym.
    set (col := map (fun i => V i k) (seq 0 n)).
    assert (forall i, i < n -> nth i col 0%R = V i k) as Ec.
    { intros i Hi. unfold col. set (F := fun i => V i k). rewrite (nth_indep _ 0%R (F 0)) by (rewrite map_length, seq_length; auto).
      rewrite map_nth, seq_nth; auto. }
    assert (length col = n) as Lc by (unfold col; rewrite map_length, seq_length; auto).
    rewrite (qf_ext n K _ (fun i => nth i col 0%R)) by (intros; symmetry; auto). rewrite <- quadratic_qf. apply PK; auto.
    intros Z. pose proof (HV k k Hk Hk) as E. unfold Rid in E. rewrite Nat.eqb_refl in E.
    unfold Rmatmul, Rtrans in E. rewrite Rsum_zero in E; [lra|]. intros i Hi.
    unfold zero_vector in Z. rewrite Forall_forall in Z. rewrite <- (Ec i Hi), (Z (nth i col 0%R)) by (apply nth_In; lia). ring. }
  assert (computes n (on_vectors g) (fun r => ROne (OOther r)) H) as HC.
  { intros z st Lz. apply A2. auto. }
  destruct (pre_whitened S _ (on_vectors g) (fun r => ROne (OOther r)) t n _ H y _ K V w None _ HC A4 HH' (array_rows n K) HV HS He Pw
    (or_introl (conj eq_refl eq_refl))) as (s & P & z & gr' & B1 & B2 & B3 & B4 & B5 & B6 & B7).
  exists g, y, s, z, P. do 6 (split; [assumption|]).
  assert (gr' = repeat 0%R n) as <-; auto.
  assert (zero_vector gr') as Z by (apply B6, Forall_forall; intros e Ie; apply repeat_spec in Ie; auto).
  destruct B7 as (Lg & _). rewrite B3 in Lg. clear - Z Lg. revert n Lg.
  induction Z; intros n Lg; cbn in Lg; subst n; cbn; auto. f_equal; auto.
Qed.
