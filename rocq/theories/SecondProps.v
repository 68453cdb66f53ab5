(** * Second-order behaviour of the objective in free coordinates. *)
From Coq Require Import Reals Lra Lia NArith.
From Verif Require Import Base Num Nd Numeric Simplex Psd Pattern Spec ListFacts PatFacts NonFree
  NumFacts CholFacts Free Contract Jac SpecJac JacBase JacFacts JacMore JacPsd CholDiff PsdDiff FunWrap Api
  AlongFacts JacProps AdMat SpecOptim SpecEnd EndFacts GradFacts GradSimp RevPsd SpecRev RevFacts RevGrad SpecDir DirFacts
  FeasFacts DirProps SpecSecond TotalDiff UnfreeDiff SecondFacts.
Local Open Scope list_scope.
Local Open Scope nat_scope.

(** ** The total derivative *)
Theorem unfree_total : forall ad p v,
  usable p -> simplexes_nonempty p -> interior p v -> at_psd (jacobian_true ad false) p v ->
  exists J y x, jacobian ad false p v = Ok J /\
    flatten p v (Some true) None = Ok (map Fin y) /\ flatten p v (Some false) None = Ok (map Fin x) /\
    total_derivative (transform false p) y x J.
Proof.
  intros ad p v U SN I AT.
  destruct (unfree_map ad p v U SN I AT) as (J & y & x & G & c & EJ & Fy & Fx & Gy & R1 & C1 & Ly & HG & Hc & HF).
  exists J, y, x. do 3 (split; [assumption|]). split.
  { rewrite <- Gy. apply HG. auto. }
  do 2 (split; [assumption|]). intros eps He.
  destruct (fre_all (length y) (length x) G y c HF eps He) as (d & Hd & A).
  exists d. split; auto. intros z Lz Hz. destruct (HG z Lz) as (E & L).
  set (h := map (fun i => lin (length y) (c i) y z) (seq 0 (length x))).
  assert (forall i, i < length x -> nth i h 0%R = lin (length y) (c i) y z) as Nh.
  { intros i Hi. unfold h. rewrite (nth_map_gen _ _ _ _ _ 0%R 0), seq_nth by (rewrite ?seq_length; auto). auto. }
  exists (G z), h. do 2 (split; [assumption|]). split.
  - split; [rewrite step_length, C1; auto|]. split; [unfold h; rewrite map_length, seq_length, R1; auto|].
    intros i Hi. rewrite R1 in Hi. exists (c i). split; [intros j Hj; apply Hc; auto; lia|]. rewrite Nh by auto.
    rewrite C1. apply lin_step; auto.
  - intros i Hi. rewrite Nh by auto. specialize (A i Hi z Lz Hz). rewrite Gy in A. exact A.
Qed.

Lemma reverse_at : forall solve p v, usable p -> psds_nonempty p -> interior p v ->
  at_psd (jacobian_true (reverse_ad solve) false) p v.
Proof.
  intros solve p v U PN I. eapply at_psd_impl; [|exact U|exact I|apply psds_nonempty_at; exact PN].
  intros. apply reverse_unfree_leaf; auto.
Qed.
Theorem unfree_total_reverse : forall solve p v,
  usable p -> simplexes_nonempty p -> psds_nonempty p -> interior p v ->
  exists J y x, jacobian (reverse_ad solve) false p v = Ok J /\
    flatten p v (Some true) None = Ok (map Fin y) /\ flatten p v (Some false) None = Ok (map Fin x) /\
    total_derivative (transform false p) y x J.
Proof. intros solve p v U SN PN I. apply unfree_total; auto. apply reverse_at; auto. Qed.

(** ** The objective *)
Lemma second_order_full : forall S (f : callable (obj R) S) ad p n v x gr M Phi,
  usable p -> simplexes_nonempty p -> flat_length p (Some true) = Ok (plint n) ->
  (forall w z, admissible p w -> flatten p w (Some false) None = Ok (map Fin z) -> returns f w (Phi z)) ->
  interior p v -> flatten p v (Some false) None = Ok (map Fin x) -> has_hessian Phi x gr M ->
  (forall h, feasible p x h -> dot gr h = 0%R) -> at_psd (jacobian_true ad false) p v ->
  exists g H y J c, free_objective f p = Ok g /\
    (forall z, length z = n -> returns g (FArr (vec (map Fin z))) (H z)) /\
    flatten p v (Some true) None = Ok (map Fin y) /\ length y = n /\ jacobian ad false p v = Ok J /\
    m_rows J = length x /\ m_cols J = n /\
    (forall i j, i < length x -> j < n -> m_at J i j = Fin (c i j)) /\
    has_hessian H y (repeat 0%R n) (fun a b => Rsum (length x) (fun i => Rsum (length x) (fun j => c i a * M i j * c j b)%R)).
Proof.
  intros S f ad p n v x gr M Phi U SN L C I Fx HH HO AT.
  destruct (unfree_map ad p v U SN I AT) as (J & y & x' & G & c & EJ & Fy & Fx' & Gy & R1 & C1 & Ly & HG & Hc & HF).
  rewrite Fx in Fx'. injection Fx' as Fx'. apply map_Fin_inj in Fx'. subst x'.
  destruct (free_gradient_full S f ad p n v x gr Phi U SN L C I Fx (hessian_gradient _ _ _ _ HH) AT)
    as (g & H & y' & J' & D & A1 & A2 & A3 & A4 & A5 & _).
  rewrite Fy in A4. injection A4 as A4. apply map_Fin_inj in A4. subst y'.
  assert (from : forall z, length z = n -> flat_inside p (G z) /\ H z = Phi (G z)).
  { intros z Lz. destruct (fold_admissible p z n U L Lz) as (w & Aw & Fw & Lw).
    destruct (container_jacobian_psd psd_ad false p w U SN (proj1 Aw) (psd_ad_at p w U (proj1 Aw)))
      as (J'' & _ & (z' & u & Fz & Fu & (T & _)) & _ & _).
    cbn [negb] in Fz. rewrite Lw in Fz. injection Fz as Fz. apply map_Fin_inj in Fz. subst z'.
    destruct (HG z ltac:(lia)) as (E & _). rewrite T in E. injection E as E. apply map_Fin_inj in E. subst u.
    split; [exists w; split; [apply Aw|exact Fu]|]. apply (A3 z w); auto. }
  exists g, H, y, J, c. subst n. do 3 (split; [assumption|]). split; [reflexivity|]. do 4 (split; [assumption|]).
  apply (hessian_ext (fun z => Phi (G z))); [intros z Lz; symmetry; apply from; congruence|].
  apply (hessian_chain (length y) (length x) G y x c Phi gr M); auto.
  - intros z Lz. apply HG. auto.
  - intros z Lz. apply HO. apply (feasible_is_direction p v); auto.
    assert (inside p x) as Ix by (apply flat_inside_iff; auto; exists v; auto).
    assert (inside p (G z)) as Iz by (apply flat_inside_iff; auto; apply from; auto).
    apply (convex_tree p U x (G z) Ix Iz). symmetry. apply HG. auto.
Qed.

Theorem second_order : forall S (f : callable (obj R) S) ad p n v x gr M Phi,
  usable p -> simplexes_nonempty p -> flat_length p (Some true) = Ok (plint n) ->
  (forall w z, admissible p w -> flatten p w (Some false) None = Ok (map Fin z) -> returns f w (Phi z)) ->
  interior p v -> flatten p v (Some false) None = Ok (map Fin x) -> has_hessian Phi x gr M ->
  (forall h, feasible p x h -> dot gr h = 0%R) -> at_psd (jacobian_true ad false) p v ->
  exists g H y J K, free_objective f p = Ok g /\
    (forall z, length z = n -> returns g (FArr (vec (map Fin z))) (H z)) /\
    flatten p v (Some true) None = Ok (map Fin y) /\ jacobian ad false p v = Ok J /\
    pulled_form J M K /\ has_hessian H y (repeat 0%R n) K.
Proof.
  intros S f ad p n v x gr M Phi U SN L C I Fx HH HO AT.
  destruct (second_order_full S f ad p n v x gr M Phi U SN L C I Fx HH HO AT)
    as (g & H & y & J & c & A1 & A2 & A3 & A4 & A5 & A6 & A7 & A8 & A9).
  eexists g, H, y, J, _. do 4 (split; [assumption|]). split; [|exact A9].
  exists c. rewrite A6, A7. split; auto.
Qed.
Theorem second_order_reverse : forall S (f : callable (obj R) S) solve p n v x gr M Phi,
  usable p -> simplexes_nonempty p -> psds_nonempty p -> flat_length p (Some true) = Ok (plint n) ->
  (forall w z, admissible p w -> flatten p w (Some false) None = Ok (map Fin z) -> returns f w (Phi z)) ->
  interior p v -> flatten p v (Some false) None = Ok (map Fin x) -> has_hessian Phi x gr M ->
  (forall h, feasible p x h -> dot gr h = 0%R) ->
  exists g H y J K, free_objective f p = Ok g /\
    (forall z, length z = n -> returns g (FArr (vec (map Fin z))) (H z)) /\
    flatten p v (Some true) None = Ok (map Fin y) /\ jacobian (reverse_ad solve) false p v = Ok J /\
    pulled_form J M K /\ has_hessian H y (repeat 0%R n) K.
Proof.
  intros S f solve p n v x gr M Phi U SN PN L C I Fx HH HO.
  apply (second_order S f (reverse_ad solve) p n v x gr M Phi); auto. apply reverse_at; auto.
Qed.

(** ** The unfreeing Jacobian has independent columns *)
Lemma columns_independent : forall ad p v J,
  usable p -> simplexes_nonempty p -> interior p v -> at_psd (jacobian_true ad false) p v ->
  jacobian ad false p v = Ok J ->
  forall w h, matrix_times J w h -> zero_vector h -> zero_vector w.
Proof.
  intros ad p v J U SN I AT EJ w h (Lw & Lh & HW) Z.
  destruct (all_good ad false p v U SN I AT) as (y & x & J' & EJ' & Fy & Fx & Ly & Lx & HD).
  rewrite EJ in EJ'. injection EJ' as <-. cbn [negb] in *.
  destruct symmetrised_accepted as (ad' & HS). destruct (HS p v U I) as (AS & AT' & _).
  destruct (all_good ad' false p v U SN I AT') as (y' & x' & J2 & EJ2 & Fy' & Fx' & _ & _ & HD').
  cbn [negb] in *. rewrite Fy in Fy'. rewrite Fx in Fx'. injection Fy' as E1. injection Fx' as E2.
  apply map_fin_inj' in E1, E2. subst y' x'.
  destruct (smooth_all p U) as (m & G & HG & HSm).
  destruct (smooth_rows _ m _ G y x J HG (HSm y Ly) Ly HD) as (c & Hc & Hf).
  destruct (smooth_rows _ m _ G y x J2 HG (HSm y Ly) Ly HD') as (c' & Hc' & Hf').
  pose proof HD as (EE & R1 & C1 & _). pose proof HD' as (_ & R2 & C2 & _).
  set (n := pl_n (flat_len p true)) in *. destruct (HG y Ly) as (Ey & Lm). rewrite EE in Ey.
  assert (x = G y) as Ex by (apply map_fin_inj'; congruence).
  assert (m = length x) as -> by (rewrite Ex; auto).
  assert (forall i j, i < length x -> j < n -> c i j = c' i j) as Ec.
  { intros i j Hi Hj.
    pose proof (fre_line n _ y (c i) (unit_vec n j) Ly (unit_length n j) (Hf i Hi)) as K.
    pose proof (fre_line n _ y (c' i) (unit_vec n j) Ly (unit_length n j) (Hf' i Hi)) as K'.
    pose proof (uniqueness_limite _ _ _ _ K K') as Q.
    rewrite !(Rsum_single n _ j Hj) in Q;
      try (intros k Hk Hne; rewrite nth_unit_vec; destruct (Nat.eqb_spec k j); [lia|]; cbn [andb]; ring).
    rewrite nth_unit_vec, Nat.eqb_refl, (proj2 (Nat.ltb_lt j n)) in Q by lia. cbn [andb] in Q. lra. }
  destruct (inverse_from_derivatives ad' p v U SN I AS AT') as (J1 & J2' & EJ1 & EJ2' & F1 & F2 & (Rp & Cp & Mp & Pp)).
  rewrite EJ2 in EJ2'. injection EJ2' as <-. fold n in Rp, Cp, Pp.
  apply zero_nth. intros a Ha.
  assert (forall i, i < length x -> Rsum n (fun b => c i b * nth b w 0)%R = 0%R) as HZ.
  { intros i Hi. rewrite <- R1 in Hi. destruct (HW i Hi) as (e & He & Eh). rewrite R1 in Hi.
    transitivity (nth i h 0%R); [|apply (proj1 (zero_nth h) Z); lia].
    rewrite Eh, C1, Ly. apply Rsum_ext. intros b Hb. specialize (He b ltac:(lia)). rewrite Hc in He by auto. injection He as ->. auto. }
  set (f := fun i k => real_of (m_at J1 i k)).
  transitivity (Rsum n (fun b => (if a =? b then 1 else 0) * nth b w 0)%R).
  { rewrite (Rsum_single n _ a); [rewrite Nat.eqb_refl; ring|lia|]. intros b Hb Hne. destruct (Nat.eqb_spec a b); [lia|ring]. }
  transitivity (Rsum n (fun b => Rsum (length x) (fun k => f a k * c k b) * nth b w 0)%R).
  { apply Rsum_ext. intros b Hb. f_equal. specialize (Pp a b ltac:(lia) Hb).
    rewrite (mat_prod_real _ _ a b (f a) (fun k => c k b)) in Pp.
    - injection Pp as Pp. rewrite <- Pp. rewrite Mp, R2. auto.
    - intros k Hk. apply fin_real; [exact F1|lia|lia].
    - intros k Hk. rewrite Ec by lia. apply Hc'; lia. }
  transitivity (Rsum (length x) (fun k => f a k * Rsum n (fun b => c k b * nth b w 0))%R).
  { transitivity (Rsum n (fun b => Rsum (length x) (fun k => f a k * (c k b * nth b w 0))%R)).
    - apply Rsum_ext. intros b _. rewrite <- Rsum_scal_r. apply Rsum_ext. intros; ring.
    - rewrite Rsum_swap. apply Rsum_ext. intros k _. rewrite <- Rsum_scal. auto. }
  apply Rsum_zero. intros k Hk. rewrite HZ by auto. ring.
Qed.

Lemma quadratic_pull : forall J M K w h, pulled_form J M K -> matrix_times J w h ->
  quadratic (m_cols J) K w = quadratic (m_rows J) M h.
Proof.
  intros J M K w h (c & Hc & HK) (Lw & Lh & HW). rewrite !quadratic_qf.
  transitivity (qf (m_cols J) (fun a b => Rsum (m_rows J) (fun i => Rsum (m_rows J) (fun j => c i a * M i j * c j b)%R)) (fun i => nth i w 0%R)).
  - unfold qf. apply Rsum_ext. intros a Ha. apply Rsum_ext. intros b Hb. rewrite HK by auto. auto.
  - rewrite <- qf_pull. apply qf_ext. intros i Hi. destruct (HW i Hi) as (e & He & ->). apply Rsum_ext. intros j Hj.
    specialize (He j Hj). rewrite Hc in He by auto. injection He as ->. auto.
Qed.
Lemma times_total : forall J w, finite_entries J -> length w = m_cols J -> exists h, matrix_times J w h.
Proof.
  intros J w F Lw. exists (map (fun i => Rsum (m_cols J) (fun j => real_of (m_at J i j) * nth j w 0)%R) (seq 0 (m_rows J))).
  split; auto. split; [rewrite map_length, seq_length; auto|]. intros i Hi. exists (fun j => real_of (m_at J i j)). split.
  - intros j Hj. apply fin_real; auto.
  - rewrite (nth_map_gen _ _ _ _ _ 0%R 0), seq_nth by (rewrite ?seq_length; auto). auto.
Qed.
Lemma times_zero : forall J w h, matrix_times J w h -> zero_vector w -> zero_vector h.
Proof.
  intros J w h (Lw & Lh & HW) Z. apply zero_nth. intros i Hi. destruct (HW i ltac:(lia)) as (c & _ & ->).
  apply Rsum_zero. intros j Hj. rewrite (proj1 (zero_nth w) Z j) by lia. ring.
Qed.

(** Curvature in free coordinates and along the constraints. *)
Theorem definite_iff : forall ad p v x J M K,
  usable p -> simplexes_nonempty p -> interior p v -> flatten p v (Some false) None = Ok (map Fin x) ->
  at_psd (jacobian_true ad false) p v -> jacobian ad false p v = Ok J -> pulled_form J M K ->
  ((forall w, length w = m_cols J -> ~ zero_vector w -> (0 < quadratic (m_cols J) K w)%R) <->
   (forall h, feasible p x h -> ~ zero_vector h -> (0 < quadratic (length x) M h)%R)).
Proof.
  intros ad p v x J M K U SN I Fx AT EJ HK.
  destruct (feasible_image ad p v x U SN I Fx AT) as (J' & EJ' & IM). rewrite EJ in EJ'. injection EJ' as <-.
  assert (m_rows J = length x) as R1.
  { destruct (unfree_map ad p v U SN I AT) as (J' & y & x' & G & c & EJ' & _ & Fx' & _ & R1 & _).
    rewrite EJ in EJ'. injection EJ' as <-. rewrite Fx in Fx'. injection Fx' as Fx'. apply map_Fin_inj in Fx'. subst x'. auto. }
  rewrite <- R1. split.
  - intros P h Fh Nh. destruct (proj1 (IM h) Fh) as (w & HW). rewrite <- (quadratic_pull J M K w h HK HW).
    apply P; [apply HW|]. intros Z. apply Nh. apply (times_zero J w h HW Z).
  - intros P w Lw Nw. destruct (times_total J w) as (h & HW); auto.
    { destruct HK as (c & Hc & _). intros i j Hi Hj. eauto. }
    rewrite (quadratic_pull J M K w h HK HW). apply P; [apply IM; eauto|].
    intros Z. apply Nw. apply (columns_independent ad p v J U SN I AT EJ w h HW Z).
Qed.

(** ** Sufficient condition *)
Theorem sufficient : forall S (f : callable (obj R) S) p n v x gr M Phi,
  usable p -> simplexes_nonempty p -> flat_length p (Some true) = Ok (plint n) ->
  (forall w z, admissible p w -> flatten p w (Some false) None = Ok (map Fin z) -> returns f w (Phi z)) ->
  interior p v -> flatten p v (Some false) None = Ok (map Fin x) -> has_hessian Phi x gr M ->
  (forall h, feasible p x h -> dot gr h = 0%R) ->
  (forall h, feasible p x h -> ~ zero_vector h -> (0 < quadratic (length x) M h)%R) ->
  exists g H y, free_objective f p = Ok g /\
    (forall z, length z = n -> returns g (FArr (vec (map Fin z))) (H z)) /\
    flatten p v (Some true) None = Ok (map Fin y) /\
    strict_local_minimum_on (fun z => length z = n) H y /\
    strict_local_minimum_on (flat_inside p) Phi x.
Proof.
  intros S f p n v x gr M Phi U SN L C I Fx HH HO HP.
  pose proof (psd_ad_at p v U I) as AT.
  destruct (second_order_full S f psd_ad p n v x gr M Phi U SN L C I Fx HH HO AT)
    as (g & H & y & J & c & A1 & A2 & A3 & A4 & A5 & A6 & A7 & A8 & A9).
  set (K := fun a b => Rsum (length x) (fun i => Rsum (length x) (fun j => c i a * M i j * c j b)%R)) in *.
  assert (pulled_form J M K) as HK by (exists c; rewrite A6, A7; split; auto).
  pose proof (proj2 (definite_iff psd_ad p v x J M K U SN I Fx AT A5 HK) HP) as PK. rewrite A7 in PK.
  destruct (definite_lists n K PK) as (lam & Pl & HL).
  exists g, H, y. do 3 (split; [assumption|]). split.
  - rewrite <- A4 in *. apply (hessian_minimum H y K lam); auto.
  - destruct (feasible_image psd_ad p v x U SN I Fx AT) as (J' & EJ' & IM). rewrite A5 in EJ'. injection EJ' as <-.
    assert (inside p x) as Ix by (apply flat_inside_iff; auto; exists v; auto).
    set (q := (INR (length x) * csum (length x) n c + 1)%R). pose proof (csum_pos (length x) n c) as Pc.
    pose proof (pos_INR (length x)) as Pi. assert (0 <= INR (length x) * csum (length x) n c)%R as P0 by (apply Rmult_le_pos; auto).
    assert (1 <= q)%R as Pq by (unfold q; lra). assert (0 < q * q)%R as Pqq by nra.
    destruct HH as (Lg & HH). destruct (HH (lam / (4 * (q * q)))%R) as (d & Hd & P); [apply Rdiv_lt_0_compat; lra|].
    exists d. split; auto. intros z Iz Hz N. apply flat_inside_iff in Iz; auto.
    assert (length x = length z) as Lz by (rewrite (inside_length p U x Ix), (inside_length p U z Iz); auto).
    specialize (P z ltac:(lia) Hz).
    assert (feasible p x (step x z)) as Fh.
    { apply (feasible_is_direction p v); auto. apply (convex_tree p U x z Ix Iz Lz). }
    rewrite (HO _ Fh) in P. destruct (proj1 (IM _) Fh) as (w & HW).
    assert (quadratic n K w = quadratic (length x) M (step x z)) as EQ.
    { rewrite <- A6, <- A7. apply (quadratic_pull J M K w _ HK HW). }
    specialize (HL w). set (W := Rsum n (fun i => Rabs (nth i w 0%R))) in *.
    assert (0 <= W)%R as PW by (apply Rsum_ge0; intros; apply Rabs_pos).
    set (D := distance x z) in *.
    assert (D <= q * W)%R as DW.
    { apply Rle_trans with (INR (length x) * (csum (length x) n c * W))%R; [|unfold q; lra].
      apply distance_le. intros i Hi. rewrite <- nth_step by auto.
      destruct HW as (Lw & Lh & HW). destruct (HW i ltac:(lia)) as (e & He & ->). rewrite A7 in *.
      eapply Rle_trans with (Rsum n (fun j => Rabs (c i j)) * W)%R; [|apply Rmult_le_compat_r; auto; apply csum_member; auto].
      unfold W. rewrite <- Rsum_scal. apply Rsum_abs_le. intros j Hj. specialize (He j Hj). rewrite A8 in He by auto. injection He as <-.
      rewrite Rabs_mult. apply Rmult_le_compat_r; [apply Rabs_pos|].
      apply (Rsum_member n (fun j => Rabs (c i j))); auto. intros. apply Rabs_pos. }
    assert (0 < D)%R as PD.
    { destruct (Rle_lt_or_eq_dec 0 D (distance_pos x z)) as [|E]; auto. exfalso. apply N. apply (list_eq_nth _ _ _ 0%R); auto.
      intros i Hi. pose proof (distance_member x z i ltac:(lia)) as K1. fold D in K1. rewrite <- E in K1.
      pose proof (Rabs_pos (nth i z 0 - nth i x 0)%R). assert (Rabs (nth i z 0 - nth i x 0) = 0)%R as Z by lra.
      destruct (Req_dec (nth i z 0 - nth i x 0)%R 0) as [|Ne]; [lra|]. apply Rabs_no_R0 in Ne. lra. }
    assert (D * D <= q * W * (q * W))%R as DD by (apply Rmult_le_compat; lra).
    assert (lam / (q * q) * (D * D) <= lam * (W * W))%R as KK.
    { eapply Rle_trans; [apply Rmult_le_compat_l; [left; apply Rdiv_lt_0_compat; lra|exact DD]|]. right. field. lra. }
    assert (0 < lam / (q * q) * (D * D))%R by (apply Rmult_lt_0_compat; [apply Rdiv_lt_0_compat; lra|apply Rmult_lt_0_compat; auto]).
    replace (lam / (4 * (q * q)) * (D * D))%R with (lam / (q * q) * (D * D) / 4)%R in P by (field; lra).
    rewrite <- EQ in P. set (r := (lam / (q * q) * (D * D))%R) in *. unfold Rabs in P. destruct (Rcase_abs _) in P; lra.
Qed.

(** ** Necessary condition *)
Lemma minimum_curvature : forall p v x gr M Phi, usable p -> interior p v ->
  flatten p v (Some false) None = Ok (map Fin x) -> has_hessian Phi x gr M ->
  local_minimum_on (flat_inside p) Phi x ->
  forall h, feasible p x h -> (0 <= quadratic (length x) M h)%R.
Proof.
  intros p v x gr M Phi U I Fx HH MN h Fh.
  pose proof (local_stationary p v x gr Phi U I Fx (hessian_gradient _ _ _ _ HH) MN) as ST.
  destruct (Rle_dec 0 (quadratic (length x) M h)) as [|N]; auto. exfalso. apply Rnot_le_lt in N.
  set (a := quadratic (length x) M h) in *.
  pose proof (proj1 (feasible_iff p v x h U I Fx) Fh) as (Lh & r1 & Hr1 & Hst).
  destruct MN as (r2 & Hr2 & MN).
  set (B := (Rsum (length x) (fun j => Rabs (nth j h 0)) + 1)%R).
  assert (1 <= B)%R as PB. { unfold B. assert (0 <= Rsum (length x) (fun j => Rabs (nth j h 0%R)))%R by (apply Rsum_ge0; intros; apply Rabs_pos). lra. }
  assert (0 < B * B)%R as PBB by nra.
  destruct HH as (Lg & HH). destruct (HH (- a / (4 * (B * B)))%R) as (d & Hd & P); [apply Rdiv_lt_0_compat; lra|].
  set (t := (Rmin (Rmin r1 r2) d / (2 * B))%R).
  assert (0 < Rmin (Rmin r1 r2) d)%R as Pm by (repeat apply Rmin_pos; auto).
  assert (0 < t)%R as Pt by (apply Rdiv_lt_0_compat; lra).
  assert (t * B < Rmin (Rmin r1 r2) d)%R as Tb.
  { unfold t. replace (Rmin (Rmin r1 r2) d / (2 * B) * B)%R with (Rmin (Rmin r1 r2) d / 2)%R by (field; lra). lra. }
  assert (Rmin (Rmin r1 r2) d <= r1)%R as T1 by (eapply Rle_trans; [apply Rmin_l|apply Rmin_l]).
  assert (Rmin (Rmin r1 r2) d <= r2)%R as T2 by (eapply Rle_trans; [apply Rmin_l|apply Rmin_r]).
  assert (Rmin (Rmin r1 r2) d <= d)%R as T3 by apply Rmin_r.
  assert (t <= t * B)%R as T0 by (rewrite <- (Rmult_1_r t) at 1; apply Rmult_le_compat_l; lra).
  set (z := line x h t). assert (length z = length x) as Lz by (unfold z; rewrite line_length; auto).
  assert (forall i, nth i z 0 - nth i x 0 = t * nth i h 0)%R as Nz by (intros i; unfold z; rewrite nth_line by auto; ring).
  assert (distance x z <= t * B)%R as Dz.
  { unfold distance. rewrite (Rsum_ext _ _ (fun i => t * Rabs (nth i h 0))%R).
    - rewrite Rsum_scal. apply Rmult_le_compat_l; [lra|unfold B; lra].
    - intros i _. rewrite Nz, Rabs_mult, (Rabs_right t) by lra. auto. }
  specialize (P z Lz ltac:(lra)).
  assert (Phi x <= Phi z)%R as Mz.
  { apply MN. split; [apply Hst; rewrite Rabs_right; lra|]. intros i Hi. pose proof (distance_member x z i Hi). lra. }
  assert (forall i, nth i (step x z) 0%R = t * nth i h 0)%R as Ns by (intros i; rewrite nth_step by lia; apply Nz).
  assert (dot gr (step x z) = 0)%R as D0.
  { transitivity (t * dot gr h)%R; [|rewrite ST by auto; ring]. unfold dot. rewrite step_length, Lh by lia.
    rewrite <- Rsum_scal. apply Rsum_ext. intros i _. rewrite Ns. ring. }
  assert (quadratic (length x) M (step x z) = t * t * a)%R as Qz.
  { unfold a, quadratic. rewrite <- Rsum_scal. apply Rsum_ext. intros i _. rewrite <- Rsum_scal. apply Rsum_ext. intros j _.
    rewrite !Ns. ring. }
  rewrite D0, Qz in P. assert (0 <= distance x z)%R as PD by apply distance_pos.
  assert (distance x z * distance x z <= t * B * (t * B))%R as DD by (apply Rmult_le_compat; auto).
  assert (- a / (4 * (B * B)) * (distance x z * distance x z) <= - a / 4 * (t * t))%R as KK.
  { eapply Rle_trans; [apply Rmult_le_compat_l; [left; apply Rdiv_lt_0_compat; lra|exact DD]|]. right. field. lra. }
  assert (0 < t * t)%R as Ptt by (apply Rmult_lt_0_compat; auto).
  assert (0 < - a * (t * t))%R by (apply Rmult_lt_0_compat; lra).
  unfold Rabs in P. destruct (Rcase_abs _) in P; lra.
Qed.

Theorem necessary : forall S (f : callable (obj R) S) ad p n v x gr M Phi,
  usable p -> simplexes_nonempty p -> flat_length p (Some true) = Ok (plint n) ->
  (forall w z, admissible p w -> flatten p w (Some false) None = Ok (map Fin z) -> returns f w (Phi z)) ->
  interior p v -> flatten p v (Some false) None = Ok (map Fin x) -> has_hessian Phi x gr M ->
  at_psd (jacobian_true ad false) p v -> local_minimum_on (flat_inside p) Phi x ->
  exists g H y K, free_objective f p = Ok g /\
    (forall z, length z = n -> returns g (FArr (vec (map Fin z))) (H z)) /\
    flatten p v (Some true) None = Ok (map Fin y) /\ has_hessian H y (repeat 0%R n) K /\
    (forall w, length w = n -> (0 <= quadratic n K w)%R) /\
    (forall h, feasible p x h -> (0 <= quadratic (length x) M h)%R).
Proof.
  intros S f ad p n v x gr M Phi U SN L C I Fx HH AT MN.
  pose proof (local_stationary p v x gr Phi U I Fx (hessian_gradient _ _ _ _ HH) MN) as HO.
  destruct (second_order_full S f ad p n v x gr M Phi U SN L C I Fx HH HO AT)
    as (g & H & y & J & c & A1 & A2 & A3 & A4 & A5 & A6 & A7 & A8 & A9).
  set (K := fun a b => Rsum (length x) (fun i => Rsum (length x) (fun j => c i a * M i j * c j b)%R)) in *.
  assert (pulled_form J M K) as HK by (exists c; rewrite A6, A7; split; auto).
  pose proof (minimum_curvature p v x gr M Phi U I Fx HH MN) as Q.
  exists g, H, y, K. do 4 (split; [assumption|]). split; auto.
  intros w Lw. destruct (times_total J w) as (h & HW); [intros i j Hi Hj; rewrite A6, A7 in *; eauto|congruence|].
  rewrite <- A7, (quadratic_pull J M K w h HK HW), A6. apply Q.
  destruct (feasible_image ad p v x U SN I Fx AT) as (J' & EJ' & IM). rewrite A5 in EJ'. injection EJ' as <-.
  apply IM. eauto.
Qed.
