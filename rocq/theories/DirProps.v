(** * First-order optimality in free coordinates. *)
From Coq Require Import Reals Lra Lia NArith.
From Verif Require Import Base Num Nd Numeric Simplex Psd Pattern Spec ListFacts PatFacts NonFree
  NumFacts CholFacts Free Contract Jac SpecJac JacBase JacFacts JacMore JacPsd CholDiff PsdDiff FunWrap Api
  AlongFacts JacProps SpecOptim SpecEnd EndFacts GradFacts GradSimp RevPsd SpecRev RevFacts RevGrad SpecDir DirFacts FeasFacts.
Local Open Scope list_scope.
Local Open Scope nat_scope.

Theorem feasible_image : forall ad p v x,
  usable p -> simplexes_nonempty p -> interior p v -> flatten p v (Some false) None = Ok (map Fin x) ->
  at_psd (jacobian_true ad false) p v ->
  exists J, jacobian ad false p v = Ok J /\
    forall h, feasible p x h <-> exists w, matrix_times J w h.
Proof.
  intros ad p v x U SN I Fx AT. destruct (image_is_directions ad p v U SN I AT) as (J & E & H).
  exists J. split; auto. intros h. rewrite (feasible_is_direction p v x h U I Fx). apply H.
Qed.

Theorem feasible_image_reverse : forall solve p v x,
  usable p -> simplexes_nonempty p -> psds_nonempty p -> interior p v ->
  flatten p v (Some false) None = Ok (map Fin x) ->
  exists J, jacobian (reverse_ad solve) false p v = Ok J /\
    forall h, feasible p x h <-> exists w, matrix_times J w h.
Proof.
  intros solve p v x U SN PN I Fx. apply feasible_image; auto.
  eapply at_psd_impl; [|exact U|exact I|apply psds_nonempty_at; exact PN].
  intros. apply reverse_unfree_leaf; auto.
Qed.

Lemma first_order_full : forall S (f : callable (obj R) S) p n v x gr Phi,
  usable p -> simplexes_nonempty p -> flat_length p (Some true) = Ok (plint n) ->
  (forall w z, admissible p w -> flatten p w (Some false) None = Ok (map Fin z) -> returns f w (Phi z)) ->
  interior p v -> flatten p v (Some false) None = Ok (map Fin x) -> has_gradient Phi x gr ->
  exists g H y D, free_objective f p = Ok g /\
    (forall z, length z = n -> returns g (FArr (vec (map Fin z))) (H z)) /\
    (forall z w u, length z = n -> fold p (vec (map Fin z)) (Some true) None = Ok w ->
       flatten p w (Some false) None = Ok (map Fin u) -> H z = Phi u) /\
    flatten p v (Some true) None = Ok (map Fin y) /\ length y = n /\ partials H y D /\
    (zero_vector D <-> forall h, feasible p x h -> dot gr h = 0%R).
Proof.
  intros S f p n v x gr Phi U SN L C I Fx HG.
  pose proof (psd_ad_at p v U I) as AT.
  destruct (free_gradient_full S f psd_ad p n v x gr Phi U SN L C I Fx HG AT)
    as (g & H & y & J & D & A1 & A2 & A3 & A4 & A5 & A6 & A7 & A8).
  exists g, H, y, D. do 6 (split; [assumption|]).
  destruct (feasible_image psd_ad p v x U SN I Fx AT) as (J' & E & K).
  rewrite A6 in E. injection E as <-.
  destruct (container_jacobian_psd psd_ad false p v U SN I AT) as (J' & EJ & (y' & x' & Fy & Fx' & DA) & _ & _).
  rewrite A6 in EJ. injection EJ as <-. cbn [negb] in Fy.
  rewrite Fx in Fx'. injection Fx' as Fx'. apply map_Fin_inj in Fx'. subst x'.
  destruct DA as (_ & R1 & C1 & DD).
  apply (stationary_directions J gr D (feasible p x)); auto.
  - rewrite R1. apply HG.
  - intros i j Hi Hj. rewrite C1 in Hj. rewrite R1 in Hi.
    destruct (DD j Hj) as (r & G & _ & _ & Q). destruct (Q i Hi) as (d & E & _). eauto.
Qed.

Theorem first_order : forall S (f : callable (obj R) S) p n v x gr Phi,
  usable p -> simplexes_nonempty p -> flat_length p (Some true) = Ok (plint n) ->
  (forall w z, admissible p w -> flatten p w (Some false) None = Ok (map Fin z) -> returns f w (Phi z)) ->
  interior p v -> flatten p v (Some false) None = Ok (map Fin x) -> has_gradient Phi x gr ->
  exists g H y D, free_objective f p = Ok g /\
    (forall z, length z = n -> returns g (FArr (vec (map Fin z))) (H z)) /\
    flatten p v (Some true) None = Ok (map Fin y) /\ partials H y D /\
    (zero_vector D <-> forall h, feasible p x h -> dot gr h = 0%R).
Proof.
  intros S f p n v x gr Phi U SN L C I Fx HG.
  destruct (first_order_full S f p n v x gr Phi U SN L C I Fx HG) as (g & H & y & D & A1 & A2 & _ & A4 & _ & A6 & A7).
  exists g, H, y, D. auto.
Qed.

(** ** Minima *)
Lemma flat_inside_iff : forall p z, usable p -> (flat_inside p z <-> inside p z).
Proof.
  intros p z U. split.
  - intros (w & I & F). destruct (interior_inside p U w I) as (x & Fx & Ix).
    change (flatten_ snum p w false None = Ok (map Fin z)) in F. rewrite F in Fx. injection Fx as E.
    apply map_fin_inj' in E. subst x. auto.
  - intros H. apply laid_out_inside in H; auto. destruct H as (L & I). exists (layout p (map Fin z)).
    split; auto. change (flatten_ snum p (layout p (map Fin z)) false None = Ok (map Fin z)).
    assert (length (map Fin z) = pl_n (flat_len p false)) as L' by (rewrite map_length; auto).
    rewrite flatten_nonfree; auto using layout_fv_ok.
    rewrite interior_require by auto. cbn [bind]. rewrite entries_layout by auto. auto.
Qed.

Lemma feasible_iff : forall p v x h, usable p -> interior p v -> flatten p v (Some false) None = Ok (map Fin x) ->
  (feasible p x h <-> stays (flat_inside p) x h).
Proof.
  intros p v x h U I Fx. unfold feasible, stays.
  split; intros (L & r & Hr & H); split; auto; exists r; split; auto; intros t Ht; specialize (H t Ht).
  - apply flat_inside_iff; auto. apply fold_inside; auto.
  - apply fold_inside; auto. apply flat_inside_iff; auto.
Qed.

Lemma dot_derivative : forall Phi x gr h, has_gradient Phi x gr -> length h = length x ->
  derivable_pt_lim (fun t => Phi (line x h t)) 0 (dot gr h).
Proof.
  intros Phi x gr h HG L. unfold dot. rewrite L.
  apply (curve_derivative Phi x gr (line x h) 0 1 (fun i => nth i h 0%R) HG); auto.
  - apply line_zero. auto.
  - lra.
  - intros. apply line_length. auto.
  - intros. apply line_lim. auto.
Qed.

Lemma fermat : forall (F : R -> R) d r, derivable_pt_lim F 0 d -> (0 < r)%R ->
  (forall t, (Rabs t < r)%R -> (F 0 <= F t)%R) -> d = 0%R.
Proof.
  intros F d r D Hr M. destruct (Req_dec d 0) as [|N]; auto. exfalso.
  destruct (D (Rabs d / 2)%R) as ([e He] & P).
  { apply Rdiv_lt_0_compat; [apply Rabs_pos_lt; auto|lra]. }
  cbn in P.
  set (s := (Rmin r e / 2)%R).
  assert (0 < Rmin r e)%R as Hm by (apply Rmin_pos; auto).
  pose proof (Rmin_l r e). pose proof (Rmin_r r e).
  assert (0 < s)%R by (unfold s; lra).
  set (t := if Rlt_dec 0 d then (- s)%R else s).
  assert (t <> 0%R) as Ht by (unfold t; destruct (Rlt_dec 0 d); lra).
  assert (Rabs t = s) as At.
  { unfold t. destruct (Rlt_dec 0 d); [rewrite Rabs_Ropp|]; apply Rabs_right; lra. }
  specialize (P t Ht ltac:(rewrite At; unfold s; lra)).
  specialize (M t ltac:(rewrite At; unfold s; lra)).
  rewrite Rplus_0_l in P.
  set (q := ((F t - F 0) / t)%R) in *.
  assert (q * t = F t - F 0)%R as Q by (unfold q; field; auto).
  apply Rabs_def2 in P. destruct P as (P1 & P2).
  unfold t in *. destruct (Rlt_dec 0 d) as [Hd|Hd].
  - rewrite Rabs_right in P1, P2 by lra. assert (0 < q)%R by lra. nra.
  - rewrite Rabs_left in P1, P2 by lra. assert (q < 0)%R by lra. nra.
Qed.

Lemma local_stationary : forall p v x gr Phi, usable p -> interior p v ->
  flatten p v (Some false) None = Ok (map Fin x) -> has_gradient Phi x gr ->
  local_minimum_on (flat_inside p) Phi x ->
  forall h, feasible p x h -> dot gr h = 0%R.
Proof.
  intros p v x gr Phi U I Fx HG (r & Hr & M) h Hh.
  apply (feasible_iff p v) in Hh; auto. destruct Hh as (L & r' & Hr' & Hs).
  destruct (line_near x h (fun _ => r)) as (r'' & Hr'' & N); [auto|].
  apply (fermat (fun t => Phi (line x h t)) _ (Rmin r' r'') (dot_derivative _ _ _ _ HG L)).
  - apply Rmin_pos; auto.
  - intros t Ht. pose proof (Rmin_l r' r''). pose proof (Rmin_r r' r'').
    rewrite line_zero by auto. apply M. split; [apply Hs; lra|].
    intros i Hi. rewrite nth_line by auto. apply N; auto. lra.
Qed.

Theorem local_minimum : forall S (f : callable (obj R) S) p n v x gr Phi,
  usable p -> simplexes_nonempty p -> flat_length p (Some true) = Ok (plint n) ->
  (forall w z, admissible p w -> flatten p w (Some false) None = Ok (map Fin z) -> returns f w (Phi z)) ->
  interior p v -> flatten p v (Some false) None = Ok (map Fin x) -> has_gradient Phi x gr ->
  local_minimum_on (flat_inside p) Phi x ->
  exists g H y D, free_objective f p = Ok g /\
    (forall z, length z = n -> returns g (FArr (vec (map Fin z))) (H z)) /\
    flatten p v (Some true) None = Ok (map Fin y) /\ partials H y D /\ zero_vector D.
Proof.
  intros S f p n v x gr Phi U SN L C I Fx HG M.
  destruct (first_order S f p n v x gr Phi U SN L C I Fx HG) as (g & H & y & D & A1 & A2 & A3 & A4 & A5).
  exists g, H, y, D. do 4 (split; [assumption|]). apply A5. apply (local_stationary p v x gr Phi); auto.
Qed.

(** *** Segments stay inside *)
Definition between (a b : list R) : list R := map2 (fun x y => y - x)%R a b.
Lemma segment_line : forall a b t, segment a b t = line a (between a b) t.
Proof.
  unfold segment, line, between. induction a; destruct b; intros t; auto. cbn. f_equal; [ring|]. apply IHa.
Qed.
Lemma between_length : forall a b, length a = length b -> length (between a b) = length a.
Proof. unfold between. induction a; destruct b; intros L; try discriminate; cbn; auto. Qed.
Lemma segment_length : forall a b t, length a = length b -> length (segment a b t) = length a.
Proof. intros a b t L. rewrite segment_line, line_length; auto. rewrite between_length; auto. Qed.
Lemma nth_segment : forall a b t k, length a = length b ->
  nth k (segment a b t) 0%R = ((1 - t) * nth k a 0 + t * nth k b 0)%R.
Proof.
  unfold segment. induction a; destruct b; intros t k L; try discriminate; destruct k; cbn; try ring; auto.
Qed.
Lemma nth_between : forall a b k, length a = length b ->
  nth k (between a b) 0%R = (nth k b 0 - nth k a 0)%R.
Proof.
  unfold between. induction a; destruct b; intros k L; try discriminate; destruct k; cbn; try ring; auto.
Qed.
Lemma segment_app : forall a b a' b' t, length a = length b ->
  segment (a ++ a') (b ++ b') t = segment a b t ++ segment a' b' t.
Proof.
  unfold segment. induction a; destruct b; intros a' b' t L; try discriminate; cbn; auto. f_equal. apply IHa. cbn in L. lia.
Qed.
Lemma between_app : forall a b a' b', length a = length b ->
  between (a ++ a') (b ++ b') = between a b ++ between a' b'.
Proof.
  unfold between. induction a; destruct b; intros a' b' L; try discriminate; cbn; auto. f_equal. apply IHa. cbn in L. lia.
Qed.
Lemma segment_in : forall a b t r, length a = length b -> In r (segment a b t) ->
  exists x y, In x a /\ In y b /\ r = ((1 - t) * x + t * y)%R.
Proof.
  unfold segment. induction a as [|a l IHa]; intros [|c b] t r L H; try discriminate; cbn in H; [contradiction|].
  destruct H as [<-|H].
  - exists a, c. cbn. auto.
  - destruct (IHa b t r) as (x & y & Hx & Hy & E); auto. exists x, y. cbn. auto.
Qed.

(** [P] is a convex set whose differences satisfy [D]. *)
Definition convex_set (P D : list R -> Prop) : Prop :=
  forall a b, P a -> P b -> length a = length b ->
    D (between a b) /\ forall t, (0 <= t <= 1)%R -> P (segment a b t).

Lemma nlt_segment : forall lb ub a b t, (0 <= t <= 1)%R -> nlt lb (Fin a) -> nlt (Fin a) ub ->
  nlt lb (Fin b) -> nlt (Fin b) ub -> nlt lb (Fin ((1 - t) * a + t * b)) /\ nlt (Fin ((1 - t) * a + t * b)) ub.
Proof.
  intros lb ub a b t Ht H1 H2 H3 H4. split.
  - destruct lb; cbn in *; auto. destruct (Req_dec t 0) as [->|]; [lra|]. nra.
  - destruct ub; cbn in *; auto. destruct (Req_dec t 0) as [->|]; [lra|]. nra.
Qed.

Lemma convex_num : forall (lb ub : num) n,
  convex_set (fun z => length z = n /\ Forall (fun r => nlt lb (Fin r) /\ nlt (Fin r) ub) z)
    (fun h => length h = n).
Proof.
  intros lb ub n a b (La & Fa) (Lb & Fb) L. split; [rewrite between_length; auto|].
  intros t Ht. split; [rewrite segment_length; auto|]. rewrite Forall_forall in *. intros r Hr.
  apply segment_in in Hr; auto. destruct Hr as (x & y & Hx & Hy & ->).
  destruct (Fa x Hx). destruct (Fb y Hy). apply nlt_segment; auto.
Qed.

Lemma sum_segment : forall a b t, length a = length b ->
  Rlsum (segment a b t) = ((1 - t) * Rlsum a + t * Rlsum b)%R.
Proof.
  unfold segment. induction a; intros [|c b] t L; try discriminate; cbn [map2 Rlsum fold_right]; [ring|].
  change (fold_right Rplus 0%R) with Rlsum. rewrite IHa by (simpl in L; lia). ring.
Qed.
Lemma sum_between : forall a b, length a = length b -> Rlsum (between a b) = (Rlsum b - Rlsum a)%R.
Proof.
  unfold between. induction a; intros [|c b] L; try discriminate; cbn [map2 Rlsum fold_right]; [ring|].
  change (fold_right Rplus 0%R) with Rlsum. rewrite IHa by (simpl in L; lia). ring.
Qed.

Lemma convex_row : forall n, convex_set (fun r => length r = n /\ Forall (Rlt 0) r /\ Rlsum r = 1%R)
    (fun r => length r = n /\ Rlsum r = 0%R).
Proof.
  intros n a b (La & Fa & Sa) (Lb & Fb & Sb) L. split.
  - split; [rewrite between_length; auto|]. rewrite sum_between by auto. lra.
  - intros t Ht. split; [rewrite segment_length; auto|]. split; [|rewrite sum_segment, Sa, Sb by auto; ring].
    rewrite Forall_forall in *. intros r Hr. apply segment_in in Hr; auto. destruct Hr as (x & y & Hx & Hy & ->).
    specialize (Fa x Hx). specialize (Fb y Hy). destruct (Req_dec t 0) as [->|]; [lra|]. nra.
Qed.

Lemma convex_psd : forall n c, convex_set
  (fun z => length z = n * n /\ symmetric n (flat_mat n z) /\ pos_def n (minus_diag (flat_mat n z) c))
  (symmetric_direction n).
Proof.
  intros n c a b (La & Sa & Pa) (Lb & Sb & Pb) L. split.
  - split; [rewrite between_length; auto|]. intros i j Hi Hj. rewrite !nth_between by auto.
    specialize (Sa i j Hi Hj). specialize (Sb i j Hi Hj). unfold flat_mat in *. lra.
  - intros t Ht. split; [rewrite segment_length; auto|]. split.
    + intros i j Hi Hj. unfold flat_mat. rewrite !nth_segment by auto.
      specialize (Sa i j Hi Hj). specialize (Sb i j Hi Hj). unfold flat_mat in *. rewrite Sa, Sb. auto.
    + intros x Hx. specialize (Pa x Hx). specialize (Pb x Hx).
      rewrite (Rsum_ext n _ (fun i => (1 - t) * Rsum n (fun j => x i * minus_diag (flat_mat n a) c i j * x j) +
        t * Rsum n (fun j => x i * minus_diag (flat_mat n b) c i j * x j))%R).
      2:{ intros i Hi. rewrite <- !rs_scal, <- rs_plus. apply Rsum_ext. intros j Hj.
          unfold minus_diag, flat_mat. rewrite nth_segment by auto. destruct (i =? j); ring. }
      rewrite rs_plus, !rs_scal. destruct (Req_dec t 0) as [->|]; [lra|]. nra.
Qed.

Lemma convex_joined : forall (P Q D E : list R -> Prop) n,
  (forall z, P z -> length z = n) -> convex_set P D -> convex_set Q E ->
  convex_set (joined P Q) (joined D E).
Proof.
  intros P Q D E n LP HP HQ ab cd (a & b & -> & Ha & Hb) (c & d & -> & Hc & Hd) L.
  pose proof (LP a Ha) as La. pose proof (LP c Hc) as Lc. rewrite !app_length in L.
  destruct (HP a c Ha Hc ltac:(lia)) as (H1 & H2). destruct (HQ b d Hb Hd ltac:(lia)) as (H3 & H4).
  split.
  - rewrite between_app by lia. exists (between a c), (between b d). auto.
  - intros t Ht. rewrite segment_app by lia. exists (segment a c t), (segment b d t). auto.
Qed.
Lemma convex_ext : forall (P Q D E : list R -> Prop), (forall z, P z <-> Q z) -> (forall h, D h <-> E h) ->
  convex_set P D -> convex_set Q E.
Proof.
  intros P Q D E HP HD H a b Ha Hb L. apply HP in Ha, Hb. destruct (H a b Ha Hb L) as (H1 & H2).
  split; [apply HD; auto|]. intros t Ht. apply HP. auto.
Qed.
Lemma convex_nil : convex_set (fun h => h = []) (fun h => h = []).
Proof. intros a b -> -> _. split; auto. Qed.
Lemma convex_blocks : forall (P D : list R -> Prop) n, (forall z, P z -> length z = n) -> convex_set P D ->
  forall k, convex_set (blocks P k) (blocks D k).
Proof.
  intros P D n LP H. induction k.
  - eapply convex_ext; [apply blocks_0|apply blocks_0|apply convex_nil].
  - eapply convex_ext; [apply blocks_S|apply blocks_S|]. apply (convex_joined _ _ _ _ n); auto.
Qed.
Lemma convex_chain : forall its,
  Forall (fun kq => usable (snd kq) /\ convex_set (inside (snd kq)) (direction (snd kq))) its ->
  convex_set (chain inside its) (chain direction its).
Proof.
  induction its as [|kq its IH]; intros F; [apply convex_nil|]. inversion F as [|? ? (Hu & K) F']; subst.
  apply (convex_joined (inside (snd kq)) (chain inside its) (direction (snd kq)) (chain direction its)
    (pl_n (flat_len (snd kq) false))); auto. apply inside_length. auto.
Qed.
Lemma convex_tree : forall p, usable p -> convex_set (inside p) (direction p).
Proof.
  apply (pat_ind' (fun p => usable p -> convex_set (inside p) (direction p))).
  - intros k s lb ub dv fd Hu. apply convex_num.
  - intros n s dv fd Hu.
    apply (convex_blocks (fun r => length r = n /\ Forall (Rlt 0) r /\ Rlsum r = 1%R)
      (fun r => length r = n /\ Rlsum r = 0%R) n); [tauto|apply convex_row].
  - intros n fl dlb dv fd (_ & c & Hc & _).
    eapply convex_ext; [| |apply (convex_psd n c)].
    + intros z. unfold inside. cbn [flat_leaves leaf_inside]. split.
      * intros (A & B). split; auto. exists c. auto.
      * intros (A & c' & Hc' & B). rewrite Hc in Hc'. injection Hc' as <-. auto.
    + intros z. reflexivity.
  - intros s b fd IH (Hs & Hpp & Hd & Hub). specialize (IH Hub).
    apply (convex_blocks (inside b) (direction b) (pl_n (flat_len b false))); auto. apply inside_length; auto.
  - intros items l fl fd lk IH (Hne & Hnd & Hl & Hfl & Hu). apply (convex_chain items).
    apply all_items_Forall in Hu. rewrite Forall_forall in *. intros kq Hkq. split; [apply Hu; auto|].
    apply IH; auto.
Qed.

Theorem inside_convex : forall p a b t, usable p -> flat_inside p a -> flat_inside p b -> (0 <= t <= 1)%R ->
  flat_inside p (segment a b t).
Proof.
  intros p a b t U Ia Ib Ht. apply flat_inside_iff in Ia, Ib; auto. apply flat_inside_iff; auto.
  apply (convex_tree p U a b); auto. rewrite (inside_length p U a Ia), (inside_length p U b Ib). auto.
Qed.

(** The first-order inequality of a convex function. *)
Lemma convex_bound : forall P Phi x gr z, convex_on P Phi -> has_gradient Phi x gr -> P x -> P z ->
  length x = length z -> (forall t, (0 <= t <= 1)%R -> P (segment x z t)) ->
  (dot gr (between x z) <= Phi z - Phi x)%R.
Proof.
  intros P Phi x gr z CV HG Px Pz L Ps.
  destruct (Rle_dec (dot gr (between x z)) (Phi z - Phi x)) as [|N]; auto. exfalso.
  set (d := dot gr (between x z)) in *. set (e := (d - (Phi z - Phi x))%R) in *.
  assert (0 < e)%R as He by (unfold e; lra).
  pose proof (dot_derivative Phi x gr (between x z) HG (between_length x z L)) as D. fold d in D.
  destruct (D e He) as ([r Hr] & Q). cbn in Q.
  set (t := (Rmin 1 r / 2)%R). pose proof (Rmin_l 1 r). pose proof (Rmin_r 1 r).
  assert (0 < Rmin 1 r)%R by (apply Rmin_pos; lra).
  assert (0 < t < 1)%R as Ht by (unfold t; lra).
  specialize (Q t ltac:(lra) ltac:(rewrite Rabs_right by lra; unfold t; lra)).
  rewrite Rplus_0_l, line_zero in Q by (rewrite between_length; auto).
  rewrite <- segment_line in Q.
  pose proof (CV x z t Px Pz ltac:(lra) (Ps t ltac:(lra))) as K.
  set (q := ((Phi (segment x z t) - Phi x) / t)%R) in *.
  assert (q * t = Phi (segment x z t) - Phi x)%R as E by (unfold q; field; lra).
  apply Rabs_def2 in Q. destruct Q as (_ & Q). unfold e in Q.
  assert (Phi z - Phi x < q)%R as K2 by lra.
  assert ((Phi z - Phi x) * t < q * t)%R by (apply Rmult_lt_compat_r; lra). lra.
Qed.

Lemma free_partner : forall p n w z, usable p -> simplexes_nonempty p -> flat_length p (Some true) = Ok (plint n) ->
  interior p w -> flatten p w (Some false) None = Ok (map Fin z) ->
  exists u w', length u = n /\ flatten p w (Some true) None = Ok (map Fin u) /\
    fold p (vec (map Fin u)) (Some true) None = Ok w' /\ flatten p w' (Some false) None = Ok (map Fin z).
Proof.
  intros p n w z U SN L I Fz.
  destruct (container_jacobian_psd psd_ad false p w U SN I (psd_ad_at p w U I))
    as (J & _ & (u & z' & Fu & Fz' & (T & _)) & _ & _).
  cbn [negb] in Fu. rewrite Fz in Fz'. injection Fz' as E. apply map_Fin_inj in E. subst z'.
  assert (length u = n) as Lu.
  { destruct (api_free_fold_of_flatten p w None None U I) as (u' & Fu' & Ln & _).
    rewrite Fu in Fu'. injection Fu' as E. apply map_Fin_inj in E. subst u'.
    rewrite L in Ln. injection Ln as Ln. auto. }
  destruct (fold_admissible p u n U L Lu) as (w' & (I' & _) & Fw & Lw).
  exists u, w'. split; auto. split; auto. split; [apply Fw|].
  destruct (container_jacobian_psd psd_ad false p w' U SN I' (psd_ad_at p w' U I'))
    as (J' & _ & (u' & z' & Fu' & Fz' & (T' & _)) & _ & _).
  cbn [negb] in Fu'. rewrite Lw in Fu'. injection Fu' as E. apply map_Fin_inj in E. subst u'.
  change (transform false p) with (from_free p) in *. rewrite T in T'. injection T' as E. apply map_Fin_inj in E. subst z'. exact Fz'.
Qed.

Theorem convex_minimum : forall S (f : callable (obj R) S) p n v x gr Phi,
  usable p -> simplexes_nonempty p -> flat_length p (Some true) = Ok (plint n) ->
  (forall w z, admissible p w -> flatten p w (Some false) None = Ok (map Fin z) -> returns f w (Phi z)) ->
  interior p v -> flatten p v (Some false) None = Ok (map Fin x) -> has_gradient Phi x gr ->
  convex_on (flat_inside p) Phi ->
  exists g H y D, free_objective f p = Ok g /\
    (forall z, length z = n -> returns g (FArr (vec (map Fin z))) (H z)) /\
    flatten p v (Some true) None = Ok (map Fin y) /\ partials H y D /\
    (zero_vector D <-> minimum_on (flat_inside p) Phi x) /\
    (zero_vector D <-> minimum_on (fun z => length z = n) H y).
Proof.
  intros S f p n v x gr Phi U SN L C I Fx HG CV.
  destruct (first_order_full S f p n v x gr Phi U SN L C I Fx HG)
    as (g & H & y & D & A1 & A2 & A3 & A4 & A5 & A6 & A7).
  exists g, H, y, D. do 4 (split; [assumption|]).
  assert (flat_inside p x) as Ix by (exists v; auto).
  assert (zero_vector D <-> minimum_on (flat_inside p) Phi x) as B.
  { rewrite A7. split.
    - intros Z z Iz. pose proof (proj1 (flat_inside_iff p x U) Ix) as Ix'. pose proof (proj1 (flat_inside_iff p z U) Iz) as Iz'.
      assert (length x = length z) as Lxz.
      { rewrite (inside_length p U x Ix'), (inside_length p U z Iz'). auto. }
      destruct (convex_tree p U x z Ix' Iz' Lxz) as (Hd & Hs).
      pose proof (convex_bound (flat_inside p) Phi x gr z CV HG Ix Iz Lxz
        (fun t Ht => proj2 (flat_inside_iff p _ U) (Hs t Ht))) as K.
      rewrite Z in K; [lra|]. apply (feasible_is_direction p v); auto.
    - intros M. apply (local_stationary p v x gr Phi); auto. exists 1%R. split; [lra|].
      intros z (Iz & _). apply M. auto. }
  split; auto. rewrite B. split.
  - intros M u Lu. destruct (fold_admissible p u n U L Lu) as (w & (Iw & _) & Fw & _).
    destruct (interior_inside p U w Iw) as (z & Fz & _).
    rewrite (A3 u w z Lu (Fw None) Fz).
    assert (H y = Phi x) as ->; [|apply M; exists w; auto].
    destruct (free_partner p n v x U SN L I Fx) as (y' & w' & Ly & Fy & Fw' & Fx').
    rewrite A4 in Fy. injection Fy as E. apply map_Fin_inj in E. subst y'.
    apply (A3 y w' x); auto.
  - intros M z (w & Iw & Fz).
    destruct (free_partner p n v x U SN L I Fx) as (y' & v' & Ly & Fy & Fv' & Fx').
    rewrite A4 in Fy. injection Fy as E. apply map_Fin_inj in E. subst y'.
    destruct (free_partner p n w z U SN L Iw Fz) as (u & w' & Lu & Fu & Fw' & Fz').
    rewrite <- (A3 y v' x), <- (A3 u w' z) by auto. apply M. auto.
Qed.

(** ** One positive definite matrix: the symmetric part of the gradient *)
Theorem psd_stationary : forall n fl dlb dv fd v x gr,
  usable (PPsd n fl dlb dv fd) -> interior (PPsd n fl dlb dv fd) v ->
  flatten (PPsd n fl dlb dv fd) v (Some false) None = Ok (map Fin x) ->
  ((forall h, feasible (PPsd n fl dlb dv fd) x h -> dot gr h = 0%R) <->
   forall i j, i < n -> j < n -> (nth (i * n + j) gr 0 + nth (j * n + i) gr 0 = 0)%R).
Proof.
  intros n fl dlb dv fd v x gr U I Fx.
  assert (forall h, feasible (PPsd n fl dlb dv fd) x h <-> symmetric_direction n h) as E.
  { intros h. exact (feasible_is_direction _ v x h U I Fx). }
  assert (forall h, length h = n * n -> dot gr h =
    Rsum n (fun i => Rsum n (fun j => nth (i * n + j) gr 0 * nth (i * n + j) h 0))%R) as Ed.
  { intros h L. unfold dot. rewrite L. apply (Rsum_mul n n (fun k => nth k gr 0 * nth k h 0)%R). }
  split.
  - intros H i j Hi Hj.
    set (m := fun a b => ((if (a =? i) && (b =? j) then 1 else 0) + (if (a =? j) && (b =? i) then 1 else 0))%R).
    transitivity (dot gr (rrows n m)); [symmetry|apply H].
    + rewrite Ed by apply rrows_length.
      rewrite (Rsum_ext n _ (fun a => (if a =? i then nth (a * n + j) gr 0 else 0) +
         (if a =? j then nth (a * n + i) gr 0 else 0))%R).
      * rewrite rs_plus. rewrite (Rsum_delta n i (fun a => nth (a * n + j) gr 0%R)),
          (Rsum_delta n j (fun a => nth (a * n + i) gr 0%R)) by auto. auto.
      * intros a Ha.
        rewrite (Rsum_ext n _ (fun b => (if b =? j then (if a =? i then nth (a * n + b) gr 0 else 0) else 0) +
           (if b =? i then (if a =? j then nth (a * n + b) gr 0 else 0) else 0))%R).
        -- rewrite rs_plus. rewrite (Rsum_delta n j (fun b => if a =? i then nth (a * n + b) gr 0 else 0)%R),
             (Rsum_delta n i (fun b => if a =? j then nth (a * n + b) gr 0 else 0)%R) by auto. auto.
        -- intros b Hb. pose proof (flat_rrows n m a b Ha Hb) as F. unfold flat_mat in F. rewrite F. unfold m.
           destruct (a =? i), (b =? j), (a =? j), (b =? i); cbn [andb]; ring.
    + apply E. split; [apply rrows_length|]. intros a b Ha Hb.
      pose proof (flat_rrows n m a b Ha Hb) as F. pose proof (flat_rrows n m b a Hb Ha) as F'. unfold flat_mat in *.
      rewrite F, F'. unfold m. rewrite (andb_comm (b =? i)), (andb_comm (b =? j)). ring.
  - intros H h Hh. apply E in Hh. destruct Hh as (L & S). rewrite Ed by auto.
    set (X := Rsum n (fun i => Rsum n (fun j => nth (i * n + j) gr 0 * nth (i * n + j) h 0))%R).
    assert (X + X = 0)%R; [|lra]. unfold X at 2. rewrite (Rsum_swap n n). unfold X.
    rewrite <- rs_plus. apply Rsum_zero. intros i Hi. rewrite <- rs_plus. apply Rsum_zero. intros j Hj.
    rewrite (S j i Hj Hi). specialize (H i j Hi Hj).
    replace (nth (i * n + j) gr 0 * nth (i * n + j) h 0 + nth (j * n + i) gr 0 * nth (i * n + j) h 0)%R
      with ((nth (i * n + j) gr 0 + nth (j * n + i) gr 0) * nth (i * n + j) h 0)%R by ring.
    rewrite H. ring.
Qed.
