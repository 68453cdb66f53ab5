(** * Derivatives along lines: the freeing Jacobian of a tree with PSD members. *)
From Coq Require Import Reals Lra Lia.
From Verif Require Import Base Num Nd Numeric Simplex Psd Pattern Spec ListFacts PatFacts NonFree
  NumFacts CholFacts Free Contract Indices2 Jac SpecJac JacBase JacFacts JacMore JacPsd CholDiff PsdDiff.
Local Open Scope list_scope.
Local Open Scope nat_scope.

Lemma line_app : forall x xs h hs t, length x = length h ->
  line (x ++ xs) (h ++ hs) t = line x h t ++ line xs hs t.
Proof.
  unfold line. induction x; destruct h; simpl; intros hs t E; try discriminate; auto.
  f_equal. apply IHx. lia.
Qed.

Lemma along_weaken : forall F G x y J h, length x = length h ->
  (forall x' y', length x' = length x ->
     F (map Fin x') = Ok (map Fin y') -> G (map Fin x') = Ok (map Fin y')) ->
  derivative_along F x y J h -> derivative_along G x y J h.
Proof.
  intros F G x y J h Lh HFG (H1 & H2 & H3 & r & g & Hr & Hl & Hd).
  split; [apply HFG; auto|]. split; auto. split; auto.
  exists r, g. split; auto. split; auto. intros t Ht. destruct (Hl t Ht) as (E & L). split; auto.
  apply HFG; auto. apply line_length. auto.
Qed.

Lemma affine_lim : forall f a b d, derivable_pt_lim f a d ->
  derivable_pt_lim (fun t => f (a + t * b)%R) 0 (d * b)%R.
Proof.
  intros f a b d H.
  assert (derivable_pt_lim (fun t => (a + t * b)%R) 0 b) as Ha.
  { pose proof (derivable_pt_lim_plus (fun _ => a) (fun t => (t * b)%R) 0 _ _
      (derivable_pt_lim_const a 0)
      (derivable_pt_lim_mult (fun t => t) (fun _ => b) 0 _ _
       (derivable_pt_lim_id 0) (derivable_pt_lim_const b 0))) as K.
    cbv beta in K. replace (0 + (1 * b + 0 * 0))%R with b in K by ring. exact K. }
  apply (derivable_pt_lim_comp (fun t => (a + t * b)%R) f 0 b d Ha).
  replace (a + 0 * b)%R with a by ring. exact H.
Qed.

(** On a line every coordinate stays close. *)
Lemma line_near : forall (x h : list R) (rs : nat -> R), (forall j, j < length x -> (0 < rs j)%R) ->
  exists r, (0 < r)%R /\ forall t, (Rabs t < r)%R -> forall j, j < length x ->
    (Rabs (nth j x 0 + t * nth j h 0 - nth j x 0) < rs j)%R.
Proof.
  intros x h rs Hrs.
  destruct (near_all (length x) (fun j t => (Rabs (nth j x 0 + t * nth j h 0 - nth j x 0) < rs j)%R) 0)
    as (r & Hr & H).
  - intros j Hj. specialize (Hrs j Hj). exists (rs j / (Rabs (nth j h 0) + 1))%R.
    pose proof (Rabs_pos (nth j h 0%R)) as Ha.
    split; [apply Rdiv_lt_0_compat; lra|]. intros t Ht. rewrite Rminus_0_r in Ht.
    replace (nth j x 0 + t * nth j h 0 - nth j x 0)%R with (t * nth j h 0)%R by ring.
    rewrite Rabs_mult.
    apply (Rmult_lt_compat_r (Rabs (nth j h 0%R) + 1)%R) in Ht; [|lra].
    unfold Rdiv in Ht. rewrite Rmult_assoc, Rinv_l in Ht by lra.
    pose proof (Rabs_pos t). nra.
  - exists r. split; auto. intros t Ht. apply H. rewrite Rminus_0_r. auto.
Qed.

(** ** elementwise maps *)
Lemma along_map : forall F g x y ds h,
  length y = length x -> length ds = length x -> length h = length x ->
  (forall x', length x' = length x -> F (map Fin x') = Ok (map g (map Fin x'))) ->
  map g (map Fin x) = map Fin y ->
  (forall j, j < length x -> exists gr r d,
     (0 < r)%R /\ (forall t, (Rabs (t - nth j x 0) < r)%R -> g (Fin t) = Fin (gr t)) /\
     nth j ds NaN = Fin d /\ derivable_pt_lim gr (nth j x 0%R) d) ->
  derivative_along F x y (diags ds) h.
Proof.
  intros F g x y ds h Ly Ld Lh HF Ey Hd. split; [rewrite HF, Ey; auto|].
  split; [simpl; lia|]. split; [simpl; lia|].
  assert (exists (r : R) (G : R -> list R), (0 < r)%R /\
    (forall t, (Rabs t < r)%R -> map g (map Fin (line x h t)) = map Fin (G t) /\ length (G t) = length x) /\
    forall j, j < length x -> exists d, nth j ds NaN = Fin d /\
      derivable_pt_lim (fun t => nth j (G t) 0%R) 0 (d * nth j h 0)%R) as (r & G & Hr & HG & HD).
  { clear HF Ey Ly. revert ds h Ld Lh Hd. induction x as [|a x IH]; intros ds h Ld Lh Hd.
    - exists 1%R, (fun _ => []). split; [lra|]. split; [|simpl; intros; lia]. intros. split; auto.
    - destruct ds as [|e ds]; [discriminate|]. destruct h as [|b h]; [discriminate|].
      destruct (IH ds h) as (r & G & Hr & HG & HD); [simpl in *; lia|simpl in *; lia| |].
      { intros j Hj. apply (Hd (S j)). simpl. lia. }
      destruct (Hd 0) as (gr & r0 & d0 & Hr0 & Hg0 & E0 & L0); [simpl; lia|]. cbn [nth] in *.
      destruct (line_near [a] [b] (fun _ => r0)) as (r1 & Hr1 & H1); [auto|].
      exists (Rmin r r1), (fun t => gr (a + t * b)%R :: G t). split; [apply Rmin_pos; auto|].
      split.
      + intros t Ht. pose proof (Rmin_l r r1). pose proof (Rmin_r r r1).
        destruct (HG t ltac:(lra)) as (E & L). unfold line in *. cbn [map2 map length]. rewrite E.
        rewrite Hg0 by (apply (H1 t ltac:(lra) 0); simpl; lia). split; [auto|simpl; lia].
      + intros [|j] Hj; cbn [nth].
        * exists d0. split; auto. apply affine_lim. auto.
        * apply HD. simpl in Hj. lia. }
  exists r, G. split; auto. split.
  - intros t Ht. destruct (HG t Ht) as (E & L). rewrite Ly. split; auto.
    rewrite HF by (apply line_length; auto). rewrite E. auto.
  - rewrite Ly. intros i Hi. destruct (HD i Hi) as (d & Ed & HL).
    exists (fun j => if i =? j then d else 0%R). split.
    + intros j Hj. simpl. destruct (Nat.eqb_spec i j) as [->|]; auto.
    + rewrite (Rsum_pick _ i).
      * rewrite (proj2 (Nat.ltb_lt i (length x))), Nat.eqb_refl by auto. exact HL.
      * intros k Hk Hne. destruct (Nat.eqb_spec i k); [lia|]. ring.
Qed.

(** ** simplex rows *)
Lemma along_row : forall s0 s h, (0 < s0)%R -> Forall (Rlt 0) s -> length h = S (length s) ->
  derivative_along (fun x => Ok (unconstrain_row x)) (s0 :: s) (map (fun y => ln y - ln s0)%R s)
    (simplex_jac true (map Fin (s0 :: s))) h.
Proof.
  intros s0 s h H0 Hs Lh. destruct h as [|h0 h]; [discriminate|]. cbn [length] in Lh.
  split; [rewrite unconstrain_row_fin by auto; reflexivity|].
  split; [cbn [simplex_jac m_rows]; simpl; rewrite !map_length; lia|].
  split; [cbn [simplex_jac m_cols]; simpl; rewrite !map_length; lia|].
  destruct (line_near (s0 :: s) (h0 :: h) (fun j => nth j (s0 :: s) 0%R)) as (r & Hr & H).
  { intros [|j] Hj; cbn [nth]; auto. apply (Forall_nth' _ (Rlt 0)); auto. simpl in Hj. lia. }
  exists r, (fun t => map (fun y => ln y - ln (s0 + t * h0))%R (line s h t)). split; auto. split.
  - intros t Ht. specialize (H t Ht).
    change (line (s0 :: s) (h0 :: h) t) with ((s0 + t * h0)%R :: line s h t).
    assert (0 < s0 + t * h0)%R as P0.
    { specialize (H 0 ltac:(simpl; lia)). cbn [nth] in H. apply Rabs_def2 in H. lra. }
    assert (Forall (Rlt 0) (line s h t)) as Ps.
    { apply Forall_forall. intros y Hy. apply (In_nth _ _ 0%R) in Hy. destruct Hy as (j & Hj & <-).
      rewrite line_length in Hj by lia. rewrite nth_line by lia.
      specialize (H (S j) ltac:(simpl; lia)). cbn [nth] in H. apply Rabs_def2 in H. lra. }
    rewrite unconstrain_row_fin by auto. split; [auto|]. rewrite !map_length. apply line_length. lia.
  - rewrite map_length. intros i Hi.
    pose proof (Forall_nth' _ _ s i 0%R Hs Hi) as Hp.
    exists (fun j => match j with O => (- (1 / s0))%R | S j' => if i =? j' then (1 / nth i s 0)%R else 0%R end).
    split.
    + intros [|j] Hj; cbn [length] in Hj; cbn [simplex_jac m_at unconstrain_row_jac nth map].
      * rewrite ndiv_fin by lra. f_equal. field. lra.
      * destruct (Nat.eqb_spec i j) as [->|]; auto. rewrite nth_fin by lia. rewrite ndiv_fin by lra. auto.
    + cbn [length]. rewrite Rsum_S_first. cbn [nth]. rewrite (Rsum_pick _ i).
      2:{ intros k Hk Hne. destruct (Nat.eqb_spec i k); [lia|]. ring. }
      rewrite (proj2 (Nat.ltb_lt i (length s))), Nat.eqb_refl by auto.
      eapply (lim_ext (fun t => ln (nth i s 0 + t * nth i h 0) - ln (s0 + t * h0))%R _ _ _ 1); [lra| |].
      * intros t _. rewrite (nth_map_gen _ _ _ _ _ 0%R 0%R) by (rewrite line_length; lia).
        rewrite nth_line by lia. auto.
      * replace (- (1 / s0) * h0 + 1 / nth i s 0 * nth i h 0)%R
          with (/ nth i s 0 * nth i h 0 - / s0 * h0)%R by (field; lra).
        apply derivable_pt_lim_minus; apply affine_lim; apply derivable_pt_lim_ln; auto.
Qed.

(** ** blocks *)
Inductive blocks_along : list (nat * (list num -> res (list num))) ->
    list R -> list R -> list matrix -> list R -> Prop :=
| along_nil : blocks_along [] [] [] [] []
| along_cons : forall n F x y J h l xs ys Js hs,
    n = length x -> length h = length x -> derivative_along F x y J h ->
    blocks_along l xs ys Js hs ->
    blocks_along ((n, F) :: l) (x ++ xs) (y ++ ys) (J :: Js) (h ++ hs).

Lemma blocks_along_length : forall l x y Js h, blocks_along l x y Js h -> length h = length x.
Proof. intros l x y Js h H. induction H; auto. rewrite !app_length. lia. Qed.

Lemma blocks_along_derivative : forall l x y Js h, blocks_along l x y Js h ->
  derivative_along (joint l) x y (bdiag Js) h.
Proof.
  intros l x y Js h H.
  induction H as [|n F x y J h l xs ys Js hs Hn Lh (E1 & R1 & C1 & r1 & G1 & Hr1 & HG1 & D1) Hb
                   (E2 & R2 & C2 & r2 & G2 & Hr2 & HG2 & D2)].
  - split; [reflexivity|]. split; auto. split; auto. exists 1%R, (fun _ => []). split; [lra|].
    split; [intros; split; auto|]. simpl. intros; lia.
  - change (bdiag (J :: Js)) with (block2 J (bdiag Js)).
    pose proof (blocks_along_length _ _ _ _ _ Hb) as Lhs.
    split; [apply joint_cons_app; auto|].
    split; [cbn [block2 m_rows]; rewrite app_length; lia|].
    split; [cbn [block2 m_cols]; rewrite app_length; lia|].
    exists (Rmin r1 r2), (fun t => G1 t ++ G2 t). split; [apply Rmin_pos; auto|].
    pose proof (Rmin_l r1 r2). pose proof (Rmin_r r1 r2). split.
    + intros t Ht. destruct (HG1 t ltac:(lra)) as (A1 & B1). destruct (HG2 t ltac:(lra)) as (A2 & B2).
      rewrite line_app by auto. split; [|rewrite !app_length; lia].
      apply joint_cons_app; auto. rewrite line_length; auto.
    + intros i Hi. rewrite app_length in Hi. cbn [block2 m_at]. rewrite R1, C1, app_length.
      destruct (Nat.ltb_spec i (length y)) as [Hi1|Hi1].
      * destruct (D1 i Hi1) as (row & Hrow & HL).
        exists (fun j => if j <? length x then row j else 0%R). split.
        -- intros j Hj. destruct (Nat.ltb_spec j (length x)); auto.
        -- rewrite Rsum_add.
           rewrite (Rsum_ext (length x) _ (fun j => (row j * nth j h 0)%R)).
           2:{ intros j Hj. rewrite (proj2 (Nat.ltb_lt j (length x))) by auto. rewrite app_nth1 by lia. auto. }
           rewrite (Rsum_zero (length xs)).
           2:{ intros j Hj. rewrite (proj2 (Nat.ltb_ge (length x + j) (length x))) by lia. ring. }
           rewrite Rplus_0_r.
           eapply (lim_ext (fun t => nth i (G1 t) 0%R)); [exact Hr1| |exact HL].
           intros t Ht. rewrite Rminus_0_r in Ht. destruct (HG1 t Ht) as (_ & B1).
           rewrite app_nth1 by lia. auto.
      * assert (i - length y < length ys) as Hi2 by lia. destruct (D2 _ Hi2) as (row & Hrow & HL).
        exists (fun j => if j <? length x then 0%R else row (j - length x)). split.
        -- intros j Hj. destruct (Nat.ltb_spec j (length x)); auto. apply Hrow. lia.
        -- rewrite Rsum_add. rewrite (Rsum_zero (length x)).
           2:{ intros j Hj. rewrite (proj2 (Nat.ltb_lt j (length x))) by auto. ring. }
           rewrite Rplus_0_l.
           rewrite (Rsum_ext (length xs) _ (fun j => (row j * nth j hs 0)%R)).
           2:{ intros j Hj. rewrite (proj2 (Nat.ltb_ge (length x + j) (length x))) by lia.
               rewrite app_nth2 by lia. f_equal; f_equal; lia. }
           eapply (lim_ext (fun t => nth (i - length y) (G2 t) 0%R));
             [exact (Rmin_pos _ _ Hr1 Hr2)| |exact HL].
           intros t Ht. rewrite Rminus_0_r in Ht. destruct (HG1 t ltac:(lra)) as (_ & B1).
           rewrite app_nth2 by lia. rewrite B1. auto.
Qed.

(** ** Trees *)
Definition good_along (ad : bool -> pat -> list num -> res matrix) (p : pat) (v : fv num) : Prop :=
  exists x y J, jacobian ad true p v = Ok J /\
    flatten_ snum p v false None = Ok (map Fin x) /\
    flatten_ snum p v true None = Ok (map Fin y) /\
    length x = pl_n (flat_len p false) /\ length y = pl_n (flat_len p true) /\
    forall h, tangent p h -> derivative_along (transform true p) x y J h.

Lemma tangent_fold : forall p h, tangent p h ->
  exists w, fold_ snum p (vec (map Fin h)) false (Some false) = Ok w /\ at_psd symmetric_member p w.
Proof. intros p h H. exact H. Qed.
Lemma tangent_length : forall p h, usable p -> tangent p h -> length h = pl_n (flat_len p false).
Proof.
  intros p h Hu H. apply tangent_fold in H. destruct H as (w & Hw & _).
  destruct (Nat.eq_dec (length h) (pl_n (flat_len p false))); auto.
  rewrite fold_wrong_length in Hw by (auto; rewrite map_length; auto). discriminate.
Qed.

Lemma along_num : forall ad k s lb ub dv fd v,
  usable (PNum k s lb ub dv fd) -> interior (PNum k s lb ub dv fd) v ->
  good_along ad (PNum k s lb ub dv fd) v.
Proof.
  intros ad k s lb ub dv fd [a|dct] Hu H; [|contradiction].
  set (p := PNum k s lb ub dv fd) in *.
  pose proof (interior_require None _ _ Hu H) as Hv.
  pose proof (interior_fv_arr _ _ Hu H) as (Hok & Hsf).
  assert (require_valid snum p (FArr (atleast_1d a)) None = Ok tt) as Hv'.
  { rewrite <- Hv. unfold require_valid. simpl. unfold num_validate. rewrite atleast_idem. auto. }
  assert (length (dat a) = prod s) as Hlen.
  { unfold nd_ok in Hok. rewrite Hok. simpl in Hsf. destruct Hsf as [->|[-> ->]]; auto. }
  pose proof Hu as Hu0.
  destruct H as (_ & Hb). destruct Hu as (Hs & Hlu).
  assert (exists x z, dat a = map Fin x /\
     map (unconstrain1 (pyval lb) (pyval ub)) (map Fin x) = map Fin z /\
     Forall (fun r => nlt (pyval lb) (Fin r) /\ nlt (Fin r) (pyval ub)) x)
    as (x & z & Ex & Ez & Hin).
  { clear - Hb. revert Hb. generalize (dat a). induction l as [|y l IHl]; intros Hb.
    - exists [], []. repeat split; auto.
    - inversion Hb; subst. destruct H1 as ((r & ->) & Hlb & Hub).
      destruct (unconstrain1_fin _ _ r Hlb Hub) as (z & Hz1 & Hz2).
      destruct (IHl H2) as (x & zs & -> & E1 & HF).
      exists (r :: x), (z :: zs). cbn [map]. rewrite Hz1, E1. repeat split; auto. }
  assert (length z = length x) as Lz.
  { apply (f_equal (@length _)) in Ez. rewrite !map_length in Ez. auto. }
  assert (length x = prod s) as Lx by (rewrite <- Hlen, Ex, map_length; auto).
  assert (forall f, flatten_ snum p (FArr a) f None = Ok (map Fin (if f then z else x))) as Hfl.
  { intros f. unfold p in *. cbn [flatten_]. rewrite Hv', atleast_dat. cbn [bind snum of_num to_num].
    destruct f; [|rewrite Ex; auto]. rewrite Ex, <- Ez. auto. }
  exists x, z. eexists. split; [reflexivity|]. split; [apply (Hfl false)|]. split; [apply (Hfl true)|].
  split; [simpl; lia|]. split; [simpl; lia|].
  intros h Hh. apply tangent_length in Hh; auto. cbn [flat_len p plint pl_n] in Hh.
  unfold num_jac_array. rewrite Ex.
  apply (along_map _ (unconstrain1 (pyval lb) (pyval ub))); auto.
  - rewrite !map_length. auto.
  - unfold p in Hh. cbn in Hh. lia.
  - intros x' Lx'. rewrite transform_eq. cbn [negb].
    rewrite fold_lenient; [|split; auto|apply lenient_false|rewrite map_length; simpl; lia].
    cbn [bind layout folded_shape flatten_ p]. unfold p.
    rewrite (proj2 (require_valid_ok _ _ _ _ _ tt)).
    * cbn [bind snum of_num to_num]. rewrite atleast_dat. cbn [dat]. auto.
    * cbn [validate]. unfold num_validate. rewrite atleast_idem.
      unfold atleast_1d. cbn [shp]. destruct s; [contradiction|]. cbn [shp]. rewrite shape_eqb_refl. auto.
  - intros j Hj. pose proof (Forall_nth' _ _ x j 0%R Hin Hj) as (H1 & H2).
    destruct (unconstrain1_lim _ _ _ H1 H2) as (gr & r & d & Hr & Hg & Hd & Hl & _).
    exists gr, r, d. split; auto. split; auto. split; auto.
    rewrite (nth_map_gen _ _ _ _ _ _ NaN) by (rewrite map_length; auto).
    rewrite nth_fin by auto. auto.
Qed.

Lemma along_rows : forall n rows,
  Forall (fun r => length r = n /\ Forall (Rlt 0) r /\ Rlsum r = 1%R) rows -> 2 <= n ->
  exists zs,
    flat_map unconstrain_row (map (map Fin) rows) = map Fin (concat zs) /\
    length (concat zs) = length rows * (n - 1) /\
    forall h, length h = length rows * n ->
    blocks_along (map (fun _ => (n, fun x => Ok (unconstrain_row x))) rows) (concat rows) (concat zs)
      (map (fun r => simplex_jac true (map Fin r)) rows) h.
Proof.
  intros n rows H Hn. induction H as [|r rows (L & Hp & Hs) H (zs & E & Lz & B1)].
  - exists []. split; auto. split; auto. intros [|] Hh; [constructor|discriminate].
  - destruct r as [|s0 s]; [simpl in L; lia|]. inversion Hp as [|? ? H0 Hs']; subst.
    exists (map (fun y => ln y - ln s0)%R s :: zs).
    split.
    { change (flat_map unconstrain_row (map (map Fin) ((s0 :: s) :: rows)))
        with (unconstrain_row (map Fin (s0 :: s)) ++ flat_map unconstrain_row (map (map Fin) rows)).
      rewrite unconstrain_row_fin by auto. rewrite E. cbn [concat]. rewrite map_app. auto. }
    cbn [concat].
    split.
    { rewrite app_length, Lz, map_length. simpl. lia. }
    intros h Lh. rewrite <- (firstn_skipn (length (s0 :: s)) h). cbn [length] in *.
    constructor; auto.
    + rewrite firstn_length. cbn [length]. nia.
    + apply along_row; auto. rewrite firstn_length. nia.
    + apply B1. rewrite skipn_length. nia.
Qed.

Lemma along_simplex : forall ad n s dv fd v,
  usable (PSimplex n s dv fd) -> 0 < prod s -> interior (PSimplex n s dv fd) v ->
  good_along ad (PSimplex n s dv fd) v.
Proof.
  intros ad n s dv fd [a|dct] Hu Hs H; [|contradiction].
  set (p := PSimplex n s dv fd) in *.
  pose proof (interior_require None _ _ Hu H) as Hv. pose proof Hu as Hu0.
  destruct H as (Hsh & rows & Lr & Ed & Hr). cbn [usable p] in Hu.
  destruct (along_rows n rows Hr Hu) as (zs & Ez & Lz & B1).
  assert (forall r, In r rows -> length r = n) as Hrn.
  { intros r Hin. rewrite Forall_forall in Hr. apply (Hr r Hin). }
  assert (length (concat rows) = prod s * n) as Lx.
  { rewrite <- Lr. apply concat_length_uniform. auto. }
  assert (forall f, flatten_ snum p (FArr a) f None = Ok (map Fin (if f then concat zs else concat rows))) as Hfl.
  { intros f. unfold p in *. cbn [flatten_]. rewrite Hv. cbn [bind snum of_num to_num].
    destruct f; [|rewrite Ed; auto]. rewrite !map_id, Ed, chunks_map, chunks_concat by auto.
    rewrite Ez. auto. }
  assert (forall f : bool, length (if f then concat zs else concat rows) = pl_n (flat_len p f)) as Hln.
  { intros f. cbn [flat_len p]. unfold p. cbn [flat_len]. rewrite simplex_flen. destruct f; lia. }
  assert (map (fun item => simplex_jac true (dat (subarr a item (length s)))) (indices s)
          = map (fun r => simplex_jac true (map Fin r)) rows) as EJ.
  { transitivity (map (simplex_jac true) (chunks n (prod s) (dat a))).
    - unfold chunks. rewrite map_map, <- ravel_indices, map_map. apply map_ext. intros it.
      rewrite (subarr_chunk _ a it s [n]) by auto. cbn [dat prod fold_right].
      rewrite Nat.mul_1_r. auto.
    - rewrite Ed, chunks_map, chunks_concat, map_map by auto. auto. }
  exists (concat rows), (concat zs), (bdiag (map (fun r => simplex_jac true (map Fin r)) rows)).
  split.
  { unfold p. cbn [jacobian]. rewrite Hsh, shape_eqb_refl. cbn [negb]. rewrite EJ.
    apply block_diag_ok. destruct rows; [simpl in Lr; lia|discriminate]. }
  split; [apply (Hfl false)|]. split; [apply (Hfl true)|]. split; [apply (Hln false)|]. split; [apply (Hln true)|].
  intros h Hh. apply tangent_length in Hh; auto. rewrite <- (Hln false) in Hh.
  apply (along_weaken (joint (map (fun _ : list R => (n, fun x => Ok (unconstrain_row x))) rows)));
    [auto| |apply blocks_along_derivative; apply B1; lia].
  intros x' y' Lx' HJ. rewrite joint_const in HJ. rewrite <- HJ, Lr. rewrite transform_eq. cbn [negb].
  rewrite fold_lenient; [|auto|apply lenient_false|].
  - cbn [bind layout folded_shape p]. unfold p. cbn [flatten_].
    rewrite (proj2 (require_valid_ok _ _ _ _ _ tt)).
    + cbn [bind snum of_num to_num dat]. rewrite !map_id. auto.
    + cbn [validate]. unfold simplex_validate. cbn [shp]. rewrite shape_eqb_refl. auto.
  - rewrite map_length, Lx', Lx. unfold p. cbn [flat_len]. rewrite simplex_flen. auto.
Qed.

Lemma along_psd : forall ad n fl dlb dv fd v,
  usable (PPsd n fl dlb dv fd) -> interior (PPsd n fl dlb dv fd) v ->
  jacobian_on_symmetric ad (PPsd n fl dlb dv fd) v -> good_along ad (PPsd n fl dlb dv fd) v.
Proof.
  intros ad n fl dlb dv fd v Hu Hi (J & x & y & HJ & Hx & Hy & HD).
  change (flatten_ snum (PPsd n fl dlb dv fd) v false None = Ok (map Fin x)) in Hx.
  change (flatten_ snum (PPsd n fl dlb dv fd) v true None = Ok (map Fin y)) in Hy.
  assert (fv_ok v) as Hok.
  { destruct v as [a|]; [|contradiction]. destruct (interior_fv_arr _ _ Hu Hi) as (Hok & _). exact Hok. }
  pose proof (flatten_length _ snum None _ _ v _ Hu Hok Hx) as Lx.
  pose proof (flatten_length _ snum None _ _ v _ Hu Hok Hy) as Ly.
  rewrite map_length in Lx, Ly.
  exists x, y, J. do 5 (split; [auto|]). intros h Hh. apply HD.
  pose proof (tangent_length _ _ Hu Hh) as Lh. cbn [flat_len plint pl_n] in Lh. split; auto.
  apply tangent_fold in Hh. destruct Hh as (w & Hw & Hsym).
  rewrite fold_lenient in Hw; auto; [|apply lenient_false|rewrite map_length; auto].
  injection Hw as <-. cbn [at_psd layout symmetric_member dat] in Hsym.
  intros i j Hi' Hj. specialize (Hsym i j Hi' Hj). rewrite !nth_fin in Hsym by (rewrite Lh; nia).
  injection Hsym as E. exact E.
Qed.

Lemma slice_map : forall A B (f : A -> B) l o n, slice (map f l) o n = map f (slice l o n).
Proof. intros. unfold slice. rewrite skipn_map, firstn_map. auto. Qed.

Lemma along_blocks_items : forall ad d its,
  all_items (fun k q => exists w, dict_get d k = Some w /\ good_along ad q w) its ->
  exists xs ys Js,
    jac_items (jacobian ad true) d its = Ok Js /\
    length Js = length its /\
    Forall2 (fun kq y => exists w, dict_get d (fst kq) = Some w /\
                         flatten_ snum (snd kq) w false None = Ok y) its (map (map Fin) xs) /\
    Forall2 (fun kq y => exists w, dict_get d (fst kq) = Some w /\
                         flatten_ snum (snd kq) w true None = Ok y) its (map (map Fin) ys) /\
    length (concat xs) = lsum (map (fun kq => pl_n (flat_len (snd kq) false)) its) /\
    length (concat ys) = lsum (map (fun kq => pl_n (flat_len (snd kq) true)) its) /\
    forall h, length h = lsum (map (fun kq => pl_n (flat_len (snd kq) false)) its) ->
      (forall i k q, nth_error its i = Some (k, q) ->
         usable q /\ tangent q (slice h (total_len (firstn i its) false) (pl_n (flat_len q false)))) ->
      blocks_along (map (fun kq => (pl_n (flat_len (snd kq) false), transform true (snd kq))) its)
        (concat xs) (concat ys) Js h.
Proof.
  intros ad d. induction its as [|[k q] its IH]; intros H.
  - exists [], [], []. repeat split; try constructor. intros [|] Hh; [constructor|discriminate].
  - destruct H as ((w & Hw & x & y & J & HJ & Hx & Hy & Lx & Ly & HD) & H).
    destruct (IH H) as (xs & ys & Js & E1 & E2 & E3 & E4 & E5 & E6 & E7).
    exists (x :: xs), (y :: ys), (J :: Js).
    cbn [jac_items map concat fst snd]. rewrite Hw, HJ, E1. cbn [bind].
    split; auto. split; [simpl; auto|].
    split; [constructor; auto; exists w; auto|]. split; [constructor; auto; exists w; auto|].
    split; [rewrite app_length; cbn [lsum fold_right]; unfold lsum in E5; lia|].
    split; [rewrite app_length; cbn [lsum fold_right]; unfold lsum in E6; lia|].
    intros h Lh Ht. cbn [lsum fold_right] in Lh.
    pose proof (Ht 0 k q eq_refl) as (Hu & T0).
    change (total_len (firstn 0 ((k, q) :: its)) false) with 0 in T0. unfold slice in T0. cbn [skipn] in T0.
    set (n := pl_n (flat_len q false)) in *.
    rewrite <- (firstn_skipn n h). constructor; auto.
    + rewrite firstn_length. lia.
    + apply E7; [rewrite skipn_length; unfold lsum; lia|].
      intros i k' q' Hi. destruct (Ht (S i) k' q' Hi) as (Hu' & T'). split; auto.
      unfold slice in *. rewrite skipn_skipn'. cbn [firstn total_len map lsum fold_right snd] in T'.
      unfold total_len in *. cbn [map lsum fold_right snd] in T'. fold n in T'. exact T'.
Qed.

Lemma along_dict : forall ad items l fl fd lk d,
  usable (PDict items l fl fd lk) ->
  all_items (fun k q => exists w, dict_get d k = Some w /\ good_along ad q w) items ->
  good_along ad (PDict items l fl fd lk) (FDict d).
Proof.
  intros ad items l fl fd lk d Hu H.
  destruct (along_blocks_items ad d items H) as (xs & ys & Js & E1 & E2 & E3 & E4 & E5 & E6 & E7).
  pose proof Hu as (Hne & Hnd & Hl & Hfl & Hus).
  assert (jacobian ad true (PDict items l fl fd lk) (FDict d) = Ok (bdiag Js)) as HJ.
  { cbn [jacobian]. rewrite E1. cbn [bind]. apply block_diag_ok. intros ->. destruct items; [contradiction|discriminate]. }
  exists (concat xs), (concat ys), (bdiag Js). split; auto.
  split; [rewrite <- concat_map_fin; apply flatten_dict_build; auto|].
  split; [rewrite <- concat_map_fin; apply flatten_dict_build; auto|].
  assert (forall f, pl_n (flat_len (PDict items l fl fd lk) f)
                    = lsum (map (fun kq => pl_n (flat_len (snd kq) f)) items)) as Hlen.
  { intros [|]; cbn [flat_len]; rewrite ?Hl, ?Hfl; auto. }
  rewrite !Hlen. split; auto. split; auto.
  intros h Hh. pose proof (tangent_length _ _ Hu Hh) as Lh. rewrite Hlen in Lh.
  eapply along_weaken; [lia| |apply blocks_along_derivative; apply E7; auto].
  - intros x' y' Lx' HJ'. apply joint_dict; auto. cbn [negb]. rewrite Hlen. lia.
  - intros i k q Hi. apply tangent_fold in Hh. destruct Hh as (w & Hw & Hs).
    destruct (fold_dict_layout _ _ _ _ _ _ _ _ _ _ _ Hu Hw) as (dw & -> & Hk & Hm).
    destruct (Hm i k q Hi) as (wi & Hwi & Hfi). apply nth_error_In in Hi.
    cbn [at_psd] in Hs. apply all_items_Forall in Hs, Hus. rewrite Forall_forall in Hs, Hus.
    split; [apply (Hus _ Hi)|]. exists wi. split; [|apply (Hs _ Hi); auto].
    rewrite slice_map in Hfi. exact Hfi.
Qed.

Lemma along_blocks_cells : forall ad b (g : list nat -> fv num) its, usable b ->
  (forall it, In it its -> good_along ad b (g it)) ->
  exists xs ys Js,
    mapM (fun it => jacobian ad true b (g it)) its = Ok Js /\
    length Js = length its /\
    Forall2 (fun it y => flatten_ snum b (g it) false None = Ok y) its (map (map Fin) xs) /\
    Forall2 (fun it y => flatten_ snum b (g it) true None = Ok y) its (map (map Fin) ys) /\
    length (concat xs) = length its * pl_n (flat_len b false) /\
    length (concat ys) = length its * pl_n (flat_len b true) /\
    forall h, length h = length its * pl_n (flat_len b false) ->
      (forall i, i < length its ->
         tangent b (slice h (i * pl_n (flat_len b false)) (pl_n (flat_len b false)))) ->
      blocks_along (map (fun _ => (pl_n (flat_len b false), transform true b)) its)
        (concat xs) (concat ys) Js h.
Proof.
  intros ad b g its Hu. induction its as [|it its IH]; intros H.
  - exists [], [], []. repeat split; try constructor. intros [|] Hh; [constructor|discriminate].
  - destruct (H it (or_introl eq_refl)) as (x & y & J & HJ & Hx & Hy & Lx & Ly & HD).
    destruct IH as (xs & ys & Js & E1 & E2 & E3 & E4 & E5 & E6 & E7).
    { intros. apply H. right. auto. }
    exists (x :: xs), (y :: ys), (J :: Js).
    cbn [mapM map concat]. rewrite HJ, E1. cbn [bind].
    split; auto. split; [simpl; auto|]. split; [constructor; auto|].
    split; [constructor; auto|]. split; [rewrite app_length; simpl; lia|].
    split; [rewrite app_length; simpl; lia|].
    intros h Lh Ht. cbn [length Nat.mul] in Lh.
    set (n := pl_n (flat_len b false)) in *.
    pose proof (Ht 0 ltac:(simpl; lia)) as T0. unfold slice in T0. cbn [Nat.mul skipn] in T0.
    rewrite <- (firstn_skipn n h). constructor; auto.
    + rewrite firstn_length. lia.
    + apply E7; [rewrite skipn_length; lia|].
      intros i Hi. specialize (Ht (S i) ltac:(simpl; lia)).
      unfold slice in *. rewrite skipn_skipn'. exact Ht.
Qed.

Lemma along_arr : forall ad s b fd a,
  usable (PArr s b fd) -> shp a = s ++ folded_shape b ->
  (forall it, In it (indices s) -> good_along ad b (FArr (subarr a it (length s)))) ->
  good_along ad (PArr s b fd) (FArr a).
Proof.
  intros ad s b fd a Hu Hs H.
  pose proof Hu as (Hne & Hp & Hd & Hub).
  destruct (along_blocks_cells ad b (fun it => FArr (subarr a it (length s))) (indices s) Hub H)
    as (xs & ys & Js & E1 & E2 & E3 & E4 & E5 & E6 & E7).
  rewrite indices_length in E2, E5, E6, E7.
  assert (jacobian ad true (PArr s b fd) (FArr a) = Ok (bdiag Js)) as HJ.
  { cbn [jacobian]. rewrite Hs, shape_eqb_refl. cbn [negb]. rewrite E1. cbn [bind].
    apply block_diag_ok. intros ->. simpl in E2. lia. }
  exists (concat xs), (concat ys), (bdiag Js). split; auto.
  split; [rewrite <- concat_map_fin; apply flatten_arr_build; auto|].
  split; [rewrite <- concat_map_fin; apply flatten_arr_build; auto|].
  assert (forall f, pl_n (flat_len (PArr s b fd) f) = prod s * pl_n (flat_len b f)) as Hlen.
  { intros f. cbn [flat_len]. rewrite np_prod_int by auto. reflexivity. }
  rewrite !Hlen. split; auto. split; auto.
  intros h Hh. pose proof (tangent_length _ _ Hu Hh) as Lh. rewrite Hlen in Lh.
  eapply along_weaken; [lia| |apply blocks_along_derivative; apply E7; auto].
  - intros x' y' Lx' HJ'. apply joint_arr; auto. cbn [negb]. rewrite Hlen. lia.
  - intros i Hi. apply tangent_fold in Hh. destruct Hh as (w & Hw & Hsym).
    destruct (fold_arr_layout _ _ _ _ _ _ _ _ _ Hu Hw) as (aw & -> & Hsw & Hm).
    assert (exists it, In it (indices s) /\ ravel it s = i) as (it & Hit & Er).
    { assert (In i (map (fun it => ravel it s) (indices s))) as K
        by (rewrite ravel_indices; apply in_seq; lia).
      apply in_map_iff in K. destruct K as (it & E & K). eauto. }
    exists (FArr (subarr aw it (length s))). split; [|apply Hsym; auto].
    specialize (Hm it Hit). rewrite Er, slice_map in Hm. exact Hm.
Qed.

Theorem all_along : forall ad p v,
  usable p -> simplexes_nonempty p -> interior p v -> at_psd (jacobian_on_symmetric ad) p v ->
  good_along ad p v.
Proof.
  intros ad.
  apply (pat_ind' (fun p => forall v, usable p -> simplexes_nonempty p -> interior p v ->
    at_psd (jacobian_on_symmetric ad) p v -> good_along ad p v)).
  - intros. apply along_num; auto.
  - intros. apply along_simplex; auto.
  - intros. apply along_psd; auto.
  - intros s b fd IH [a|d] Hu Hn Hi Hp; [|contradiction].
    apply along_arr; auto; [apply Hi|]. intros it Hit. apply IH; auto; [apply Hu|].
    eapply interior_block; eauto.
  - intros items l fl fd lk IH [a|d] Hu Hn Hi Hp; [contradiction|].
    apply along_dict; auto. destruct Hu as (_ & _ & _ & _ & Hu). simpl in Hn, Hi, Hp.
    apply all_items_Forall in Hu, Hn, Hi, Hp. apply all_items_Forall.
    rewrite Forall_forall in *. intros kq Hkq. destruct (Hi _ Hkq) as (w & Hw & Hiw).
    exists w. auto.
Qed.

Lemma slice_repeat : forall A (z : A) n o k, o + k <= n -> slice (repeat z n) o k = repeat z k.
Proof.
  intros A z n o k H. unfold slice.
  replace n with (o + (n - o)) by lia. rewrite repeat_app, skipn_app_eq by (rewrite repeat_length; auto).
  replace (n - o) with (k + (n - o - k)) by lia. rewrite repeat_app. apply firstn_app_eq.
  rewrite repeat_length. auto.
Qed.
Lemma total_len_firstn : forall items i k q f, nth_error items i = Some (k, q) ->
  total_len (firstn i items) f + pl_n (flat_len q f) <= total_len items f.
Proof.
  unfold total_len. induction items as [|[k0 q0] items IH]; intros [|i] k q f H; try discriminate.
  - injection H as <- <-. cbn. lia.
  - cbn [nth_error] in H. specialize (IH i k q f H). cbn [firstn map lsum fold_right snd]. unfold lsum in IH. lia.
Qed.

Lemma zero_tangent : forall p, usable p -> tangent p (repeat 0%R (pl_n (flat_len p false))).
Proof.
  apply (pat_ind' (fun p => usable p -> tangent p (repeat 0%R (pl_n (flat_len p false))))).
  - intros. eexists. split; [|exact I].
    apply fold_lenient; auto; [apply lenient_false|rewrite map_length, repeat_length; auto].
  - intros. eexists. split; [|exact I].
    apply fold_lenient; auto; [apply lenient_false|rewrite map_length, repeat_length; auto].
  - intros n fl dlb dv fd Hu. eexists. split.
    + apply fold_lenient; auto; [apply lenient_false|rewrite map_length, repeat_length; auto].
    + cbn [at_psd layout symmetric_member dat flat_len plint pl_n]. intros i j Hi Hj.
      rewrite !nth_fin by (rewrite repeat_length; nia). rewrite !nth_repeat. auto.
  - intros s b fd IH Hu. pose proof Hu as (Hne & Hp & Hd & Hub).
    assert (exists w, fold_ snum (PArr s b fd) (vec (map Fin (repeat 0%R (pl_n (flat_len (PArr s b fd) false))))) false (Some false) = Ok w) as (w & Hw).
    { eexists. apply fold_lenient; auto; [apply lenient_false|rewrite map_length, repeat_length; auto]. }
    destruct (fold_arr_layout _ _ _ _ _ _ _ _ _ Hu Hw) as (a & -> & Hs & Hm).
    eexists. split; [exact Hw|]. intros it Hit. specialize (Hm it Hit).
    assert (pl_n (flat_len (PArr s b fd) false) = prod s * pl_n (flat_len b false)) as Hlen.
    { cbn [flat_len]. rewrite np_prod_int by auto. reflexivity. }
    rewrite slice_map, slice_repeat in Hm by (rewrite Hlen; pose proof (ravel_lt s it Hit); nia).
    destruct (IH Hub) as (w' & Hw' & Hs').
    change (fold_ snum b (vec (map Fin (repeat 0%R (pl_n (flat_len b false))))) false (Some false) = Ok w') in Hw'.
    rewrite Hm in Hw'. injection Hw' as <-. exact Hs'.
  - intros items l fl fd lk IH Hu. pose proof Hu as (Hne & Hnd & Hl & Hfl & Hus).
    assert (exists w, fold_ snum (PDict items l fl fd lk) (vec (map Fin (repeat 0%R (pl_n (flat_len (PDict items l fl fd lk) false))))) false (Some false) = Ok w) as (w & Hw).
    { eexists. apply fold_lenient; auto; [apply lenient_false|rewrite map_length, repeat_length; auto]. }
    destruct (fold_dict_layout _ _ _ _ _ _ _ _ _ _ _ Hu Hw) as (d & -> & Hk & Hm).
    eexists. split; [exact Hw|]. cbn [at_psd]. apply all_items_Forall in Hus. apply all_items_Forall.
    rewrite Forall_forall in *. intros [k q] Hkq wq Hwq. cbn [fst snd] in *.
    destruct (In_nth_error _ _ Hkq) as (i & Hi). destruct (Hm i k q Hi) as (w' & Hw' & Hf).
    rewrite Hwq in Hw'. injection Hw' as <-.
    rewrite slice_map, slice_repeat in Hf.
    2:{ pose proof (total_len_firstn items i k q false Hi) as B. cbn [flat_len]. rewrite Hl. exact B. }
    destruct (IH _ Hkq (Hus _ Hkq)) as (w' & Hw' & Hs').
    change (fold_ snum q (vec (map Fin (repeat 0%R (pl_n (flat_len q false))))) false (Some false) = Ok w') in Hw'.
    rewrite Hf in Hw'. injection Hw' as <-. exact Hs'.
Qed.

Theorem derivatives_along : forall ad p v,
  usable p -> simplexes_nonempty p -> interior p v -> at_psd (jacobian_on_symmetric ad) p v ->
  exists (J : matrix) (x y : list R),
    jacobian ad true p v = Ok J /\
    flatten p v (Some false) None = Ok (map Fin x) /\
    flatten p v (Some true) None = Ok (map Fin y) /\
    m_rows J = pl_n (flat_len p true) /\ m_cols J = pl_n (flat_len p false) /\
    forall h, tangent p h -> derivative_along (transform true p) x y J h.
Proof.
  intros ad p v Hu Hs Hi Hp.
  destruct (all_along ad p v Hu Hs Hi Hp) as (x & y & J & HJ & Hx & Hy & Lx & Ly & HD).
  exists J, x, y. split; [auto|]. split; [exact Hx|]. split; [exact Hy|].
  pose proof (HD _ (zero_tangent p Hu)) as (_ & R1 & C1 & _). rewrite <- Lx, <- Ly. auto.
Qed.
