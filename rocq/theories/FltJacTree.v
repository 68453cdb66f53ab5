(** * Float64 Jacobians of whole patterns against exact ones. *)
From Coq Require Import Reals Lra Lia ZArith Psatz.
From Flocq Require Import Core IEEE754.BinarySingleNaN.
From Verif Require Import Base Num Nd ListFacts Pattern Spec PatFacts NumFacts Numeric Simplex Jac SpecJac JacBase NonFree Free
  Flt SpecFlt FltMat SpecFltMat FltPat SpecFltPat FltJac SpecFltJac FltBase FltExp FltNum FltNum2 FltNum3 FltSimp FltLeaf FltTree FltFlatLeaf FltJacLeaf.
Local Open Scope R_scope.

Lemma exact_dict : forall d, exact_value (FDict d) = FDict (map (fun kw => (fst kw, exact_value (snd kw))) d).
Proof. intros d. cbn [exact_value]. f_equal. induction d as [|[k w] d IH]; cbn [map fst snd]; [reflexivity|]. rewrite <- IH. reflexivity. Qed.
Lemma exact_get : forall d k, dict_get (map (fun kw => (fst kw, exact_value (snd kw))) d) k = option_map exact_value (dict_get d k).
Proof.
  induction d as [|[k' w] d IH]; intros k; cbn [map dict_get fst snd]; [reflexivity|].
  destruct (key_eqb k k'); [reflexivity|apply IH].
Qed.

Lemma both_zero : forall fr g, 0 <= g -> both (entry_near fr g) fzero (Fin 0).
Proof.
  intros fr g H. split; [apply fzero_val|]. exists 0. split; auto. unfold entry_near. rewrite (proj2 fzero_val), Rminus_diag_eq, Rabs_R0 by auto.
  destruct fr; [lra|]. pose proof (pow2_pos (-38)). nra.
Qed.
Lemma entry_gap : forall g g' a r, both (entry_near true g) a r -> both (entry_near true g') a r.
Proof. intros g g' a r H. exact H. Qed.

Definition sized (fr : bool) (g : list R) (m : matrix64) (e : matrix) : Prop :=
  mat_near fr g m e /\ Forall (Rle 0) g /\ length g = (if fr then c64 m else r64 m).

Lemma nth_nonneg : forall g i, Forall (Rle 0) g -> 0 <= nth i g 0.
Proof.
  intros g i H. destruct (Nat.lt_ge_cases i (length g)) as [L|L].
  - rewrite Forall_forall in H. apply H, nth_In. auto.
  - rewrite nth_overflow by auto. lra.
Qed.

Lemma block_near : forall fr g h a b e f, sized fr g a e -> sized fr h b f -> sized fr (g ++ h) (block64 a b) (block2 e f).
Proof.
  intros fr g h a b e f ((R1 & C1 & N1) & P1 & L1) ((R2 & C2 & N2) & P2 & L2).
  assert (PG : Forall (Rle 0) (g ++ h)) by (apply Forall_app; auto).
  split; [|split; auto].
  2:{ rewrite app_length, L1, L2. destruct fr; reflexivity. }
  split; [cbn; lia|]. split; [cbn; lia|]. cbn [block64 block2 r64 c64 at64 m_at m_rows m_cols]. rewrite <- R1, <- C1.
  intros i j Hi Hj. destruct (i <? r64 a)%nat eqn:I; destruct (j <? c64 a)%nat eqn:J.
  - apply Nat.ltb_lt in I, J. specialize (N1 i j I J). destruct fr; [exact (entry_gap _ _ _ _ N1)|].
    rewrite app_nth1 by lia. exact N1.
  - apply both_zero, nth_nonneg; auto.
  - apply both_zero, nth_nonneg; auto.
  - apply Nat.ltb_ge in I, J. specialize (N2 (i - r64 a)%nat (j - c64 a)%nat ltac:(lia) ltac:(lia)).
    destruct fr; [exact (entry_gap _ _ _ _ N2)|]. rewrite app_nth2 by lia. rewrite L1. exact N2.
Qed.

Definition zero64 : matrix64 := mkMat64 0 0 (fun _ _ => fzero).
Definition bdiag64 (ms : list matrix64) : matrix64 := fold_right block64 zero64 ms.

(** Blocks, with the shapes. *)
Record block : Type := mkBlock { b_m : matrix64; b_e : matrix; b_g : list R; b_f : nat; b_n : nat }.
Definition block_ok (fr : bool) (b : block) : Prop :=
  sized fr (b_g b) (b_m b) (b_e b) /\ r64 (b_m b) = (if fr then b_f b else b_n b) /\ c64 (b_m b) = (if fr then b_n b else b_f b).

Lemma blocks_near : forall fr bs, Forall (block_ok fr) bs ->
  block_ok fr (mkBlock (bdiag64 (map b_m bs)) (bdiag (map b_e bs)) (concat (map b_g bs)) (lsum (map b_f bs)) (lsum (map b_n bs))).
Proof.
  intros fr bs H. induction H as [|b bs (S1 & R1 & C1) H (S2 & R2 & C2)].
  - split; [|destruct fr; split; reflexivity]. split; [|split; [constructor|destruct fr; reflexivity]].
    split; [reflexivity|]. split; [reflexivity|]. cbn. intros. lia.
  - cbn [map concat]. split; [|split].
    + apply block_near; auto.
    + cbn [b_m bdiag64 fold_right block64 r64] in *. rewrite R1. cbn [b_f b_n] in *. unfold bdiag64 in R2. rewrite R2. destruct fr; reflexivity.
    + cbn [b_m bdiag64 fold_right block64 c64] in *. rewrite C1. cbn [b_f b_n] in *. unfold bdiag64 in C2. rewrite C2. destruct fr; reflexivity.
Qed.

Lemma block_diag64_ok : forall ms, ms <> [] -> block_diag64 ms = Ok (bdiag64 ms).
Proof. intros [|m ms] H; [contradiction|reflexivity]. Qed.

Lemma minus1_val : fin fminus1 /\ val fminus1 = -1.
Proof.
  destruct (val_sf fminus1 true 4503599627370496 (-52)) as [F V]; [vm_compute; reflexivity|]. split; auto. rewrite V.
  change (pow2 (-52)) with (pow2 (-53 + 1)). rewrite <- pow2_double. fold u. rewrite u_val. lra.
Qed.

Lemma inv_entry : forall c s, fin c -> Rabs (val c) = 1 -> fin s -> pow2 (-100) <= val s <= 2 ->
  forall g, both (entry_near true g) (fdiv c s) (ndiv (Fin (val c)) (Fin (val s))).
Proof.
  intros c s Fc Vc Fs [L B] g. pose proof (pow2_pos (-100)). assert (0 < val s) by lra.
  assert (A : Rabs (val c / val s) = / val s).
  { unfold Rdiv. rewrite Rabs_mult, Vc, Rabs_inv, (Rabs_pos_eq (val s)) by lra. ring. }
  assert (I : / 2 <= / val s) by (apply Rinv_le_contravar; lra).
  destruct (fdiv_val c s Fc) as [F V].
  - apply Rgt_not_eq. lra.
  - rewrite A. apply Rle_trans with (pow2 100); [|apply pow2_mono; lia].
    replace (pow2 100) with (/ pow2 (-100)) by (change (pow2 (-100)) with (pow2 (- (100))); rewrite pow2_neg, Rinv_inv; reflexivity).
    apply Rinv_le_contravar; auto.
  - split; auto. rewrite ndiv_fin by lra. eexists. split; [reflexivity|]. unfold entry_near. rewrite V.
    eapply Rle_trans; [apply rnd_normal|].
    + rewrite A. apply Rle_trans with (pow2 (-1)); [apply pow2_mono; lia|]. change (pow2 (-1)) with (/ 2). auto.
    + apply Rmult_le_compat_r; [apply Rabs_pos|]. unfold u. apply pow2_mono. lia.
Qed.

Lemma prod_entry : forall a b, fin a -> fin b -> pow2 (-100) <= val a <= 2 -> pow2 (-100) <= val b <= 2 -> forall d : bool,
  both (entry_near false (val a)) (fadd (fmul fminus1 (fmul a b)) (if d then a else fzero))
    (nadd (nmul (Fin (-1)) (nmul (Fin (val a)) (Fin (val b)))) (if d then Fin (val a) else Fin 0)).
Proof.
  intros a b Fa Fb Ba Bb d. assert (U := u_val). pose proof (pow2_pos (-100)).
  assert (Pa : 0 < val a) by lra. assert (Pb : 0 < val b) by lra.
  assert (Pab : 0 < val a * val b) by (apply Rmult_lt_0_compat; auto).
  assert (B : val a * val b <= 2 * val a) by nra.
  destruct (fmul_val a b Fa Fb) as [Fm Vm]. { rewrite Rabs_pos_eq by lra. apply small_huge. nra. }
  assert (Em : Rabs (val (fmul a b) - val a * val b) <= u * (val a * val b)).
  { rewrite Vm. rewrite <- (Rabs_pos_eq (val a * val b)) at 3 by lra. apply rnd_normal. rewrite Rabs_pos_eq by lra.
    apply Rle_trans with (pow2 (-100) * pow2 (-100)); [rewrite <- pow2_add; apply pow2_mono; lia|]. apply Rmult_le_compat; lra. }
  destruct (neg_val _ Fm) as [Fn Vn]. set (t := val (fmul a b)) in *. set (z := if d then a else fzero).
  assert (Fz : fin z /\ val z = if d then val a else 0) by (unfold z; destruct d; auto; apply fzero_val). destruct Fz as [Fz Vz].
  assert (Hz : 0 <= val z <= val a) by (rewrite Vz; destruct d; lra).
  assert (Ut : u * (val a * val b) <= u * (2 * val a)) by (apply Rmult_le_compat_l; [rewrite U; lra|auto]).
  assert (Bt : Rabs (val (fmul fminus1 (fmul a b)) + val z) <= 4 * val a).
  { rewrite Vn. apply Rabs_le_inv in Em. apply Rabs_le_both; rewrite U in *; lra. }
  destruct (add_near _ z Fn Fz) as [F E]. { eapply Rle_trans; [exact Bt|]. apply small_huge. lra. }
  split; auto. cbn [nmul].
  assert (Hs : nadd (Fin (-1 * (val a * val b))) (if d then Fin (val a) else Fin 0) = Fin (- (val a * val b) + val z)).
  { rewrite Vz. destruct d; cbn [nadd]; f_equal; ring. }
  rewrite Hs. eexists. split; [reflexivity|]. unfold entry_near. fold z.
  set (S := fadd _ z) in *. rewrite Vn in *.
  replace (val S - (- (val a * val b) + val z)) with ((val S - (- t + val z)) + - (t - val a * val b)) by ring.
  eapply Rle_trans; [apply Rabs_triang|]. rewrite Rabs_Ropp.
  assert (u * Rabs (- t + val z) <= u * (4 * val a)) by (apply Rmult_le_compat_l; [rewrite U; lra|auto]).
  replace (pow2 (-38)) with (32768 * u) by (unfold u; change (-38)%Z with (-53 + 15)%Z; rewrite pm by lia; reflexivity).
  rewrite U in *. lra.
Qed.

Lemma simplex_block : forall fr s, (1 <= length s)%nat -> Forall (fun x => fin x /\ pow2 (-100) <= val x <= 2) s ->
  block_ok fr (mkBlock (simplex64_jac fr s) (simplex_jac fr (map num64 s)) (map val s) (length s - 1) (length s)).
Proof.
  intros fr s L H. pose proof (pow2_pos (-100)) as P.
  assert (At : forall i, (i < length s)%nat -> exists x, nth i s fnan = x /\ nth i (map num64 s) NaN = Fin (val x) /\ nth i (map val s) 0 = val x /\ fin x /\ pow2 (-100) <= val x <= 2).
  { intros i Hi. exists (nth i s fnan). split; auto. rewrite Forall_forall in H. destruct (H _ (nth_In s fnan Hi)) as [F B].
    assert (E : nth i (map num64 s) NaN = Fin (val (nth i s fnan))).
    { rewrite (nth_indep _ NaN (num64 fnan)) by (rewrite map_length; auto). rewrite map_nth. apply num64_fin. auto. }
    split; auto. split; auto. rewrite (nth_indep _ 0 (val fnan)) by (rewrite map_length; auto). apply map_nth. }
  assert (G : Forall (Rle 0) (map val s)).
  { rewrite Forall_map. eapply Forall_impl; [|exact H]. cbn. intros x [_ B]. lra. }
  destruct fr; split; try (split; reflexivity); cbn [b_g b_m b_e].
  - split; [|split; auto; rewrite map_length; auto]. split; [cbn; rewrite map_length; auto|]. split; [cbn; rewrite map_length; auto|].
    cbn [simplex64_jac simplex_jac r64 c64 at64 m_at]. intros i j Hi Hj. unfold unconstrain_row_jac. destruct j as [|j].
    + destruct (At 0%nat ltac:(lia)) as (x & -> & -> & _ & Fx & Bx). destruct minus1_val as [F1 V1].
      pose proof (inv_entry fminus1 x F1) as K. rewrite V1 in K. apply K; auto. rewrite Rabs_left; lra.
    + destruct (i =? j)%nat.
      * destruct (At (S j) Hj) as (x & -> & -> & _ & Fx & Bx). destruct fone_val as [F1 V1].
        pose proof (inv_entry fone x F1) as K. rewrite V1 in K. apply K; auto. apply Rabs_R1.
      * apply both_zero, nth_nonneg. auto.
  - split; [|split; auto; rewrite map_length; auto]. split; [cbn; rewrite map_length; auto|]. split; [cbn; rewrite map_length; auto|].
    cbn [simplex64_jac simplex_jac r64 c64 at64 m_at]. intros i j Hi Hj. unfold constrain_row_jac.
    destruct (At i Hi) as (x & -> & -> & -> & Fx & Bx). destruct (At (S j) ltac:(lia)) as (y & -> & -> & _ & Fy & By).
    apply prod_entry; auto.
Qed.

Section Tree.
Variables (np : np64) (ad : bool -> pat -> list num -> res matrix) (fr : bool).
Hypothesis C : np_contract np.

Definition jac_near (p : pat) : Prop := forall v, usable p -> exact_bounds p -> no_psd p -> simplexes_nonempty p -> roomy p v ->
  exists m e, pjac64 np fr p v = Ok m /\ jacobian ad fr p (exact_value v) = Ok e /\
    block_ok fr (mkBlock m e (gaps p v) (pl_n (flat_len p true)) (pl_n (flat_len p false))).

Lemma gap_nonneg : forall lb ub a, exact_bound lb -> exact_bound ub -> nlt (pyval lb) (pyval ub) ->
  between (bound64 lb) (val a - val (bound64 lb)) -> between (bound64 ub) (val (bound64 ub) - val a) -> 0 <= gap (bound64 lb) (bound64 ub) a.
Proof.
  intros lb ub a El Eu O Hl Hu. unfold gap. pose proof (pow2_pos (-100)).
  destruct (pyval ub) as [b| | |] eqn:Ub; destruct (pyval lb) as [l| | |] eqn:Lb; try contradiction.
  - destruct (exact_fin lb l El Lb) as [Fl _]. rewrite (is_ninf_fin _ Fl). pose proof (Hl Fl). lra.
  - destruct (exact_fin ub b Eu Ub) as [Fu _]. rewrite (exact_ninf lb El Lb), (is_pinf_fin _ Fu). cbn [is_ninf fninf]. pose proof (Hu Fu). lra.
  - destruct (exact_fin lb l El Lb) as [Fl _]. rewrite (is_ninf_fin _ Fl). pose proof (Hl Fl). lra.
  - rewrite (exact_pinf ub Eu Ub), (exact_ninf lb El Lb). cbn. lra.
Qed.

Lemma jac_num : forall k s lb ub dv fd, jac_near (PNum k s lb ub dv fd).
Proof.
  intros k s lb ub dv fd [a|d] (Hs & O) (El & Eu) _ _ R; [|destruct R]. destruct R as (Sa & Oa & R).
  eexists. eexists. split; [reflexivity|]. split; [reflexivity|].
  assert (La : length (dat a) = prod s) by (unfold nd_ok in Oa; rewrite Oa, Sa; reflexivity).
  assert (Ln : length (num64_jac np fr (bound64 lb) (bound64 ub) (dat a)) = prod s) by (unfold num64_jac; destruct fr; rewrite map_length; auto).
  assert (Le : length (num_jac_array fr (pyval lb) (pyval ub) (mkNd (shp a) (map num64 (dat a)))) = prod s)
    by (unfold num_jac_array; cbn [dat]; destruct fr; rewrite !map_length; auto).
  assert (G : Forall (Rle 0) (map (gap (bound64 lb) (bound64 ub)) (dat a))).
  { rewrite Forall_map. eapply Forall_impl; [|exact R]. cbn. intros x (Fx & B1 & B2). apply gap_nonneg; auto. }
  split; [|cbn [b_m b_f b_n diags64 r64 c64 flat_len plint pl_n]; rewrite Ln; destruct fr; auto].
  cbn [b_g b_m b_e gaps]. split; [|split; auto; cbn [diags64 r64 c64]; rewrite map_length, Ln; destruct fr; auto].
  split; [cbn [diags64 diags r64 m_rows]; lia|]. split; [cbn [diags64 diags c64 m_cols]; lia|].
  cbn [diags64 diags r64 c64 at64 m_at]. rewrite Ln. intros i j Hi Hj. destruct (i =? j)%nat eqn:E.
  - set (x := nth i (dat a) fnan). assert (Hx : In x (dat a)) by (apply nth_In; lia).
    rewrite Forall_forall in R. destruct (R x Hx) as (Fx & B1 & B2).
    assert (Eg : nth i (map (gap (bound64 lb) (bound64 ub)) (dat a)) 0 = gap (bound64 lb) (bound64 ub) x).
    { rewrite (nth_indep _ 0 (gap (bound64 lb) (bound64 ub) fnan)) by (rewrite map_length; lia). apply map_nth. }
    rewrite Eg. unfold num64_jac, num_jac_array. cbn [dat]. destruct fr.
    + rewrite (nth_indep _ fnan (unconstrain64_jac (bound64 lb) (bound64 ub) fnan)) by (rewrite map_length; lia).
      rewrite map_nth. fold x. rewrite map_map, (nth_indep _ NaN (unconstrain1_jac (pyval lb) (pyval ub) (num64 fnan))) by (rewrite map_length; lia).
      rewrite (map_nth (fun z => unconstrain1_jac (pyval lb) (pyval ub) (num64 z))). fold x. rewrite num64_fin by auto.
      destruct (free_entry lb ub x El Eu O Fx B1 B2) as (F & dd & Pd & -> & _ & N). split; auto. exists dd. split; auto.
      unfold entry_near. assert (U := u_val). rewrite (Rabs_pos_eq dd) by lra.
      eapply Rle_trans; [apply (near_rel_back (6 * u)); [lra|rewrite U; lra|exact N]|].
      apply Rmult_le_compat_r; [lra|]. rewrite p49. rewrite U. lra.
    + rewrite (nth_indep _ fnan (constrain64_jac np (bound64 lb) (bound64 ub) (unconstrain64 np (bound64 lb) (bound64 ub) fnan))) by (rewrite map_length; lia).
      rewrite (map_nth (fun z => constrain64_jac np (bound64 lb) (bound64 ub) (unconstrain64 np (bound64 lb) (bound64 ub) z))). fold x.
      rewrite map_map, (nth_indep _ NaN (constrain1_jac (pyval lb) (pyval ub) (unconstrain1 (pyval lb) (pyval ub) (num64 fnan)))) by (rewrite map_length; lia).
      rewrite (map_nth (fun z => constrain1_jac (pyval lb) (pyval ub) (unconstrain1 (pyval lb) (pyval ub) (num64 z)))). fold x. rewrite num64_fin by auto.
      apply unfree_entry; auto.
  - apply both_zero, nth_nonneg; auto.
Qed.

Lemma jac_simplex : forall n s dv fd, jac_near (PSimplex n s dv fd).
Proof.
  intros n s dv fd [a|d] Hn M _ Ps R; [|destruct R]. destruct R as (Sa & Oa & R). cbn [usable simplexes_nonempty] in Hn, Ps.
  assert (La : length (dat a) = (prod s * n)%nat). { unfold nd_ok in Oa. rewrite Oa, Sa, prod_app. cbn. lia. }
  set (rows := chunks n (prod s) (dat a)).
  assert (Lr : length rows = prod s) by (unfold rows, chunks; rewrite map_length, seq_length; auto).
  set (bl := map (fun r => mkBlock (simplex64_jac fr r) (simplex_jac fr (map num64 r)) (map val r) (n - 1) n) rows).
  assert (B : Forall (block_ok fr) bl).
  { apply Forall_forall. intros b Hb. unfold bl in Hb. apply in_map_iff in Hb. destruct Hb as (r & <- & Hr).
    pose proof Hr as Hr'. unfold rows in Hr'. apply in_chunks in Hr'. destruct Hr' as (i & Hi & Er).
    assert (Ln : length r = n) by (subst r; apply (chunk_length _ _ _ _ (prod s)); auto).
    pose proof (simplex_block fr r ltac:(lia)) as K. rewrite Ln in K. apply K. apply Forall_forall. intros z Hz.
    rewrite Forall_forall in R. apply R. subst r. eapply in_slice. exact Hz. }
  pose proof (blocks_near fr bl B) as K. unfold bl in K. rewrite !map_map in K. cbn [b_m b_e b_g b_f b_n] in K.
  exists (bdiag64 (map (simplex64_jac fr) rows)), (bdiag (map (fun r => simplex_jac fr (map num64 r)) rows)). split; [|split].
  - cbn [pjac64]. rewrite Sa, shape_eqb_refl. cbn [negb].
    replace (map (fun item => simplex64_jac fr (dat (subarr a item (length s)))) (indices s)) with (map (simplex64_jac fr) rows).
    + apply block_diag64_ok. destruct rows; [cbn in Lr; lia|discriminate].
    + unfold rows, chunks. rewrite map_map, <- ravel_indices, map_map. apply map_ext. intros it.
      rewrite (subarr_chunk _ a it s [n]) by auto. cbn [dat prod fold_right]. rewrite Nat.mul_1_r. auto.
  - cbn [exact_value jacobian shp]. rewrite Sa, shape_eqb_refl. cbn [negb].
    replace (map (fun item => simplex_jac fr (dat (subarr (mkNd (s ++ [n])%list (map num64 (dat a))) item (length s)))) (indices s)) with (map (fun r => simplex_jac fr (map num64 r)) rows).
    + apply block_diag_ok. destruct rows; [cbn in Lr; lia|discriminate].
    + unfold rows, chunks. rewrite map_map, <- ravel_indices, map_map. apply map_ext. intros it.
      rewrite (subarr_chunk _ _ it s [n]) by auto. cbn [dat prod fold_right]. rewrite Nat.mul_1_r, chunk_map. auto.
  - assert (Eg : concat (map (map val) rows) = map val (dat a)).
    { unfold rows. rewrite <- concat_map. f_equal. apply concat_chunks; auto. }
    assert (Sm : forall c, lsum (map (fun _ : list f64 => c) rows) = (prod s * c)%nat).
    { intros c. rewrite <- Lr. clear. induction rows as [|r l IH]; cbn [map lsum fold_right length]; [reflexivity|]. unfold lsum in IH. rewrite IH. lia. }
    rewrite !Sm in K. cbn [gaps flat_len]. rewrite !simplex_flen. 
    match goal with |- block_ok _ (mkBlock _ _ _ ?x ?y) => replace x with (prod s * (n - 1))%nat by lia; replace y with (prod s * n)%nat by lia end.
    rewrite <- Eg. exact K.
Qed.

Lemma flat_map_concat_seq : forall A (f : nat -> list A) n, flat_map f (seq 0 n) = concat (map f (seq 0 n)).
Proof. intros. apply flat_map_concat. Qed.

Lemma jac_arr : forall s b fd, jac_near b -> jac_near (PArr s b fd).
Proof.
  intros s b fd IH [a|d] Hu M Np Ps R; [|destruct R]. destruct R as (Sa & Oa & R). pose proof Hu as (Hs & Hp & Hd & Hub).
  cbn [exact_bounds no_psd simplexes_nonempty] in M, Np, Ps. set (k := prod (folded_shape b)) in *.
  set (sub := fun i => FArr (mkNd (folded_shape b) (chunk k (dat a) i))).
  assert (Q : forall l, (forall i, In i l -> (i < prod s)%nat) -> exists bl,
    mapM (fun i => pjac64 np fr b (sub i)) l = Ok (map b_m bl) /\
    mapM (fun i => jacobian ad fr b (exact_value (sub i))) l = Ok (map b_e bl) /\
    concat (map b_g bl) = flat_map (fun i => gaps b (sub i)) l /\
    Forall (block_ok fr) bl /\ Forall (fun z => b_f z = pl_n (flat_len b true) /\ b_n z = pl_n (flat_len b false)) bl /\ length bl = length l).
  { induction l as [|i l IHl]; intros Hi.
    - exists []. cbn. auto 10.
    - destruct IHl as (bl & E1 & E2 & E3 & B & S & L); [intros; apply Hi; right; auto|].
      destruct (IH (sub i) Hub M Np Ps (R i (Hi i (or_introl eq_refl)))) as (m & e & J1 & J2 & K).
      exists (mkBlock m e (gaps b (sub i)) (pl_n (flat_len b true)) (pl_n (flat_len b false)) :: bl).
      cbn [mapM map b_m b_e b_g concat flat_map length]. rewrite J1, J2, E1, E2, E3. cbn [bind].
      repeat split; auto. }
  destruct (Q (seq 0 (prod s))) as (bl & E1 & E2 & E3 & B & S & L). { intros i Hi. apply in_seq in Hi. lia. }
  rewrite seq_length in L.
  assert (Ne : forall X (f : block -> X), map f bl <> []) by (intros; destruct bl; [cbn in L; lia|discriminate]).
  pose proof (blocks_near fr bl B) as K.
  exists (bdiag64 (map b_m bl)), (bdiag (map b_e bl)). split; [|split].
  - cbn [pjac64]. rewrite Sa, shape_eqb_refl. cbn [negb].
    replace (mapM (fun item => pjac64 np fr b (FArr (subarr a item (length s)))) (indices s)) with (Ok (map b_m bl)).
    + cbn [bind]. apply block_diag64_ok. auto.
    + rewrite <- E1, <- (mapM_indices _ (fun i => pjac64 np fr b (sub i))). apply mapM_ext. intros it _.
      rewrite (subarr_chunk _ a it s (folded_shape b)) by auto. reflexivity.
  - cbn [exact_value jacobian shp]. rewrite Sa, shape_eqb_refl. cbn [negb].
    replace (mapM (fun item => jacobian ad fr b (FArr (subarr (mkNd (s ++ folded_shape b)%list (map num64 (dat a))) item (length s)))) (indices s)) with (Ok (map b_e bl)).
    + cbn [bind]. apply block_diag_ok. auto.
    + rewrite <- E2, <- (mapM_indices _ (fun i => jacobian ad fr b (exact_value (sub i)))). apply mapM_ext. intros it _.
      rewrite (subarr_chunk _ _ it s (folded_shape b)) by auto. cbn [dat exact_value sub shp]. fold k. rewrite chunk_map. reflexivity.
  - cbn [gaps]. fold k.
    assert (Sm : lsum (map b_f bl) = pl_n (flat_len (PArr s b fd) true) /\ lsum (map b_n bl) = pl_n (flat_len (PArr s b fd) false)).
    { cbn [flat_len plen_mul pl_n]. rewrite np_prod_int by auto. cbn [pl_n]. rewrite <- L. clear -S.
      induction S as [|z l [E1 E2] S [I1 I2]]; [split; reflexivity|]. cbn [map lsum fold_right length]. unfold lsum in *.
      rewrite I1, I2, E1, E2. cbn [plint pl_n] in *. split; lia. }
    destruct Sm as [S1 S2]. rewrite S1, S2, E3 in K. exact K.
Qed.

Lemma jac_dict : forall d its, Forall (fun kq => jac_near (snd kq)) its ->
  all_items (fun _ q => usable q) its -> all_items (fun _ q => exact_bounds q) its -> all_items (fun _ q => no_psd q) its ->
  all_items (fun _ q => simplexes_nonempty q) its ->
  all_items (fun k q => exists v', dict_get d k = Some v' /\ roomy q v') its -> exists bl,
  jac64_items (pjac64 np fr) d its = Ok (map b_m bl) /\
  jac_items (jacobian ad fr) (map (fun kw => (fst kw, exact_value (snd kw))) d) its = Ok (map b_e bl) /\
  concat (map b_g bl) = (fix go its := match its with nil => nil | (k, q) :: rest =>
             match dict_get d k with Some w => gaps q w | None => nil end ++ go rest end)%list its /\
  Forall (block_ok fr) bl /\ lsum (map b_f bl) = lsum (map (fun kq => pl_n (flat_len (snd kq) true)) its) /\
  lsum (map b_n bl) = lsum (map (fun kq => pl_n (flat_len (snd kq) false)) its) /\ length bl = length its.
Proof.
  intros d its F. induction F as [|[k q] its Hq F IHi]; intros U M Np Ps R.
  - exists []. cbn. auto 10.
  - destruct U as [Uq U]. destruct M as [Mq M]. destruct Np as [Nq Np]. destruct Ps as [Pq Ps]. destruct R as [(v & Ev & Rv) R].
    destruct (IHi U M Np Ps R) as (bl & E1 & E2 & E3 & B & S1 & S2 & L). cbn [snd] in Hq.
    destruct (Hq v Uq Mq Nq Pq Rv) as (m & e & J1 & J2 & K).
    exists (mkBlock m e (gaps q v) (pl_n (flat_len q true)) (pl_n (flat_len q false)) :: bl).
    cbn [jac64_items jac_items map b_m b_e b_g b_f b_n concat length snd]. rewrite exact_get, Ev. cbn [option_map].
    rewrite J1, J2, E1, E2, E3. cbn [bind lsum fold_right]. unfold lsum in *. rewrite S1, S2. repeat split; auto.
Qed.

Theorem jac_near_all : forall p, jac_near p.
Proof.
  apply (pat_ind' jac_near).
  - apply jac_num.
  - apply jac_simplex.
  - intros sz fl dlb dv fd v _ _ [].
  - intros s b fd IH. apply jac_arr. auto.
  - intros items l fl fd lk IH [a|d] Hu M Np Ps R; [destruct R|]. pose proof Hu as (Ni & ND & Hl & Hfl & U).
    cbn [exact_bounds no_psd simplexes_nonempty roomy] in M, Np, Ps, R.
    destruct (jac_dict d items IH U M Np Ps R) as (bl & E1 & E2 & E3 & B & S1 & S2 & L).
    assert (Ne : forall X (f : block -> X), map f bl <> []) by (intros; destruct bl; [destruct items; [congruence|discriminate L]|discriminate]).
    pose proof (blocks_near fr bl B) as K.
    exists (bdiag64 (map b_m bl)), (bdiag (map b_e bl)). split; [|split].
    + cbn [pjac64]. rewrite E1. cbn [bind]. apply block_diag64_ok. auto.
    + rewrite exact_dict. cbn [jacobian]. rewrite E2. cbn [bind]. apply block_diag_ok. auto.
    + subst l fl. cbn [gaps flat_len plint pl_n]. rewrite <- S1, <- S2, <- E3. exact K.
Qed.
End Tree.
