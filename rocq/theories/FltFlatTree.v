(** * Flattening whole patterns in float64 against exact folding. *)
From Coq Require Import Reals Lra Lia ZArith.
From Flocq Require Import Core IEEE754.BinarySingleNaN.
From Verif Require Import Base Num Nd ListFacts Pattern Spec PatFacts NumFacts Numeric Simplex Psd CholFacts NonFree Free
  Contract Indices2 AlongFacts Flt SpecFlt FltMat SpecFltMat FltChol SpecFltChol FltPat SpecFltPat FltBase FltMatProps
  FltCholFacts FltForm FltCholProps FltLeaf FltLeafPsd FltTree FltFlatLeaf.
Local Open Scope nat_scope.

Section FlatTree.
Variables (np : np64) (chol : chol64).
Hypothesis C : np_contract np.
Hypothesis H : chol_contract chol.

Lemma psd_flat : forall n lb m y, decent n lb m -> (forall i, i < n -> (val (m i i) - val lb <= pow2 80)%R) ->
  flatten64 np chol n lb m = Ok y -> length y = T n /\ Forall fin y /\
  let e := add_diag (val lb) (CholFacts.gram n (chol_of (map val y))) in
  forall i j, i < n -> j < n -> on_psd flat_err n (val lb) (fun i j => val (m i j)) e i j.
Proof.
  intros n lb m y D Big E. destruct (flatten64_accurate np C chol H n lb m D Big y E) as (Tm & Ly & A).
  destruct (flatten_inv _ _ _ _ _ _ E) as (V & l & El & Ey).
  destruct (chol_done chol H n _ l El) as (Cl & Z). split; auto. split.
  - rewrite Ey. apply Forall_forall. intros z Hz. unfold triangle64 in Hz. apply in_flat_map in Hz. destruct Hz as (i & Hi & Hz).
    apply in_map_iff in Hz. destruct Hz as (j & <- & Hj). apply in_seq in Hi, Hj. destruct Tm as [_ Tm].
    destruct (Tm i j ltac:(lia)) as (v & Ev & Fv & _). rewrite Ey, triangle_nth in Ev by lia. inversion Ev; subst. exact Fv.
  - intros e i j Hi Hj. cbn [on_psd flat_err].
    assert (Ee : e i j = (sum_to n (fun k => exact_factor y i k * exact_factor y j k) + (if Nat.eqb i j then val lb else 0))%R).
    { unfold e, add_diag, CholFacts.gram. rewrite rsum_sum. f_equal.
      apply sum_ext. intros k Hk. rewrite !(factor_chol n) by auto. reflexivity. }
    rewrite Ee. eapply Rle_trans; [apply (A i j Hi Hj)|].
    apply Rmult_le_compat_r; [apply sqrt_pos|]. apply Rmult_le_compat_l; [left; apply pow2_pos|].
    apply Rplus_le_compat_l, Rmult_le_compat_l; [lra|].
    assert (Hk : Nat.min i j < n) by (apply Nat.min_lt_iff; auto). set (k := Nat.min i j) in *.
    destruct (diag_log np C n lb m l D Big Cl k Hk) as (_ & PL & B & _ & _ & X). rewrite <- Ey in B, X.
    destruct (row_facts n lb m l D Cl k Hk) as (_ & _ & S & _).
    assert (Q : (val (l k k) * val (l k k) <= 1001 / 1000 * (val (m k k) - val lb))%R).
    { eapply Rle_trans; [|exact S]. rewrite squares_S. pose proof (squares_nonneg l k k). lra. }
    assert (W : (0 <= val (m k k) - val lb)%R).
    { assert (0 < val (l k k) * val (l k k))%R by (apply Rmult_lt_0_compat; auto). lra. }
    assert (R : (val (l k k) <= 101 / 100 * sqrt (val (m k k) - val lb))%R).
    { apply Rsqr_incr_0_var; [|pose proof (sqrt_pos (val (m k k) - val lb)); lra]. rewrite Rsqr_mult, Rsqr_sqrt by auto. unfold Rsqr. lra. }
    unfold magnitude. rewrite Nat.ltb_irrefl, Nat.eqb_refl. pose proof (sqrt_pos (val (m k k) - val lb)). lra.
Qed.

Variable vv : option bool.
Definition flat_near (p : pat) : Prop := forall v y, usable p -> modest p -> roomy p v ->
  pflatten64 np chol p v (Some true) = Ok y ->
  length y = pl_n (flat_len p true) /\ Forall fin y /\
  exists w, fold_ snum p (vec (map num64 y)) true vv = Ok w /\ leafwise flat_err p v w.

Lemma flatten_valid : forall p v y, pflatten64 np chol p v (Some true) = Ok y -> pvalid64 np p v (Some true) = Ok None.
Proof.
  intros p v y E. destruct p; cbn [pflatten64] in E; apply bind_ok in E; destruct E as ([m|] & E1 & E2); try discriminate E2; exact E1.
Qed.

Lemma flat_num : forall k s lb ub dv fd, flat_near (PNum k s lb ub dv fd).
Proof.
  intros k s lb ub dv fd [a|d] y (Hs & O) (El & Eu & _ & _) R E; [|destruct R]. destruct R as (Sa & Oa & R).
  pose proof (flatten_valid _ _ _ E) as V. cbn [pflatten64] in E. cbn [pvalid64] in V, E. rewrite V in E. cbn [bind] in E. inversion E; subst y. clear E V.
  assert (L : length (map (unconstrain64 np (bound64 lb) (bound64 ub)) (dat a)) = prod s).
  { rewrite map_length. unfold nd_ok in Oa. rewrite Oa, Sa. reflexivity. }
  assert (F : Forall fin (map (unconstrain64 np (bound64 lb) (bound64 ub)) (dat a))).
  { apply Forall_forall. intros z Hz. apply in_map_iff in Hz. destruct Hz as (x & <- & Hx). rewrite Forall_forall in R.
    destruct (R x Hx) as (Fx & B1 & B2). apply (num_flat np C lb ub x); auto. }
  split; auto. split; auto.
  cbn [fold_]. rewrite atleast_vec, ndim_vec, size_vec, map_length, L, !Nat.eqb_refl. cbn [negb vec dat snum of_num to_num].
  rewrite map_id, nd_map_id. unfold num_fold_free. eexists. split; [reflexivity|].
  cbn [leafwise shp dat]. split; auto. split; auto. rewrite nums_fin by auto. clear L F Sa Oa.
  induction R as [|x l (Fx & B1 & B2) R IH]; cbn [map]; constructor; auto.
  apply (num_flat np C lb ub x); auto.
Qed.

Lemma flat_simplex : forall n s dv fd, flat_near (PSimplex n s dv fd).
Proof.
  intros n s dv fd [a|d] y Hn M R E; [|destruct R]. destruct R as (Sa & Oa & R). cbn [usable modest] in Hn, M.
  pose proof (flatten_valid _ _ _ E) as V. cbn [pflatten64] in E. cbn [pvalid64] in V, E. rewrite V in E. cbn [bind] in E. inversion E; subst y. clear E.
  rewrite Sa, shape_eqb_refl in V. cbn [negb vv_or] in V.
  destruct (existsb (fun x => flt x fzero) (dat a)); [discriminate V|].
  destruct (existsb (fun r => flt tol64 (fabs (fsub (np_sum np r) fone))) (chunks n (prod s) (dat a))) eqn:V2; [discriminate V|]. clear V.
  assert (La : length (dat a) = prod s * n). { unfold nd_ok in Oa. rewrite Oa, Sa, prod_app. cbn. lia. }
  assert (G : forall r, In r (chunks n (prod s) (dat a)) -> length r = n /\ Forall fin (simplex64_row np r) /\
     length (simplex64_row np r) = n - 1 /\ Forall2 (both (on_simplex flat_err)) r (constrain_row (map Fin (map val (simplex64_row np r))))).
  { intros r Hr. pose proof Hr as Hr'. apply in_chunks in Hr'. destruct Hr' as (i & Hi & Er).
    assert (Lr : length r = n) by (subst r; apply (chunk_length _ _ _ _ (prod s)); auto). split; auto.
    rewrite <- Lr. apply simplex_flat; auto; [lia| |].
    - apply Forall_forall. intros z Hz. rewrite Forall_forall in R. apply R. subst r. eapply in_slice. exact Hz.
    - destruct (flt tol64 (fabs (fsub (np_sum np r) fone))) eqn:X; auto. exfalso.
      assert (existsb (fun r => flt tol64 (fabs (fsub (np_sum np r) fone))) (chunks n (prod s) (dat a)) = true); [|congruence].
      apply existsb_exists. exists r. auto. }
  rewrite flat_map_concat.
  assert (Uk : forall z, In z (map (simplex64_row np) (chunks n (prod s) (dat a))) -> length z = n - 1).
  { intros z Hz. apply in_map_iff in Hz. destruct Hz as (r & <- & Hr). apply (G r Hr). }
  assert (Lc : length (chunks n (prod s) (dat a)) = prod s) by (unfold chunks; rewrite map_length, seq_length; auto).
  assert (L : length (concat (map (simplex64_row np) (chunks n (prod s) (dat a)))) = prod s * (n - 1)).
  { rewrite (concat_length_uniform _ (n - 1)) by auto. rewrite map_length, Lc. auto. }
  assert (F : Forall fin (concat (map (simplex64_row np) (chunks n (prod s) (dat a))))).
  { apply Forall_forall. intros z Hz. apply in_concat in Hz. destruct Hz as (q & Hq & Hz). apply in_map_iff in Hq.
    destruct Hq as (r & <- & Hr). destruct (G r Hr) as (_ & Fr & _). rewrite Forall_forall in Fr. auto. }
  split. { cbn [flat_len]. rewrite simplex_flen. auto. } split; auto.
  cbn [fold_ pylen vec shp bind flat_len]. rewrite map_length, simplex_flen, L, Nat.eqb_refl. cbn [negb].
  rewrite reshape_vec by (rewrite map_length, L, prod_app; cbn; lia).
  cbn [bind dat snum of_num to_num]. rewrite map_id, nd_map_id. unfold simplex_fold_free.
  eexists. split; [reflexivity|]. cbn [leafwise shp dat]. split; auto. split; auto.
  rewrite nums_fin by auto. rewrite !chunks_map, chunks_concat by (auto; rewrite map_length; auto).
  rewrite <- (concat_chunks _ n (prod s) (dat a)) at 1 by auto.
  revert G. generalize (chunks n (prod s) (dat a)) as l. clear. induction l as [|r l IH]; intros G; cbn [concat map flat_map]; [constructor|].
  apply Forall2_app; [|apply IH; intros; apply G; right; auto]. apply (G r). left; auto.
Qed.

Lemma flat_psd : forall sz fl dlb dv fd, flat_near (PPsd sz fl dlb dv fd).
Proof.
  intros sz fl dlb dv fd [a|d] y (Hf & c & Pc & _) (N & Ed & Bd) R E; [|destruct R]. destruct R as (Sa & Oa & D & Big).
  pose proof (flatten_valid _ _ _ E) as V. cbn [pflatten64] in E. cbn [pvalid64] in V, E. rewrite V in E. cbn [bind] in E.
  rewrite Sa, shape_eqb_refl in V. cbn [negb vv_or] in V. fold (mat64 sz (dat a)) in D. 
  change (forall i, i < sz -> (val (mat64 sz (dat a) i i) - val (bound64 dlb) <= pow2 80)%R) in Big.
  change (decent sz (bound64 dlb) (mat64 sz (dat a))) in D.
  set (m := mat64 sz (dat a)) in *.
  assert (E' : flatten64 np chol sz (bound64 dlb) m = Ok y).
  { unfold flatten64, psd64_valid. destruct (existsb (fun i => flt (m i i) (bound64 dlb)) (seq 0 sz)); [discriminate V|].
    destruct (forallb (fun i => forallb (fun j => feq (m j i) (m i j)) (seq 0 sz)) (seq 0 sz)); [exact E|discriminate V]. }
  destruct (exact_fin dlb c Ed Pc) as [Fl Vl].
  destruct (psd_flat sz (bound64 dlb) m y D Big E') as (L & F & A). cbv zeta in A.
  split; [cbn [flat_len plint pl_n]; rewrite Hf; exact L|]. split; auto.
  assert (Lf : length y = fl) by (rewrite L, Hf; reflexivity).
  cbn [fold_ flat_len pl_n plint]. rewrite atleast_vec, ndim_vec, size_vec, map_length, Lf, !Nat.eqb_refl.
  cbn [negb vec dat snum of_num to_num]. rewrite map_id, nums_fin by auto.
  rewrite Pc, <- Vl, (unpack_fin sz) by (rewrite map_length; auto). cbn [bind]. rewrite nd_map_id.
  eexists. split; [reflexivity|]. cbn [leafwise shp dat]. split; auto. split; auto.
  set (e := add_diag (val (bound64 dlb)) (CholFacts.gram sz (chol_of (map val y)))) in *.
  assert (La : length (dat a) = sz * sz). { unfold nd_ok in Oa. rewrite Oa, Sa. cbn. lia. }
  change (rows_of sz e) with (grid sz (fun i j => Fin (e i j))). split.
  - assert (Lg : length (grid sz (fun i j => Fin (e i j))) = sz * sz) by apply grid_length.
    assert (Ff : forall x, In x (dat a) -> fin x).
    { intros x Hx. apply (In_nth _ _ fnan) in Hx. destruct Hx as (k & Hk & <-). rewrite La in Hk.
      assert (sz <> 0) by (intros ->; lia).
      replace k with ((k / sz) * sz + k mod sz) by (rewrite (Nat.div_mod k sz) at 3 by auto; lia).
      destruct D as (_ & _ & Df & _). apply Df; [apply Nat.div_lt_upper_bound; lia|apply Nat.mod_upper_bound; auto]. }
    assert (Fg : forall x, In x (grid sz (fun i j => Fin (e i j))) -> exists r, x = Fin r).
    { intros x Hx. unfold grid in Hx. apply in_flat_map in Hx. destruct Hx as (i & _ & Hx). apply in_map_iff in Hx. destruct Hx as (j & <- & _). eauto. }
    rewrite <- La in Lg. revert Ff Fg Lg. generalize (dat a) as u1. generalize (grid sz (fun i j => Fin (e i j))) as u2. clear.
    induction u2 as [|x u2 IH]; intros [|z u1] Ff Fg L; try discriminate L; constructor.
    + split; [apply Ff; left; auto|]. destruct (Fg x (or_introl eq_refl)) as (r & ->). exists r. auto.
    + apply IH; auto; intros; [apply Ff|apply Fg]; right; auto.
  - intros i j Hi Hj. specialize (A i j Hi Hj). cbn [on_psd flat_err] in A |- *. rewrite !(grid_nth sz) by auto. cbn [real_of]. exact A.
Qed.

Lemma flat_arr : forall s b fd, flat_near b -> flat_near (PArr s b fd).
Proof.
  intros s b fd IH [a|d] y Hu M R E; [|destruct R]. destruct R as (Sa & Oa & R). pose proof Hu as (Hs & Hp & Hd & Hub). cbn [modest] in M.
  pose proof (flatten_valid _ _ _ E) as V. cbn [pflatten64] in E.
  rewrite V in E. clear V. cbn [bind] in E. apply bind_ok in E. destruct E as (parts & Ep & E).
  apply Contract.hstack_ok in E. destruct E as (Np & ->). set (k := prod (folded_shape b)) in *.
  assert (Ep' : mapM (fun i => pflatten64 np chol b (FArr (mkNd (folded_shape b) (chunk k (dat a) i))) (Some true)) (seq 0 (prod s)) = Ok parts).
  { rewrite <- Ep. rewrite <- (mapM_indices _ (fun i => pflatten64 np chol b (FArr (mkNd (folded_shape b) (chunk k (dat a) i))) (Some true))).
    apply mapM_ext. intros it _. rewrite (subarr_chunk _ a it s (folded_shape b)) by auto. reflexivity. }
  clear Ep. apply mapM_ok_inv in Ep'.
  assert (Fp : Forall2 (fun i x => length x = pl_n (flat_len b true) /\ Forall fin x /\ exists w, fold_ snum b (vec (map num64 x)) true vv = Ok w /\
     leafwise flat_err b (FArr (mkNd (folded_shape b) (chunk k (dat a) i))) w) (seq 0 (prod s)) parts).
  { assert (Hi : forall i, In i (seq 0 (prod s)) -> i < prod s) by (intros i Hi; apply in_seq in Hi; lia).
    clear Np. induction Ep'; constructor; auto. 
    - apply (IH _ _ Hub M); auto. apply R. apply Hi. left; auto.
    - apply IHEp'. intros; apply Hi; right; auto. }
  assert (Lp : length parts = prod s) by (apply Forall2_len in Fp; rewrite seq_length in Fp; auto).
  set (n := pl_n (flat_len b true)) in *.
  assert (Un : forall z, In z parts -> length z = n /\ Forall fin z).
  { clear -Fp. intros z Hz. induction Fp; [destruct Hz|]. destruct Hz as [<-|Hz]; auto. tauto. }
  assert (L : length (concat parts) = pl_n (flat_len (PArr s b fd) true)).
  { rewrite (concat_length_uniform _ n) by apply Un. rewrite Lp. cbn [flat_len plen_mul pl_n]. rewrite np_prod_int by auto. reflexivity. }
  assert (F : Forall fin (concat parts)).
  { apply Forall_forall. intros z Hz. apply in_concat in Hz. destruct Hz as (q & Hq & Hz). destruct (Un q Hq) as [_ Fq]. rewrite Forall_forall in Fq. auto. }
  split; auto. split; auto. rewrite nums_fin by auto.
  destruct (free_flatten_of_fold vv vv (PArr s b fd) (map val (concat parts)) Hu) as (w & Ew & _). { rewrite map_length. auto. }
  destruct (fold_arr_blocks vv s b fd (map val (concat parts)) w Hu ltac:(rewrite map_length; auto) Ew) as (bb & -> & Lb & Blk).
  destruct (fold_shape _ snum true vv (PArr s b fd) _ _ Hu eq_refl Ew) as (bb' & Eq & Hsh & Hok). inversion Eq; subst bb'. clear Eq.
  exists (FArr bb). split; auto. cbn [leafwise]. cbn [folded_shape] in Hsh. repeat (split; auto).
  intros i Hi. fold k. fold (chunk k (dat a) i). fold (chunk k (dat bb) i). fold k in Blk. fold n in Blk.
  specialize (Blk i Hi). rewrite chunk_map in Blk. rewrite (chunk_concat _ n parts i []) in Blk by (first [lia|apply Un]).
  assert (Q : forall o m l, Forall2 (fun i x => length x = n /\ Forall fin x /\ exists w, fold_ snum b (vec (map num64 x)) true vv = Ok w /\
     leafwise flat_err b (FArr (mkNd (folded_shape b) (chunk k (dat a) i))) w) (seq o m) l -> forall i, i < m ->
     exists w, fold_ snum b (vec (map num64 (nth i l []))) true vv = Ok w /\ leafwise flat_err b (FArr (mkNd (folded_shape b) (chunk k (dat a) (o + i)))) w).
  { clear. intros o m. revert o. induction m; intros o l H i Hi; [lia|]. cbn [seq] in H. inversion H; subst. destruct i.
    - rewrite Nat.add_0_r. apply H2.
    - cbn [nth]. replace (o + Datatypes.S i) with (Datatypes.S o + i) by lia. apply IHm; auto. lia. }
  destruct (Q 0 (prod s) parts Fp i Hi) as (w & Ew1 & Lw). rewrite nums_fin in Ew1 by (apply Un, nth_In; lia).
  rewrite Blk in Ew1. inversion Ew1; subst w. exact Lw.
Qed.

Lemma flat_items : forall d its, Forall (fun kq => flat_near (snd kq)) its -> NoDup (map fst its) ->
  all_items (fun _ q => usable q) its -> all_items (fun _ q => modest q) its ->
  all_items (fun k q => exists v', dict_get d k = Some v' /\ roomy q v') its -> forall parts,
  Forall2 (fun kq x => exists w, dict_get d (fst kq) = Some w /\ pflatten64 np chol (snd kq) w (Some true) = Ok x) its parts ->
  length (concat parts) = lsum (map (fun kq => pl_n (flat_len (snd kq) true)) its) /\ Forall fin (concat parts) /\
  forall pre, exists e, fold_items (fun q y => fold_ snum q y true vv) true (map num64 (pre ++ concat parts)) its (plint (length pre)) = Ok e /\
    all_items (fun k q => exists v' w', dict_get d k = Some v' /\ dict_get e k = Some w' /\ leafwise flat_err q v' w') its.
Proof.
  intros d its F. induction F as [|[k q] its Hq F IHi]; intros ND U M R parts P; inversion P; subst.
  - cbn. repeat split; auto. intros. exists []. auto.
  - match goal with X : exists w, _ |- _ => destruct X as (w & Ew & Ef) end.
    match goal with X : Forall2 _ its _ |- _ => rename X into P' end.
    cbn [map fst] in ND. apply NoDup_cons_iff in ND. destruct ND as [NI ND].
    destruct U as [Uq U]. destruct M as [Mq M]. destruct R as [(v & Ev & Rv) R]. cbn [fst snd] in *. rewrite Ev in Ew. inversion Ew; subst w. clear Ew.
    destruct (Hq v y Uq Mq Rv Ef) as (Ly & Fy & w & Ewf & Lf).
    destruct (IHi ND U M R l' P') as (L & Fl & Fo). cbn [concat]. split.
    { rewrite app_length, L, Ly. reflexivity. } split. { apply Forall_app; auto. }
    intros pre. destruct (Fo (pre ++ y)) as (e & Ee & A). exists ((k, w) :: e).
    rewrite fold_items_cons by (apply usable_int; auto).
    assert (Es : slice (map num64 (pre ++ y ++ concat l')) (length pre) (pl_n (flat_len q true)) = map num64 y).
    { rewrite slice_map. f_equal. unfold slice. rewrite skipn_app, skipn_all, Nat.sub_diag. cbn [skipn app].
      rewrite firstn_app, <- Ly, firstn_all, Nat.sub_diag, firstn_O, app_nil_r. reflexivity. }
    rewrite Es, Ewf. cbn [bind]. rewrite <- Ly, <- app_length, app_assoc, Ee. cbn [bind]. split; auto.
    cbn [all_items]. split.
    + exists v, w. cbn [dict_get]. rewrite key_eqb_refl. auto.
    + clear -A NI.
      assert (Q : forall its, ~ In k (map fst its) ->
        all_items (fun k q => exists v' w', dict_get d k = Some v' /\ dict_get e k = Some w' /\ leafwise flat_err q v' w') its ->
        all_items (fun k0 q => exists v' w', dict_get d k0 = Some v' /\ dict_get ((k, w) :: e) k0 = Some w' /\ leafwise flat_err q v' w') its).
      { induction its0 as [|[k' q'] its' IH]; intros N B; cbn [all_items] in *; auto. destruct B as [(v' & w' & B1 & B2 & B3) B].
        cbn [map fst] in N. split.
        - exists v', w'. rewrite dict_get_cons_ne by (intros E; apply N; left; auto). auto.
        - apply IH; auto. intros I. apply N. right. auto. }
      apply Q; auto.
Qed.

Theorem flat_near_all : forall p, flat_near p.
Proof.
  apply (pat_ind' flat_near).
  - apply flat_num.
  - apply flat_simplex.
  - apply flat_psd.
  - intros s b fd IH. apply flat_arr. auto.
  - intros items l fl fd lk IH [a|d] y Hu M R E; [destruct R|]. pose proof Hu as (_ & ND & _ & Hfl & U). cbn [modest roomy] in M, R.
    pose proof (flatten_valid _ _ _ E) as V. cbn [pflatten64] in E.
    rewrite V in E. clear V. cbn [bind] in E. apply bind_ok in E. destruct E as (parts & Ep & E).
    apply Contract.hstack_ok in E. destruct E as (Np & ->). apply flatten_items_inv in Ep.
    destruct (flat_items d items IH ND U M R parts Ep) as (L & F & Fo).
    assert (L' : length (concat parts) = pl_n (flat_len (PDict items l fl fd lk) true)).
    { rewrite L. subst fl. reflexivity. }
    split; auto. split; auto. destruct (Fo []) as (e & Ee & A). exists (FDict e). split; [|exact A].
    rewrite fold_dict_eq by (rewrite map_length; auto). cbn [app length] in Ee. rewrite Ee. reflexivity.
Qed.
End FlatTree.
