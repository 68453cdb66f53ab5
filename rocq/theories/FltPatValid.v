(** * Validation of whole patterns in float64 against exact validation. *)
From Coq Require Import Reals Lra Lia ZArith.
From Flocq Require Import Core IEEE754.BinarySingleNaN.
From Verif Require Import Base Num Nd ListFacts Pattern Spec PatFacts NumFacts Simplex Psd Free
  Contract Flt SpecFlt FltMat SpecFltMat FltChol SpecFltChol FltPat SpecFltPat FltBase FltExp FltNum FltNum2 FltNum3 FltSimp FltSimp2 FltCholProps FltLeaf FltFlatLeaf
  FltCholDef FltFlatTree.
Local Open Scope nat_scope.

(** ** Comparisons *)
Lemma flt_num : forall a b, flt a b = nltb (num64 a) (num64 b).
Proof.
  intros a b. unfold flt.
  assert (Q : is_finite a = true -> is_finite b = true -> Bltb a b = Rltb (val a) (val b)).
  { intros Fa Fb. rewrite Bltb_correct by auto. unfold Rltb, val. case Rlt_bool_spec; intros X; destruct (Rlt_dec _ _); auto; lra. }
  destruct a as [s|s| |s m e B] eqn:Ea; destruct b as [s'|s'| |s' m' e' B'] eqn:Eb; try (rewrite Q by reflexivity; reflexivity);
    try (destruct s; reflexivity); try (destruct s; destruct s'; reflexivity); try (destruct s'; reflexivity); reflexivity.
Qed.
Lemma feq_num : forall a b, feq a b = neqb (num64 a) (num64 b).
Proof.
  intros a b. unfold feq.
  assert (Q : is_finite a = true -> is_finite b = true -> Beqb a b = Reqb (val a) (val b)).
  { intros Fa Fb. rewrite Beqb_correct by auto. unfold Reqb, val. case Req_bool_spec; intros X; destruct (Req_EM_T _ _); auto; lra. }
  destruct a as [s|s| |s m e B] eqn:Ea; destruct b as [s'|s'| |s' m' e' B'] eqn:Eb; try (rewrite Q by reflexivity; reflexivity);
    try (destruct s; reflexivity); try (destruct s; destruct s'; reflexivity); try (destruct s'; reflexivity); reflexivity.
Qed.

(** ** Bounds *)
Lemma exact_float : forall f, SpecFloat.valid_binary 53 1024 f = true -> exact_bound (PyFloat f).
Proof.
  intros [s|s| |s m e] V; unfold exact_bound, bound64, pyval, sf2num.
  - reflexivity.
  - reflexivity.
  - reflexivity.
  - set (x := @B754_finite 53 1024 s m e V).
    assert (E : flit (if s then Zneg m else Zpos m) e = x).
    { unfold flit. pose proof (binary_normalize_correct 53 1024 prec64 emax64 mode_NE (if s then Zneg m else Zpos m) e false) as N. cbv zeta in N.
      assert (R : F2R (Float radix2 (if s then Zneg m else Zpos m) e) = B2R x) by (destruct s; reflexivity).
      rewrite R in N. rewrite round_generic in N; [|auto with typeclass_instances|apply generic_format_B2R].
      rewrite Rlt_bool_true in N by apply abs_B2R_lt_emax. destruct N as (N1 & N2 & N3).
      apply B2R_Bsign_inj; auto. rewrite N3. unfold x. cbn [B2R Bsign]. 
      destruct s; cbn [cond_Zopp]; [rewrite Rcompare_Lt|rewrite Rcompare_Gt]; auto; [apply F2R_lt_0|apply F2R_gt_0]; cbn; lia. }
    rewrite E. unfold x. cbn [num64]. f_equal. unfold val. cbn [B2R]. unfold F2R. cbn [Fnum Fexp].
    rewrite bpow_powerRZ. change (IZR radix2) with 2%R. destruct s; cbn [cond_Zopp]; [|lra].
    change (Z.neg m) with (- Z.pos m)%Z. rewrite opp_IZR. lra.
Qed.
Lemma exact_int : forall z, (Z.abs z < 2 ^ 53)%Z -> exact_bound (PyInt z).
Proof.
  intros z B. unfold exact_bound, bound64, pyval.
  assert (Q : (Rabs (IZR z * pow2 0) <= pow2 1023)%R).
  { change (pow2 0) with 1%R. rewrite Rmult_1_r, <- abs_IZR. apply Rle_trans with (pow2 53); [|apply pow2_mono; lia].
    rewrite pow2_Z by lia. apply IZR_le. lia. }
  destruct (flit_val z 0 B ltac:(lia) Q) as [F V]. rewrite num64_fin by auto. rewrite V. change (pow2 0) with 1%R. f_equal. lra.
Qed.

Section Valid.
Variable np : np64.
Hypothesis C : np_contract np.

Lemma tol_val : fin tol64 /\ (9999 / 10000000000000000 <= val tol64 <= 10001 / 10000000000000000)%R.
Proof.
  destruct (val_sf tol64 false 4951760157141521 (-92)) as [Ft Vt]; [vm_compute; reflexivity|]. split; auto.
  rewrite Vt. unfold pow2. cbn [bpow Z.opp].
  match goal with |- context [(_ * / IZR ?z)%R] => assert (0 < IZR z)%R by (apply IZR_lt; reflexivity);
    assert (E : (IZR z * / IZR z = 1)%R) by (apply Rinv_r; lra); revert E; generalize (/ IZR z)%R end.
  vm_compute Z.pow_pos. intros r E. lra.
Qed.

Lemma row_same : forall r, length r <= 1001 -> Forall (fun x => flt x fzero = false) r -> clear_row r ->
  flt tol64 (fabs (fsub (np_sum np r) fone)) = row_sum_bad (map num64 r).
Proof.
  intros r L P (F & Big & Cl). rewrite nums_fin by auto. unfold row_sum_bad. rewrite nsum_fin. cbn [nsub nneg nadd nabs simplex_tol].
  change (Rlsum (map val r)) with (rsum (map val r)). unfold ngtb. cbn [nltb].
  assert (Pos : Forall (fun a => fin a /\ (0 <= val a)%R) r).
  { rewrite Forall_forall in *. intros x Hx. split; auto. destruct (Rle_or_lt 0 (val x)) as [G|G]; auto.
    pose proof (flt_true x fzero (F x Hx) (proj1 fzero_val)) as T. rewrite (proj2 fzero_val) in T. specialize (T G). rewrite (P x Hx) in T. discriminate. }
  assert (Le : (length r <= Z.to_nat 1048576)%nat) by lia.
  destruct (sum_near r (np_sum np r) (np_sum_ok _ C r) Pos) as [Fs Ns]; auto.
  { eapply Rle_trans; [exact Big|]. apply pow2_mono. lia. }
  set (T := rsum (map val r)) in *. set (s := np_sum np r) in *.
  assert (T0 : (0 <= T)%R) by (apply rsum_nonneg; rewrite Forall_map; eapply Forall_impl; [|exact Pos]; cbn; tauto).
  assert (U : u = (/ 9007199254740992)%R) by apply u_val.
  assert (Ln : (INR (length r) <= 1001)%R) by (replace 1001%R with (INR 1001) by (rewrite INR_Z; reflexivity); apply le_INR; lia).
  assert (St : (0 <= steps r <= 223 / 1000000000000000)%R).
  { unfold steps. rewrite U. pose proof (pos_INR (length r)). lra. }
  apply near_rel_back in Ns; [|auto|lra].
  assert (E : (Rabs (val s - T) <= 446 / 1000000000000000 * T)%R).
  { eapply Rle_trans; [exact Ns|]. apply Rmult_le_compat_r; auto. lra. }
  clear Ns St. apply Rabs_le_inv in E.
  assert (P900 : (1 <= pow2 900)%R) by (change 1%R with (pow2 0); apply pow2_mono; lia).
  destruct (sub_near s fone Fs (proj1 fone_val)) as [Fd Ed].
  { rewrite (proj2 fone_val). apply Rle_trans with (pow2 901); [|apply pow2_mono; lia].
    replace (pow2 901) with (2 * pow2 900)%R; [|change 2%R with (pow2 1); rewrite <- pow2_add; f_equal; lia].
    apply Rabs_le_both; lra. }
  rewrite (proj2 fone_val), U in Ed. destruct tol_val as [Ft Vt].
  assert (Fa : fin (fabs (fsub s fone))) by (unfold fabs, fin; rewrite is_finite_Babs; exact Fd).
  assert (Va : val (fabs (fsub s fone)) = Rabs (val (fsub s fone))) by (unfold fabs, val; rewrite B2R_Babs; reflexivity).
  set (d := val (fsub s fone)) in *. change (nltb simplex_tol (Fin (Rabs (T + - (1))))) with (if Rlt_dec (/ 1000000000000) (Rabs (T - 1)) then true else false).
  destruct Cl as [Cl|Cl].
  - destruct (Rlt_dec (/ 1000000000000) (Rabs (T - 1))) as [G|G]; [exfalso; lra|]. apply flt_false; auto. rewrite Va.
    apply Rabs_le_inv in Cl. assert (Rabs (val s - 1) <= 96 / 100000000000000)%R by (apply Rabs_le_both; lra).
    apply Rabs_le_inv in Ed. pose proof H as H1. apply Rabs_le_inv in H1. apply Rabs_le_both; lra.
  - destruct (Rlt_dec (/ 1000000000000) (Rabs (T - 1))) as [G|G]; [|exfalso; lra]. apply flt_true; auto. rewrite Va.
    assert (W : (104 / 100000000000000 <= Rabs (val s - 1))%R).
    { unfold Rabs in Cl |- *. destruct (Rcase_abs (T - 1)); destruct (Rcase_abs (val s - 1)); lra. }
    assert (Z : (Rabs (val s - 1) <= Rabs d + / 9007199254740992 * Rabs (val s - 1))%R).
    { replace (val s - 1)%R with (d + - (d - (val s - 1)))%R at 1 by ring. eapply Rle_trans; [apply Rabs_triang|]. rewrite Rabs_Ropp. lra. }
    lra.
Qed.

Variable vv : option bool.
Definition valid_same (p : pat) : Prop := forall v, exact_bounds p -> clear p v -> pvalid64 np p v vv = validate s64 p v vv.

Lemma existsb_same : forall A (f g : A -> bool) l, (forall x, In x l -> f x = g x) -> existsb f l = existsb g l.
Proof. induction l as [|x l IH]; intros E; auto. cbn [existsb]. rewrite E, IH; auto; intros; [apply E; right|left]; auto. Qed.
Lemma forallb_same : forall A (f g : A -> bool) l, (forall x, In x l -> f x = g x) -> forallb f l = forallb g l.
Proof. induction l as [|x l IH]; intros E; auto. cbn [forallb]. rewrite E, IH; auto; intros; [apply E; right|left]; auto. Qed.

Lemma same_num : forall k s lb ub dv fd, valid_same (PNum k s lb ub dv fd).
Proof.
  intros k s lb ub dv fd [a|d] (El & Eu) _; [|reflexivity]. cbn [pvalid64 validate]. unfold num_validate. cbn [s64 to_num].
  rewrite (existsb_same _ (fun x => flt x (bound64 lb)) (fun x => nltb (num64 x) (pyval lb))) by (intros; rewrite flt_num, El; reflexivity).
  rewrite (existsb_same _ (fun x => flt (bound64 ub) x) (fun x => ngtb (num64 x) (pyval ub))) by (intros; rewrite flt_num, Eu; reflexivity).
  reflexivity.
Qed.

Lemma same_simplex : forall n s dv fd, valid_same (PSimplex n s dv fd).
Proof.
  intros n s dv fd [a|d] N Cl; [|reflexivity]. cbn [pvalid64 validate exact_bounds clear] in *. unfold simplex_validate. cbn [s64 to_num].
  destruct (shape_eqb (shp a) (s ++ [n])); [|reflexivity]. cbn [negb]. destruct (vv_or vv dv); [|reflexivity].
  rewrite (existsb_same _ (fun x => nltb (num64 x) (Fin 0)) (fun x => flt x fzero))
    by (intros; rewrite flt_num, (num64_fin fzero), (proj2 fzero_val) by apply fzero_val; reflexivity).
  destruct (existsb (fun x => flt x fzero) (dat a)) eqn:X; [reflexivity|].
  rewrite chunks_map.
  rewrite (existsb_same _ (fun r => flt tol64 (fabs (fsub (np_sum np r) fone))) (fun r => row_sum_bad (map num64 r))).
  - rewrite existsb_map. reflexivity.
  - intros r Hr. apply in_chunks in Hr. destruct Hr as (i & Hi & ->). apply row_same.
    + unfold chunk, slice. rewrite firstn_length. lia.
    + apply Forall_forall. intros x Hx. apply in_slice in Hx. destruct (flt x fzero) eqn:Y; auto.
      assert (existsb (fun x => flt x fzero) (dat a) = true) by (apply existsb_exists; eauto). congruence.
    + apply Cl. auto.
Qed.

Lemma same_psd : forall sz fl dlb dv fd, valid_same (PPsd sz fl dlb dv fd).
Proof.
  intros sz fl dlb dv fd [a|d] E _; [|reflexivity]. cbn [pvalid64 validate exact_bounds] in *. unfold psd_validate. cbn [s64 to_num].
  destruct (shape_eqb (shp a) [sz; sz]); [|reflexivity]. cbn [negb].
  assert (Q : forall i j, mat_of sz (nd_map num64 a) i j = num64 (mat64 sz (dat a) i j)).
  { intros i j. unfold mat_of, mat64, nd_map. cbn [dat]. change NaN with (num64 fnan). rewrite map_nth. reflexivity. }
  rewrite (existsb_same _ (fun i => flt (mat64 sz (dat a) i i) (bound64 dlb)) (fun i => nltb (mat_of sz (nd_map num64 a) i i) (pyval dlb)))
    by (intros; rewrite flt_num, Q, E; reflexivity).
  rewrite (forallb_same _ (fun i => forallb (fun j => feq (mat64 sz (dat a) j i) (mat64 sz (dat a) i j)) (seq 0 sz))
    (fun i => forallb (fun j => neqb (mat_of sz (nd_map num64 a) j i) (mat_of sz (nd_map num64 a) i j)) (seq 0 sz))); [reflexivity|].
  intros i _. apply forallb_same. intros j _. rewrite feq_num, !Q. reflexivity.
Qed.

Lemma same_arr : forall s b fd, valid_same b -> valid_same (PArr s b fd).
Proof.
  intros s b fd IH [a|d] E Cl; [|reflexivity]. cbn [pvalid64 validate exact_bounds clear] in *. cbv zeta in Cl.
  destruct (ndim a =? length (folded_shape (PArr s b fd))); [|reflexivity]. cbn [negb].
  destruct (shape_eqb (shp a) (folded_shape (PArr s b fd))) eqn:Sh; [|reflexivity]. cbn [negb]. apply shape_eqb_true in Sh. cbn [folded_shape] in Sh.
  assert (Q : forall it, In it (indices s) -> pvalid64 np b (FArr (subarr a it (length s))) vv = validate s64 b (FArr (subarr a it (length s))) vv).
  { intros it Hi. apply IH; auto. rewrite (subarr_chunk _ a it s (folded_shape b)) by auto. apply Cl. apply ravel_lt. auto. }
  revert Q. generalize (indices s) as l. induction l as [|it l IHl]; intros Q; [reflexivity|]. cbn [validate_cells].
  rewrite Q by (left; auto). rewrite IHl by (intros; apply Q; right; auto). reflexivity.
Qed.

Lemma validate_items_cons : forall A (vq : pat -> fv A -> res verdict) d k q its, validate_items vq d ((k, q) :: its) =
  match dict_get d k with
  | None => Ok (Some (MsgMissing k))
  | Some w => r <- vq q w ;; match r with None => validate_items vq d its | Some m => Ok (Some (MsgInvalid m)) end
  end.
Proof. reflexivity. Qed.

Theorem valid_same_all : forall p, valid_same p.
Proof.
  apply (pat_ind' valid_same).
  - apply same_num.
  - apply same_simplex.
  - apply same_psd.
  - intros s b fd IH. apply same_arr. auto.
  - intros items l fl fd lk IH [a|d] E Cl; [reflexivity|]. cbn [pvalid64 validate exact_bounds clear] in *.
    induction IH as [|[k q] its Hq F IHi]; [reflexivity|]. rewrite !validate_items_cons. destruct E as [Eq E]. destruct Cl as [Cq Cl]. cbn [snd fst] in *.
    destruct (dict_get d k) as [w|] eqn:D; [|reflexivity]. rewrite (Hq w Eq (Cq w eq_refl)).
    rewrite IHi by auto. reflexivity.
Qed.
End Valid.

Lemma pat64_validate : forall np, np_contract np -> forall chol p v vv, exact_bounds p -> clear p v ->
  pvalid64 np p v vv = validate s64 p v vv /\
  (forall m, validate s64 p v vv = Ok (Some m) -> pflatten64 np chol p v vv = Err ValueError) /\
  (forall e, validate s64 p v vv = Err e -> pflatten64 np chol p v vv = Err e).
Proof.
  intros np C chol p v vv E Cl. pose proof (valid_same_all np C vv p v E Cl) as Q. split; auto.
  rewrite <- Q. split; [intros m X|intros e X]; destruct p; cbn [pflatten64]; rewrite X; reflexivity.
Qed.

(** ** When flattening succeeds *)
Section Accept.
Variables (np : np64) (chol : chol64).
Hypothesis H : chol_contract chol.
Definition accepted (p : pat) : Prop := forall v, usable p -> roomy p v -> sturdy p v ->
  pvalid64 np p v (Some true) = Ok None -> exists y, pflatten64 np chol p v (Some true) = Ok y.

Lemma accept_psd : forall sz fl dlb dv fd, accepted (PPsd sz fl dlb dv fd).
Proof.
  intros sz fl dlb dv fd [a|d] _ R T V; [|destruct R]. destruct R as (Sa & _ & D & _). cbn [pflatten64]. rewrite V. cbn [bind].
  change (decent sz (bound64 dlb) (mat64 sz (dat a))) in D. cbn [pvalid64] in V. rewrite Sa, shape_eqb_refl in V. cbn [negb vv_or] in V.
  set (m := mat64 sz (dat a)) in *.
  assert (P : psd64_valid sz (bound64 dlb) m = true).
  { unfold psd64_valid. destruct (existsb (fun i => flt (m i i) (bound64 dlb)) (seq 0 sz)); [discriminate V|].
    destruct (forallb (fun i => forallb (fun j => feq (m j i) (m i j)) (seq 0 sz)) (seq 0 sz)); [reflexivity|discriminate V]. }
  destruct (flatten64_accepts np chol H sz (bound64 dlb) m D P T) as (x & E). unfold flatten64 in E. rewrite P in E. eauto.
Qed.

Lemma accept_arr : forall s b fd, accepted b -> accepted (PArr s b fd).
Proof.
  intros s b fd IH [a|d] (Hs & Hp & Hd & Hu) R T V; [|destruct R]. destruct R as (Sa & _ & R). cbn [pflatten64]. rewrite V. cbn [bind].
  cbn [pvalid64] in V. unfold ndim in V. rewrite Sa in V. cbn [folded_shape] in V. rewrite Nat.eqb_refl, shape_eqb_refl in V. cbn [negb] in V.
  cbn [sturdy] in T. cbv zeta in T, R.
  assert (Q : forall it, In it (indices s) -> exists y, pflatten64 np chol b (FArr (subarr a it (length s))) (Some true) = Ok y).
  { assert (W : forall it, In it (indices s) -> pvalid64 np b (FArr (subarr a it (length s))) (Some true) = Ok None).
    { revert V. generalize (indices s) as l. induction l as [|i l IHl]; intros V it [].
      - subst i. cbn [validate_cells] in V. destruct (pvalid64 np b (FArr (subarr a it (length s))) (Some true)) as [[]|]; try discriminate V. reflexivity.
      - apply IHl; auto. cbn [validate_cells] in V. destruct (pvalid64 np b (FArr (subarr a i (length s))) (Some true)) as [[]|]; try discriminate V. exact V. }
    intros it Hi. pose proof (W it Hi) as W1. rewrite (subarr_chunk _ a it s (folded_shape b)) in * by auto.
    apply IH; auto; [apply R|apply T]; apply ravel_lt; auto. }
  destruct (mapM_exists _ _ (fun it => pflatten64 np chol b (FArr (subarr a it (length s))) (Some true)) (fun _ _ => True) (indices s)) as (ys & E & F).
  { intros it Hi. destruct (Q it Hi) as (y & Ey). eauto. }
  rewrite E. cbn [bind]. destruct ys as [|y ys]; [|eexists; reflexivity].
  exfalso. apply mapM_length in E. rewrite indices_length in E. cbn in E. lia.
Qed.

Theorem accepted_all : forall p, accepted p.
Proof.
  apply (pat_ind' accepted).
  - intros k s lb ub dv fd [a|d] _ R _ V; [|destruct R]. cbn [pflatten64]. rewrite V. cbn [bind]. eauto.
  - intros n s dv fd [a|d] _ R _ V; [|destruct R]. cbn [pflatten64]. rewrite V. cbn [bind]. eauto.
  - apply accept_psd.
  - intros s b fd IH. apply accept_arr. auto.
  - intros items l fl fd lk IH [a|d] (Ne & _ & _ & _ & U) R T V; [destruct R|]. cbn [pflatten64]. rewrite V. cbn [bind].
    cbn [pvalid64 roomy sturdy] in V, R, T.
    assert (Q : exists ys, flatten_items (fun q w => pflatten64 np chol q w (Some true)) d items = Ok ys /\ length ys = length items).
    { clear Ne. induction IH as [|[k q] its Hq F IHi]; [exists []; auto|]. rewrite validate_items_cons in V.
      destruct U as [Uq U]. destruct R as [(w & Ew & Rq) R]. destruct T as [Tq T]. cbn [fst snd] in *. rewrite Ew in V.
      destruct (pvalid64 np q w (Some true)) as [[]|] eqn:Vq; try discriminate V. cbn [bind] in V.
      destruct (Hq w Uq Rq (Tq w Ew) Vq) as (y & Ey). destruct (IHi U R T V) as (ys & Eys & L).
      exists (y :: ys). unfold flatten_items in *. rewrite Ew, Ey. cbn [bind]. rewrite Eys. cbn. auto. }
    destruct Q as (ys & E & L). rewrite E. cbn [bind]. destruct ys as [|y ys]; [|eexists; reflexivity].
    exfalso. destruct items; [apply Ne; auto|discriminate L].
Qed.
End Accept.

Lemma pat64_accepts : forall np, np_contract np -> forall chol, chol_contract chol ->
  forall p v, usable p -> exact_bounds p -> roomy p v -> clear p v -> sturdy p v ->
  validate s64 p v (Some true) = Ok None -> exists y, pflatten64 np chol p v (Some true) = Ok y.
Proof.
  intros np C chol H p v U B R Cl T V. apply (accepted_all np chol H p v U R T).
  rewrite (valid_same_all np C (Some true) p v B Cl). auto.
Qed.
