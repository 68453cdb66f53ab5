(** * Leaves of patterns: float64 folding against exact folding. *)
From Coq Require Import Reals Lra Lia ZArith Psatz.
From Flocq Require Import Core IEEE754.BinarySingleNaN.
From Verif Require Import Base Num Nd ListFacts Pattern Spec NumFacts Numeric Simplex Flt SpecFlt FltMat SpecFltMat
  FltChol SpecFltChol FltPat SpecFltPat FltBase FltExp FltNum FltNum2 FltNum3 FltSimp FltSimp2 FltMatProps FltForm.
Local Open Scope R_scope.

Lemma num64_fin : forall x, fin x -> num64 x = Fin (val x).
Proof. intros x H. destruct x; try discriminate H; reflexivity. Qed.
Lemma nums_fin : forall x, Forall fin x -> map num64 x = map Fin (map val x).
Proof. induction 1; cbn [map]; auto. rewrite num64_fin, IHForall by auto. reflexivity. Qed.

Lemma exact_fin : forall b r, exact_bound b -> pyval b = Fin r -> fin (bound64 b) /\ val (bound64 b) = r.
Proof.
  intros b r E P. unfold exact_bound in E. rewrite P in E. destruct (bound64 b) as [s|[]| |s m e H]; try discriminate E.
  - split; [reflexivity|]. cbn in E. inversion E. reflexivity.
  - split; [reflexivity|]. cbn [num64] in E. inversion E. reflexivity.
Qed.
Lemma exact_pinf : forall b, exact_bound b -> pyval b = PInf -> bound64 b = finf.
Proof.
  intros b E P. unfold exact_bound in E. rewrite P in E. destruct (bound64 b) as [s|[]| |s m e H]; try discriminate E. reflexivity.
Qed.
Lemma exact_ninf : forall b, exact_bound b -> pyval b = NInf -> bound64 b = fninf.
Proof.
  intros b E P. unfold exact_bound in E. rewrite P in E. destruct (bound64 b) as [s|[]| |s m e H]; try discriminate E. reflexivity.
Qed.

Lemma exp_100 : forall x, Rabs x <= 100 -> 0 < exp x <= pow2 145.
Proof.
  intros x H. split; [apply exp_pos|]. apply Rabs_le_inv in H. apply Rle_trans with (exp 100); [apply exp_le; lra|].
  replace 100 with (INR 100) by (rewrite INR_Z; reflexivity). apply (exp_Z_upper 100 145). zcheck.
Qed.

(** [exp x + lb] and [ub - exp (-x)] *)
Lemma shift_err : forall X E b d c, 0 < X -> Rabs (E - X) <= 8 * u * X + pow2 (-1074) ->
  Rabs (d - (E + b)) <= u * Rabs (E + b) -> 0 <= c ->
  Rabs (d - (X + b)) <= pow2 (-49) * (Rabs (X + b) + Rabs b + c) + pow2 (-1050).
Proof.
  intros X E b d c HX HE Hd Hc. rewrite p49. pose proof (pow2_pos (-1074)) as P.
  assert (U : 0 < u < / 1000000) by (rewrite u_val; lra).
  assert (Q : 2 * pow2 (-1074) <= pow2 (-1050)).
  { change (-1050)%Z with (-1074 + 24)%Z. rewrite pm by lia. change (IZR (2 ^ 24)) with 16777216. lra. }
  assert (X <= Rabs (X + b) + Rabs b).
  { replace X with ((X + b) - b) at 1 by ring. pose proof (Rle_abs (X + b)). pose proof (Rle_abs (- b)). rewrite Rabs_Ropp in *. lra. }
  pose proof (Rabs_pos (X + b)). pose proof (Rabs_pos b).
  assert (Rabs (E + b) <= Rabs (X + b) + (8 * u * X + pow2 (-1074))).
  { replace (E + b) with ((X + b) + (E - X)) by ring. eapply Rle_trans; [apply Rabs_triang|]. lra. }
  assert (Rabs (d - (X + b)) <= u * Rabs (E + b) + (8 * u * X + pow2 (-1074))).
  { replace (d - (X + b)) with ((d - (E + b)) + (E - X)) by ring. eapply Rle_trans; [apply Rabs_triang|]. lra. }
  assert (u * Rabs (E + b) <= u * (Rabs (X + b) + (8 * u * X + pow2 (-1074)))) by (apply Rmult_le_compat_l; lra).
  set (A := Rabs (X + b)) in *. set (B := Rabs b) in *.
  assert (u * (8 * u * X) <= u * X) by (apply Rmult_le_compat_l; [lra|]; nra).
  assert (u * pow2 (-1074) <= pow2 (-1074)) by nra.
  assert (u * X <= u * (A + B)) by (apply Rmult_le_compat_l; lra).
  assert (0 <= u * A) by nra. assert (0 <= u * B) by nra. assert (0 <= u * c) by nra.
  lra.
Qed.

Section Leaf.
Variable np : np64.
Hypothesis C : np_contract np.

Lemma num_leaf : forall lb ub x, exact_bound lb -> exact_bound ub -> nlt (pyval lb) (pyval ub) ->
  Rabs (val (bound64 lb)) <= pow2 11 -> Rabs (val (bound64 ub)) <= pow2 11 -> fin x -> Rabs (val x) <= 100 ->
  both (on_num fold_err (bound64 lb) (bound64 ub)) (constrain64 np (bound64 lb) (bound64 ub) x)
    (constrain1 (pyval lb) (pyval ub) (Fin (val x))).
Proof.
  intros lb ub x El Eu O Bl Bu Fx Bx.
  assert (Hx : val x <= 700) by (apply Rabs_le_inv in Bx; lra).
  assert (P11 : pow2 11 <= pow2 145) by (apply pow2_mono; lia).
  assert (P146 : pow2 146 = 2 * pow2 145) by (change 146%Z with (145 + 1)%Z; rewrite pm by lia; reflexivity).
  assert (P147 : 2 * pow2 146 <= pow2 1023).
  { replace (2 * pow2 146) with (pow2 147) by (change 147%Z with (146 + 1)%Z; rewrite pm by lia; reflexivity). apply pow2_mono. lia. }
  assert (P22 : u * pow2 145 <= pow2 145).
  { rewrite <- (Rmult_1_l (pow2 145)) at 2. apply Rmult_le_compat_r; [left; apply pow2_pos|]. rewrite u_val. lra. }
  unfold both, constrain64, constrain1.
  destruct (pyval ub) as [b| | |] eqn:Ub; destruct (pyval lb) as [a| | |] eqn:Lb; try contradiction.
  - destruct (exact_fin lb a El Lb) as [Fl Vl]. destruct (exact_fin ub b Eu Ub) as [Fu Vu].
    rewrite (is_pinf_fin _ Fu), (is_ninf_fin _ Fl). cbn [neqb].
    cbn [nlt] in O. rewrite <- Vl, <- Vu in O.
    destruct (two_sided_accurate np C (bound64 lb) (bound64 ub) Fl Fu O Bl Bu x Fx Hx) as (F & _ & E).
    rewrite (constrain64_two np _ _ x Fl Fu) in F, E. split; [exact F|].
    cbn [nsub nexp nmul nadd nneg].
    assert (0 < 1 + exp (val x)) by (pose proof (exp_pos (val x)); lra).
    assert (D : forall q, ndiv (Fin q) (Fin (1 + exp (val x))) = Fin (q / (1 + exp (val x)))).
    { intros q. unfold ndiv, Reqb. destruct (Req_EM_T (1 + exp (val x)) 0); [lra|reflexivity]. }
    rewrite D. cbn [nadd].
    eexists. split; [reflexivity|]. cbn [on_num fold_err].
    eapply Rle_trans; [eapply Rle_trans; [|exact E]|].
    + right. f_equal. f_equal. rewrite Vl, Vu. field. lra.
    + apply Rplus_le_compat_r. apply Rmult_le_compat_l; [left; apply pow2_pos|].
      match goal with |- _ <= Rabs ?z + _ + _ => pose proof (Rabs_pos z) end. lra.
  - destruct (exact_fin ub b Eu Ub) as [Fu Vu]. rewrite (exact_ninf lb El Lb).
    rewrite (is_pinf_fin _ Fu). cbn [neqb is_ninf fninf].
    destruct (neg_val x Fx) as [Fn Vn].
    destruct (exp_small np C (fmul fminus1 x) Fn) as (Fe & Be & Ee). { rewrite Vn. apply Rabs_le_inv in Bx. lra. }
    rewrite Vn in Ee. assert (Rabs (- val x) <= 100) as Bn by (rewrite Rabs_Ropp; auto).
    destruct (exp_100 _ Bn) as [Ep Eq].
    assert (val (np_exp np (fmul fminus1 x)) <= pow2 146).
    { apply Rabs_le_inv in Ee. rewrite P146. assert (8 * u * exp (- val x) <= / 2 * exp (- val x)) by (apply Rmult_le_compat_r; [lra|rewrite u_val; lra]).
      assert (pow2 (-1074) <= / 2 * pow2 145).
      { assert (2 * pow2 (-1074) <= pow2 145); [|lra].
        replace (2 * pow2 (-1074)) with (pow2 (-1073)) by (change (-1073)%Z with (-1074 + 1)%Z; rewrite pm by lia; reflexivity). apply pow2_mono. lia. }
      lra. }
    destruct (sub_near (bound64 ub) (np_exp np (fmul fminus1 x)) Fu Fe) as [F E].
    { apply Rabs_le_inv in Bu. apply Rabs_le_both; lra. }
    split; [exact F|]. cbn [nmul nexp nsub nneg nadd].
    eexists. split; [reflexivity|]. cbn [on_num fold_err].
    replace (Fin 1) with (Fin 1) by reflexivity.
    replace (-1 * val x) with (- val x) by ring.
    pose proof (shift_err (exp (- val x)) (val (np_exp np (fmul fminus1 x))) (- val (bound64 ub))
      (- val (fsub (bound64 ub) (np_exp np (fmul fminus1 x)))) 0 Ep Ee) as S.
    replace (Rabs (b + - exp (- val x))) with (Rabs (exp (- val x) + - val (bound64 ub)))
      by (rewrite Vu, <- Rabs_Ropp; f_equal; ring).
    replace (Rabs (val (fsub (bound64 ub) (np_exp np (fmul fminus1 x))) - (b + - exp (- val x))))
      with (Rabs (- val (fsub (bound64 ub) (np_exp np (fmul fminus1 x))) - (exp (- val x) + - val (bound64 ub))))
      by (rewrite Vu, <- Rabs_Ropp; f_equal; ring).
    replace (Rabs (val fninf)) with 0 by (unfold val; cbn; rewrite Rabs_R0; reflexivity).
    rewrite Rplus_0_r. rewrite Rabs_Ropp in S. rewrite Rplus_0_r in S. apply S; [|lra].
    replace (Rabs (val (np_exp np (fmul fminus1 x)) + - val (bound64 ub)))
      with (Rabs (val (bound64 ub) - val (np_exp np (fmul fminus1 x)))) by (rewrite <- Rabs_Ropp; f_equal; ring).
    eapply Rle_trans; [|exact E]. right. rewrite <- Rabs_Ropp. f_equal. ring.
  - destruct (exact_fin lb a El Lb) as [Fl Vl]. rewrite (exact_pinf ub Eu Ub).
    rewrite (is_ninf_fin _ Fl). cbn [neqb is_pinf finf].
    destruct (exp_small np C x Fx Hx) as (Fe & Be & Ee). destruct (exp_100 _ Bx) as [Ep Eq].
    assert (val (np_exp np x) <= pow2 146).
    { apply Rabs_le_inv in Ee. rewrite P146. assert (8 * u * exp (val x) <= / 2 * exp (val x)) by (apply Rmult_le_compat_r; [lra|rewrite u_val; lra]).
      assert (pow2 (-1074) <= / 2 * pow2 145).
      { assert (2 * pow2 (-1074) <= pow2 145); [|lra].
        replace (2 * pow2 (-1074)) with (pow2 (-1073)) by (change (-1073)%Z with (-1074 + 1)%Z; rewrite pm by lia; reflexivity). apply pow2_mono. lia. }
      lra. }
    destruct (add_near (np_exp np x) (bound64 lb) Fe Fl) as [F E].
    { apply Rabs_le_inv in Bl. apply Rabs_le_both; lra. }
    split; [exact F|]. cbn [nexp nadd]. eexists. split; [reflexivity|]. cbn [on_num fold_err].
    replace (Rabs (val finf)) with 0 by (unfold val; cbn; rewrite Rabs_R0; reflexivity).
    rewrite <- Vl. apply (shift_err _ (val (np_exp np x))); auto. lra.
  - rewrite (exact_pinf ub Eu Ub), (exact_ninf lb El Lb). cbn [is_pinf is_ninf finf fninf neqb].
    split; auto. exists (val x). split; auto. cbn [on_num fold_err]. rewrite Rminus_diag_eq, Rabs_R0 by auto.
    match goal with |- _ <= _ * ?z + _ => assert (0 <= z) end.
    { repeat apply Rplus_le_le_0_compat; apply Rabs_pos. }
    pose proof (pow2_pos (-49)). pose proof (pow2_pos (-1050)). nra.
Qed.

Lemma simplex_leaf : forall x, moderate x ->
  Forall2 (both (on_simplex fold_err)) (simplex64_fold np x) (constrain_row (map Fin (map val x))).
Proof.
  intros x M. rewrite constrain_row_fin. pose proof (simplex_moderate_close np C x M) as F.
  unfold NumFacts.softmax. rewrite map_map.
  remember (0 :: map val x) as l. rewrite Heql in F at 1. rewrite <- Heql in F.
  clear Heql. revert F. generalize (simplex64_fold np x) as a.
  assert (G : forall a b, Forall2 (fun p v => fin p /\ Rabs (val p - SpecFlt.softmax l v) <= 3 / 10000000000000 * SpecFlt.softmax l v) a b ->
    Forall2 (both (on_simplex fold_err)) a (map (fun v => Fin (exp v / Rlsum (map exp l))) b)).
  { induction 1 as [|p v a b [Fp E] _ IH]; cbn [map]; constructor; auto.
    split; auto. eexists. split; [reflexivity|]. exact E. }
  intros a F. rewrite map_map. apply G. exact F.
Qed.

End Leaf.
