(** * Free vectors of matrices folded and flattened in float64. *)
From Coq Require Import Reals Lra Lia ZArith Psatz.
From Flocq Require Import Core IEEE754.BinarySingleNaN.
From Verif Require Import Base Num Nd ListFacts Pattern Psd CholFacts Flt SpecFlt FltMat SpecFltMat FltChol SpecFltChol
  FltPat SpecFltPat SpecFltTrip FltBase FltExp FltNum FltNum2 FltPsd FltMatProps FltCholFacts FltForm FltCholProps FltCholDef
  FltLeaf FltLeafPsd TriPerturb.
Local Open Scope R_scope.

Lemma sum_mul_le : forall n f g, (forall k, (k < n)%nat -> 0 <= f k) -> (forall k, (k < n)%nat -> 0 <= g k) ->
  sum_to n (fun k => f k * g k) <= sum_to n f * sum_to n g.
Proof.
  intros n f g Pf Pg. rewrite <- sum_mult_r. apply sum_le. intros k Hk. apply Rmult_le_compat_l; auto.
  apply (sum_member n g); auto.
Qed.

Section Trip.
Variables (np : np64) (gram : gram64) (chol : chol64).
Hypothesis C : np_contract np.
Hypothesis G : gram_contract gram.
Hypothesis Ch : chol_contract chol.
Variables (n : nat) (lb : f64) (x : list f64) (W : nat -> nat -> R) (K : R).
Hypothesis Hn : (n <= Z.to_nat 1000000)%nat.
Hypothesis Len : length x = T n.
Hypothesis Sm : small64 x.
Hypothesis Fl : fin lb.
Hypothesis Bl : Rabs (val lb) <= pow2 1000.
Hypothesis Inv : left_inverse n W (exact_factor x).
Hypothesis HK : forall i, (i < n)%nat -> sum_to n (fun k => Rabs (W i k) * row_size n lb x k) <= K.
Hypothesis Cond : INR n * INR (n + 20) * (K * K) <= pow2 46.
Let t := row_size n lb x.
Let L := exact_factor x.
Let M := magnitude x.
Let S_ i := sum_to n (M i).
Let A i j := sum_to n (fun k => L i k * L j k).
Variable m : nat -> nat -> f64.
Hypothesis Hm : forall i j, (i < n)%nat -> (j < n)%nat -> m i j = unpack64 np gram n lb x i j.
Let eps := pow2 (-52) * INR (n + 20).

Lemma tame_x : tame n x. Proof. apply small_tame; auto. Qed.

Lemma entry_small : forall i j, (j <= i < n)%nat -> Rabs (entry64 x i j) <= 100.
Proof.
  intros i j H. destruct (proj2 tame_x i j H) as (v & E & _). unfold entry64. rewrite (nth_error_nth _ _ fnan E).
  apply nth_error_In in E. unfold small64 in Sm. rewrite Forall_forall in Sm. apply Sm. exact E.
Qed.

Lemma L_lower : lower L.
Proof. intros i j H. unfold L, exact_factor. apply Nat.ltb_lt in H. rewrite H. reflexivity. Qed.
Lemma L_diag : forall i, L i i = exp (entry64 x i i).
Proof. intros i. unfold L, exact_factor. rewrite Nat.ltb_irrefl, Nat.eqb_refl. reflexivity. Qed.
Lemma L_pos : forall j, (j < n)%nat -> 0 < L j j.
Proof. intros j _. rewrite L_diag. apply exp_pos. Qed.
Lemma M_nonneg : forall i k, 0 <= M i k.
Proof.
  intros i k. unfold M, magnitude. destruct (i <? k)%nat; [lra|].
  destruct (i =? k)%nat; pose proof (Rabs_pos (entry64 x i k)); auto.
  pose proof (Rabs_pos (entry64 x i i)). pose proof (exp_pos (entry64 x i i)). lra.
Qed.
Lemma L_M : forall i k, Rabs (L i k) <= M i k.
Proof.
  intros i k. unfold L, M, exact_factor, magnitude. destruct (i <? k)%nat; [rewrite Rabs_R0; lra|].
  destruct (i =? k)%nat; [|lra]. pose proof (exp_pos (entry64 x i i)). rewrite Rabs_pos_eq by lra.
  pose proof (Rabs_pos (entry64 x i i)). lra.
Qed.
Lemma S_ge : forall i, (i < n)%nat -> exp (entry64 x i i) + Rabs (entry64 x i i) <= S_ i /\ 1 <= S_ i.
Proof.
  intros i Hi. assert (Q : M i i <= S_ i) by (apply (sum_member n (M i)); auto; intros; apply M_nonneg).
  assert (Em : M i i = exp (entry64 x i i) + Rabs (entry64 x i i)) by (unfold M, magnitude; rewrite Nat.ltb_irrefl, Nat.eqb_refl; reflexivity).
  rewrite Em in Q. split; auto. pose proof (exp_ineq1_le (entry64 x i i)).
  pose proof (Rle_abs (- entry64 x i i)) as Z. rewrite Rabs_Ropp in Z. lra.
Qed.
Lemma S_t : forall i, S_ i <= t i /\ Rabs (val lb) <= (t i - S_ i) * (t i - S_ i) /\ 0 <= t i - S_ i.
Proof.
  intros i. unfold t, row_size. fold (M i). change (sum_to n (M i)) with (S_ i).
  pose proof (sqrt_pos (Rabs (val lb))). pose proof (sqrt_sqrt (Rabs (val lb)) (Rabs_pos _)). split; [lra|]. split; [|lra].
  replace (S_ i + sqrt (Rabs (val lb)) - S_ i) with (sqrt (Rabs (val lb))) by ring. lra.
Qed.
Lemma t_ge : forall i, (i < n)%nat -> 1 <= t i.
Proof. intros i Hi. destruct (S_ge i Hi). destruct (S_t i). lra. Qed.
Lemma MM : forall i j, sum_to n (fun k => M i k * M j k) <= S_ i * S_ j.
Proof. intros. apply sum_mul_le; intros; apply M_nonneg. Qed.
Lemma A_le : forall i j, Rabs (A i j) <= S_ i * S_ j.
Proof.
  intros i j. unfold A. eapply Rle_trans; [apply sum_abs|]. eapply Rle_trans; [|apply MM]. apply sum_le. intros k _.
  rewrite Rabs_mult. apply Rmult_le_compat; auto using Rabs_pos, L_M.
Qed.
Lemma A_diag : forall i, (i < n)%nat -> L i i * L i i <= A i i.
Proof.
  intros i Hi. apply (sum_member n (fun k => L i k * L i k)); auto. intros k _. apply Rle_0_sqr.
Qed.
Lemma tK : forall i, (i < n)%nat -> t i <= K * L i i.
Proof.
  intros i Hi. pose proof (inverse_diag n W L L_lower L_pos Inv i Hi) as E. pose proof (L_pos i Hi) as P.
  assert (Q : Rabs (W i i) * t i <= K).
  { eapply Rle_trans; [|apply (HK i Hi)]. apply (sum_member n (fun k => Rabs (W i k) * t k)); auto.
    intros k Hk. pose proof (t_ge k Hk). apply Rmult_le_pos; [apply Rabs_pos|lra]. }
  assert (0 < W i i) by nra. rewrite Rabs_pos_eq in Q by lra.
  replace (t i) with (W i i * t i * L i i) by (transitivity (W i i * L i i * t i); [ring|rewrite E; ring]).
  apply Rmult_le_compat_r; lra.
Qed.

Lemma N_le : forall i, (i < n)%nat -> 1 <= INR n <= 1000000.
Proof.
  intros i Hi. split; [change 1 with (INR 1); apply le_INR; lia|].
  pose proof (le_INR _ _ Hn) as Q. rewrite (INR_Z (Z.to_nat _)), Z2Nat.id in Q by lia. exact Q.
Qed.
Lemma eps_val : eps = (INR n + 20) / 4503599627370496.
Proof.
  unfold eps. rewrite plus_INR, (INR_Z 20). assert (E : pow2 (-52) = / 4503599627370496).
  { unfold pow2. cbn. reflexivity. }
  rewrite E. change (IZR (Z.of_nat 20)) with 20. field.
Qed.
Lemma epsK : forall i, (i < n)%nat -> 0 < eps /\ INR n * (eps * (K * K)) <= / 64 /\ eps * (K * K) <= / 64.
Proof.
  intros i Hi. destruct (N_le i Hi) as [N1 N2]. rewrite eps_val.
  assert (P46 : pow2 46 = 70368744177664) by (rewrite pow2_Z by lia; reflexivity).
  rewrite P46, plus_INR, (INR_Z 20) in Cond. change (IZR (Z.of_nat 20)) with 20 in Cond.
  pose proof (Rle_0_sqr K) as Q. unfold Rsqr in Q. split; [lra|].
  assert (B : INR n * ((INR n + 20) / 4503599627370496 * (K * K)) <= / 64) by lra. split; auto.
  eapply Rle_trans; [|exact B]. rewrite <- (Rmult_1_l (_ / _ * _)) at 1. apply Rmult_le_compat_r; auto.
  apply Rmult_le_pos; auto. lra.
Qed.

(** The folded matrix *)
Lemma m_near : forall i j, (i < n)%nat -> (j < n)%nat ->
  fin (m i j) /\ Rabs (val (m i j) - (if Nat.eqb i j then val lb else 0) - A i j) <= eps * (t i * t j).
Proof.
  intros i j Hi Hj. destruct (unpack64_entries np C gram G n x tame_x lb Fl Bl i j Hi Hj) as (F & _).
  pose proof (unpack64_accurate np C gram G n x tame_x lb Fl Bl i j Hi Hj) as B. cbv zeta in B.
  rewrite <- Hm in B, F by auto. split; auto. fold L M in B. change (sum_to n (fun k => L i k * L j k)) with (A i j) in B.
  match goal with |- Rabs ?a <= _ => replace a with (val (m i j) - (A i j + (if Nat.eqb i j then val lb else 0))) by ring end.
  eapply Rle_trans; [exact B|]. destruct (N_le i Hi) as [N1 N2].
  pose proof (MM i j) as Q. pose proof (t_ge i Hi). pose proof (t_ge j Hj). destruct (S_t i) as (Si & Li & Ni). destruct (S_t j) as (Sj & _ & Nj).
  destruct (S_ge i Hi) as (_ & Si1). destruct (S_ge j Hj) as (_ & Sj1).
  assert (X1 : S_ i * S_ j <= t i * t j) by (apply Rmult_le_compat; lra).
  assert (X2 : (if Nat.eqb i j then Rabs (val lb) else 0) <= t i * t j).
  { destruct (Nat.eqb_spec i j) as [<-|_]; nra. }
  assert (X3 : pow2 (-1072) <= / 4503599627370496 / 1000000).
  { apply Rle_trans with (pow2 (-72)); [apply pow2_mono; lia|]. unfold pow2. cbn. lra. }
  assert (X4 : 1 <= t i * t j) by nra.
  assert (P52 : pow2 (-52) = / 4503599627370496) by (unfold pow2; cbn; reflexivity).
  rewrite eps_val, P52, plus_INR, (INR_Z 18). change (IZR (Z.of_nat 18)) with 18.
  pose proof (pow2_pos (-1072)).
  set (s := sum_to n (fun k => M i k * M j k)) in *. set (q := t i * t j) in *.
  assert ((INR n + 18) * s <= (INR n + 18) * q) by (apply Rmult_le_compat_l; lra).
  assert (INR n * pow2 (-1072) <= 1000000 * (/ 4503599627370496 / 1000000)) by (apply Rmult_le_compat; lra).
  lra.
Qed.

Lemma err_L : forall i j, (i < n)%nat -> (j < n)%nat -> eps * (t i * t j) <= / 64 * (L i i * L j j).
Proof.
  intros i j Hi Hj. destruct (epsK i Hi) as (E0 & _ & E). pose proof (tK i Hi). pose proof (tK j Hj).
  pose proof (t_ge i Hi). pose proof (t_ge j Hj). pose proof (L_pos i Hi). pose proof (L_pos j Hj).
  assert (t i * t j <= K * L i i * (K * L j j)) by (apply Rmult_le_compat; lra).
  apply Rle_trans with (eps * (K * L i i * (K * L j j))); [apply Rmult_le_compat_l; lra|].
  replace (eps * (K * L i i * (K * L j j))) with (eps * (K * K) * (L i i * L j j)) by ring.
  apply Rmult_le_compat_r; auto. apply Rmult_le_pos; lra.
Qed.

Lemma D_near : forall i, (i < n)%nat -> 63 / 64 * A i i <= val (m i i) - val lb <= 65 / 64 * A i i.
Proof.
  intros i Hi. destruct (m_near i i Hi Hi) as (_ & B). rewrite Nat.eqb_refl in B. pose proof (err_L i i Hi Hi).
  pose proof (A_diag i Hi). apply Rabs_le_inv in B. lra.
Qed.
Lemma D_t : forall i, (i < n)%nat -> 0 < val (m i i) - val lb <= 65 / 64 * (t i * t i).
Proof.
  intros i Hi. destruct (D_near i Hi) as [B B']. pose proof (A_diag i Hi). pose proof (L_pos i Hi).
  pose proof (A_le i i) as Q. destruct (S_t i) as (Si & _). destruct (S_ge i Hi) as (_ & S1).
  pose proof (Rle_abs (A i i)). assert (0 < L i i * L i i) by (apply Rmult_lt_0_compat; auto).
  assert (S_ i * S_ i <= t i * t i) by (apply Rmult_le_compat; lra). lra.
Qed.

Lemma S_le : forall i, (i < n)%nat -> S_ i <= pow2 166.
Proof.
  intros i Hi. destruct (N_le i Hi) as [N1 N2].
  assert (B : forall k, (k < n)%nat -> M i k <= pow2 146).
  { intros k Hk. assert (P : pow2 146 = 2 * pow2 145) by (change 146%Z with (145 + 1)%Z; rewrite pm by lia; reflexivity).
    assert (P' : 100 <= pow2 145).
    { apply Rle_trans with (pow2 7); [rewrite pow2_Z by lia; cbn; lra|apply pow2_mono; lia]. }
    unfold M, magnitude. destruct (Nat.ltb_spec i k); [pose proof (pow2_pos 146); lra|].
    destruct (Nat.eqb_spec i k) as [<-|Ne].
    - pose proof (entry_small i i ltac:(lia)) as Q. pose proof (exp_100 _ Q). lra.
    - pose proof (entry_small i k ltac:(lia)). lra. }
  unfold S_. apply Rle_trans with (sum_to n (fun _ => pow2 146)); [apply sum_le; exact B|]. rewrite sum_const.
  replace 166%Z with (20 + 146)%Z by lia. rewrite pow2_add.
  apply Rmult_le_compat_r; [left; apply pow2_pos|]. rewrite pow2_Z by lia. cbn. lra.
Qed.

Lemma m_decent : decent n lb m.
Proof.
  assert (P332 : forall i j, (i < n)%nat -> (j < n)%nat -> S_ i * S_ j <= pow2 332).
  { intros i j Hi Hj. pose proof (S_le i Hi). pose proof (S_le j Hj). destruct (S_ge i Hi). destruct (S_ge j Hj).
    replace 332%Z with (166 + 166)%Z by lia. rewrite pow2_add. apply Rmult_le_compat; lra. }
  assert (P400 : 4 * pow2 332 <= pow2 400).
  { replace 4 with (pow2 2) by (rewrite pow2_Z by lia; reflexivity). rewrite <- pow2_add. apply pow2_mono. lia. }
  split; [exact Hn|]. split; [exact Fl|]. split; [intros; apply m_near; auto|]. split.
  - intros i j Hi Hj Ne. destruct (m_near i j Hi Hj) as (_ & B). apply Nat.eqb_neq in Ne. rewrite Ne in B.
    pose proof (err_L i j Hi Hj) as E. pose proof (A_le i j) as Q. pose proof (P332 i j Hi Hj).
    assert (L i i * L j j <= S_ i * S_ j).
    { destruct (S_ge i Hi) as [a a']. destruct (S_ge j Hj) as [b b']. rewrite !L_diag.
      pose proof (exp_pos (entry64 x i i)). pose proof (exp_pos (entry64 x j j)).
      pose proof (Rabs_pos (entry64 x i i)). pose proof (Rabs_pos (entry64 x j j)). apply Rmult_le_compat; lra. }
    apply Rabs_le_inv in B. apply Rabs_le_inv in Q. pose proof (pow2_pos 332). apply Rabs_le_both; lra.
  - intros i Hi. destruct (D_near i Hi) as [B B']. split.
    + pose proof (A_diag i Hi) as Q. assert (X : pow2 (-145) <= L i i).
      { rewrite L_diag. pose proof (entry_small i i ltac:(lia)) as Z. rewrite <- Rabs_Ropp in Z. destruct (exp_100 _ Z) as [Z1 Z2].
        rewrite exp_Ropp in Z2. pose proof (exp_pos (entry64 x i i)) as P.
        assert (E1 : pow2 (-145) * pow2 145 = 1) by (rewrite <- pow2_add; reflexivity). pose proof (pow2_pos (-145)).
        assert (Z3 : exp (entry64 x i i) * / exp (entry64 x i i) = 1) by (apply Rinv_r; apply Rgt_not_eq; exact P).
        apply Rmult_le_reg_r with (pow2 145); [apply pow2_pos|]. rewrite E1, <- Z3. apply Rmult_le_compat_l; [apply Rlt_le; exact P|exact Z2]. }
      assert (pow2 (-290) <= L i i * L i i).
      { replace (-290)%Z with (-145 + -145)%Z by lia. rewrite pow2_add. pose proof (pow2_pos (-145)). apply Rmult_le_compat; lra. }
      assert (2 * pow2 (-800) <= pow2 (-290)).
      { replace 2 with (pow2 1) by (rewrite pow2_Z by lia; reflexivity). rewrite <- pow2_add. apply pow2_mono. lia. }
      lra.
    + pose proof (A_le i i) as Q. pose proof (Rle_abs (A i i)). pose proof (P332 i i Hi Hi). pose proof (pow2_pos 332). lra.
Qed.

(** It is accepted *)
Lemma m_sturdy : forall z, pow2 (-49) * INR (n + 1) * (reach n lb m z * reach n lb m z) <= form n (shifted lb m) z.
Proof.
  intros z. destruct (Nat.eq_dec n 0) as [Z|Nz].
  { unfold form, reach. rewrite Z, !sum_0. lra. }
  assert (H0 : (0 < n)%nat) by lia. destruct (N_le 0 H0) as [N1 N2]. destruct (epsK 0 H0) as (E0 & E1 & E2).
  set (r := sum_to n (fun i => Rabs (z i) * t i)). set (v := fun k => sum_to n (fun i => z i * L i k)).
  set (Q := sum_to n (fun k => v k * v k)).
  assert (r0 : 0 <= r) by (apply sum_nonneg; intros k Hk; pose proof (t_ge k Hk); apply Rmult_le_pos; [apply Rabs_pos|lra]).
  assert (R1 : reach n lb m z <= 65 / 64 * r).
  { unfold reach, r. rewrite <- sum_mult. apply sum_le. intros i Hi. destruct (D_t i Hi) as [D0 D1].
    assert (sqrt (val (m i i) - val lb) <= 65 / 64 * t i).
    { pose proof (t_ge i Hi). rewrite <- (sqrt_Rsqr (65 / 64 * t i)) by lra. apply sqrt_le_1_alt. unfold Rsqr. nra. }
    pose proof (Rabs_pos (z i)). nra. }
  assert (R0 : 0 <= reach n lb m z) by (apply sum_nonneg; intros; apply Rmult_le_pos; [apply Rabs_pos|apply sqrt_pos]).
  assert (Fm : Rabs (form n (shifted lb m) z - Q) <= eps * (r * r)).
  { pose proof (form_gram n n L z) as Eg. fold v in Eg. change (form n (fun i j => A i j) z = Q) in Eg.
    replace (form n (shifted lb m) z - Q) with (form n (fun i j => shifted lb m i j - A i j) z).
    - apply (form_bound n _ t eps z). intros i j Hi Hj _ _. destruct (m_near i j Hi Hj) as (_ & B). exact B.
    - assert (Ef : form n (shifted lb m) z = form n (fun i j => shifted lb m i j - A i j) z + form n (fun i j => A i j) z).
      { rewrite <- form_plus. apply form_ext. intros. ring. }
      rewrite Ef, Eg. ring. }
  assert (Zs : forall i, (i < n)%nat -> z i = sum_to n (fun k => v k * W k i)).
  { intros i Hi. pose proof (inverse_right n W L L_lower L_pos Inv) as Ri.
    rewrite <- (sum_delta_r n i z Hi).
    rewrite (sum_ext n _ (fun q => z q * sum_to n (fun k => L q k * W k i))) by (intros q Hq; rewrite (Ri q i Hq Hi); reflexivity).
    rewrite sum_assoc. reflexivity. }
  assert (R2 : r <= K * sum_to n (fun k => Rabs (v k))).
  { apply Rle_trans with (sum_to n (fun i => sum_to n (fun k => Rabs (v k) * (Rabs (W k i) * t i)))).
    - apply sum_le. intros i Hi. rewrite (Zs i Hi). pose proof (t_ge i Hi).
      rewrite (sum_ext n (fun k => Rabs (v k) * (Rabs (W k i) * t i)) (fun k => Rabs (v k * W k i) * t i)) by (intros; rewrite Rabs_mult; ring).
      rewrite sum_mult_r. apply Rmult_le_compat_r; [lra|]. apply sum_abs.
    - rewrite sum_swap, <- sum_mult. apply sum_le. intros k Hk. rewrite sum_mult, Rmult_comm.
      apply Rmult_le_compat_r; [apply Rabs_pos|]. apply HK. exact Hk. }
  assert (V0 : 0 <= sum_to n (fun k => Rabs (v k))) by (apply sum_nonneg; intros; apply Rabs_pos).
  assert (Q0 : 0 <= Q) by (apply sum_nonneg; intros; apply Rle_0_sqr).
  assert (V2 : sum_to n (fun k => Rabs (v k)) * sum_to n (fun k => Rabs (v k)) <= INR n * Q).
  { pose proof (cauchy (fun _ => 1) v (seq 0 n)) as Cy. cbv beta in Cy.
    assert (E3 : rsum (map (fun k => Rabs (1 * v k)) (seq 0 n)) = sum_to n (fun k => Rabs (v k)))
      by (apply sum_ext; intros; f_equal; ring).
    assert (E4 : rsum (map (fun _ : nat => 1 * 1) (seq 0 n)) = INR n)
      by (change (sum_to n (fun _ => 1 * 1) = INR n); rewrite sum_const; ring).
    rewrite E3, E4 in Cy. exact Cy. }
  assert (R3 : r * r <= K * K * (INR n * Q)).
  { apply Rle_trans with (K * sum_to n (fun k => Rabs (v k)) * (K * sum_to n (fun k => Rabs (v k)))).
    - apply Rmult_le_compat; lra.
    - replace (K * sum_to n (fun k => Rabs (v k)) * (K * sum_to n (fun k => Rabs (v k)))) with
        (K * K * (sum_to n (fun k => Rabs (v k)) * sum_to n (fun k => Rabs (v k)))) by ring.
      apply Rmult_le_compat_l; auto. apply Rle_0_sqr. }
  assert (R4 : eps * (r * r) <= / 64 * Q).
  { apply Rle_trans with (eps * (K * K * (INR n * Q))); [apply Rmult_le_compat_l; lra|].
    replace (eps * (K * K * (INR n * Q))) with (INR n * (eps * (K * K)) * Q) by ring. apply Rmult_le_compat_r; auto. }
  assert (R5 : reach n lb m z * reach n lb m z <= 2 * (r * r)).
  { apply Rle_trans with (65 / 64 * r * (65 / 64 * r)); [apply Rmult_le_compat; lra|]. nra. }
  assert (R6 : pow2 (-49) * INR (n + 1) <= 8 * eps).
  { rewrite eps_val, plus_INR, (INR_Z 1). change (IZR (Z.of_nat 1)) with 1.
    replace (pow2 (-49)) with (/ 562949953421312) by (unfold pow2; cbn; reflexivity). lra. }
  assert (0 <= pow2 (-49) * INR (n + 1)) by (apply Rmult_le_pos; [left; apply pow2_pos|apply pos_INR]).
  apply Rle_trans with (8 * eps * (2 * (r * r))); [apply Rmult_le_compat; auto; nra|].
  apply Rabs_le_inv in Fm. nra.
Qed.

Lemma m_valid : psd64_valid n lb m = true.
Proof.
  pose proof (unpack64_valid np C gram G n x tame_x lb Fl Bl) as V. unfold psd64_valid in *. apply andb_true_iff in V.
  destruct V as [V1 V2]. apply negb_true_iff in V1. apply andb_true_iff. split.
  - apply negb_true_iff. apply not_true_iff_false. intros H. apply existsb_exists in H. destruct H as (i & Hi & H).
    apply not_true_iff_false in V1. apply V1. apply existsb_exists. exists i. split; auto. apply in_seq in Hi.
    rewrite <- Hm by lia. exact H.
  - apply forallb_forall. intros i Hi. apply forallb_forall. intros j Hj. rewrite forallb_forall in V2. specialize (V2 i Hi).
    rewrite forallb_forall in V2. specialize (V2 j Hj). apply in_seq in Hi, Hj. rewrite !Hm by lia. exact V2.
Qed.

(** What flattening it gives *)
Lemma psd_trip : exists y, flatten64 np chol n lb m = Ok y /\ length y = length x /\
  forall i j, (j <= i < n)%nat ->
    fin (nth (i * (i + 1) / 2 + j) y fnan) /\
    Rabs (val (nth (i * (i + 1) / 2 + j) y fnan) - entry64 x i j) <= pow2 (-46) * INR (n + 20) * (K * K) * t i.
Proof.
  destruct (flatten64_accepts np chol Ch n lb m m_decent m_valid m_sturdy) as (y & Hy).
  exists y. split; auto. destruct (flatten_inv np chol n lb m y Hy) as (_ & l & Hl & Ey).
  destruct (chol_done chol Ch n _ l Hl) as (Col & Zer).
  split; [rewrite Ey, triangle_length, Len; reflexivity|].
  intros i j H. assert (Hi : (i < n)%nat) by lia. assert (Hj : (j < n)%nat) by lia.
  assert (Ye : nth (i * (i + 1) / 2 + j) y fnan = log_diag64 np l i j).
  { apply nth_error_nth. rewrite Ey. apply triangle_nth. lia. }
  rewrite Ye. destruct (N_le i Hi) as [N1 N2]. destruct (epsK i Hi) as (E0 & E1 & E2).
  set (l' := fun a b => if Nat.ltb a b then 0 else val (l a b)).
  assert (Ll : forall a b, (a < n)%nat -> (b < n)%nat -> l' a b = val (l a b)).
  { intros a b Ha Hb. unfold l'. destruct (Nat.ltb_spec a b); auto. rewrite Zer by lia. rewrite (proj2 fzero_val). reflexivity. }
  assert (Near : forall a b, (a < n)%nat -> (b < n)%nat ->
    Rabs (sum_to n (fun k => l' a k * l' b k) - A a b) <= 8 * eps * (t a * t b)).
  { assert (Low : forall a b, (b <= a)%nat -> (a < n)%nat -> Rabs (sum_to n (fun k => l' a k * l' b k) - A a b) <= 8 * eps * (t a * t b)).
    { intros a b Hb Ha. destruct (factor_entry n lb m l m_decent Col a b Hb Ha) as (F & _).
      rewrite <- (sum_products n l Zer a b Hb Ha) in F.
      rewrite (sum_ext n _ (fun k => val (l a k) * val (l b k))) by (intros k Hk; rewrite !Ll by lia; reflexivity).
      destruct (m_near a b Ha ltac:(lia)) as (_ & B).
      assert (Sc : scale lb m a b <= 65 / 64 * (t a * t b)).
      { unfold scale. destruct (D_t a Ha) as [a0 a1]. destruct (D_t b ltac:(lia)) as [b0 b1].
        pose proof (t_ge a Ha). pose proof (t_ge b ltac:(lia)).
        assert (0 <= t a * t b) by (apply Rmult_le_pos; lra).
        rewrite <- (sqrt_Rsqr (65 / 64 * (t a * t b))) by lra. apply sqrt_le_1_alt. unfold Rsqr.
        apply Rle_trans with (65 / 64 * (t a * t a) * (65 / 64 * (t b * t b))); [apply Rmult_le_compat; lra|]. lra. }
      assert (X : pow2 (-50) * INR (n + 1) <= 4 * eps).
      { rewrite eps_val, plus_INR, (INR_Z 1). change (IZR (Z.of_nat 1)) with 1.
        replace (pow2 (-50)) with (/ 1125899906842624) by (unfold pow2; cbn; reflexivity). lra. }
      assert (0 <= pow2 (-50) * INR (n + 1)) by (apply Rmult_le_pos; [left; apply pow2_pos|apply pos_INR]).
      assert (pow2 (-50) * INR (n + 1) * scale lb m a b <= 4 * eps * (65 / 64 * (t a * t b))).
      { apply Rmult_le_compat; auto. apply sqrt_pos. }
      assert (0 <= eps * (t a * t b)) by (pose proof (t_ge a Ha); pose proof (t_ge b ltac:(lia)); apply Rmult_le_pos; [lra|apply Rmult_le_pos; lra]).
      apply Rabs_le_inv in F. apply Rabs_le_inv in B. apply Rabs_le_both; lra. }
    intros a b Ha Hb. destruct (Nat.le_ge_cases b a) as [Q|Q]; [apply Low; auto|].
    rewrite (sum_ext n _ (fun k => l' b k * l' a k)) by (intros; ring).
    replace (A a b) with (A b a) by (unfold A; apply sum_ext; intros; ring). rewrite (Rmult_comm (t a)). apply Low; auto. }
  assert (Lpos : forall q, (q < n)%nat -> pow2 (-538) <= val (l q q)).
  { intros q Hq. apply (row_facts n lb m l m_decent Col q Hq). }
  assert (Main : forall i j, (i < n)%nat -> (j < n)%nat ->
    Rabs (l' i j - L i j) <= 2 * (8 * eps * (K * K)) * sum_to n (fun k => Rabs (L i k)) /\
    exists g, l' j j = L j j * g /\ Rabs (g - 1) <= 2 * (8 * eps * (K * K))).
  { apply (factor_near n L l' W t (8 * eps) K).
    - apply L_lower.
    - intros a b Hab. unfold l'. apply Nat.ltb_lt in Hab. rewrite Hab. reflexivity.
    - apply L_pos.
    - intros q Hq. rewrite Ll by auto. pose proof (Lpos q Hq). pose proof (pow2_pos (-538)). lra.
    - exact Inv.
    - intros a b Ha Hb. apply Near; auto.
    - intros q Hq. pose proof (t_ge q Hq). lra.
    - lra.
    - exact HK.
    - replace (INR n * (8 * eps * (K * K))) with (8 * (INR n * (eps * (K * K)))) by ring. lra. }
  assert (P46 : pow2 (-46) * INR (n + 20) * (K * K) * t i = 64 * (eps * (K * K)) * t i).
  { unfold eps. replace (pow2 (-46)) with (64 * pow2 (-52)) by (unfold pow2; cbn; lra). ring. }
  rewrite P46. set (f := eps * (K * K)) in *. assert (f0 : 0 <= f) by (apply Rmult_le_pos; [lra|apply Rle_0_sqr]).
  pose proof (t_ge i Hi) as t1. destruct (Main i j Hi Hj) as (Off & _).
  replace (8 * eps * (K * K)) with (8 * f) in Off by (unfold f; ring).
  assert (SL : sum_to n (fun k => Rabs (L i k)) <= t i).
  { destruct (S_t i) as (Q & _). eapply Rle_trans; [|exact Q]. apply sum_le. intros. apply L_M. }
  assert (SL0 : 0 <= sum_to n (fun k => Rabs (L i k))) by (apply sum_nonneg; intros; apply Rabs_pos).
  rewrite Ll in Off by auto.
  destruct (Nat.eq_dec i j) as [<-|Ne].
  - destruct (Main i i Hi Hi) as (_ & g & Eg & Bg). rewrite Ll in Eg by auto.
    replace (8 * eps * (K * K)) with (8 * f) in Bg by (unfold f; ring).
    destruct (row_facts n lb m l m_decent Col i Hi) as (Fi & Pi & Si & _). specialize (Fi i ltac:(lia)).
    assert (Ub : val (l i i) <= pow2 1000).
    { apply Rabs_le_inv in Off. pose proof (S_le i Hi). destruct (S_ge i Hi) as [Q _]. rewrite <- L_diag in Q.
      pose proof (Rabs_pos (entry64 x i i)). apply Rabs_le_inv in Bg.
      assert (val (l i i) <= pow2 166 * 2) by (rewrite Eg; apply Rmult_le_compat; try lra; left; apply L_pos; auto).
      assert (pow2 166 * 2 <= pow2 1000).
      { replace 2 with (pow2 1) by (rewrite pow2_Z by lia; reflexivity). rewrite <- pow2_add. apply pow2_mono. lia. }
      lra. }
    destruct (log_diag_accurate np C l i Fi) as (Fy & By).
    { split; auto. eapply Rle_trans; [|exact Pi]. apply pow2_mono. lia. }
    split; auto. apply Rabs_le_inv in Bg. assert (gp : 0 < g) by lra.
    assert (Ln : ln (val (l i i)) = entry64 x i i + ln g).
    { rewrite Eg, L_diag, ln_mult by (auto; apply exp_pos). rewrite ln_exp. reflexivity. }
    assert (Lg : Rabs (ln g) <= 32 * f).
    { pose proof (exp_ineq1_le (ln g)) as X. rewrite exp_ln in X by auto.
      pose proof (exp_ineq1_le (- ln g)) as Y. rewrite exp_Ropp, exp_ln in Y by auto.
      assert (g * / g = 1) by (apply Rinv_r; lra). apply Rabs_le_both; [|lra].
      assert (/ g <= 1 + 32 * f); [|lra]. apply Rmult_le_reg_l with g; auto. rewrite H0. nra. }
    rewrite Ln in By. destruct (S_ge i Hi) as [Q _]. destruct (S_t i) as (Q' & _).
    pose proof (Rabs_pos (entry64 x i i)). pose proof (exp_pos (entry64 x i i)).
    assert (B2 : Rabs (entry64 x i i + ln g) + val (l i i) <= 4 * t i).
    { pose proof (Rabs_triang (entry64 x i i) (ln g)). rewrite Eg, L_diag. pose proof (exp_pos (entry64 x i i)). nra. }
    assert (B3 : pow2 (-49) * (Rabs (entry64 x i i + ln g) + val (l i i)) <= 2 * f * t i).
    { assert (K1 : 1 <= K * K).
      { pose proof (tK i Hi) as Tk. rewrite L_diag in Tk. assert (1 <= K) by nra. nra. }
      assert (20 / 4503599627370496 <= f).
      { unfold f. rewrite eps_val. assert (20 / 4503599627370496 <= (INR n + 20) / 4503599627370496) by lra.
        rewrite <- (Rmult_1_r (20 / _)). apply Rmult_le_compat; lra. }
      replace (pow2 (-49)) with (/ 562949953421312) by (unfold pow2; cbn; reflexivity).
      apply Rle_trans with (/ 562949953421312 * (4 * t i)); [apply Rmult_le_compat_l; lra|]. nra. }
    apply Rabs_le_inv in By. apply Rabs_le_inv in Lg.
    assert (0 <= f * t i) by (apply Rmult_le_pos; lra). assert (f * 1 <= f * t i) by (apply Rmult_le_compat_l; lra).
    apply Rabs_le_both; lra.
  - destruct (row_facts n lb m l m_decent Col i Hi) as (Fi & _). specialize (Fi j ltac:(lia)).
    destruct (off_diag np l i j Ne Fi) as (_ & Fy & Ey'). split; auto. rewrite Ey'.
    assert (Le : L i j = entry64 x i j).
    { unfold L, exact_factor. destruct (Nat.ltb_spec i j); [lia|]. apply Nat.eqb_neq in Ne. rewrite Ne. reflexivity. }
    rewrite Le in Off. eapply Rle_trans; [exact Off|]. assert (0 <= f * t i) by (apply Rmult_le_pos; lra).
    assert (2 * (8 * f) * sum_to n (fun k => Rabs (L i k)) <= 2 * (8 * f) * t i) by (apply Rmult_le_compat_l; lra). lra.
Qed.
End Trip.
