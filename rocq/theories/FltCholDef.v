(** * Which matrices are accepted by flattening in binary64. *)
From Coq Require Import Reals ZArith Lra Lia List Permutation.
From Flocq Require Import Core Operations Relative Plus_error IEEE754.BinarySingleNaN.
From Verif Require Import Base Flt SpecFlt FltBase FltExp FltNum FltNum2 FltNum3 FltSimp FltSimp2 FltPsd
  FltMat SpecFltMat FltDot FltMatProps FltChol SpecFltChol FltElim FltCholFacts FltForm FltCholProps.
Import ListNotations.
Local Open Scope R_scope.

Section Stages.
Variable n : nat.
Variable lb : f64.
Variable m l : nat -> nat -> f64.
Hypothesis D : decent n lb m.
Hypothesis V : psd64_valid n lb m = true.
Let W := gap lb m.
Let N := INR n.
Let L i k := val (l i k).
Let g i := sqrt (val (m i i) - val lb).
Definition masked (i k : nat) : R := if Nat.leb k i then val (l i k) else 0.

Lemma gap_pos : forall i, (i < n)%nat -> 0 < W i /\ g i * g i = W i.
Proof.
  intros i Hi. destruct (uN n lb m D i Hi) as (_ & _ & _ & _ & Wi). fold W in Wi. pose proof (pow2_pos (-800)).
  split; [lra|]. unfold g. fold (gap lb m i). change (gap lb m i) with (W i). apply sqrt_sqrt. lra.
Qed.
Lemma scale_split : forall i j, (i < n)%nat -> (j < n)%nat -> scale lb m i j = g i * g j.
Proof.
  intros i j Hi Hj. destruct (gap_pos i Hi) as (A & _). destruct (gap_pos j Hj) as (B & _).
  unfold scale, g. apply sqrt_mult; left; auto.
Qed.
Lemma shifted_sym : forall i j, (i < n)%nat -> (j < n)%nat -> shifted lb m i j = shifted lb m j i.
Proof.
  intros i j Hi Hj. unfold shifted. rewrite (Nat.eqb_sym j i). f_equal.
  apply feq_val; [apply D; auto|apply D; auto|]. apply (valid_mirror n lb m V); auto.
Qed.
Lemma shifted_diag : forall i, shifted lb m i i = W i.
Proof. intros. unfold shifted. rewrite Nat.eqb_refl. reflexivity. Qed.

Lemma masked_products : forall J i k, (k < J)%nat -> (k <= i)%nat ->
  sum_to J (fun q => masked i q * masked k q) = products l i k (S k).
Proof.
  intros J i k Hk Hi. rewrite (sum_cut_to J (S k)); [|lia|].
  - unfold sum_to, products. f_equal. apply map_ext_in. intros q Hq. apply in_seq in Hq. unfold masked.
    rewrite !(proj2 (Nat.leb_le _ _)) by lia. reflexivity.
  - intros q Hq. unfold masked at 2. rewrite (proj2 (Nat.leb_gt q k)) by lia. ring.
Qed.
Lemma masked_squares : forall J i, (J <= S i)%nat -> sum_to J (fun q => masked i q * masked i q) = squares l i J.
Proof.
  intros J i H. unfold sum_to, squares. f_equal. apply map_ext_in. intros q Hq. apply in_seq in Hq. unfold masked.
  rewrite !(proj2 (Nat.leb_le _ _)) by lia. reflexivity.
Qed.

(** ** A finished factor leaves no clearly negative direction *)
Lemma finished_form : (forall j, (j < n)%nat -> column n (less_diag64 lb m) l j) ->
  forall z, - (pow2 (-50) * INR (n + 1) * (reach n lb m z * reach n lb m z)) <= form n (shifted lb m) z.
Proof.
  intros C z. apply (form_near_gram n n (shifted lb m) masked g).
  assert (K: forall a b, (b <= a)%nat -> (a < n)%nat ->
    Rabs (shifted lb m a b - sum_to n (fun q => masked a q * masked b q)) <= pow2 (-50) * INR (n + 1) * (g a * g b)).
  { intros a b Hb Ha. rewrite masked_products by lia. rewrite <- scale_split by lia.
    apply (factor_entry n lb m l D C a b Hb Ha). }
  intros a b Ha Hb. destruct (Nat.le_ge_cases b a) as [G|G]; [apply K; auto|].
  rewrite shifted_sym by auto. rewrite (Rmult_comm (g a)). rewrite (sum_ext n _ (fun q => masked b q * masked a q)) by (intros; ring).
  apply K; auto.
Qed.

(** ** Stages under a margin *)
Hypothesis Df : forall z, pow2 (-49) * INR (n + 1) * (reach n lb m z * reach n lb m z) <= form n (shifted lb m) z.

Lemma off_scale : forall i j, (i < n)%nat -> (j < n)%nat -> i <> j -> Rabs (val (m i j)) <= scale lb m i j.
Proof.
  intros i j Hi Hj Ne. destruct (gap_pos i Hi) as (Pi & Gi). destruct (gap_pos j Hj) as (Pj & Gj).
  assert (Sm: shifted lb m i j = val (m i j)) by (unfold shifted; rewrite (proj2 (Nat.eqb_neq i j) Ne); ring).
  assert (K: forall s, s * s = 1 -> 0 <= g i * g j + s * val (m i j)).
  { intros s Hs. pose proof (Df (fun k => if Nat.eqb k i then g j else if Nat.eqb k j then s * g i else 0)) as F.
    rewrite form_pair in F by auto. rewrite (shifted_sym j i) in F by auto. rewrite !shifted_diag, Sm in F.
    match type of F with ?x <= _ => assert (0 <= x) end.
    { apply Rmult_le_pos; [apply Rmult_le_pos; [left; apply pow2_pos|apply pos_INR]|apply Rle_0_sqr]. }
    replace (g j * W i * g j + g j * val (m i j) * (s * g i) + s * g i * val (m i j) * g j + s * g i * W j * (s * g i))
      with ((g j * g j) * W i + (s * s) * (g i * g i) * W j + 2 * (g i * g j) * (s * val (m i j))) in F by ring.
    rewrite Hs, Gi, Gj in F.
    replace (W j * W i + 1 * W i * W j + 2 * (g i * g j) * (s * val (m i j))) with
      (2 * (W i * W j) + 2 * (g i * g j) * (s * val (m i j))) in F by ring.
    replace (W i * W j) with ((g i * g j) * (g i * g j)) in F by (rewrite <- Gi, <- Gj; ring).
    assert (0 < g i * g j) by (apply Rmult_lt_0_compat; unfold g; apply sqrt_lt_R0; [apply Pi|apply Pj]).
    apply Rmult_le_reg_l with (2 * (g i * g j)); [lra|]. lra. }
  pose proof (K 1 ltac:(ring)). pose proof (K (-1) ltac:(ring)). rewrite scale_split by auto. apply Rabs_le_both; lra.
Qed.

Definition stage (j : nat) : Prop := forall i, (i < n)%nat ->
  (forall k, (k < j)%nat -> (k <= i)%nat -> fin (l i k)) /\
  squares l i (Nat.min j (S i)) <= 1001 / 1000 * W i /\
  ((i < j)%nat -> pow2 (-538) <= L i i) /\
  forall k, (k < j)%nat -> (k <= i)%nat ->
    Rabs (shifted lb m i k - products l i k (S k)) <= pow2 (-50) * INR (n + 1) * scale lb m i k.

Lemma stage_left : forall j, stage j -> forall i, (j <= i < n)%nat -> squares l i j <= W i - pow2 (-50) * INR (n + 1) * W i.
Proof.
  intros j St i Hi. destruct (gap_pos i ltac:(lia)) as (Pi & Gi).
  assert (E49: pow2 (-49) = 2 * pow2 (-50)) by (change (-49)%Z with (-50 + 1)%Z; rewrite pm by lia; reflexivity).
  assert (Pc: 0 <= pow2 (-50) * INR (n + 1)) by (apply Rmult_le_pos; [left; apply pow2_pos|apply pos_INR]).
  pose proof (schur_left n j (shifted lb m) masked g (pow2 (-49) * INR (n + 1)) (pow2 (-50) * INR (n + 1)) i Hi) as S.
  rewrite masked_squares, shifted_diag, Gi in S by lia. rewrite E49 in S.
  replace (2 * pow2 (-50) * INR (n + 1) - pow2 (-50) * INR (n + 1)) with (pow2 (-50) * INR (n + 1)) in S by ring.
  enough (pow2 (-50) * INR (n + 1) * W i <= W i - squares l i j) by lra. apply S; clear S.
  - intros k Hk. destruct (St k ltac:(lia)) as (_ & _ & P & _). specialize (P Hk). unfold masked. rewrite Nat.leb_refl.
    pose proof (pow2_pos (-538)). unfold L in P. lra.
  - intros r k Hr. unfold masked. rewrite (proj2 (Nat.leb_gt k r)) by lia. reflexivity.
  - intros. apply shifted_sym; auto.
  - intros. apply sqrt_pos.
  - lra.
  - intros k a Hk Ha. rewrite masked_products by lia. rewrite <- scale_split by lia. apply (St a); lia.
  - intros z. pose proof (Df z) as Dz. rewrite E49 in Dz. exact Dz.
Qed.

Lemma stage_S : forall j, (j < n)%nat -> column n (less_diag64 lb m) l j -> stage j -> stage (S j).
Proof.
  intros j Hj C St. destruct (uN n lb m D j Hj) as (HN & U & T0 & T & HW). fold N in HN. fold W in HW, T.
  assert (Hu: pow2 (-50) = 8 * u) by (unfold u; change (-50)%Z with (-53 + 3)%Z; rewrite pm by lia; reflexivity).
  assert (Nn: INR (n + 1) = N + 1) by (rewrite plus_INR; reflexivity).
  destruct C as ((s & R & P & E) & Cb).
  destruct (pivot_facts n lb m l D j s Hj R P E) as (Fj & Pj & Sj & Rj). fold W in Sj, Rj. fold N in Rj.
  assert (Rows: forall i, (j < i < n)%nat -> fin (l i j) /\
    Rabs (shifted lb m i j - products l i j (S j)) <= pow2 (-50) * INR (n + 1) * scale lb m i j).
  { intros i Hi. destruct (Cb i ltac:(lia)) as (t & Rt & Et). destruct (St i ltac:(lia)) as (Fi & Si & _ & _).
    rewrite Nat.min_l in Si by lia. destruct (gap_pos i ltac:(lia)) as (Pi & Gi).
    assert (P0: 0 < W j) by (pose proof (pow2_pos (-800)); lra).
    destruct (below_facts n lb m l D i j t ltac:(lia) ltac:(lia) Rt Et) as (F & K); auto; try (fold W; lra).
    { intros k Hk. apply Fi; lia. }
    split; auto. fold N in K. rewrite (entry_off n lb m D i j) in K by lia.
    unfold shifted. rewrite (proj2 (Nat.eqb_neq i j)) by lia. rewrite Rminus_0_r.
    pose proof (off_scale i j ltac:(lia) Hj ltac:(lia)) as Os.
    assert (A: absolute l i j j <= 1001 / 1000 * scale lb m i j).
    { apply (absolute_scale n lb m l D); try lia; try lra; fold W; [lra|].
      rewrite squares_S in Sj. pose proof (Rle_0_sqr (val (l j j))) as Q. unfold Rsqr in Q. lra. }
    pose proof (scale_size n lb m D i j ltac:(lia) Hj) as Sc.
    pose proof (absolute_nonneg l i j j) as An. pose proof (Rabs_pos (val (m i j))) as Ap.
    set (sg := scale lb m i j) in *. eapply Rle_trans; [exact K|].
    assert (Sm: pow2 (-860) <= u * sg).
    { apply Rle_trans with (u * pow2 (-800)); [unfold u; rewrite <- pow2_add; apply pow2_mono; lia|].
      apply Rmult_le_compat_l; [rewrite U|]; lra. }
    apply Rle_trans with (u * (2 * N + 4) * (2001 / 1000 * sg) + u * sg).
    - apply Rplus_le_compat; auto. apply Rmult_le_compat_l; [|lra]. apply Rmult_le_pos; [rewrite U|]; lra.
    - rewrite Hu, Nn. pose proof (pow2_pos (-800)).
      replace (u * (2 * N + 4) * (2001 / 1000 * sg) + u * sg) with ((u * sg) * ((2 * N + 4) * (2001 / 1000) + 1)) by field.
      replace (8 * u * (N + 1) * sg) with ((u * sg) * (8 * (N + 1))) by ring.
      apply Rmult_le_compat_l; [apply Rmult_le_pos; rewrite ?U; lra|]. lra. }
  assert (Rdiag: Rabs (shifted lb m j j - products l j j (S j)) <= pow2 (-50) * INR (n + 1) * scale lb m j j).
  { rewrite shifted_diag, squares_products. rewrite scale_split by auto. destruct (gap_pos j Hj) as (P0 & ->).
    eapply Rle_trans; [exact Rj|]. apply Rmult_le_compat_r; [lra|]. rewrite Hu, Nn, Rmult_assoc, (Rmult_comm 8), Rmult_assoc.
    apply Rmult_le_compat_l; [rewrite U|]; lra. }
  assert (Half: forall i, (i < n)%nat ->
    (forall k, (k < S j)%nat -> (k <= i)%nat -> fin (l i k)) /\
    ((i < S j)%nat -> pow2 (-538) <= L i i) /\
    forall k, (k < S j)%nat -> (k <= i)%nat ->
      Rabs (shifted lb m i k - products l i k (S k)) <= pow2 (-50) * INR (n + 1) * scale lb m i k).
  { intros i Hi. destruct (St i Hi) as (Fi & _ & Di & Ri). split; [|split].
    - intros k Hk Hki. destruct (Nat.eq_dec k j) as [->|Ne]; [|apply Fi; lia].
      destruct (Nat.eq_dec i j) as [->|Ne']; [apply Fj; lia|apply Rows; lia].
    - intros H. destruct (Nat.eq_dec i j) as [->|Ne]; [exact Pj|apply Di; lia].
    - intros k Hk Hki. destruct (Nat.eq_dec k j) as [->|Ne]; [|apply Ri; lia].
      destruct (Nat.eq_dec i j) as [->|Ne']; [exact Rdiag|apply Rows; lia]. }
  intros i Hi. destruct (Half i Hi) as (Fi & Di & Ri). split; [exact Fi|]. split; [|split; [exact Di|exact Ri]].
  destruct (Nat.lt_total i j) as [Lt|[->|Gt]].
  - destruct (St i Hi) as (_ & Si & _). rewrite Nat.min_r in * by lia. exact Si.
  - rewrite Nat.min_id. exact Sj.
  - rewrite Nat.min_l by lia. destruct (gap_pos i Hi) as (Pi & Gi).
    assert (E49: pow2 (-49) = 2 * pow2 (-50)) by (change (-49)%Z with (-50 + 1)%Z; rewrite pm by lia; reflexivity).
    assert (Pc: 0 <= pow2 (-50) * INR (n + 1)) by (apply Rmult_le_pos; [left; apply pow2_pos|apply pos_INR]).
    pose proof (schur_left n (S j) (shifted lb m) masked g (pow2 (-49) * INR (n + 1)) (pow2 (-50) * INR (n + 1)) i ltac:(lia)) as S.
    rewrite masked_squares, shifted_diag, Gi in S by lia.
    enough (0 <= W i - squares l i (Datatypes.S j)) by lra.
    apply Rle_trans with ((pow2 (-49) * INR (n + 1) - pow2 (-50) * INR (n + 1)) * W i); [rewrite E49; apply Rmult_le_pos; lra|].
    apply S; clear S.
    + intros k Hk. destruct (Half k ltac:(lia)) as (_ & P' & _). specialize (P' Hk). unfold masked. rewrite Nat.leb_refl.
      pose proof (pow2_pos (-538)). unfold L in P'. lra.
    + intros r k Hr. unfold masked. rewrite (proj2 (Nat.leb_gt k r)) by lia. reflexivity.
    + intros. apply shifted_sym; auto.
    + intros. apply sqrt_pos.
    + rewrite E49. lra.
    + intros k a Hk Ha. rewrite masked_products by lia. rewrite <- scale_split by lia. apply (Half a); lia.
    + intros z. apply Df.
Qed.

Lemma stage_all : forall j, (j <= n)%nat -> (forall k, (k < j)%nat -> column n (less_diag64 lb m) l k) -> stage j.
Proof.
  induction j as [|j IH]; intros Hj C.
  - intros i Hi. destruct (gap_pos i Hi) as (P & _). split; [intros; lia|]. split; [|split; intros; lia].
    cbn [Nat.min]. unfold squares, rsum. cbn. lra.
  - apply stage_S; [lia|apply C; lia|]. apply IH; [lia|]. intros. apply C. lia.
Qed.

Lemma pivot_positive : forall j s, (j < n)%nat -> (forall k, (k < j)%nat -> column n (less_diag64 lb m) l k) ->
  remainder (less_diag64 lb m) l j j s -> flt fzero s = true.
Proof.
  intros j s Hj C R. pose proof (stage_all j ltac:(lia) C) as St. pose proof (stage_left j St j ltac:(lia)) as Sq.
  destruct (St j Hj) as (Fj & _). destruct (uN n lb m D j Hj) as (HN & U & T0 & T & HW). fold N in HN. fold W in HW, T.
  pose proof (squares_nonneg l j j) as Sn. pose proof (pow2_pos (-800)) as P8.
  assert (Hu: pow2 (-50) = 8 * u) by (unfold u; change (-50)%Z with (-53 + 3)%Z; rewrite pm by lia; reflexivity).
  assert (Nn: INR (n + 1) = N + 1) by (rewrite plus_INR; reflexivity). rewrite Hu, Nn in Sq.
  pose proof (entry_diag n lb m D j Hj) as Bd. fold W in Bd. apply Rabs_le_inv in Bd.
  pose proof (entry_fin n lb m D j j Hj Hj) as Fb.
  set (e := u * N). assert (He: 0 <= e <= / 1000000000).
  { unfold e. rewrite U. split; [apply Rmult_le_pos; lra|]. lra. }
  assert (Ew: 0 <= e * W j) by (apply Rmult_le_pos; lra).
  replace (8 * u * (N + 1) * W j) with (8 * (e * W j) + 8 * (u * W j)) in Sq by (unfold e; ring).
  assert (pow2 401 = 2 * pow2 400) as E2 by (change 401%Z with (400 + 1)%Z; rewrite pm by lia; reflexivity).
  assert (pow2 402 = 2 * pow2 401) as E3 by (change 402%Z with (401 + 1)%Z; rewrite pm by lia; reflexivity).
  assert (Uw: 0 <= u * W j <= / 1000000 * W j).
  { split; [apply Rmult_le_pos; rewrite ?U; lra|]. apply Rmult_le_compat_r; rewrite ?U; lra. }
  destruct (less_error (less_diag64 lb m j j) _ s R Fb) as (Fs & Er).
  - rewrite Forall_map. apply Forall_forall. intros k Hk. apply in_seq in Hk. cbn. split; apply Fj; lia.
  - rewrite map_length, seq_length. destruct D as (Hn & _). apply Nat2Z.inj_lt. apply Nat2Z.inj_le in Hn.
    rewrite Z2Nat.id in * by lia. lia.
  - rewrite ap_absolute, squares_absolute. rewrite Rabs_pos_eq by lra.
    assert (pow2 402 <= pow2 1020) by (apply pow2_mono; lia). lra.
  - rewrite dp_products, ap_absolute, squares_absolute, squares_products in Er.
    rewrite map_length, seq_length in Er. rewrite (Rabs_pos_eq (val (less_diag64 lb m j j))) in Er by lra.
    pose proof (bound_simple n lb m D j (val (less_diag64 lb m j j) + squares l j j) Hj ltac:(lra)) as Bs. fold N in Bs.
    set (B := val (less_diag64 lb m j j)) in *. set (S0 := squares l j j) in *.
    replace (2 * u * N * (B + S0)) with (2 * (e * (B + S0))) in Bs by (unfold e; ring).
    assert (K: e * (B + S0) <= e * (2001 / 1000 * W j)) by (apply Rmult_le_compat_l; lra).
    apply Rabs_le_inv in Er. apply flt_true; [apply fzero_val|auto|]. rewrite (proj2 fzero_val).
    assert (0 < u * W j) by (apply Rmult_lt_0_compat; rewrite ?U; lra). lra.
Qed.
End Stages.

(** ** The theorems *)
Lemma flatten64_rejects : forall np chol, chol_contract chol ->
  forall n lb m, decent n lb m -> psd64_valid n lb m = true ->
  forall z, form n (shifted lb m) z < - (pow2 (-50) * INR (n + 1) * (reach n lb m z * reach n lb m z)) ->
  flatten64 np chol n lb m = Err LinAlgError.
Proof.
  intros np chol CC n lb m D V z H. unfold flatten64, pack64. rewrite V.
  destruct (chol n (less_diag64 lb m)) as [l|] eqn:E; [|reflexivity]. exfalso.
  pose proof (finished_form n lb m l D V (proj1 (chol_done chol CC n _ l E)) z). lra.
Qed.

Lemma flatten64_accepts : forall np chol, chol_contract chol ->
  forall n lb m, decent n lb m -> psd64_valid n lb m = true ->
  (forall z, pow2 (-49) * INR (n + 1) * (reach n lb m z * reach n lb m z) <= form n (shifted lb m) z) ->
  exists x, flatten64 np chol n lb m = Ok x.
Proof.
  intros np chol CC n lb m D V Df. unfold flatten64, pack64. rewrite V.
  destruct (chol n (less_diag64 lb m)) as [l|] eqn:E; [eexists; reflexivity|]. exfalso.
  destruct (chol_stop chol CC n _ E) as (l & j & s & Hj & C & R & F).
  rewrite (pivot_positive n lb m l D V Df j s Hj C R) in F. discriminate F.
Qed.
