(** * Flattening in binary64: accuracy and round trip. *)
From Coq Require Import Reals ZArith Lra Lia List Permutation.
From Flocq Require Import Core Operations Relative Plus_error IEEE754.BinarySingleNaN.
From Verif Require Import Base Flt SpecFlt FltBase FltExp FltNum FltNum2 FltNum3 FltSimp FltSimp2 FltPsd
  FltMat SpecFltMat FltDot FltMatProps FltChol SpecFltChol FltElim FltCholFacts FltForm.
Import ListNotations.
Local Open Scope R_scope.

(** ** Where the entries of the triangle are *)

Lemma triangle_S : forall n m, triangle64 (S n) m = triangle64 n m ++ map (m n) (seq 0 (n + 1)).
Proof. intros. unfold triangle64. rewrite seq_S, flat_map_app. cbn [flat_map Nat.add]. rewrite app_nil_r. reflexivity. Qed.
Lemma tri_step : forall n, ((S n * (S n + 1)) / 2 = n * (n + 1) / 2 + (n + 1))%nat.
Proof. intros. replace (S n * (S n + 1))%nat with (n * (n + 1) + (n + 1) * 2)%nat by lia. rewrite Nat.div_add by lia. reflexivity. Qed.
Lemma triangle_length : forall n m, length (triangle64 n m) = (n * (n + 1) / 2)%nat.
Proof.
  induction n as [|n IH]; intros m; [reflexivity|]. rewrite triangle_S, app_length, map_length, seq_length, IH.
  symmetry. apply tri_step.
Qed.
Lemma triangle_nth : forall n m i j, (j <= i < n)%nat -> nth_error (triangle64 n m) (i * (i + 1) / 2 + j) = Some (m i j).
Proof.
  induction n as [|n IH]; intros m i j H; [lia|]. rewrite triangle_S.
  pose proof (triangle_length n m) as Ln. destruct (Nat.eq_dec i n) as [->|Ne].
  - rewrite nth_error_app2 by lia. rewrite Ln. replace (n * (n + 1) / 2 + j - n * (n + 1) / 2)%nat with j by lia.
    rewrite nth_error_map. replace (nth_error (seq 0 (n + 1)) j) with (Some j); [reflexivity|].
    symmetry. rewrite (nth_error_nth' _ 0%nat) by (rewrite seq_length; lia). rewrite seq_nth by lia. reflexivity.
  - rewrite nth_error_app1; [apply IH; lia|]. rewrite Ln.
    assert (H1: (S i * (S i + 1) / 2 <= n * (n + 1) / 2)%nat) by (apply Nat.div_le_mono; nia).
    rewrite tri_step in H1. lia.
Qed.

(** ** A finished factor *)

Section Factor.
Variable n : nat.
Variable lb : f64.
Variable m l : nat -> nat -> f64.
Hypothesis D : decent n lb m.
Hypothesis C : forall j, (j < n)%nat -> column n (less_diag64 lb m) l j.
Hypothesis Z : forall i j, (i < j < n)%nat -> l i j = fzero.
Let W := gap lb m.
Let N := INR n.
Let L i k := val (l i k).

Lemma row_facts : forall j, (j < n)%nat -> (forall k, (k <= j)%nat -> fin (l j k)) /\ pow2 (-538) <= L j j /\
  squares l j (S j) <= 1001 / 1000 * W j /\ Rabs (W j - squares l j (S j)) <= u * (5 * N + 5) * W j.
Proof. intros j Hj. destruct (proj1 (C j Hj)) as (s & R & P & E). apply (pivot_facts n lb m l D j s Hj R P E). Qed.

Lemma squares_mono : forall i j k, (j <= k)%nat -> squares l i j <= squares l i k.
Proof.
  intros i j k H. induction H as [|k H IH]; [lra|]. rewrite squares_S. pose proof (Rle_0_sqr (val (l i k))) as Q. unfold Rsqr in Q. lra.
Qed.

Lemma scale_size : forall i j, (i < n)%nat -> (j < n)%nat -> pow2 (-800) <= scale lb m i j.
Proof.
  intros i j Hi Hj. destruct (uN n lb m D i Hi) as (_ & _ & _ & _ & Wi). destruct (uN n lb m D j Hj) as (_ & _ & _ & _ & Wj).
  unfold scale. rewrite <- (sqrt_Rsqr (pow2 (-800))) by (left; apply pow2_pos). apply sqrt_le_1_alt. unfold Rsqr.
  pose proof (pow2_pos (-800)). apply Rmult_le_compat; try lra; apply Wi || apply Wj.
Qed.

Lemma absolute_scale : forall i j k c, (i < n)%nat -> (j < n)%nat -> 0 <= c -> squares l i k <= c * W i -> squares l j k <= c * W j ->
  absolute l i j k <= c * scale lb m i j.
Proof.
  intros i j k c Hi Hj Hc Si Sj. unfold absolute. eapply Rle_trans; [apply cauchy_sqrt; [exact Si|exact Sj]|].
  unfold scale. fold (gap lb m i) (gap lb m j). change (gap lb m) with W.
  destruct (uN n lb m D i Hi) as (_ & _ & _ & _ & Wi). destruct (uN n lb m D j Hj) as (_ & _ & _ & _ & Wj). fold W in Wi, Wj.
  pose proof (pow2_pos (-800)).
  right. replace (c * W i * (c * W j)) with (Rsqr c * (W i * W j)) by (unfold Rsqr; ring).
  rewrite sqrt_mult by (try apply Rle_0_sqr; apply Rmult_le_pos; lra). rewrite sqrt_Rsqr by auto. reflexivity.
Qed.

(** The factor times its transpose, entry by entry. *)
Lemma factor_entry : forall i j, (j <= i)%nat -> (i < n)%nat ->
  Rabs (val (m i j) - (if Nat.eqb i j then val lb else 0) - products l i j (S j)) <= pow2 (-50) * INR (n + 1) * scale lb m i j /\
  absolute l i j (S j) <= 1001 / 1000 * scale lb m i j.
Proof.
  intros i j Hj Hi. assert (Hjn: (j < n)%nat) by lia.
  destruct (uN n lb m D j Hjn) as (HN & U & T0 & T & HW). fold N in HN. fold W in HW, T.
  destruct (row_facts i Hi) as (Fi & Pi & Si & Ri). destruct (row_facts j Hjn) as (Fj & Pj & Sj & Rj).
  assert (Hu: pow2 (-50) = 8 * u) by (unfold u; change (-50)%Z with (-53 + 3)%Z; rewrite pm by lia; reflexivity).
  assert (Nn: INR (n + 1) = N + 1) by (rewrite plus_INR; reflexivity).
  pose proof (squares_mono i (S j) (S i) ltac:(lia)) as Mi.
  assert (Ab: absolute l i j (S j) <= 1001 / 1000 * scale lb m i j) by (apply absolute_scale; auto; lra).
  split; auto. destruct (Nat.eq_dec i j) as [->|Ne].
  - rewrite Nat.eqb_refl. rewrite squares_products. unfold scale. fold (gap lb m j). change (gap lb m j) with (W j).
    pose proof (pow2_pos (-800)). rewrite sqrt_square by lra. eapply Rle_trans; [exact Rj|].
    apply Rmult_le_compat_r; [lra|]. rewrite Hu, Nn. rewrite Rmult_assoc, (Rmult_comm 8), Rmult_assoc.
    apply Rmult_le_compat_l; [rewrite U|]; lra.
  - rewrite (proj2 (Nat.eqb_neq i j) Ne), Rminus_0_r. rewrite <- (entry_off n lb m D i j Hi Hjn Ne).
    destruct (proj2 (C j Hjn) i ltac:(lia)) as (s & R & E).
    assert (P0: 0 < W i) by (destruct (uN n lb m D i Hi) as (_ & _ & _ & _ & Wi); pose proof (pow2_pos (-800)); fold W in Wi; lra).
    assert (P1: 0 < W j) by (pose proof (pow2_pos (-800)); lra).
    destruct (below_facts n lb m l D i j s ltac:(lia) Hi R E) as (_ & K); auto; fold W; fold N.
    { intros k Hk. apply Fi. lia. }
    { pose proof (squares_mono i j (S i) ltac:(lia)). lra. }
    { lra. }
    fold N in K. pose proof (products_absolute l i j (S j)) as Pa. apply Rabs_le_inv in Pa, K.
    pose proof (absolute_S l i j j) as As. pose proof (Rabs_pos (val (l i j) * val (l j j))) as Ap.
    pose proof (absolute_nonneg l i j j) as An.
    pose proof (scale_size i j Hi Hjn) as Sc. set (sg := scale lb m i j) in *.
    set (B := val (less_diag64 lb m i j)) in *. set (P := products l i j (S j)) in *. set (A := absolute l i j j) in *.
    set (Q := absolute l i j (S j)) in *.
    assert (Sm: pow2 (-860) <= u * sg).
    { apply Rle_trans with (u * pow2 (-800)); [unfold u; rewrite <- pow2_add; apply pow2_mono; lia|].
      apply Rmult_le_compat_l; [rewrite U|]; lra. }
    assert (BB := Rabs_pos B).
    set (e := u * N). assert (He: 0 <= e <= / 1000000000).
    { unfold e. rewrite U. split; [apply Rmult_le_pos; lra|]. lra. }
    replace (u * (2 * N + 4) * (Rabs B + A)) with (2 * (e * (Rabs B + A)) + 4 * (u * (Rabs B + A))) in K by (unfold e; ring).
    assert (Q2: A <= Q) by lra. assert (Q0: 0 <= sg) by (pose proof (pow2_pos (-800)); lra).
    assert (K1: e * (Rabs B + A) <= / 1000000000 * (Rabs B + A)) by (apply Rmult_le_compat_r; lra).
    assert (Bs: Rabs B <= 101 / 100 * sg).
    { assert (Rabs B <= Q + (2 * (e * (Rabs B + A)) + 4 * (u * (Rabs B + A)) + pow2 (-860))) by (apply Rabs_le_both; lra).
      rewrite U in *. lra. }
    assert (K2: e * (Rabs B + A) <= e * (202 / 100 * sg)) by (apply Rmult_le_compat_l; lra).
    assert (K3: u * (Rabs B + A) <= u * (202 / 100 * sg)) by (apply Rmult_le_compat_l; rewrite ?U; lra).
    rewrite Hu, Nn. replace (8 * u * (N + 1) * sg) with (8 * (e * sg) + 8 * (u * sg)) by (unfold e; ring).
    assert (E1: u * sg <= e * sg) by (apply Rmult_le_compat_r; auto; unfold e; rewrite U; lra).
    assert (0 <= u * sg) by (apply Rmult_le_pos; rewrite ?U; lra).
    apply Rabs_le_both; lra.
Qed.

(** Over all columns. *)
Lemma rsum_zeros : forall {A} (f : A -> R) ks, (forall k, In k ks -> f k = 0) -> rsum (map f ks) = 0.
Proof.
  intros A f ks H. induction ks as [|a ks IH]; unfold rsum in *; cbn [map fold_right]; [lra|].
  rewrite IH; [|intros; apply H; right; auto]. rewrite (H a) by (left; auto). lra.
Qed.
Lemma sum_cut : forall f j, (j < n)%nat -> (forall k, (j < k < n)%nat -> f k = 0) -> sum_to n f = rsum (map f (seq 0 (S j))).
Proof.
  intros f j Hj H. unfold sum_to. replace n with (S j + (n - S j))%nat by lia. rewrite seq_app, map_app, rsum_app.
  rewrite (rsum_zeros f (seq (0 + S j) (n - S j))); [apply Rplus_0_r|]. intros k Hk. apply in_seq in Hk. apply H. lia.
Qed.
Lemma sum_products : forall i j, (j <= i)%nat -> (i < n)%nat ->
  sum_to n (fun k => val (l i k) * val (l j k)) = products l i j (S j).
Proof.
  intros i j Hj Hi. apply sum_cut; [lia|]. intros k Hk. rewrite (Z j k) by lia. rewrite (proj2 fzero_val). ring.
Qed.
Lemma scale_comm : forall i j, scale lb m i j = scale lb m j i.
Proof. intros. unfold scale. f_equal. ring. Qed.
End Factor.

(** ** The logarithms on the diagonal *)

Lemma exp_near : forall t, Rabs t <= / 2 -> Rabs (exp t - 1) <= 2 * Rabs t.
Proof.
  intros t H. pose proof (exp_ineq1_le t) as E. pose proof (exp_ineq1_le (- t)) as E'. apply Rabs_le_inv in H.
  assert (X: exp t * exp (- t) = 1) by (rewrite <- exp_plus, Rplus_opp_r; apply exp_0).
  pose proof (exp_pos t) as P. assert (Y: exp t * (1 + - t) <= 1) by (rewrite <- X; apply Rmult_le_compat_l; lra).
  destruct (Rle_or_lt 0 t).
  - rewrite (Rabs_pos_eq t), Rabs_pos_eq by lra. nra.
  - rewrite (Rabs_left t) by auto. apply Rabs_le_both; nra.
Qed.

Section Flat.
Variable np : np64.
Hypothesis NC : np_contract np.
Variable n : nat.
Variable lb : f64.
Variable m l : nat -> nat -> f64.
Hypothesis D : decent n lb m.
Hypothesis Big : forall i, (i < n)%nat -> val (m i i) - val lb <= pow2 80.
Hypothesis C : forall j, (j < n)%nat -> column n (less_diag64 lb m) l j.
Hypothesis Z : forall i j, (i < j < n)%nat -> l i j = fzero.
Let x := triangle64 n (log_diag64 np l).
Let L i k := val (l i k).

Lemma flat_at : forall i j, (j <= i < n)%nat -> nth_error x (i * (i + 1) / 2 + j) = Some (log_diag64 np l i j).
Proof. intros. apply triangle_nth. auto. Qed.
Lemma entry_at : forall i j, (j <= i < n)%nat -> entry64 x i j = val (log_diag64 np l i j).
Proof. intros i j H. unfold entry64. rewrite (nth_error_nth x _ fnan (flat_at i j H)). reflexivity. Qed.

Lemma small_entry : forall i j, (j <= i < n)%nat -> fin (l i j) /\ Rabs (L i j) <= pow2 41.
Proof.
  intros i j H. destruct (row_facts n lb m l D C i ltac:(lia)) as (F & _ & S & _). split; [apply F; lia|].
  pose proof (squares_mono l i (Datatypes.S j) (Datatypes.S i) ltac:(lia)) as M. rewrite squares_S in M.
  pose proof (squares_nonneg l i j). specialize (Big i ltac:(lia)). unfold gap in S.
  assert (pow2 82 = 4 * pow2 80) as E by (change 82%Z with (80 + 2)%Z; rewrite pm by lia; reflexivity).
  pose proof (pow2_pos 80). apply Rsqr_incr_0_var; [|left; apply pow2_pos]. unfold Rsqr.
  rewrite <- pow2_add. change (41 + 41)%Z with 82%Z. rewrite <- Rabs_mult. fold (L i j) in M.
  rewrite Rabs_pos_eq by apply Rle_0_sqr. lra.
Qed.

Lemma diag_log : forall j, (j < n)%nat -> fin (log_diag64 np l j j) /\ 0 < L j j /\
  Rabs (entry64 x j j) <= 1001 /\ entry64 x j j <= 42 /\
  Rabs (exp (entry64 x j j) - L j j) <= pow2 (-47) * magnitude x j j * L j j /\
  exp (entry64 x j j) <= 102 / 100 * L j j.
Proof.
  intros j Hj. destruct (row_facts n lb m l D C j Hj) as (F & P & _). destruct (small_entry j j ltac:(lia)) as (Fj & Bj).
  fold (L j j) in P. pose proof (pow2_pos (-538)) as P0. rewrite Rabs_pos_eq in Bj by lra.
  destruct (log_diag_accurate np NC l j Fj) as (Fl & A).
  { fold (L j j). split; [eapply Rle_trans; [|exact P]; apply pow2_mono; lia|]. eapply Rle_trans; [exact Bj|apply pow2_mono; lia]. }
  fold (L j j) in A. split; auto. split; [lra|]. unfold magnitude. rewrite Nat.ltb_irrefl, Nat.eqb_refl.
  rewrite (entry_at j j) by lia. set (t := val (log_diag64 np l j j)) in *. set (q := L j j) in *.
  assert (Lq: Rabs (ln q) <= 1000).
  { apply ln_abs. split; [eapply Rle_trans; [|exact P]; apply pow2_mono; lia|]. eapply Rle_trans; [exact Bj|apply pow2_mono; lia]. }
  assert (Lq': ln q <= 41).
  { pose proof (exp_Z_lower 41 41 ltac:(zcheck)) as E. rewrite INR_Z in E. change (Z.of_nat 41) with 41%Z in E.
    rewrite <- (ln_exp 41). assert (A': q <= exp 41) by lra. destruct A' as [A'|E']; [left; apply ln_increasing; lra|rewrite E'; lra]. }
  set (d := pow2 (-49) * (Rabs (ln q) + q)) in *.
  assert (pow2 (-47) = 4 * pow2 (-49)) as E47 by (change (-47)%Z with (-49 + 2)%Z; rewrite pm by lia; reflexivity).
  pose proof (Rabs_pos (ln q)) as Al. pose proof (pow2_pos (-49)) as P49.
  assert (E49: pow2 (-49) = / 562949953421312) by reflexivity.
  assert (Hd: 0 <= d <= / 128).
  { split; [apply Rmult_le_pos; lra|]. unfold d. rewrite E49. assert (pow2 41 = 2199023255552) by (rewrite pow2_Z by lia; reflexivity). lra. }
  assert (Dt: Rabs (exp (t - ln q) - 1) <= 2 * d).
  { eapply Rle_trans; [apply exp_near; lra|]. lra. }
  assert (Eq: exp t = q * exp (t - ln q)).
  { rewrite <- (exp_ln q) at 1 by lra. rewrite <- exp_plus. f_equal. ring. }
  assert (Df: Rabs (exp t - q) <= 2 * d * q).
  { rewrite Eq. replace (q * exp (t - ln q) - q) with ((exp (t - ln q) - 1) * q) by ring.
    rewrite Rabs_mult, (Rabs_pos_eq q) by lra. apply Rmult_le_compat_r; lra. }
  apply Rabs_le_inv in Dt. assert (Lw: 98 / 100 * q <= exp t) by (rewrite Eq, Rmult_comm; apply Rmult_le_compat_l; lra).
  assert (Hi: exp t <= 102 / 100 * q) by (rewrite Eq, (Rmult_comm q); apply Rmult_le_compat_r; lra).
  pose proof (Rabs_pos t) as At.
  assert (Lt: Rabs (ln q) <= Rabs t + d).
  { replace (ln q) with (t - (t - ln q)) by ring. unfold Rminus at 1. eapply Rle_trans; [apply Rabs_triang|]. rewrite Rabs_Ropp. lra. }
  split; [|split; [|split]]; auto.
  - replace t with ((t - ln q) + ln q) by ring. eapply Rle_trans; [apply Rabs_triang|]. lra.
  - apply Rabs_le_inv in A. lra.
  - eapply Rle_trans; [exact Df|]. apply Rmult_le_compat_r; [lra|]. rewrite E47.
    assert (d <= pow2 (-49) * (Rabs t + d + 103 / 100 * exp t)) by (unfold d at 1; apply Rmult_le_compat_l; lra).
    rewrite E49 in *. lra.
Qed.

Lemma flat_tame : tame n x.
Proof.
  split; [apply D|]. intros i j H. exists (log_diag64 np l i j). split; [apply flat_at; auto|].
  destruct (Nat.eq_dec i j) as [->|Ne].
  - destruct (diag_log j ltac:(lia)) as (F & _ & B & B' & _). rewrite (entry_at j j) in B, B' by lia.
    split; auto. split; [|lra]. eapply Rle_trans; [exact B|].
    apply Rle_trans with (pow2 10); [rewrite pow2_Z by lia; change (2 ^ 10)%Z with 1024%Z; lra|apply pow2_mono; lia].
  - destruct (small_entry i j H) as (F & B). destruct (off_diag np l i j Ne F) as (_ & F' & V).
    split; auto. split; [|lia]. rewrite V. eapply Rle_trans; [exact B|apply pow2_mono; lia].
Qed.

Lemma factor_at : forall i j, (i < n)%nat -> (j < n)%nat ->
  exact_factor x i j = if Nat.eqb i j then exp (entry64 x j j) else L i j.
Proof.
  intros i j Hi Hj. unfold exact_factor. destruct (Nat.ltb_spec i j) as [Lt|Ge].
  - replace (i =? j)%nat with false by (symmetry; apply Nat.eqb_neq; lia). unfold L. rewrite Z by lia.
    symmetry. apply fzero_val.
  - destruct (Nat.eqb_spec i j) as [->|Ne]; [reflexivity|]. rewrite entry_at by lia.
    apply (off_diag np l i j Ne). apply small_entry. lia.
Qed.

Lemma flat_lower : forall i j, (j <= i)%nat -> (i < n)%nat ->
  Rabs (sum_to n (fun k => exact_factor x i k * exact_factor x j k) + (if Nat.eqb i j then val lb else 0) - val (m i j))
    <= pow2 (-50) * (INR (n + 1) + 17 * magnitude x j j) * scale lb m i j.
Proof.
  intros i j Hj Hi. assert (Hjn: (j < n)%nat) by lia.
  destruct (factor_entry n lb m l D C i j Hj Hi) as (R & A). destruct (diag_log j Hjn) as (_ & P & _ & _ & E & E2).
  rewrite absolute_S in A. pose proof (absolute_nonneg l i j j) as An. fold (L i j) (L j j) in A.
  set (q := L j j) in *. set (t := exp (entry64 x j j)) in *. set (mg := magnitude x j j) in *. set (sg := scale lb m i j) in *.
  assert (S0: 0 <= sg) by apply sqrt_pos.
  assert (Ls: Rabs (L i j) * q <= 1001 / 1000 * sg).
  { rewrite <- (Rabs_pos_eq q) at 1 by lra. rewrite <- Rabs_mult. lra. }
  assert (Mg: 0 <= mg).
  { unfold mg, magnitude. rewrite Nat.ltb_irrefl, Nat.eqb_refl. pose proof (exp_pos (entry64 x j j)).
    pose proof (Rabs_pos (entry64 x j j)). lra. }
  assert (E47: pow2 (-47) = 8 * pow2 (-50)) by (change (-47)%Z with (-50 + 3)%Z; rewrite pm by lia; reflexivity).
  pose proof (pow2_pos (-50)) as P50.
  assert (Cg: 0 <= pow2 (-50) * mg) by (apply Rmult_le_pos; lra).
  assert (K: Rabs (sum_to n (fun k => exact_factor x i k * exact_factor x j k) - products l i j (S j)) <= pow2 (-50) * (17 * mg) * sg).
  { rewrite (sum_cut n _ j Hjn).
    2:{ intros k Hk. rewrite (factor_at j k) by lia. replace (j =? k)%nat with false by (symmetry; apply Nat.eqb_neq; lia).
        unfold L. rewrite Z by lia. rewrite (proj2 fzero_val). ring. }
    unfold products. rewrite seq_S, !map_app, !rsum_app. unfold rsum at 2 4. cbn [map fold_right Nat.add].
    replace (rsum (map (fun k => exact_factor x i k * exact_factor x j k) (seq 0 j)))
      with (rsum (map (fun k => val (l i k) * val (l j k)) (seq 0 j))).
    2:{ f_equal. apply map_ext_in. intros k Hk. apply in_seq in Hk. rewrite !factor_at by lia.
        replace (i =? k)%nat with false by (symmetry; apply Nat.eqb_neq; lia).
        replace (j =? k)%nat with false by (symmetry; apply Nat.eqb_neq; lia). reflexivity. }
    rewrite !factor_at by lia. rewrite (Nat.eqb_refl j). fold (L i j) (L j j). fold t q.
    set (w := rsum _). destruct (Nat.eqb_spec i j) as [->|Ne].
    - fold q. replace (w + (t * t + 0) - (w + (q * q + 0))) with ((t - q) * (t + q)) by ring. rewrite Rabs_mult.
      assert (0 < t) by apply exp_pos. rewrite (Rabs_pos_eq (t + q)) by lra.
      apply Rle_trans with ((pow2 (-47) * mg * q) * (202 / 100 * q)).
      + apply Rmult_le_compat; [apply Rabs_pos|lra|exact E|lra].
      + fold q in Ls. rewrite (Rabs_pos_eq q) in Ls by lra. rewrite E47.
        replace (8 * pow2 (-50) * mg * q * (202 / 100 * q)) with (pow2 (-50) * mg * (1616 / 100 * (q * q))) by field.
        replace (pow2 (-50) * (17 * mg) * sg) with (pow2 (-50) * mg * (17 * sg)) by ring.
        apply Rmult_le_compat_l; auto. lra.
    - replace (w + (L i j * t + 0) - (w + (L i j * q + 0))) with (L i j * (t - q)) by ring. rewrite Rabs_mult.
      apply Rle_trans with (Rabs (L i j) * (pow2 (-47) * mg * q)); [apply Rmult_le_compat_l; auto; apply Rabs_pos|].
      rewrite E47. replace (Rabs (L i j) * (8 * pow2 (-50) * mg * q)) with (pow2 (-50) * mg * (8 * (Rabs (L i j) * q))) by ring.
      replace (pow2 (-50) * (17 * mg) * sg) with (pow2 (-50) * mg * (17 * sg)) by ring.
      apply Rmult_le_compat_l; auto. lra. }
  replace (pow2 (-50) * (INR (n + 1) + 17 * mg) * sg) with (pow2 (-50) * (17 * mg) * sg + pow2 (-50) * INR (n + 1) * sg) by ring.
  set (F := sum_to n _) in *. set (b0 := if (i =? j)%nat then val lb else 0) in *.
  replace (F + b0 - val (m i j)) with ((F - products l i j (S j)) + - (val (m i j) - b0 - products l i j (S j))) by ring.
  eapply Rle_trans; [apply Rabs_triang|]. rewrite Rabs_Ropp. lra.
Qed.
End Flat.

Lemma valid_mirror : forall n lb m, psd64_valid n lb m = true -> forall i j, (i < n)%nat -> (j < n)%nat ->
  feq (m j i) (m i j) = true.
Proof.
  intros n lb m H i j Hi Hj. unfold psd64_valid in H. apply andb_prop in H. destruct H as (_ & H).
  rewrite forallb_forall in H. specialize (H i ltac:(apply in_seq; lia)). rewrite forallb_forall in H.
  apply H. apply in_seq. lia.
Qed.
Lemma feq_val : forall x y, fin x -> fin y -> feq x y = true -> val x = val y.
Proof.
  intros x y Fx Fy H. unfold feq in H. rewrite (Beqb_correct 53 1024 x y Fx Fy) in H.
  destruct (Req_bool_spec (B2R x) (B2R y)) as [E|E]; [exact E|discriminate H].
Qed.

Lemma flatten_inv : forall np chol n lb m x, flatten64 np chol n lb m = Ok x -> psd64_valid n lb m = true /\
  exists l, chol n (less_diag64 lb m) = Some l /\ x = triangle64 n (log_diag64 np l).
Proof.
  intros np chol n lb m x H. unfold flatten64, pack64 in H. destruct (psd64_valid n lb m); [|discriminate].
  split; auto. destruct (chol n (less_diag64 lb m)) as [l|]; [|discriminate]. exists l. split; auto. congruence.
Qed.

(** The folded form of the flattened matrix. *)
Lemma flatten64_accurate : forall np, np_contract np -> forall chol, chol_contract chol ->
  forall n lb m, decent n lb m -> (forall i, (i < n)%nat -> val (m i i) - val lb <= pow2 80) ->
  forall x, flatten64 np chol n lb m = Ok x ->
  tame n x /\ length x = (n * (n + 1) / 2)%nat /\
  forall i j, (i < n)%nat -> (j < n)%nat ->
  Rabs (sum_to n (fun k => exact_factor x i k * exact_factor x j k) + (if Nat.eqb i j then val lb else 0) - val (m i j))
    <= pow2 (-50) * (INR (n + 1) + 17 * magnitude x (Nat.min i j) (Nat.min i j)) * scale lb m i j.
Proof.
  intros np NC chol CC n lb m D Big x H. destruct (flatten_inv _ _ _ _ _ _ H) as (V & l & E & ->).
  destruct (chol_done chol CC n _ l E) as (Cl & Z). split; [apply (flat_tame np NC n lb m l D Big Cl)|].
  split; [apply triangle_length|]. intros i j Hi Hj. destruct (Nat.le_ge_cases j i) as [G|G].
  - rewrite Nat.min_r by auto. apply (flat_lower np NC n lb m l D Big Cl Z i j G Hi).
  - rewrite Nat.min_l by auto. pose proof (flat_lower np NC n lb m l D Big Cl Z j i G Hj) as K.
    rewrite (scale_comm lb m j i), (Nat.eqb_sym j i) in K.
    rewrite (feq_val (m j i) (m i j)) in K; [|apply D; auto|apply D; auto|apply (valid_mirror n lb m V); auto].
    erewrite sum_ext; [exact K|]. intros k _. cbn beta. ring.
Qed.

Lemma flatten64_round : forall np, np_contract np -> forall chol, chol_contract chol -> forall gram, gram_contract gram ->
  forall n lb m, decent n lb m -> (forall i, (i < n)%nat -> val (m i i) - val lb <= pow2 80) -> Rabs (val lb) <= pow2 1000 ->
  forall x, flatten64 np chol n lb m = Ok x -> forall i j, (i < n)%nat -> (j < n)%nat ->
  Rabs (val (unpack64 np gram n lb x i j) - val (m i j))
    <= pow2 (-50) * (INR (n + 1) + 17 * magnitude x (Nat.min i j) (Nat.min i j)) * scale lb m i j +
       pow2 (-52) * (INR (n + 18) * sum_to n (fun k => magnitude x i k * magnitude x j k) +
                     (if Nat.eqb i j then Rabs (val lb) else 0)) + INR n * pow2 (-1072).
Proof.
  intros np NC chol CC gram GC n lb m D Big Bl x H i j Hi Hj.
  destruct (flatten64_accurate np NC chol CC n lb m D Big x H) as (T & _ & A). specialize (A i j Hi Hj).
  pose proof (unpack64_accurate np NC gram GC n x T lb (proj1 (proj2 D)) Bl i j Hi Hj) as B.
  set (F := sum_to n (fun k => exact_factor x i k * exact_factor x j k) + (if (i =? j)%nat then val lb else 0)) in *.
  replace (val (unpack64 np gram n lb x i j) - val (m i j)) with ((val (unpack64 np gram n lb x i j) - F) + (F - val (m i j))) by ring.
  eapply Rle_trans; [apply Rabs_triang|]. lra.
Qed.
