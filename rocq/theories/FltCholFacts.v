(** * Columns of a Cholesky factor in binary64. *)
From Coq Require Import Reals ZArith Lra Lia List Permutation.
From Flocq Require Import Core Operations Relative Plus_error IEEE754.BinarySingleNaN.
From Verif Require Import Base Flt SpecFlt FltBase FltExp FltNum FltNum2 FltNum3 FltSimp FltSimp2 FltPsd
  FltMat SpecFltMat FltDot FltMatProps FltChol SpecFltChol FltElim.
Import ListNotations.
Local Open Scope R_scope.

(** ** Quotients and products known to be finite *)

Lemma fdiv_fin : forall x y, fin (fdiv x y) -> val y <> 0 -> val (fdiv x y) = rnd (val x / val y).
Proof.
  intros x y F Hy. pose proof (Bdiv_correct 53 1024 prec64 emax64 mode_NE x y Hy) as C.
  rewrite rnd_eq in C. change (B2R x) with (val x) in C. change (B2R y) with (val y) in C.
  destruct (Rlt_bool_spec (Rabs (rnd (val x / val y))) (bpow radix2 1024)) as [H|H].
  - apply C.
  - unfold fin, fdiv in F. rewrite <- is_finite_SF_B2SF, C in F. discriminate F.
Qed.

Lemma least : forall x, fin x -> 0 < val x -> pow2 (-1074) <= val x.
Proof.
  intros x F H. assert (S: is_finite_strict x = true) by (apply is_finite_strict_B2R; change (val x <> 0); lra).
  pose proof (abs_B2R_ge_emin 53 1024 x S) as A. change (B2R x) with (val x) in A. rewrite Rabs_pos_eq in A by lra.
  exact A.
Qed.

(** ** Sums of squares *)

Lemma rsum_sq_nonneg : forall {A} (f : A -> R) l, 0 <= rsum (map (fun k => f k * f k) l).
Proof. intros. apply rsum_nonneg. rewrite Forall_map. apply Forall_forall. intros. apply Rle_0_sqr. Qed.

Lemma cauchy : forall {A} (f g : A -> R) l,
  rsum (map (fun k => Rabs (f k * g k)) l) * rsum (map (fun k => Rabs (f k * g k)) l)
  <= rsum (map (fun k => f k * f k) l) * rsum (map (fun k => g k * g k) l).
Proof.
  intros A f g l. induction l as [|a l IH]; unfold rsum in *; cbn [map fold_right]; [lra|].
  fold (rsum (map (fun k => Rabs (f k * g k)) l)) in *. fold (rsum (map (fun k => f k * f k) l)) in *.
  fold (rsum (map (fun k => g k * g k) l)) in *.
  pose proof (rsum_sq_nonneg f l) as F. pose proof (rsum_sq_nonneg g l) as G.
  set (P := rsum (map (fun k => Rabs (f k * g k)) l)) in *. set (X := rsum (map (fun k => f k * f k) l)) in *.
  set (Y := rsum (map (fun k => g k * g k) l)) in *.
  assert (0 <= P) as HP.
  { apply rsum_nonneg. rewrite Forall_map. apply Forall_forall. intros. apply Rabs_pos. }
  rewrite Rabs_mult. set (x := Rabs (f a)). set (y := Rabs (g a)).
  assert (f a * f a = x * x) as -> by (unfold x; rewrite <- Rabs_mult; rewrite Rabs_pos_eq; [auto|apply Rle_0_sqr]).
  assert (g a * g a = y * y) as -> by (unfold y; rewrite <- Rabs_mult; rewrite Rabs_pos_eq; [auto|apply Rle_0_sqr]).
  assert (0 <= x) by apply Rabs_pos. assert (0 <= y) by apply Rabs_pos.
  assert (K: 2 * (x * y * P) <= x * x * Y + y * y * X).
  { assert (S: P <= sqrt X * sqrt Y).
    { rewrite <- sqrt_mult by auto. apply Rsqr_incr_0_var; [|apply sqrt_pos]. unfold Rsqr.
      rewrite sqrt_sqrt; auto. apply Rmult_le_pos; auto. }
    assert (0 <= x * y) by (apply Rmult_le_pos; auto).
    apply Rle_trans with (2 * (x * y * (sqrt X * sqrt Y))).
    - apply Rmult_le_compat_l; [lra|]. apply Rmult_le_compat_l; auto.
    - pose proof (Rle_0_sqr (x * sqrt Y - y * sqrt X)) as Q. unfold Rsqr in Q.
      replace ((x * sqrt Y - y * sqrt X) * (x * sqrt Y - y * sqrt X)) with
        (x * x * (sqrt Y * sqrt Y) + y * y * (sqrt X * sqrt X) - 2 * (x * y * (sqrt X * sqrt Y))) in Q by ring.
      rewrite !sqrt_sqrt in Q by auto. lra. }
  lra.
Qed.

Lemma cauchy_sqrt : forall {A} (f g : A -> R) l X Y, rsum (map (fun k => f k * f k) l) <= X ->
  rsum (map (fun k => g k * g k) l) <= Y -> rsum (map (fun k => Rabs (f k * g k)) l) <= sqrt (X * Y).
Proof.
  intros A f g l X Y HX HY. pose proof (cauchy f g l) as C. pose proof (rsum_sq_nonneg f l) as F.
  pose proof (rsum_sq_nonneg g l) as G.
  apply Rsqr_incr_0_var; [|apply sqrt_pos]. unfold Rsqr. rewrite sqrt_sqrt by (apply Rmult_le_pos; lra).
  eapply Rle_trans; [exact C|]. apply Rmult_le_compat; auto.
Qed.

Lemma rsum_member : forall {A} (f : A -> R) l a, (forall k, 0 <= f k) -> In a l -> f a <= rsum (map f l).
Proof.
  intros A f l a P. induction l as [|c l IH]; [intros []|]. unfold rsum in *. cbn [map fold_right].
  assert (0 <= rsum (map f l)) by (apply rsum_nonneg; rewrite Forall_map; apply Forall_forall; auto).
  unfold rsum in *. intros [->|I]; [lra|]. specialize (IH I). pose proof (P c). lra.
Qed.

Section Columns.
Variable n : nat.
Variable lb : f64.
Variable m l : nat -> nat -> f64.
Hypothesis D : decent n lb m.
Let b := less_diag64 lb m.
Let L i k := val (l i k).
Definition gap (i : nat) : R := val (m i i) - val lb.
Let W := gap.
Definition squares (i j : nat) : R := rsum (map (fun k => val (l i k) * val (l i k)) (seq 0 j)).
Definition products (i j j' : nat) : R := rsum (map (fun k => val (l i k) * val (l j k)) (seq 0 j')).
Definition absolute (i j j' : nat) : R := rsum (map (fun k => Rabs (val (l i k) * val (l j k))) (seq 0 j')).
Let N := INR n.
Let tiny := pow2 (-900).

Lemma uN : forall i, (i < n)%nat -> 1 <= N <= 1000000 /\ u = / 9007199254740992 /\ 0 < tiny /\ tiny <= u / 1000000 * W i /\
  pow2 (-800) <= W i <= pow2 400.
Proof.
  intros i Hi. destruct D as (Hn & _ & _ & _ & HW). split.
  - apply le_INR in Hn. rewrite (INR_Z (Z.to_nat _)), Z2Nat.id in Hn by lia. fold N in Hn. split; auto.
    apply (le_INR 1). lia.
  - split; [apply u_val|]. split; [apply pow2_pos|]. specialize (HW i Hi). fold (gap i) in HW. change (gap i) with (W i) in HW. split; auto.
    assert (tiny <= u / 1000000 * pow2 (-800)).
    { unfold tiny. assert (pow2 (-827) = pow2 (-27) * pow2 (-800)) as E by (rewrite <- pow2_add; reflexivity).
      assert (pow2 (-900) = pow2 (-73) * pow2 (-827)) as E' by (rewrite <- pow2_add; reflexivity).
      assert (pow2 (-73) = u * / 1048576) as E3.
      { unfold u. change (-73)%Z with (-53 + -20)%Z. rewrite pow2_add. f_equal. }
      rewrite E', E, E3. assert (pow2 (-27) <= 1) by (change 1 with (pow2 0); apply pow2_mono; lia).
      pose proof (pow2_pos (-27)). pose proof (pow2_pos (-800)). pose proof u_pos.
      assert (pow2 (-27) * pow2 (-800) <= 1 * pow2 (-800)) by (apply Rmult_le_compat_r; lra).
      assert (u * / 1048576 * (pow2 (-27) * pow2 (-800)) <= u * / 1048576 * (1 * pow2 (-800))).
      { apply Rmult_le_compat_l; [|auto]. lra. }
      assert (u * / 1048576 * (1 * pow2 (-800)) <= u / 1000000 * pow2 (-800)).
      { rewrite Rmult_1_l. apply Rmult_le_compat_r; [lra|]. lra. }
      lra. }
    pose proof u_pos. assert (u / 1000000 * pow2 (-800) <= u / 1000000 * W i) by (apply Rmult_le_compat_l; lra). lra.
Qed.

Lemma entry_fin : forall i j, (i < n)%nat -> (j < n)%nat -> fin (b i j).
Proof.
  intros i j Hi Hj. destruct D as (_ & Fl & Fm & Bm & HW). unfold b, less_diag64.
  destruct (Nat.eqb_spec i j) as [->|Ne].
  - apply fsub_val; auto. specialize (HW j Hj). rewrite Rabs_pos_eq by (pose proof (pow2_pos (-800)); lra).
    eapply Rle_trans; [apply HW|apply pow2_mono; lia].
  - apply fsub_val; [auto|apply fzero_val|]. rewrite (proj2 fzero_val), Rminus_0_r.
    eapply Rle_trans; [apply Bm; auto|apply pow2_mono; lia].
Qed.
Lemma entry_off : forall i j, (i < n)%nat -> (j < n)%nat -> i <> j -> val (b i j) = val (m i j).
Proof.
  intros i j Hi Hj Ne. destruct D as (_ & Fl & Fm & Bm & HW). unfold b, less_diag64.
  rewrite (proj2 (Nat.eqb_neq i j) Ne). destruct (fsub_val (m i j) fzero) as (_ & ->); [auto|apply fzero_val| |].
  - rewrite (proj2 fzero_val), Rminus_0_r. eapply Rle_trans; [apply Bm; auto|apply pow2_mono; lia].
  - rewrite (proj2 fzero_val), Rminus_0_r. apply rnd_fmt, fmt_val.
Qed.
Lemma entry_diag : forall i, (i < n)%nat -> Rabs (val (b i i) - W i) <= u * W i.
Proof.
  intros i Hi. destruct D as (_ & Fl & Fm & Bm & HW). unfold b, less_diag64. rewrite Nat.eqb_refl.
  specialize (HW i Hi). pose proof (pow2_pos (-800)).
  destruct (fsub_val (m i i) lb) as (_ & ->); auto.
  - rewrite Rabs_pos_eq by lra. eapply Rle_trans; [apply HW|apply pow2_mono; lia].
  - pose proof (rnd_sub_error (val (m i i)) (val lb) (fmt_val _) (fmt_val _)) as R. unfold W, gap.
    rewrite (Rabs_pos_eq (val (m i i) - val lb)) in R by lra. exact R.
Qed.

Lemma bound_simple : forall k A, (k < n)%nat -> 0 <= A -> dot_bound (k + 1) A <= 2 * u * N * A + tiny.
Proof.
  intros k A Hk HA. destruct (uN k Hk) as (HN & U & _).
  assert (Hk' : (k + 1 <= Z.to_nat 1048576)%nat).
  { destruct D as (Hn & _). apply Nat2Z.inj_le. apply Nat2Z.inj_le in Hn. rewrite Z2Nat.id in * by lia. lia. }
  pose proof (grow_bound (k + 1) Hk') as G. pose proof (grow_1 (k + 1)).
  assert (INR (k + 1) <= N) by (apply le_INR; lia). pose proof (pos_INR (k + 1)).
  unfold dot_bound. apply Rplus_le_compat.
  - apply Rmult_le_compat_r; auto. eapply Rle_trans; [exact G|]. rewrite Rmult_assoc.
    rewrite Rmult_assoc. apply Rmult_le_compat_l; [lra|]. apply Rmult_le_compat_l; [rewrite U; lra|auto].
  - assert (pow2 (-900) = pow2 174 * eta) as E by (unfold eta; rewrite <- pow2_add; reflexivity).
    unfold tiny. rewrite E. apply Rmult_le_compat_r; [pose proof eta_pos; lra|].
    apply Rle_trans with (1000000 * 2); [apply Rmult_le_compat; try lra|].
    + rewrite U in G. lra.
    + apply Rle_trans with (pow2 21); [rewrite pow2_Z by lia; change (2 ^ 21)%Z with 2097152%Z; lra|apply pow2_mono; lia].
Qed.

Lemma ap_absolute : forall i j j', ap (map (fun k => (l i k, l j k)) (seq 0 j')) = absolute i j j'.
Proof. intros. unfold ap, absolute. rewrite map_map. reflexivity. Qed.
Lemma dp_products : forall i j j', dp (map (fun k => (l i k, l j k)) (seq 0 j')) = products i j j'.
Proof. intros. unfold dp, products. rewrite map_map. reflexivity. Qed.
Lemma squares_products : forall i j, products i i j = squares i j.
Proof. reflexivity. Qed.
Lemma squares_absolute : forall i j, absolute i i j = squares i j.
Proof.
  intros. unfold absolute, squares. f_equal. apply map_ext. intros. apply Rabs_pos_eq. apply Rle_0_sqr.
Qed.
Lemma squares_nonneg : forall i j, 0 <= squares i j.
Proof. intros. apply rsum_sq_nonneg. Qed.
Lemma absolute_nonneg : forall i j j', 0 <= absolute i j j'.
Proof.
  intros. apply rsum_nonneg. rewrite Forall_map. apply Forall_forall. intros. apply Rabs_pos.
Qed.
Lemma products_absolute : forall i j j', Rabs (products i j j') <= absolute i j j'.
Proof. intros. rewrite <- ap_absolute, <- dp_products. apply dp_le_ap. Qed.
Lemma squares_S : forall i j, squares i (S j) = squares i j + L i j * L i j.
Proof. intros. unfold squares. rewrite seq_S, map_app, rsum_app. unfold rsum at 2. cbn [map fold_right Nat.add]. unfold L. ring. Qed.
Lemma products_S : forall i j j', products i j (S j') = products i j j' + L i j' * L j j'.
Proof. intros. unfold products. rewrite seq_S, map_app, rsum_app. unfold rsum at 2. cbn [map fold_right Nat.add]. unfold L. ring. Qed.
Lemma absolute_S : forall i j j', absolute i j (S j') = absolute i j j' + Rabs (L i j' * L j j').
Proof. intros. unfold absolute. rewrite seq_S, map_app, rsum_app. unfold rsum at 2. cbn [map fold_right Nat.add]. unfold L. ring. Qed.

(** ** The pivot *)

Lemma pivot_facts : forall j s, (j < n)%nat -> remainder b l j j s -> flt fzero s = true -> l j j = fsqrt s ->
  (forall k, (k <= j)%nat -> fin (l j k)) /\ pow2 (-538) <= L j j /\ squares j (S j) <= 1001 / 1000 * W j /\
  Rabs (W j - squares j (S j)) <= u * (5 * N + 5) * W j.
Proof.
  intros j s Hj R Hs E. destruct (uN j Hj) as (HN & U & T0 & T & HW).
  pose proof (entry_diag j Hj) as Bd. apply Rabs_le_inv in Bd.
  assert (P0: 0 < W j) by (pose proof (pow2_pos (-800)); lra).
  destruct (positive_pivot (b j j) _ s R (entry_fin j j Hj Hj)) as (Fs & Vs & A); auto.
  { apply Forall_forall. intros p Hp. apply in_map_iff in Hp. destruct Hp as (k & <- & _). reflexivity. }
  rewrite Forall_map, Forall_forall in A.
  assert (Fk: forall k, (k < j)%nat -> fin (l j k) /\ L j k * L j k <= pow2 401).
  { intros k Hk. destruct (A k) as (F & Hr); [apply in_seq; lia|]. cbn [fst] in F. split; auto.
    unfold pv in Hr. cbn [fst snd] in Hr. fold (L j k) in Hr. pose proof (rnd_error (L j k * L j k)) as Re.
    pose proof (Rle_0_sqr (L j k)) as Sq. unfold Rsqr in Sq. rewrite (Rabs_pos_eq (L j k * L j k)) in Re by auto.
    apply Rabs_le_inv in Re.
    assert (pow2 401 = 2 * pow2 400) as -> by (change 401%Z with (400 + 1)%Z; rewrite pm by lia; reflexivity).
    assert (pow2 (-1075) <= u * pow2 400).
    { unfold u. rewrite <- pow2_add. apply pow2_mono. lia. }
    pose proof (pow2_pos 400). rewrite U in *. lra. }
  assert (Sb: squares j j <= pow2 1000).
  { unfold squares. eapply Rle_trans.
    - apply (rsum_const _ (pow2 401)). intros k Hk. apply in_seq in Hk. apply Fk. lia.
    - rewrite seq_length. assert (INR j <= 1000000) by (pose proof (le_INR j n ltac:(lia)); fold N in H; lra).
      pose proof (pow2_pos 401). apply Rle_trans with (1000000 * pow2 401); [apply Rmult_le_compat_r; lra|].
      assert (pow2 421 = 1048576 * pow2 401) by (change 421%Z with (401 + 20)%Z; rewrite pm by lia; reflexivity).
      assert (pow2 421 <= pow2 1000) by (apply pow2_mono; lia). lra. }
  assert (Eq: Rabs (val s - (val (b j j) - squares j j)) <= 2 * u * N * (val (b j j) + squares j j) + tiny).
  { destruct (less_error (b j j) _ s R (entry_fin j j Hj Hj)) as (_ & Er).
    - rewrite Forall_map. apply Forall_forall. intros k Hk. apply in_seq in Hk. cbn. split; apply Fk; lia.
    - rewrite map_length, seq_length. destruct D as (Hn & _). apply Nat2Z.inj_lt. apply Nat2Z.inj_le in Hn.
      rewrite Z2Nat.id in * by lia. lia.
    - rewrite ap_absolute, squares_absolute. assert (pow2 401 <= pow2 1000) by (apply pow2_mono; lia).
      rewrite (Rabs_pos_eq (val (b j j))) by (rewrite U in *; lra).
      assert (pow2 401 = 2 * pow2 400) as E2 by (change 401%Z with (400 + 1)%Z; rewrite pm by lia; reflexivity).
      assert (val (b j j) <= pow2 401) by (rewrite U in *; lra).
      assert (pow2 1001 = 2 * pow2 1000) as E3 by (change 1001%Z with (1000 + 1)%Z; rewrite pm by lia; reflexivity).
      assert (pow2 1001 <= pow2 1020) by (apply pow2_mono; lia). lra.
    - rewrite dp_products, ap_absolute, squares_absolute, squares_products in Er. eapply Rle_trans; [exact Er|].
      rewrite map_length, seq_length. rewrite (Rabs_pos_eq (val (b j j))) by (rewrite U in *; lra).
      apply bound_simple; auto. pose proof (squares_nonneg j j). rewrite U in *; lra. }
  apply Rabs_le_inv in Eq. pose proof (squares_nonneg j j) as Sn.
  assert (Lj: L j j = rnd (sqrt (val s))) by (unfold L; rewrite E; apply fsqrt_val).
  pose proof (least s Fs ltac:(lra)) as Ls.
  assert (Sq: pow2 (-537) <= sqrt (val s)).
  { rewrite <- (sqrt_Rsqr (pow2 (-537))) by (left; apply pow2_pos). apply sqrt_le_1_alt. unfold Rsqr. rewrite <- pow2_add. exact Ls. }
  pose proof (sqrt_sqrt (val s) ltac:(lra)) as SS. set (q := sqrt (val s)) in *.
  assert (Pq: 0 < q) by (pose proof (pow2_pos (-537)); lra).
  assert (Rq: Rabs (L j j - q) <= u * q).
  { rewrite Lj. rewrite <- (Rabs_pos_eq q) at 3 by lra. apply rnd_normal. rewrite Rabs_pos_eq by lra.
    eapply Rle_trans; [|exact Sq]. apply pow2_mono. lia. }
  apply Rabs_le_inv in Rq.
  assert (L2: Rabs (L j j * L j j - val s) <= 3 * u * val s).
  { rewrite <- SS. replace (L j j * L j j - q * q) with ((L j j - q) * (L j j + q)) by ring. rewrite Rabs_mult.
    replace (3 * u * (q * q)) with ((u * q) * (3 * q)) by ring. pose proof u_pos.
    apply Rmult_le_compat; try apply Rabs_pos.
    - apply Rabs_le_both; lra.
    - assert (0 <= u * q) by (apply Rmult_le_pos; lra). assert (u * q <= / 2 * q) by (apply Rmult_le_compat_r; [|rewrite U]; lra).
      apply Rabs_le_both; lra. }
  apply Rabs_le_inv in L2.
  (* numbers *)
  set (w := W j) in *. set (B := val (b j j)) in *. set (S0 := squares j j) in *.
  set (e := u * N). assert (He: 0 <= e <= / 1000000000).
  { unfold e. rewrite U. split; [apply Rmult_le_pos; lra|]. lra. }
  replace (2 * u * N) with (2 * e) in Eq by (unfold e; ring).
  assert (X1: e * B <= / 1000000000 * B) by (apply Rmult_le_compat_r; rewrite U in *; lra).
  assert (X2: e * S0 <= / 1000000000 * S0) by (apply Rmult_le_compat_r; lra).
  assert (Y1: 0 <= e * B) by (apply Rmult_le_pos; rewrite U in *; lra).
  assert (Y2: 0 <= e * S0) by (apply Rmult_le_pos; lra).
  assert (S0 <= 10001 / 10000 * w) by (rewrite U in *; lra).
  assert (Z1: e * B <= e * (10001 / 10000 * w)) by (apply Rmult_le_compat_l; rewrite U in *; lra).
  assert (Z2: e * S0 <= e * (10001 / 10000 * w)) by (apply Rmult_le_compat_l; lra).
  assert (Hres: Rabs (w - squares j (S j)) <= u * (5 * N + 5) * w).
  { rewrite squares_S. fold S0. replace (u * (5 * N + 5) * w) with (5 * (e * w) + 5 * u * w) by (unfold e; ring).
    assert (0 <= e * w) by (apply Rmult_le_pos; lra).
    assert (u * val s <= u * (10001 / 10000 * w)) by (apply Rmult_le_compat_l; rewrite U in *; lra).
    apply Rabs_le_both; rewrite U in *; lra. }
  split; [|split; [|split; [|exact Hres]]].
  - intros k Hk. destruct (Nat.eq_dec k j) as [->|Ne]; [|apply Fk; lia].
    rewrite E. apply fsqrt_fin; auto. lra.
  - assert (pow2 (-537) = 2 * pow2 (-538)) as E2 by (change (-537)%Z with (-538 + 1)%Z; rewrite pm by lia; reflexivity).
    rewrite U in *. lra.
  - apply Rabs_le_inv in Hres. replace (u * (5 * N + 5) * w) with (5 * (e * w) + 5 * u * w) in Hres by (unfold e; ring).
    assert (e * w <= / 1000000000 * w) by (apply Rmult_le_compat_r; lra). rewrite U in *. lra.
Qed.

(** ** Below the pivot *)

Lemma entry_size : forall i j, (i < n)%nat -> (j < n)%nat -> Rabs (val (b i j)) <= pow2 401.
Proof.
  intros i j Hi Hj. assert (pow2 401 = 2 * pow2 400) as E2 by (change 401%Z with (400 + 1)%Z; rewrite pm by lia; reflexivity).
  pose proof (pow2_pos 400). destruct (Nat.eq_dec i j) as [->|Ne].
  - pose proof (entry_diag j Hj) as Bd. apply Rabs_le_inv in Bd. destruct (uN j Hj) as (HN & U & T0 & T & HW).
    pose proof (pow2_pos (-800)). apply Rabs_le_both; rewrite U in *; lra.
  - rewrite entry_off by auto. destruct D as (_ & _ & _ & Bm & _). specialize (Bm i j Hi Hj Ne). lra.
Qed.

Lemma absolute_size : forall i j j', (i < n)%nat -> (j < n)%nat -> squares i j' <= 2 * W i -> squares j j' <= 2 * W j ->
  absolute i j j' <= pow2 401.
Proof.
  intros i j j' Hi Hj Si Sj. unfold absolute. eapply Rle_trans; [apply cauchy_sqrt; [exact Si|exact Sj]|].
  destruct (uN i Hi) as (_ & _ & _ & _ & Wi). destruct (uN j Hj) as (_ & _ & _ & _ & Wj). pose proof (pow2_pos (-800)).
  assert (pow2 401 = 2 * pow2 400) as E2 by (change 401%Z with (400 + 1)%Z; rewrite pm by lia; reflexivity).
  rewrite <- (sqrt_Rsqr (pow2 401)) by (left; apply pow2_pos). apply sqrt_le_1_alt. unfold Rsqr. rewrite E2.
  apply Rmult_le_compat; lra.
Qed.

Lemma times_quotient : forall s x y, fin s -> fin y -> Rabs (val s) <= pow2 403 -> pow2 (-538) <= val y <= pow2 202 ->
  x = fdiv s y \/ x = fmul s (fdiv fone y) -> fin x /\ Rabs (val x * val y - val s) <= 3 * u * Rabs (val s) + pow2 (-870).
Proof.
  intros s x y Fs Fy Hs (Y0 & Y1) Hx. pose proof u_pos as U0. pose proof u_val as U. pose proof (pow2_pos (-538)) as Pp.
  assert (Py: 0 < val y) by lra. set (q := val y) in *. set (v := val s) in *.
  assert (Iq: 0 < / q) by (apply Rinv_0_lt_compat; auto).
  assert (Iu: / q <= pow2 538).
  { apply Rmult_le_reg_l with q; auto. rewrite Rinv_r by lra. apply Rle_trans with (pow2 (-538) * pow2 538).
    - rewrite <- pow2_add. right. reflexivity.
    - apply Rmult_le_compat_r; [left; apply pow2_pos|auto]. }
  assert (Il: pow2 (-202) <= / q).
  { apply Rmult_le_reg_l with q; auto. rewrite Rinv_r by lra. apply Rle_trans with (pow2 202 * pow2 (-202)).
    - apply Rmult_le_compat_r; [left; apply pow2_pos|auto].
    - rewrite <- pow2_add. right. reflexivity. }
  assert (K: pow2 (-1075) * q <= pow2 (-873)).
  { apply Rle_trans with (pow2 (-1075) * pow2 202); [apply Rmult_le_compat_l; [left; apply pow2_pos|auto]|].
    rewrite <- pow2_add. right. reflexivity. }
  assert (pow2 (-873) <= pow2 (-870)) by (apply pow2_mono; lia). pose proof (Rabs_pos v) as Av.
  destruct Hx as [->| ->].
  - assert (Sz: Rabs (v / q) <= pow2 1023).
    { unfold Rdiv. rewrite Rabs_mult, (Rabs_pos_eq (/ q)) by lra. apply Rle_trans with (pow2 403 * pow2 538).
      - apply Rmult_le_compat; lra.
      - rewrite <- pow2_add. apply pow2_mono. lia. }
    destruct (fdiv_val s y Fs ltac:(fold q; lra) Sz) as (F & V). split; auto. rewrite V. fold v q.
    pose proof (rnd_error (v / q)) as Re. replace (rnd (v / q) * q - v) with ((rnd (v / q) - v / q) * q) by (field; lra).
    rewrite Rabs_mult, (Rabs_pos_eq q) by lra.
    apply Rle_trans with ((u * Rabs (v / q) + pow2 (-1075)) * q); [apply Rmult_le_compat_r; lra|].
    replace (Rabs (v / q)) with (Rabs v * / q) by (unfold Rdiv; rewrite Rabs_mult, (Rabs_pos_eq (/ q)) by lra; auto).
    replace ((u * (Rabs v * / q) + pow2 (-1075)) * q) with (u * Rabs v + pow2 (-1075) * q) by (field; lra).
    assert (0 <= u * Rabs v) by (apply Rmult_le_pos; lra). lra.
  - assert (Fo: fin fone /\ val fone = 1) by apply fone_val.
    destruct (fdiv_val fone y (proj1 Fo) ltac:(fold q; lra)) as (Fr & Vr).
    { rewrite (proj2 Fo). fold q. unfold Rdiv. rewrite Rmult_1_l, Rabs_pos_eq by lra. eapply Rle_trans; [exact Iu|apply pow2_mono; lia]. }
    rewrite (proj2 Fo) in Vr. fold q in Vr. replace (1 / q) with (/ q) in Vr by (field; lra).
    assert (Er: Rabs (rnd (/ q) - / q) <= u * / q).
    { rewrite <- (Rabs_pos_eq (/ q)) at 3 by lra. apply rnd_normal. rewrite Rabs_pos_eq by lra.
      eapply Rle_trans; [|exact Il]. apply pow2_mono. lia. }
    rewrite <- Vr in Er. set (r := val (fdiv fone y)) in *.
    apply Rabs_le_inv in Er. assert (u * / q <= / 1000 * / q) by (apply Rmult_le_compat_r; rewrite ?U; lra).
    assert (Rr: 0 < r <= pow2 539).
    { change 539%Z with (538 + 1)%Z. rewrite pm by lia. change (2 ^ 1)%Z with 2%Z. lra. }
    assert (rq: Rabs (r * q - 1) <= u).
    { replace (r * q - 1) with ((r - / q) * q) by (field; lra). rewrite Rabs_mult, (Rabs_pos_eq q) by lra.
      apply Rle_trans with (u * / q * q); [apply Rmult_le_compat_r; [lra|apply Rabs_le_both; lra]|]. right. field. lra. }
    destruct (fmul_val s (fdiv fone y) Fs Fr) as (F & V).
    { fold v r. rewrite Rabs_mult, (Rabs_pos_eq r) by lra. apply Rle_trans with (pow2 403 * pow2 539).
      - apply Rmult_le_compat; lra.
      - rewrite <- pow2_add. apply pow2_mono. lia. }
    split; auto. rewrite V. fold v r. pose proof (rnd_error (v * r)) as Re.
    replace (rnd (v * r) * q - v) with ((rnd (v * r) - v * r) * q + v * (r * q - 1)) by ring.
    eapply Rle_trans; [apply Rabs_triang|]. rewrite !Rabs_mult, (Rabs_pos_eq q) by lra.
    assert (P1: Rabs (rnd (v * r) - v * r) * q <= (u * (Rabs v * r) + pow2 (-1075)) * q).
    { apply Rmult_le_compat_r; [lra|]. rewrite Rabs_mult, (Rabs_pos_eq r) in Re by lra. exact Re. }
    assert (P2: Rabs v * Rabs (r * q - 1) <= Rabs v * u) by (apply Rmult_le_compat_l; auto).
    apply Rabs_le_inv in rq.
    assert (P3: u * Rabs v * (r * q) <= u * Rabs v * (1 + u)) by (apply Rmult_le_compat_l; [apply Rmult_le_pos|]; lra).
    assert (P4: u * Rabs v * u <= u * Rabs v * / 1000) by (apply Rmult_le_compat_l; [apply Rmult_le_pos|rewrite U]; lra).
    assert (0 <= u * Rabs v) by (apply Rmult_le_pos; lra). lra.
Qed.

Lemma below_facts : forall i j s, (j < i)%nat -> (i < n)%nat -> remainder b l i j s ->
  l i j = fdiv s (l j j) \/ l i j = fmul s (fdiv fone (l j j)) ->
  (forall k, (k < j)%nat -> fin (l i k)) -> (forall k, (k <= j)%nat -> fin (l j k)) ->
  pow2 (-538) <= L j j -> squares i j <= 2 * W i -> squares j (S j) <= 2 * W j ->
  fin (l i j) /\
  Rabs (val (b i j) - products i j (S j)) <= u * (2 * N + 4) * (Rabs (val (b i j)) + absolute i j j) + pow2 (-860).
Proof.
  intros i j s Hj Hi R Hl Fi Fj Pj Si Sj. assert (Hjn: (j < n)%nat) by lia.
  destruct (uN j Hjn) as (HN & U & T0 & T & HW).
  pose proof (entry_size i j Hi Hjn) as Bs. rewrite squares_S in Sj. pose proof (Rle_0_sqr (L j j)) as Q. unfold Rsqr in Q.
  pose proof (squares_nonneg j j) as Qn. pose proof (absolute_size i j j Hi Hjn Si ltac:(lra)) as As.
  pose proof (absolute_nonneg i j j) as An. pose proof (Rabs_pos (val (b i j))) as Bp.
  assert (pow2 402 = 2 * pow2 401) as E2 by (change 402%Z with (401 + 1)%Z; rewrite pm by lia; reflexivity).
  assert (pow2 403 = 2 * pow2 402) as E3 by (change 403%Z with (402 + 1)%Z; rewrite pm by lia; reflexivity).
  assert (Er: fin s /\ Rabs (val s - (val (b i j) - products i j j)) <= 2 * u * N * (Rabs (val (b i j)) + absolute i j j) + tiny).
  { destruct (less_error (b i j) _ s R (entry_fin i j Hi Hjn)) as (F & Er).
    - rewrite Forall_map. apply Forall_forall. intros k Hk. apply in_seq in Hk. cbn. split; [apply Fi|apply Fj]; lia.
    - rewrite map_length, seq_length. destruct D as (Hn & _). apply Nat2Z.inj_lt. apply Nat2Z.inj_le in Hn.
      rewrite Z2Nat.id in * by lia. lia.
    - rewrite ap_absolute. assert (pow2 402 <= pow2 1020) by (apply pow2_mono; lia). lra.
    - split; auto. rewrite dp_products, ap_absolute in Er. eapply Rle_trans; [exact Er|].
      rewrite map_length, seq_length. apply bound_simple; auto. lra. }
  destruct Er as (Fs & Er). apply Rabs_le_inv in Er. pose proof (products_absolute i j j) as Pa. apply Rabs_le_inv in Pa.
  assert (Bi := Rabs_le_inv _ _ (Rle_refl (Rabs (val (b i j))))).
  set (B := val (b i j)) in *. set (A := absolute i j j) in *. set (X := Rabs B + A) in *.
  set (e := u * N). assert (He: 0 <= e <= / 1000000000).
  { unfold e. rewrite U. split; [apply Rmult_le_pos; lra|]. lra. }
  replace (2 * u * N) with (2 * e) in Er by (unfold e; ring).
  assert (HX: 0 <= X) by (unfold X; lra).
  assert (X1: e * X <= / 1000000000 * X) by (apply Rmult_le_compat_r; lra).
  assert (X0: 0 <= e * X) by (apply Rmult_le_pos; lra).
  assert (Ty: tiny <= pow2 (-870)) by (apply pow2_mono; lia).
  assert (Ty': pow2 (-870) <= pow2 400) by (apply pow2_mono; lia).
  assert (pow2 401 = 2 * pow2 400) as E4 by (change 401%Z with (400 + 1)%Z; rewrite pm by lia; reflexivity).
  assert (pow2 (-860) = 1024 * pow2 (-870)) as E5 by (change (-860)%Z with (-870 + 10)%Z; rewrite pm by lia; reflexivity).
  assert (Sx: Rabs (val s) <= 1001 / 1000 * X + tiny) by (apply Rabs_le_both; unfold X in *; lra).
  assert (Ss: Rabs (val s) <= pow2 403) by (unfold X in *; lra).
  destruct (times_quotient s (l i j) (l j j) Fs (Fj j (Nat.le_refl j)) Ss) as (F & V); auto.
  { fold (L j j). split; auto. apply Rsqr_incr_0_var; [|left; apply pow2_pos]. unfold Rsqr. rewrite <- pow2_add.
    change (202 + 202)%Z with 404%Z. assert (pow2 403 <= pow2 404) by (apply pow2_mono; lia). lra. }
  split; auto. rewrite products_S. fold (L i j) in V. fold (L j j) in V. apply Rabs_le_inv in V.
  assert (Us: u * Rabs (val s) <= u * (1001 / 1000 * X + tiny)) by (apply Rmult_le_compat_l; rewrite ?U; lra).
  assert (Ut: u * tiny <= tiny) by (rewrite U; lra).
  replace (u * (2 * N + 4) * X) with (2 * (e * X) + 4 * (u * X)) by (unfold e; ring).
  assert (0 <= u * X) by (apply Rmult_le_pos; rewrite ?U; lra).
  apply Rabs_le_both; lra.
Qed.
End Columns.
