(** * PSD matrices of any size in binary64: validity and accuracy of the fold. *)
From Coq Require Import Reals ZArith Lra Lia List Bool Permutation.
From Flocq Require Import Core IEEE754.BinarySingleNaN.
From Verif Require Import Base Flt SpecFlt FltBase FltExp FltNum FltNum2 FltNum3 FltSimp FltSimp2 FltPsd
  FltMat SpecFltMat FltDot.
Import ListNotations.
Local Open Scope R_scope.

Lemma exp_250 : forall x, x <= 250 -> 0 < exp x <= pow2 400.
Proof.
  intros x H. split; [apply exp_pos|]. eapply Rle_trans; [apply exp_le; exact H|].
  replace 250 with (INR 250) by (rewrite INR_Z; reflexivity).
  apply (exp_Z_upper 250 400). zcheck.
Qed.

Lemma exp_diag_any : forall np, np_contract np -> forall m i, fin (m i i) -> val (m i i) <= 250 ->
  Rabs (val (m i i)) <= pow2 400 ->
  fin (exp_diag64 np m i i) /\
  Rabs (val (exp_diag64 np m i i) - exp (val (m i i)))
    <= pow2 (-49) * (exp (val (m i i)) + Rabs (val (m i i))).
Proof.
  intros np C m i F H B.
  destruct (Rle_dec (Rabs (val (m i i))) 700) as [L|L]; [apply exp_diag_accurate; auto|].
  assert (U: u = / 9007199254740992) by apply u_val.
  unfold exp_diag64. rewrite Nat.eqb_refl. set (x := m i i) in *.
  destruct (exp_250 _ H) as [X1 X2].
  destruct (exp_small np C x F) as (Fe & Pe & Ee); [lra|].
  assert (Q: pow2 (-1074) <= u) by (apply pow2_mono; lia).
  destruct (add_sub_fl (np_exp np x) x Fe F) as [Fd Ed].
  { rewrite Rabs_pos_eq by lra. eapply Rle_trans; [apply Pe|]. apply pow2_mono. lia. }
  { eapply Rle_trans; [exact B|]. apply pow2_mono. lia. }
  split; auto. rewrite p49.
  set (e := np_exp np x) in *. set (d := fsub (fadd e x) x) in *.
  replace (val d - exp (val x)) with ((val d - val e) + (val e - exp (val x))) by ring.
  eapply Rle_trans; [apply Rabs_triang|].
  assert (A: Rabs (val e) <= 2 * exp (val x) + 1).
  { replace (val e) with ((val e - exp (val x)) + exp (val x)) by ring.
    eapply Rle_trans; [apply Rabs_triang|]. rewrite (Rabs_pos_eq (exp (val x))) by lra. rewrite U in *. lra. }
  rewrite U in *. lra.
Qed.

(** ** The factor *)

Section M.
Variable np : np64.
Hypothesis C : np_contract np.
Variables (n : nat) (x : list f64).
Hypothesis T : tame n x.
Let F := exp_diag64 np (lower64 x).

Lemma tame_entry : forall i j, (j <= i < n)%nat -> fin (lower64 x i j) /\ val (lower64 x i j) = entry64 x i j /\
  Rabs (entry64 x i j) <= pow2 400 /\ (i = j -> entry64 x i j <= 250).
Proof.
  intros i j H. destruct T as [_ Te]. destruct (Te i j H) as (v & Hv & Fv & B & D).
  unfold lower64, entry64. replace (j <=? i)%nat with true by (symmetry; apply Nat.leb_le; lia).
  rewrite (nth_error_nth _ _ fnan Hv). auto.
Qed.

Lemma factor_near : forall i j, (i < n)%nat -> (j < n)%nat ->
  fin (F i j) /\ Rabs (val (F i j) - exact_factor x i j) <= pow2 (-49) * magnitude x i j /\
  Rabs (exact_factor x i j) <= magnitude x i j <= pow2 401.
Proof.
  assert (P0: 0 < pow2 (-49)) by apply pow2_pos. assert (P4: 0 < pow2 400) by apply pow2_pos.
  assert (P401: pow2 401 = 2 * pow2 400) by (change 401%Z with (400 + 1)%Z; rewrite pm by lia; reflexivity).
  intros i j Hi Hj. unfold F, exact_factor, magnitude.
  destruct (Nat.ltb_spec i j) as [L|L].
  - assert (Z: lower64 x i j = fzero).
    { unfold lower64. replace (j <=? i)%nat with false by (symmetry; apply Nat.leb_gt; lia). auto. }
    destruct (off_diag np (lower64 x) i j) as [[Ff Vf] _]; [lia|rewrite Z; reflexivity|].
    rewrite Vf, Z, (proj2 fzero_val), Rminus_0_r, Rabs_R0. split; auto. lra.
  - destruct (Nat.eqb_spec i j) as [E|E].
    + subst j. destruct (tame_entry i i) as (Fe & Ve & B & D); [lia|]. specialize (D eq_refl).
      destruct (exp_diag_any np C (lower64 x) i) as [Fd Ed]; rewrite ?Ve; auto.
      rewrite Ve in Ed. split; auto. split; auto. destruct (exp_250 _ D) as [X1 X2].
      rewrite (Rabs_pos_eq (exp _)) by lra. pose proof (Rabs_pos (entry64 x i i)). lra.
    + destruct (tame_entry i j) as (Fe & Ve & B & _); [lia|].
      destruct (off_diag np (lower64 x) i j E Fe) as [[Ff Vf] _]. rewrite Vf, Ve.
      split; auto. rewrite Rminus_diag_eq, Rabs_R0 by reflexivity. pose proof (Rabs_pos (entry64 x i j)).
      split; [apply Rmult_le_pos; lra|lra].
Qed.

Definition pairs (i j : nat) : list (f64 * f64) := map (fun k => (F i k, F j k)) (seq 0 n).
Definition weight (i j : nat) : R := sum_to n (fun k => magnitude x i k * magnitude x j k).

Lemma rsum_bound : forall {A} (f g : A -> R) c l, (forall k, In k l -> Rabs (f k) <= c * g k) ->
  Rabs (rsum (map f l)) <= c * rsum (map g l).
Proof.
  intros A f g c l H. induction l as [|a l IH]; unfold rsum in *; cbn [map fold_right].
  - rewrite Rabs_R0. lra.
  - eapply Rle_trans; [apply Rabs_triang|]. rewrite Rmult_plus_distr_l. apply Rplus_le_compat.
    + apply H. left; auto.
    + apply IH. intros k Hk. apply H. right; auto.
Qed.
Lemma rsum_const : forall {A} (f : A -> R) c l, (forall k, In k l -> f k <= c) ->
  rsum (map f l) <= INR (length l) * c.
Proof.
  intros A f c l H. induction l as [|a l IH]; unfold rsum in *; cbn [map fold_right length].
  - cbn [INR]. lra.
  - rewrite S_INR. assert (f a <= c) by (apply H; left; auto).
    assert (fold_right Rplus 0 (map f l) <= INR (length l) * c) by (apply IH; intros; apply H; right; auto). lra.
Qed.
Lemma rsum_minus : forall {A} (f g : A -> R) l,
  rsum (map f l) - rsum (map g l) = rsum (map (fun k => f k - g k) l).
Proof. intros. induction l as [|a l IH]; unfold rsum in *; cbn [map fold_right]; lra. Qed.

Lemma in_range : forall k, In k (seq 0 n) -> (k < n)%nat.
Proof. intros k H. apply in_seq in H. lia. Qed.

Lemma weight_bounds : forall i j, (i < n)%nat -> (j < n)%nat -> 0 <= weight i j <= pow2 823.
Proof.
  intros i j Hi Hj. unfold weight, sum_to. split.
  - apply rsum_nonneg. rewrite Forall_map. apply Forall_forall. intros k Hk. apply in_range in Hk.
    destruct (factor_near i k Hi Hk) as (_ & _ & A). destruct (factor_near j k Hj Hk) as (_ & _ & B).
    pose proof (Rabs_pos (exact_factor x i k)). pose proof (Rabs_pos (exact_factor x j k)).
    apply Rmult_le_pos; lra.
  - eapply Rle_trans; [apply (rsum_const _ (pow2 802))|].
    + intros k Hk. apply in_range in Hk.
      destruct (factor_near i k Hi Hk) as (_ & _ & A). destruct (factor_near j k Hj Hk) as (_ & _ & B).
      pose proof (Rabs_pos (exact_factor x i k)). pose proof (Rabs_pos (exact_factor x j k)).
      change 802%Z with (401 + 401)%Z. rewrite pow2_add. apply Rmult_le_compat; lra.
    + rewrite seq_length. destruct T as [N _]. apply le_INR in N. rewrite (INR_Z (Z.to_nat _)), Z2Nat.id in N by lia.
      change 823%Z with (21 + 802)%Z. rewrite (pow2_add 21). apply Rmult_le_compat_r; [left; apply pow2_pos|].
      rewrite pow2_Z by lia. change (IZR (2 ^ 21)) with 2097152. lra.
Qed.

Lemma pair_near : forall i j k, (i < n)%nat -> (j < n)%nat -> (k < n)%nat ->
  Rabs (val (F i k) * val (F j k) - exact_factor x i k * exact_factor x j k)
    <= 33 * u * (magnitude x i k * magnitude x j k) /\
  Rabs (val (F i k) * val (F j k)) <= (1 + 33 * u) * (magnitude x i k * magnitude x j k).
Proof.
  intros i j k Hi Hj Hk. assert (U: u = / 9007199254740992) by apply u_val.
  destruct (factor_near i k Hi Hk) as (_ & A & B). destruct (factor_near j k Hj Hk) as (_ & A' & B').
  rewrite p49 in A, A'.
  set (a := val (F i k)) in *. set (a' := val (F j k)) in *.
  set (e := exact_factor x i k) in *. set (e' := exact_factor x j k) in *.
  set (m := magnitude x i k) in *. set (m' := magnitude x j k) in *.
  pose proof (Rabs_pos e). pose proof (Rabs_pos e').
  assert (Ha: Rabs a <= (1 + 16 * u) * m).
  { replace a with ((a - e) + e) by ring. eapply Rle_trans; [apply Rabs_triang|]. lra. }
  assert (X: Rabs (a * a' - e * e') <= 33 * u * (m * m')).
  { replace (a * a' - e * e') with (a * (a' - e') + (a - e) * e') by ring.
    eapply Rle_trans; [apply Rabs_triang|]. rewrite !Rabs_mult.
    assert (Rabs a * Rabs (a' - e') <= (1 + 16 * u) * m * (16 * u * m')).
    { apply Rmult_le_compat; auto; apply Rabs_pos. }
    assert (Rabs (a - e) * Rabs e' <= 16 * u * m * m').
    { apply Rmult_le_compat; try apply Rabs_pos; lra. }
    assert (0 <= m * m') by (apply Rmult_le_pos; lra).
    assert ((1 + 16 * u) * m * (16 * u * m') + 16 * u * m * m' = (32 * u + 256 * u * u) * (m * m')) by ring.
    assert ((32 * u + 256 * u * u) * (m * m') <= 33 * u * (m * m')).
    { apply Rmult_le_compat_r; auto. rewrite U. lra. }
    lra. }
  split; auto.
  replace (a * a') with ((a * a' - e * e') + e * e') by ring.
  eapply Rle_trans; [apply Rabs_triang|]. rewrite (Rabs_mult e e').
  assert (Rabs e * Rabs e' <= m * m') by (apply Rmult_le_compat; lra). lra.
Qed.

Lemma ap_pairs : forall i j, (i < n)%nat -> (j < n)%nat -> ap (pairs i j) <= (1 + 33 * u) * weight i j.
Proof.
  intros i j Hi Hj. rewrite <- (Rabs_pos_eq (ap _) (ap_nonneg _)). unfold ap, pairs, weight, sum_to.
  rewrite map_map. apply rsum_bound. intros k Hk. apply in_range in Hk. rewrite Rabs_Rabsolu.
  apply (pair_near i j k Hi Hj Hk).
Qed.
Lemma dp_pairs : forall i j, (i < n)%nat -> (j < n)%nat ->
  Rabs (dp (pairs i j) - sum_to n (fun k => exact_factor x i k * exact_factor x j k)) <= 33 * u * weight i j.
Proof.
  intros i j Hi Hj. unfold dp, pairs, weight, sum_to. rewrite map_map, rsum_minus.
  apply rsum_bound. intros k Hk. apply in_range in Hk. apply (pair_near i j k Hi Hj Hk).
Qed.

Variable gram : gram64.
Hypothesis G : gram_contract gram.

Lemma gram_near : forall i j, (i < n)%nat -> (j < n)%nat ->
  fin (gram n F i j) /\ Rabs (val (gram n F i j)) <= pow2 1020 /\
  Rabs (val (gram n F i j) - sum_to n (fun k => exact_factor x i k * exact_factor x j k))
    <= 2 * u * (INR n + 17) * weight i j + INR n * pow2 (-1073) /\
  (i = j -> 0 <= val (gram n F i j)).
Proof.
  intros i j Hi Hj. assert (U: u = / 9007199254740992) by apply u_val.
  pose proof (gram_entry gram G n F i j Hi Hj) as D. change (dot_of (pairs i j) (gram n F i j)) in D.
  destruct (weight_bounds i j Hi Hj) as [W0 W1].
  pose proof (ap_pairs i j Hi Hj) as A. pose proof (dp_pairs i j Hi Hj) as DP.
  assert (LP: length (pairs i j) = n) by (unfold pairs; rewrite map_length, seq_length; auto).
  assert (N: (n <= Z.to_nat 1000000)%nat) by apply T.
  assert (NR: INR n <= 1000000).
  { apply le_INR in N. rewrite (INR_Z (Z.to_nat _)), Z2Nat.id in N by lia. exact N. }
  assert (N2: (n <= Z.to_nat 1048576)%nat) by lia.
  assert (P824: pow2 824 = 2 * pow2 823) by (change 824%Z with (823 + 1)%Z; rewrite pm by lia; reflexivity).
  assert (P1018: pow2 824 <= pow2 1018) by (apply pow2_mono; lia).
  assert (P1020: pow2 1020 = 4 * pow2 1018) by (change 1020%Z with (1018 + 2)%Z; rewrite pm by lia; reflexivity).
  pose proof (pow2_pos 823). pose proof (pow2_pos 1018).
  assert (A': ap (pairs i j) <= 2 * weight i j) by (rewrite U in A; nra).
  assert (FP: Forall (fun p => fin (fst p) /\ fin (snd p)) (pairs i j)).
  { unfold pairs. rewrite Forall_map. apply Forall_forall. intros k Hk. apply in_range in Hk. cbn [fst snd].
    split; apply factor_near; auto. }
  destruct (dot_error _ _ D FP) as [Fr Er]; [lia|lra|].
  rewrite LP in Er. unfold dot_bound in Er.
  pose proof (grow_bound n N2) as GB. pose proof (grow_1 n) as G1. pose proof (pos_INR n) as PN.
  pose proof (ap_nonneg (pairs i j)) as An. pose proof eta_pos as E0.
  assert (B1: (grow n - 1) * ap (pairs i j) <= 2 * u * INR n * ((1 + 33 * u) * weight i j)).
  { apply Rmult_le_compat; lra. }
  assert (B2: INR n * grow n * eta <= INR n * pow2 (-1073)).
  { assert (pow2 (-1073) = 2 * eta).
    { unfold eta. change (-1073)%Z with (-1074 + 1)%Z. rewrite pm by lia. reflexivity. }
    assert (grow n <= 2) by (rewrite U in GB; lra).
    rewrite H1, Rmult_assoc. apply Rmult_le_compat_l; auto. apply Rmult_le_compat_r; lra. }
  assert (M: Rabs (val (gram n F i j) - sum_to n (fun k => exact_factor x i k * exact_factor x j k))
    <= 2 * u * (INR n + 17) * weight i j + INR n * pow2 (-1073)).
  { set (S := sum_to n _) in *.
    replace (val (gram n F i j) - S) with ((val (gram n F i j) - dp (pairs i j)) + (dp (pairs i j) - S)) by ring.
    eapply Rle_trans; [apply Rabs_triang|].
    assert (2 * u * INR n * ((1 + 33 * u) * weight i j) <= 2 * u * (INR n + / 2) * weight i j).
    { replace (2 * u * INR n * ((1 + 33 * u) * weight i j)) with (2 * u * (INR n + 33 * u * INR n) * weight i j) by ring.
      apply Rmult_le_compat_r; auto. apply Rmult_le_compat_l; [rewrite U; lra|]. rewrite U. lra. }
    lra. }
  split; auto. split; [|split; auto].
  - assert (Rabs (dp (pairs i j)) <= ap (pairs i j)) by apply dp_le_ap.
    replace (val (gram n F i j)) with ((val (gram n F i j) - dp (pairs i j)) + dp (pairs i j)) by ring.
    eapply Rle_trans; [apply Rabs_triang|].
    assert (pow2 (-1073) <= pow2 0) by (apply pow2_mono; lia). change (pow2 0) with 1 in *.
    assert (INR n * pow2 (-1073) <= 1000000).
    { rewrite <- (Rmult_1_r 1000000). pose proof (pow2_pos (-1073)). apply Rmult_le_compat; lra. }
    assert (pow2 20 <= pow2 1018) by (apply pow2_mono; lia). rewrite (pow2_Z 20) in H4 by lia.
    change (IZR (2 ^ 20)) with 1048576 in H4.
    assert (2 * u * INR n * ((1 + 33 * u) * weight i j) <= weight i j).
    { rewrite <- Rmult_assoc. rewrite <- (Rmult_1_l (weight i j)) at 2. apply Rmult_le_compat_r; auto.
      rewrite U. nra. }
    lra.
  - intros ->. apply (dot_squares _ _ D).
    + unfold pairs. rewrite Forall_map. apply Forall_forall. intros k Hk. apply in_range in Hk. cbn [fst snd].
      split; auto. apply factor_near; auto.
    + lia.
    + lra.
Qed.

Variable lb : f64.
Hypothesis Flb : fin lb.
Hypothesis Blb : Rabs (val lb) <= pow2 1000.

Lemma unpack_entry : forall i j, (i < n)%nat -> (j < n)%nat ->
  let m := unpack64 np gram n lb x in
  fin (m i j) /\ m i j = m j i /\ (i = j -> val lb <= val (m i j)) /\
  Rabs (val (m i j) - (sum_to n (fun k => exact_factor x i k * exact_factor x j k) + (if Nat.eqb i j then val lb else 0)))
    <= 2 * u * ((INR n + 18) * weight i j + (if Nat.eqb i j then Rabs (val lb) else 0)) + INR n * pow2 (-1072).
Proof.
  intros i j Hi Hj m. assert (U: u = / 9007199254740992) by apply u_val.
  destruct (gram_near i j Hi Hj) as (Fg & Bg & Eg & Pg).
  destruct (weight_bounds i j Hi Hj) as [W0 W1].
  assert (P23: pow2 1023 = 8 * pow2 1020) by (change 1023%Z with (1020 + 3)%Z; rewrite pm by lia; reflexivity).
  assert (P10: pow2 1000 <= pow2 1020) by (apply pow2_mono; lia).
  pose proof (pow2_pos 1020). pose proof (pos_INR n) as PN.
  assert (P72: pow2 (-1072) = 2 * pow2 (-1073)) by (change (-1072)%Z with (-1073 + 1)%Z; rewrite pm by lia; reflexivity).
  pose proof (pow2_pos (-1073)) as P73.
  assert (NP: 0 <= INR n * pow2 (-1073)) by (apply Rmult_le_pos; lra).
  assert (Sym: m i j = m j i).
  { unfold m, unpack64. rewrite (gram_mirror gram G n _ i j), (Nat.eqb_sym i j). reflexivity. }
  assert (NR: INR n <= 1000000).
  { destruct T as [N _]. apply le_INR in N. rewrite (INR_Z (Z.to_nat _)), Z2Nat.id in N by lia. exact N. }
  assert (SW: Rabs (sum_to n (fun k => exact_factor x i k * exact_factor x j k)) <= 1 * weight i j).
  { unfold weight, sum_to. apply rsum_bound. intros k Hk. apply in_range in Hk. rewrite Rabs_mult, Rmult_1_l.
    destruct (factor_near i k Hi Hk) as (_ & _ & A). destruct (factor_near j k Hj Hk) as (_ & _ & B).
    apply Rmult_le_compat; try apply Rabs_pos; lra. }
  unfold m, unpack64 in *. clear m. change (exp_diag64 np (lower64 x)) with F in Sym |- *.
  set (S := sum_to n (fun k => exact_factor x i k * exact_factor x j k)) in *. set (g := gram n F i j) in *.
  destruct (Nat.eqb_spec i j) as [E|E].
  - destruct (fadd_val g lb Fg Flb) as [Fr Vr]; [eapply Rle_trans; [apply Rabs_triang|]; lra|].
    split; auto. split; auto. split.
    + intros _. rewrite Vr. apply rnd_ge; [apply fmt_val|]. specialize (Pg E). lra.
    + rewrite Vr. pose proof (rnd_add_error (val g) (val lb) (fmt_val g) (fmt_val lb)) as R.
      replace (rnd (val g + val lb) - (S + val lb)) with ((rnd (val g + val lb) - (val g + val lb)) + (val g - S)) by ring.
      eapply Rle_trans; [apply Rabs_triang|].
      set (e := Rabs (val g - S)) in *.
      assert (Q: Rabs (val g + val lb) <= weight i j + e + Rabs (val lb)).
      { replace (val g + val lb) with ((val g - S) + (S + val lb)) by ring.
        eapply Rle_trans; [apply Rabs_triang|]. pose proof (Rabs_triang S (val lb)). fold e. lra. }
      assert (u * Rabs (val g + val lb) <= u * (weight i j + e + Rabs (val lb))) by (apply Rmult_le_compat_l; [rewrite U; lra|auto]).
      assert (e <= 2 * u * (INR n + 17) * weight i j + INR n * pow2 (-1073)) by exact Eg.
      assert (e <= / 2 * weight i j + INR n * pow2 (-1073)).
      { eapply Rle_trans; [exact Eg|]. apply Rplus_le_compat_r. apply Rmult_le_compat_r; auto. rewrite U. lra. }
      assert (u * e <= u * (/ 2 * weight i j + INR n * pow2 (-1073))) by (apply Rmult_le_compat_l; [rewrite U; lra|auto]).
      assert (u * (INR n * pow2 (-1073)) <= INR n * pow2 (-1073)) by (rewrite U; lra).
      assert (0 <= u * Rabs (val lb)) by (apply Rmult_le_pos; [rewrite U; lra|apply Rabs_pos]).
      rewrite P72. assert (0 <= u * weight i j) by (apply Rmult_le_pos; [rewrite U; lra|auto]). lra.
  - destruct (fadd_val g fzero Fg eq_refl) as [Fr Vr]; [rewrite (proj2 fzero_val), Rplus_0_r; lra|].
    rewrite (proj2 fzero_val), Rplus_0_r, rnd_fmt in Vr by apply fmt_val.
    split; auto. split; auto. split; [contradiction|].
    rewrite Vr, !Rplus_0_r. assert (0 <= u * weight i j) by (apply Rmult_le_pos; [rewrite U; lra|auto]).
    rewrite P72. lra.
Qed.
End M.

(** ** The theorems *)

Lemma unpack64_entries : forall np, np_contract np -> forall gram, gram_contract gram ->
  forall n x, tame n x -> forall lb, fin lb -> Rabs (val lb) <= pow2 1000 ->
  forall i j, (i < n)%nat -> (j < n)%nat ->
  fin (unpack64 np gram n lb x i j) /\ unpack64 np gram n lb x i j = unpack64 np gram n lb x j i /\
  val lb <= val (unpack64 np gram n lb x i i).
Proof.
  intros np C gram G n x T lb Fl Bl i j Hi Hj.
  destruct (unpack_entry np C n x T gram G lb Fl Bl i j Hi Hj) as (A & B & _).
  destruct (unpack_entry np C n x T gram G lb Fl Bl i i Hi Hi) as (_ & _ & D & _). auto.
Qed.

Lemma unpack64_valid : forall np, np_contract np -> forall gram, gram_contract gram ->
  forall n x, tame n x -> forall lb, fin lb -> Rabs (val lb) <= pow2 1000 ->
  psd64_valid n lb (unpack64 np gram n lb x) = true.
Proof.
  intros np C gram G n x T lb Fl Bl. unfold psd64_valid. apply andb_true_intro. split.
  - apply negb_true_iff. apply not_true_iff_false. intros H. apply existsb_exists in H.
    destruct H as (i & Hi & H). apply in_seq in Hi.
    destruct (unpack64_entries np C gram G n x T lb Fl Bl i i) as (A & _ & B); [lia|lia|].
    rewrite flt_false in H; auto. discriminate.
  - apply forallb_forall. intros i Hi. apply forallb_forall. intros j Hj. apply in_seq in Hi, Hj.
    destruct (unpack64_entries np C gram G n x T lb Fl Bl i j) as (A & B & _); [lia|lia|].
    rewrite <- B. apply feq_refl. auto.
Qed.

Lemma unpack64_accurate : forall np, np_contract np -> forall gram, gram_contract gram ->
  forall n x, tame n x -> forall lb, fin lb -> Rabs (val lb) <= pow2 1000 ->
  forall i j, (i < n)%nat -> (j < n)%nat ->
  Rabs (val (unpack64 np gram n lb x i j) -
        (sum_to n (fun k => exact_factor x i k * exact_factor x j k) + (if Nat.eqb i j then val lb else 0)))
    <= pow2 (-52) * (INR (n + 18) * sum_to n (fun k => magnitude x i k * magnitude x j k) +
                     (if Nat.eqb i j then Rabs (val lb) else 0)) + INR n * pow2 (-1072).
Proof.
  intros np C gram G n x T lb Fl Bl i j Hi Hj.
  destruct (unpack_entry np C n x T gram G lb Fl Bl i j Hi Hj) as (_ & _ & _ & D).
  rewrite plus_INR. replace (INR 18) with 18 by (rewrite INR_Z; reflexivity).
  assert (P: pow2 (-52) = 2 * u).
  { unfold u. change (-52)%Z with (-53 + 1)%Z. rewrite pm by lia. change (IZR (2 ^ 1)) with 2. unfold pow2. lra. }
  rewrite P. exact D.
Qed.

(** ** Overflow *)

Lemma nan_dot : forall l r, dot_of l r -> Exists (fun p => exists s t, fst p = B754_infinity s /\ snd p = B754_zero t) l ->
  r = fnan.
Proof.
  induction 1 as [|x y|x y l a H IH|l m a b Hl IHl Hm IHm|l m a P H IH]; intros X.
  - inversion X.
  - inversion X as [? ? (s & t & E1 & E2)|? ? X']; subst; [|inversion X']. cbn [fst snd] in *. subst. reflexivity.
  - inversion X as [? ? (s & t & E1 & E2)|? ? X']; subst.
    + cbn [fst snd] in *. subst. destruct a; reflexivity.
    + rewrite (IH X'). destruct x, y; reflexivity.
  - apply Exists_app in X. destruct X as [X|X].
    + rewrite (IHl X). destruct b; reflexivity.
    + rewrite (IHm X). destruct a; reflexivity.
  - apply IH. apply Exists_exists in X. destruct X as (p & Hp & X). apply Exists_exists. exists p. split; auto.
    eapply Permutation_in; [apply Permutation_sym; exact P|auto].
Qed.

Lemma unpack64_overflow : forall np, np_contract np -> forall gram, gram_contract gram ->
  forall n x lb i j, (i < j < n)%nat ->
  forall v, nth_error x (i * (i + 1) / 2 + i) = Some v -> fin v -> 711 <= val v ->
  forall s, nth_error x (j * (j + 1) / 2 + i) = Some (B754_zero s) ->
  unpack64 np gram n lb x i j = fnan /\ psd64_valid n lb (unpack64 np gram n lb x) = false.
Proof.
  intros np C gram G n x lb i j H v Hv Fv Bv s Hs.
  assert (D: gram n (exp_diag64 np (lower64 x)) i j = fnan).
  { eapply nan_dot; [apply (gram_entry gram G); lia|]. apply Exists_exists.
    exists (exp_diag64 np (lower64 x) i i, exp_diag64 np (lower64 x) j i). split.
    - apply in_map_iff. exists i. split; auto. apply in_seq. lia.
    - cbn [fst snd]. unfold exp_diag64, lower64. rewrite !Nat.eqb_refl, !Nat.leb_refl.
      replace (j =? i)%nat with false by (symmetry; apply Nat.eqb_neq; lia).
      replace (i <=? j)%nat with true by (symmetry; apply Nat.leb_le; lia).
      rewrite (nth_error_nth _ _ fnan Hv), (nth_error_nth _ _ fnan Hs).
      rewrite (exp_over _ (np_exp_ok _ C) v Fv).
      + destruct v; try discriminate Fv; destruct s; eexists; eexists; split; reflexivity.
      + eapply Rle_trans; [apply exp_711|]. apply exp_le. exact Bv. }
  assert (E: unpack64 np gram n lb x i j = fnan).
  { unfold unpack64. rewrite D. destruct (if (i =? j)%nat then lb else fzero); reflexivity. }
  split; auto. unfold psd64_valid. apply andb_false_iff. right. apply not_true_iff_false. intros K.
  rewrite forallb_forall in K. specialize (K i ltac:(apply in_seq; lia)).
  rewrite forallb_forall in K. specialize (K j ltac:(apply in_seq; lia)). rewrite E in K.
  destruct (unpack64 np gram n lb x j i) as [[]|[]| |[]]; discriminate K.
Qed.
