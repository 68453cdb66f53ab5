(** * Cases meeting the hypotheses of PropFltTrip.v. *)
From Coq Require Import Reals Lra Lia ZArith Floats.SpecFloat.
From Flocq Require Import Core IEEE754.BinarySingleNaN.
From Verif Require Import Base Num Nd ListFacts Pattern Spec NumFacts Flt SpecFlt FltMat SpecFltMat FltChol SpecFltChol FltPat SpecFltPat
  SpecFltTrip FltBase FltExp FltNum FltNum2 FltInst FltSimp FltCholProps FltLeaf DemoFlt DemoFltMat DemoFltChol FltFlatLeaf FltPatValid DemoFltPat
  Contract FltTripTree.
Local Open Scope R_scope.

(** A dictionary of an array of numbers in [0, 1], a simplex, a 2 x 2 matrix, and a number
    above 1. *)
Definition above1 : pat := PNum KArray [1%nat] (PyInt 1) (PyFloat (S754_infinity false)) true None.
Definition m22 : pat := PPsd 2 3 (PyInt 0) true None.
Definition q92 : pat :=
  PDict [(KInt 1, PArr [2%nat] n01 None); (KInt 2, PSimplex 2 [] true None); (KInt 3, m22); (KInt 4, above1)]
    (plint 9) (plint 7) None false.
Definition x92 : list f64 := [fint 2; fint (-7); fint 5; fint 0; fint 1; fint 0; fint 3].
Definition e92 : list R := repeat (/ 100000000) 7.

Lemma e0 : exact_bound (PyInt 0).
Proof. unfold exact_bound. rewrite b0, num_fin by apply fzero_val. rewrite (proj2 fzero_val). reflexivity. Qed.
Lemma e1 : exact_bound (PyInt 1).
Proof. unfold exact_bound. rewrite b1, num_fin by apply fone_val. rewrite (proj2 fone_val). reflexivity. Qed.
Lemma q92_usable : usable q92.
Proof.
  cbn. repeat split; try discriminate; try lia; try lra.
  - repeat constructor; cbn; intuition discriminate.
  - exists 0. split; [reflexivity|lra].
Qed.
Lemma above1_modest : modest above1.
Proof.
  assert (P : 2 <= pow2 11) by (rewrite pow2_Z by lia; change (IZR (2 ^ 11)) with 2048; lra).
  cbn [modest above1]. rewrite b1, (proj2 fone_val), Rabs_R1.
  assert (Z : forall s, Rabs (val (bound64 (PyFloat (S754_infinity s)))) = 0) by (intros s; apply Rabs_R0).
  rewrite Z. pose proof e1. repeat split; auto; lra.
Qed.
Lemma q92_modest : modest q92.
Proof.
  assert (P : 2 <= pow2 11) by (rewrite pow2_Z by lia; change (IZR (2 ^ 11)) with 2048; lra).
  pose proof (big_pow 1000 ltac:(lia)) as P2. pose proof e0 as E0. pose proof e1 as E1. pose proof above1_modest as Ma.
  assert (1 <= Z.to_nat 1000000)%nat by (apply Nat2Z.inj_le; rewrite Z2Nat.id by lia; lia).
  assert (2 <= Z.to_nat 1000000)%nat by (apply Nat2Z.inj_le; rewrite Z2Nat.id by lia; lia).
  unfold q92, m22. cbn [modest all_items n01]. rewrite !b0, !b1, (proj2 fzero_val), (proj2 fone_val), Rabs_R0, Rabs_R1.
  assert (2 <= 1001)%nat by lia.
  split; [repeat split; auto; lra|]. split; [auto|]. split; [repeat split; auto; lra|]. repeat split; auto; apply Ma.
Qed.
Lemma x92_small : small64 x92.
Proof. unfold small64, x92. repeat (constructor; [split; fint; apply Rabs_le_both; lra|]). constructor. Qed.

Lemma room_at : forall v, exp (- Rabs v) / 4 <= room v.
Proof.
  intros v. unfold room. pose proof (exp_pos v) as P. pose proof (exp_pos (- v)) as P'.
  assert (E : exp v * exp (- v) = 1) by (rewrite <- exp_plus, Rplus_opp_r; apply exp_0).
  assert (Q : 0 < (1 + exp v) * (1 + exp v)) by nra.
  apply Rmult_le_reg_r with ((1 + exp v) * (1 + exp v)); auto. unfold Rdiv at 2. rewrite Rmult_assoc, Rinv_l, Rmult_1_r by lra.
  unfold Rabs. destruct (Rcase_abs v) as [N|N].
  - rewrite Ropp_involutive. assert (exp v < 1) by (rewrite <- exp_0; apply exp_increasing; lra). nra.
  - assert (1 <= exp v) by (rewrite <- exp_0; apply exp_le; lra). set (a := exp v) in *. set (b := exp (- v)) in *.
    assert (b <= 1) by nra. replace (b / 4 * ((1 + a) * (1 + a))) with ((b + 2 * (a * b) + a * (a * b)) / 4) by field.
    rewrite E. lra.
Qed.
Lemma p45 : pow2 (-45) = / 35184372088832.
Proof. change (-45)%Z with (- (45))%Z. rewrite pow2_neg, pow2_Z by lia. reflexivity. Qed.

Lemma unit_allows : forall v, Rabs v <= 7 -> num_allows fzero fone v (/ 100000000).
Proof.
  intros v Hv. unfold num_allows. cbn [is_ninf is_pinf fzero]. replace (is_pinf fone) with false by (vm_compute; reflexivity).
  rewrite (proj2 fzero_val), (proj2 fone_val), Rabs_R0, Rabs_R1. cbv zeta. replace (1 - 0) with 1 by ring. rewrite ln_1, Rabs_R0, Rmult_1_l.
  pose proof (room_at v) as R. assert (E7 : / 2187 <= exp (- Rabs v)).
  { apply Rle_trans with (exp (Ropp 7)); [|apply exp_le; lra]. rewrite exp_Ropp. apply Rinv_le_contravar; [apply exp_pos|].
    replace 7 with (1 + 1 + 1 + 1 + 1 + 1 + 1) by lra. rewrite !exp_plus. pose proof exp_le_3 as X. pose proof (exp_pos 1) as Y.
    set (t := exp 1) in *. assert (t * t <= 9) by nra. assert (0 <= t * t) by nra. assert (t * t * t <= 27) by nra.
    assert (0 <= t * t * t) by nra. assert (t * t * t * t <= 81) by nra. assert (0 <= t * t * t * t) by nra.
    assert (t * t * t * t * t <= 243) by nra. assert (0 <= t * t * t * t * t) by nra. assert (t * t * t * t * t * t <= 729) by nra.
    assert (0 <= t * t * t * t * t * t) by nra. nra. }
  assert (D : / 8748 <= room v) by lra.
  assert (P1 : pow2 (-95) <= / 16384).
  { replace (/ 16384) with (pow2 (-14)) by (change (-14)%Z with (- (14))%Z; rewrite pow2_neg, pow2_Z by lia; reflexivity).
    apply pow2_mono. lia. }
  assert (P2 : 16384 <= pow2 40).
  { replace 16384 with (pow2 14) by (rewrite pow2_Z by lia; reflexivity). apply pow2_mono. lia. }
  assert (I : / room v <= 8748).
  { rewrite <- (Rinv_inv 8748). apply Rinv_le_contravar; lra. }
  split; [lra|]. split; [nra|]. rewrite p45. unfold Rdiv. rewrite Rplus_0_l, Rmult_1_l. lra.
Qed.

Lemma above_allows : num_allows fone finf 3 (/ 100000000).
Proof.
  unfold num_allows. cbn [is_pinf finf]. replace (is_ninf fone) with false by (vm_compute; reflexivity). cbv iota.
  rewrite (proj2 fone_val), Rabs_R1, Rabs_pos_eq by lra.
  assert (E : 1 <= exp 3) by (pose proof (exp_ineq1_le 3); lra).
  assert (P2 : 1 <= pow2 40) by (change 1 with (pow2 0); apply pow2_mono; lia).
  assert (P49 : pow2 (-49) <= pow2 (-45)) by (apply pow2_mono; lia). rewrite p45 in P49.
  assert (I : / exp 3 <= 1) by (rewrite <- Rinv_1; apply Rinv_le_contravar; lra).
  pose proof (Rinv_0_lt_compat (exp 3) ltac:(lra)). split; [nra|]. unfold Rdiv. rewrite Rmult_1_l.
  pose proof (pow2_pos (-49)). nra.
Qed.

(** The factor is [[1, 0], [1, 1]] with inverse [[1, 0], [-1, 1]]. *)
Definition w22 (i j : nat) : R := if Nat.eqb i j then 1 else if Nat.ltb j i then -1 else 0.
Lemma m22_allows : allows m22 [fint 0; fint 1; fint 0] [/ 100000000; / 100000000; / 100000000].
Proof.
  cbn [allows m22]. rewrite b0. set (x := [fint 0; fint 1; fint 0]).
  assert (V0 : val (fint 0) = 0) by (fint; reflexivity). assert (V1 : val (fint 1) = 1) by (fint; reflexivity).
  assert (X00 : entry64 x 0 0 = 0) by exact V0. assert (X10 : entry64 x 1 0 = 1) by exact V1. assert (X11 : entry64 x 1 1 = 0) by exact V0.
  assert (R0 : row_size 2 fzero x 0 = 1).
  { unfold row_size, sum_to, rsum; cbn [seq map fold_right]. unfold magnitude. cbn [Nat.ltb Nat.leb Nat.eqb]. rewrite X00, exp_0, (proj2 fzero_val), !Rabs_R0, sqrt_0. ring. }
  assert (R1 : row_size 2 fzero x 1 = 2).
  { unfold row_size, sum_to, rsum; cbn [seq map fold_right]. unfold magnitude. cbn [Nat.ltb Nat.leb Nat.eqb]. rewrite X11, X10, exp_0, (proj2 fzero_val), !Rabs_R0, Rabs_R1, sqrt_0. ring. }
  assert (In22 : INR (2 + 20) = 22) by (cbn; lra). assert (In2 : INR 2 = 2) by (cbn; lra).
  assert (Z : forall i, (i < 2)%nat -> i = 0%nat \/ i = 1%nat) by (intros; lia).
  exists 3. split; [exists w22; split|split].
  - intros i j Hi Hj. destruct (Z i Hi) as [->| ->]; destruct (Z j Hj) as [->| ->];
      unfold sum_to, rsum; cbn [seq map fold_right]; unfold w22, exact_factor; cbn [Nat.ltb Nat.leb Nat.eqb]; rewrite ?X00, ?X10, ?X11, ?exp_0; ring.
  - intros i Hi. destruct (Z i Hi) as [->| ->]; unfold sum_to, rsum; cbn [seq map fold_right]; rewrite R0, R1; unfold w22; cbn [Nat.ltb Nat.leb Nat.eqb];
      unfold Rabs; repeat destruct (Rcase_abs _); lra.
  - rewrite In22, In2. assert (P : pow2 14 <= pow2 46) by (apply pow2_mono; lia). rewrite (pow2_Z 14) in P by lia.
    change (IZR (2 ^ 14)) with 16384 in P. lra.
  - intros i j Hij. rewrite In22.
    assert (P46 : pow2 (-46) <= pow2 (-45)) by (apply pow2_mono; lia). rewrite p45 in P46. pose proof (pow2_pos (-46)) as P0.
    assert (H : (i = 0 /\ j = 0 \/ i = 1 /\ j = 0 \/ i = 1 /\ j = 1)%nat) by lia.
    destruct H as [[-> ->]|[[-> ->]|[-> ->]]]; rewrite ?R0, ?R1; cbn; nra.
Qed.

Lemma q92_allows : allows q92 x92 e92.
Proof.
  assert (B : bound64 (PyFloat (S754_infinity false)) = finf) by reflexivity.
  unfold q92. cbn [allows].
  change (pl_n (flat_len (PArr [2%nat] n01 None) true)) with 2%nat. change (pl_n (flat_len n01 true)) with 1%nat.
  change (pl_n (flat_len (PSimplex 2 [] true None) true)) with 1%nat. change (pl_n (flat_len m22 true)) with 3%nat.
  change (pl_n (flat_len above1 true)) with 1%nat. unfold x92, e92. cbn [repeat firstn skipn].
  split; [|split; [|split; [|split; [|exact I]]]].
  - intros i Hi. change (prod [2%nat]) with 2%nat in Hi. assert (H : (i = 0 \/ i = 1)%nat) by lia.
    destruct H as [->| ->]; unfold slice; cbn [Nat.mul Nat.add skipn firstn allows n01]; intros k Hk; cbn [length] in Hk;
      (assert (k = 0)%nat as -> by lia); cbn [nth]; rewrite b0, b1; apply unit_allows.
    + replace (val (fint 2)) with 2 by (symmetry; fint; reflexivity). rewrite Rabs_pos_eq; lra.
    + replace (val (fint (-7))) with (-7) by (symmetry; fint; reflexivity). rewrite Rabs_left; lra.
  - intros k Hk. cbn [length] in Hk. assert (k = 0)%nat as -> by lia. cbn [nth]. lra.
  - apply m22_allows.
  - cbn [allows above1]. intros k Hk. cbn [length] in Hk. assert (k = 0)%nat as -> by lia. cbn [nth]. rewrite b1, B.
    replace (val (fint 3)) with 3 by (symmetry; fint; reflexivity). apply above_allows.
Qed.

Lemma trip_case : np_contract np_inst /\ gram_contract gram_inst /\ chol_contract chol_inst /\ usable q92 /\ modest q92 /\
  flat_length q92 (Some true) = Ok (plint (length x92)) /\ small64 x92 /\ allows q92 x92 (repeat (/ 100000000) 7).
Proof.
  split; [apply np_inst_ok|]. split; [apply gram_inst_ok|]. split; [apply chol_inst_ok|]. split; [apply q92_usable|].
  split; [apply q92_modest|]. split; [reflexivity|]. split; [apply x92_small|apply q92_allows].
Qed.

Lemma no_trip : forall np, np_contract np -> forall gram chol vv,
  usable above1 /\ modest above1 /\ flat_length above1 (Some true) = Ok (plint (length [fint (-40)])) /\ small64 [fint (-40)] /\
  forall e v y, pfold64 np gram above1 [fint (-40)] = Ok v -> pflatten64 np chol above1 v vv = Ok y -> ~ within e [fint (-40)] y.
Proof.
  intros np C gram chol vv. split; [cbn; split; [discriminate|exact I]|]. split; [apply above1_modest|]. split; [reflexivity|].
  split. { constructor; [split; fint; apply Rabs_le_both; lra|constructor]. }
  intros e v y Ev Ey [_ W]. specialize (W 0%nat ltac:(cbn; lia)). destruct W as [F _].
  destruct (absorbed_round_trip np C fone (proj1 fone_val)) with (x := fint (-40)) as [E1 E2].
  { rewrite (proj2 fone_val), Rabs_R1. split; [lra|]. change 1 with (pow2 0). apply pow2_mono. lia. }
  { fint. } { fint; lra. }
  unfold above1 in Ev. cbn [pfold64] in Ev. cbn [length prod fold_right Nat.eqb Nat.mul negb] in Ev.
  change (bound64 (PyFloat (S754_infinity false))) with finf in Ev. rewrite b1, E1 in Ev. inversion Ev; subst v.
  unfold above1 in Ey. cbn [pflatten64] in Ey. apply bind_ok in Ey. destruct Ey as ([m|] & _ & Ey); [discriminate Ey|].
  cbn [dat] in Ey. change (bound64 (PyFloat (S754_infinity false))) with finf in Ey. rewrite b1 in Ey. inversion Ey; subst y. clear Ey.
  unfold num64_flatten in E2. destruct (num64_valid fone finf [fone]); [|discriminate E2]. cbn [map] in E2. inversion E2 as [E3].
  cbn [map nth] in F. rewrite E3 in F. discriminate F.
Qed.
