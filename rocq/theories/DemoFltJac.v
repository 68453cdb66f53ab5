(** * Cases meeting the hypotheses of PropFltJac.v. *)
From Coq Require Import Reals Lra Lia ZArith Floats.SpecFloat.
From Flocq Require Import Core IEEE754.BinarySingleNaN.
From Verif Require Import Base Num Nd ListFacts Pattern Spec SpecJac NumFacts Flt SpecFlt FltPat SpecFltPat FltJac SpecFltJac
  FltBase FltExp FltNum FltNum2 FltInst FltSimp FltLeaf DemoFlt DemoFltMat DemoFltPat FltPatValid FltJacLeaf.
Local Open Scope R_scope.

(** A dictionary of an array of numbers in [0, 1] and two simplexes. *)
Definition qj : pat :=
  PDict [(KInt 1, PArr [2%nat] n01 None); (KInt 2, PSimplex 2 [2%nat] true None)] (plint 6) (plint 4) None false.
Definition vj : fv f64 :=
  FDict [(KInt 1, FArr (mkNd [2%nat; 1%nat] [fhalf; fhalf])); (KInt 2, FArr (mkNd [2%nat; 2%nat] [fhalf; fhalf; fhalf; fhalf]))].
(** A number in [0, 1] and an unbounded one. *)
Definition qd : pat :=
  PDict [(KInt 1, n01); (KInt 4, PNum KArray [1%nat] (PyFloat (S754_infinity true)) (PyFloat (S754_infinity false)) true None)]
    (plint 2) (plint 2) None false.
Definition vd : fv f64 := FDict [(KInt 1, FArr (mkNd [1%nat] [fhalf])); (KInt 4, FArr (mkNd [1%nat] [fint 3]))].
(** A number between -1 and 0, very close to 0. *)
Definition ql : pat := PNum KArray [1%nat] (PyInt (-1)) (PyInt 0) true None.
Definition al : f64 := flit (-1) (-60).

Lemma q64_bounds : exact_bounds n01 /\ exact_bound (PyInt (-1)).
Proof. split; [split|]; apply exact_int; reflexivity. Qed.
Lemma half_roomy : roomy n01 (FArr (mkNd [1%nat] [fhalf])).
Proof.
  destruct half_val as [Fh Vh].
  assert (P : pow2 (-100) <= / 4) by (change (/ 4) with (pow2 (-2)); apply pow2_mono; lia).
  pose proof (big_pow 100 ltac:(lia)) as P1.
  split; [reflexivity|]. split; [reflexivity|]. constructor; [|constructor]. rewrite b0, b1. unfold between. rewrite (proj2 fzero_val), (proj2 fone_val), Vh.
  split; auto. split; intros _; lra.
Qed.

Lemma jac64_case : np_contract np_inst /\ usable qj /\ exact_bounds qj /\ no_psd qj /\ simplexes_nonempty qj /\ roomy qj vj /\
  gaps qj vj = [/ 2; / 2; / 2; / 2; / 2; / 2].
Proof.
  destruct half_val as [Fh Vh].
  assert (P : pow2 (-100) <= / 4) by (change (/ 4) with (pow2 (-2)); apply pow2_mono; lia).
  split; [apply np_inst_ok|]. split.
  { cbn. repeat split; try discriminate; try lia; try lra. repeat constructor; cbn; intuition discriminate. }
  split. { cbn [exact_bounds qj all_items]. repeat split; try lia; apply q64_bounds. }
  split; [cbn; auto|]. split; [cbn; auto with arith|]. split.
  - cbn [roomy qj all_items vj]. repeat split.
    + eexists. split; [reflexivity|]. cbn [shp dat]. split; [reflexivity|]. split; [reflexivity|].
      intros i Hi. change (prod (folded_shape n01)) with 1%nat. change (prod [2%nat]) with 2%nat in Hi.
      replace (slice [fhalf; fhalf] (i * 1) 1) with [fhalf] by (destruct i as [|[|i]]; [reflexivity|reflexivity|lia]).
      exact half_roomy.
    + eexists. split; [reflexivity|]. cbn [shp dat]. split; [reflexivity|]. split; [reflexivity|].
      repeat (constructor; [rewrite Vh; split; auto; lra|]). constructor.
  - change (gaps qj vj) with [gap (bound64 (PyInt 0)) (bound64 (PyInt 1)) fhalf; gap (bound64 (PyInt 0)) (bound64 (PyInt 1)) fhalf; val fhalf; val fhalf; val fhalf; val fhalf].
    unfold gap. rewrite !b0. rewrite (is_ninf_fin _ (proj1 fzero_val)), (proj2 fzero_val), Vh, Rminus_0_r. reflexivity.
Qed.

Lemma vd_roomy : roomy qd vd.
Proof.
  cbn [roomy qd vd all_items]. repeat split.
  - eexists. split; [reflexivity|]. exact half_roomy.
  - eexists. split; [reflexivity|]. cbn [shp dat]. split; [reflexivity|]. split; [reflexivity|].
    constructor; [|constructor]. split; [fint|]. split; intros F; discriminate F.
Qed.
Lemma det64_case : np_contract np_inst /\ usable qd /\ exact_bounds qd /\ numeric_only qd /\ roomy qd vd /\ balanced qd vd /\
  flat_length qd (Some false) = Ok (plint 2) /\ (2 <= Z.to_nat 1048576)%nat.
Proof.
  destruct half_val as [Fh Vh]. split; [apply np_inst_ok|]. split.
  { cbn. repeat split; try discriminate; try lia; try lra. repeat constructor; cbn; intuition discriminate. }
  split. { cbn [exact_bounds qd all_items]. repeat split; try apply q64_bounds; apply exact_float; reflexivity. }
  split; [cbn; auto|]. split; [apply vd_roomy|]. split.
  - cbn [balanced qd vd all_items]. split; [|split; [|exact I]].
    + intros w E. inversion E; subst w. cbn [balanced n01 dat]. intros _ _. constructor; [|constructor]. rewrite b0, b1, Vh, (proj2 fzero_val), (proj2 fone_val). lra.
    + intros w E. inversion E; subst w. cbn [balanced]. intros F. discriminate F.
  - split; [reflexivity|]. apply Nat2Z.inj_le. rewrite Z2Nat.id by lia. lia.
Qed.
Lemma raises64_case : roomy qj vj /\ ~ numeric_only qj.
Proof. split; [apply jac64_case|]. cbn. tauto. Qed.

Lemma al_val : fin al /\ val al = - pow2 (-60).
Proof.
  destruct (val_sf al true 4503599627370496 (-112)) as [F V]; [vm_compute; reflexivity|]. split; auto. rewrite V.
  change (-60)%Z with (-112 + 52)%Z. rewrite pm by lia. change (IZR (2 ^ 52)) with 4503599627370496.
  change (IZR (Zneg 4503599627370496)) with (-4503599627370496). lra.
Qed.
Lemma bm1 : fin (bound64 (PyInt (-1))) /\ val (bound64 (PyInt (-1))) = -1.
Proof.
  destruct (val_sf (bound64 (PyInt (-1))) true 4503599627370496 (-52)) as [F V]; [vm_compute; reflexivity|]. split; auto. rewrite V.
  assert (E : pow2 0 = IZR (2 ^ 52) * pow2 (-52)) by (change 0%Z with (-52 + 52)%Z at 1; apply pm; lia). change (pow2 0) with 1 in E.
  change (IZR (2 ^ 52)) with 4503599627370496 in E. change (IZR (Zneg 4503599627370496)) with (-4503599627370496). lra.
Qed.
Lemma lost64_case : np_contract np_inst /\ usable ql /\ exact_bounds ql /\ roomy ql (FArr (mkNd [1%nat] [al])) /\
  fin (bound64 (PyInt (-1))) /\ fin (bound64 (PyInt 0)) /\ (1 <= Z.to_nat 1048576)%nat /\
  pow2 57 * (val (bound64 (PyInt 0)) - val al) <= val al - val (bound64 (PyInt (-1))).
Proof.
  destruct al_val as [Fa Va]. destruct bm1 as [F1 V1]. pose proof (big_pow 100 ltac:(lia)) as P1.
  assert (P60 : 0 < pow2 (-60) <= / 4) by (split; [apply pow2_pos|change (/ 4) with (pow2 (-2)); apply pow2_mono; lia]).
  assert (P100 : pow2 (-100) <= pow2 (-60)) by (apply pow2_mono; lia).
  split; [apply np_inst_ok|]. split. { cbn. split; [discriminate|lra]. }
  split. { split; apply exact_int; reflexivity. } split.
  { split; [reflexivity|]. split; [reflexivity|]. constructor; [|constructor]. split; auto. unfold between. rewrite b0, V1, Va, (proj2 fzero_val).
    split; intros _; lra. }
  split; auto. split; [apply fzero_val|]. split; [apply Nat2Z.inj_le; rewrite Z2Nat.id by lia; lia|].
  rewrite b0, V1, Va, (proj2 fzero_val). replace (0 - - pow2 (-60)) with (pow2 (-60)) by ring. rewrite <- pow2_add.
  change (57 + -60)%Z with (-3)%Z. assert (pow2 (-3) <= / 4) by (change (/ 4) with (pow2 (-2)); apply pow2_mono; lia). lra.
Qed.

Lemma no_blocks_case : roomy (PArr [0%nat] n01 None) (FArr (mkNd [0%nat; 1%nat] [])) /\ prod [0%nat] = 0%nat.
Proof. split; [|reflexivity]. split; [reflexivity|]. split; [reflexivity|]. intros k i Hi. inversion Hi. Qed.
