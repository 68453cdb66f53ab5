(** * Cases meeting the hypotheses of PropFltPat.v. *)
From Coq Require Import Reals Lra Lia ZArith Floats.SpecFloat.
From Flocq Require Import Core IEEE754.BinarySingleNaN.
From Verif Require Import Base Num Nd ListFacts Pattern Spec NumFacts Flt SpecFlt FltMat SpecFltMat FltChol SpecFltChol FltPat SpecFltPat
  FltBase FltExp FltNum FltNum2 FltInst FltSimp FltCholProps FltLeaf DemoFlt DemoFltMat DemoFltChol FltFlatLeaf FltPatValid.
Local Open Scope R_scope.

(** A dictionary of an array of numbers in [0, 1], a simplex, a 1 x 1 matrix, and an
    unbounded number. *)
Definition n01 : pat := PNum KArray [1%nat] (PyInt 0) (PyInt 1) true None.
Definition q64 : pat :=
  PDict [(KInt 1, PArr [2%nat] n01 None); (KInt 2, PSimplex 2 [] true None);
         (KInt 3, PPsd 1 1 (PyInt 0) true None);
         (KInt 4, PNum KArray [1%nat] (PyFloat (S754_infinity true)) (PyFloat (S754_infinity false)) true None)]
    (plint 6) (plint 5) None false.
Definition x64 : list f64 := [fint 2; fint (-7); fint 5; fint 1; fint 3].
Definition fhalf : f64 := flit 1 (-1).
Definition v64 : fv f64 :=
  FDict [(KInt 1, FArr (mkNd [2%nat; 1%nat] [fhalf; fhalf])); (KInt 2, FArr (mkNd [2%nat] [fhalf; fhalf]));
         (KInt 3, FArr (mkNd [1%nat; 1%nat] [fint 1])); (KInt 4, FArr (mkNd [1%nat] [fint 3]))].

Lemma half_val : fin fhalf /\ val fhalf = / 2.
Proof.
  destruct (val_sf fhalf false 4503599627370496 (-53)) as [F V]; [vm_compute; reflexivity|]. split; auto.
  rewrite V. change (pow2 (-53)) with u. rewrite u_val. lra.
Qed.

Lemma q64_usable : usable q64.
Proof.
  cbn. repeat split; try discriminate; try lia; try lra.
  - repeat constructor; cbn; intuition discriminate.
  - exists 0. split; [reflexivity|lra].
Qed.
Lemma b0 : bound64 (PyInt 0) = fzero. Proof. reflexivity. Qed.
Lemma b1 : bound64 (PyInt 1) = fone. Proof. reflexivity. Qed.
Lemma num_fin : forall x, fin x -> num64 x = Fin (val x). Proof. intros. apply num64_fin. auto. Qed.
Lemma q64_modest : modest q64.
Proof.
  assert (P : 2 <= pow2 11) by (rewrite pow2_Z by lia; change (IZR (2 ^ 11)) with 2048; lra).
  pose proof (big_pow 1000 ltac:(lia)) as P2.
  assert (E0 : exact_bound (PyInt 0)).
  { unfold exact_bound. rewrite b0, num_fin by apply fzero_val. rewrite (proj2 fzero_val). reflexivity. }
  assert (E1 : exact_bound (PyInt 1)).
  { unfold exact_bound. rewrite b1, num_fin by apply fone_val. rewrite (proj2 fone_val). reflexivity. }
  cbn [modest q64 all_items n01]. rewrite !b0, !b1, (proj2 fzero_val), (proj2 fone_val), Rabs_R0, Rabs_R1.
  assert (Z : forall s, Rabs (val (bound64 (PyFloat (S754_infinity s)))) = 0) by (intros s; apply Rabs_R0).
  rewrite !Z.
  assert (1 <= Z.to_nat 1000000)%nat by (apply Nat2Z.inj_le; rewrite Z2Nat.id by lia; lia).
  assert (2 <= 1001)%nat by lia.
  repeat split; auto; lra.
Qed.
Lemma q64_unit : unit_bounds q64.
Proof. cbn [unit_bounds q64 all_items n01]. repeat split; auto. Qed.
Lemma x64_small : small64 x64.
Proof. unfold small64, x64. repeat (constructor; [split; fint; apply Rabs_le_both; lra|]). constructor. Qed.

Lemma fold64_case : np_contract np_inst /\ gram_contract gram_inst /\ usable q64 /\ modest q64 /\ unit_bounds q64 /\
  flat_length q64 (Some true) = Ok (plint (length x64)) /\ small64 x64.
Proof.
  split; [apply np_inst_ok|]. split; [apply gram_inst_ok|]. split; [apply q64_usable|]. split; [apply q64_modest|].
  split; [apply q64_unit|]. split; [reflexivity|apply x64_small].
Qed.
Lemma wrong64_case : usable q64 /\ flat_length q64 (Some true) <> Ok (plint (length (fint 9 :: x64))).
Proof. split; [apply q64_usable|]. cbn. intros H. inversion H. Qed.

Lemma v64_roomy : roomy q64 v64.
Proof.
  destruct half_val as [Fh Vh].
  assert (P : pow2 (-100) <= / 4).
  { change (/ 4) with (pow2 (-2)). apply pow2_mono. lia. }
  pose proof (big_pow 100 ltac:(lia)) as P1. pose proof (big_pow 80 ltac:(lia)) as P2. pose proof (big_pow 400 ltac:(lia)) as P4.
  assert (P8 : pow2 (-800) <= / 4) by (change (/ 4) with (pow2 (-2)); apply pow2_mono; lia).
  cbn [roomy q64 all_items v64 n01].
  assert (Hh : forall i, (i < 2)%nat -> slice [fhalf; fhalf] (i * 1) 1 = [fhalf]).
  { intros i Hi. destruct i as [|[|i]]; [reflexivity|reflexivity|lia]. }
  repeat split; try reflexivity; try lia.
  - eexists. split; [reflexivity|]. cbn [shp dat]. split; [reflexivity|]. split; [reflexivity|].
    intros i Hi. change (prod (folded_shape (PNum KArray [1%nat] (PyInt 0) (PyInt 1) true None))) with 1%nat.
    change (prod [2%nat]) with 2%nat in Hi. rewrite Hh by auto. split; [reflexivity|]. split; [reflexivity|].
    constructor; [|constructor]. rewrite b0, b1. unfold between. rewrite (proj2 fzero_val), (proj2 fone_val), Vh.
    split; auto. split; intros _; lra.
  - eexists. split; [reflexivity|]. cbn [shp dat]. split; [reflexivity|]. split; [reflexivity|].
    constructor; [rewrite Vh; split; auto; lra|]. constructor; [rewrite Vh; split; auto; lra|]. constructor.
  - eexists. split; [reflexivity|]. cbn [shp dat]. split; [reflexivity|]. split; [reflexivity|].
    assert (Z : forall i, (i < 1)%nat -> i = 0%nat) by (intros; lia). rewrite b0. split.
    + split; [apply Nat2Z.inj_le; rewrite Z2Nat.id by lia; lia|]. split; [apply fzero_val|]. split; [|split].
      * intros i j Hi Hj. rewrite (Z i Hi), (Z j Hj). cbn [Nat.mul Nat.add nth]. fint.
      * intros i j Hi Hj Ne. rewrite (Z i Hi), (Z j Hj) in Ne. congruence.
      * intros i Hi. rewrite (Z i Hi). cbn [Nat.mul Nat.add nth]. rewrite (proj2 fzero_val). fint. lra.
    + intros i Hi. rewrite (Z i Hi). cbn [Nat.mul Nat.add nth]. rewrite (proj2 fzero_val). fint. lra.
  - eexists. split; [reflexivity|]. cbn [shp dat]. split; [reflexivity|]. split; [reflexivity|].
    constructor; [|constructor]. split; [fint|]. split; intros F; discriminate F.
Qed.

Definition yhalf (np : np64) : f64 := fsub (np_log np (fsub fhalf fzero)) (np_log np (fsub fone fhalf)).
Definition yone (np : np64) : f64 := fsub (fadd (np_log np fone) fone) fone.
Definition y64 (np : np64) : list f64 :=
  [yhalf np; yhalf np; fsub (np_log np fhalf) (np_log np fhalf); yone np; fint 3].

Lemma one_root : fcols (less_diag64 fzero (mat64 1 [fint 1])) 1 0%nat 0%nat = fone.
Proof. apply B2SF_inj. vm_compute. reflexivity. Qed.
Lemma one_chol : chol_inst 1%nat (less_diag64 fzero (mat64 1 [fint 1])) = Some (fcols (less_diag64 fzero (mat64 1 [fint 1])) 1).
Proof.
  unfold chol_inst. match goal with |- (if ?b then _ else _) = _ => replace b with true; [reflexivity|vm_compute; reflexivity] end.
Qed.
Ltac valid := match goal with |- context [pvalid64 ?a ?b ?c ?d] =>
  replace (pvalid64 a b c d) with (Ok (A := verdict) None) by (vm_compute; reflexivity) end.
Lemma flat_n01 : pflatten64 np_inst chol_inst n01 (FArr (mkNd [1%nat] [fhalf])) (Some true) = Ok [yhalf np_inst].
Proof.
  cbn [pflatten64 n01]. valid. cbn [bind dat map]. unfold unconstrain64.
  replace (is_pinf (bound64 (PyInt 1))) with false by (vm_compute; reflexivity).
  replace (is_ninf (bound64 (PyInt 0))) with false by (vm_compute; reflexivity). reflexivity.
Qed.
Lemma flat_a : pflatten64 np_inst chol_inst (PArr [2%nat] n01 None) (FArr (mkNd [2%nat; 1%nat] [fhalf; fhalf])) (Some true)
  = Ok [yhalf np_inst; yhalf np_inst].
Proof.
  cbn [pflatten64]. valid. cbn [bind].
  change (indices [2%nat]) with [[0%nat]; [1%nat]]. cbn [mapM length].
  change (subarr (mkNd [2%nat; 1%nat] [fhalf; fhalf]) [0%nat] 1) with (mkNd [1%nat] [fhalf]).
  change (subarr (mkNd [2%nat; 1%nat] [fhalf; fhalf]) [1%nat] 1) with (mkNd [1%nat] [fhalf]).
  rewrite flat_n01. reflexivity.
Qed.
Lemma flat_s : pflatten64 np_inst chol_inst (PSimplex 2 [] true None) (FArr (mkNd [2%nat] [fhalf; fhalf])) (Some true)
  = Ok [fsub (np_log np_inst fhalf) (np_log np_inst fhalf)].
Proof. cbn [pflatten64]. valid. reflexivity. Qed.
Lemma flat_m : pflatten64 np_inst chol_inst (PPsd 1 1 (PyInt 0) true None) (FArr (mkNd [1%nat; 1%nat] [fint 1])) (Some true)
  = Ok [yone np_inst].
Proof.
  cbn [pflatten64]. valid. cbn [bind dat]. rewrite b0. unfold pack64. rewrite one_chol. f_equal.
  unfold triangle64. cbn [seq flat_map map Nat.add app]. unfold log_diag64. cbn [Nat.eqb]. rewrite one_root. reflexivity.
Qed.
Lemma flat_x : pflatten64 np_inst chol_inst
    (PNum KArray [1%nat] (PyFloat (S754_infinity true)) (PyFloat (S754_infinity false)) true None) (FArr (mkNd [1%nat] [fint 3])) (Some true)
  = Ok [fint 3].
Proof. cbn [pflatten64]. valid. reflexivity. Qed.
Lemma v64_flat : pflatten64 np_inst chol_inst q64 v64 (Some true) = Ok (y64 np_inst).
Proof.
  unfold q64, v64. cbn [pflatten64]. valid. cbn [bind flatten_items dict_get].
  change (key_eqb (KInt 1) (KInt 1)) with true. change (key_eqb (KInt 2) (KInt 1)) with false. change (key_eqb (KInt 3) (KInt 1)) with false.
  change (key_eqb (KInt 4) (KInt 1)) with false. change (key_eqb (KInt 2) (KInt 2)) with true. change (key_eqb (KInt 3) (KInt 2)) with false.
  change (key_eqb (KInt 4) (KInt 2)) with false. change (key_eqb (KInt 3) (KInt 3)) with true. change (key_eqb (KInt 4) (KInt 3)) with false.
  change (key_eqb (KInt 4) (KInt 4)) with true. cbn iota.
  rewrite flat_a, flat_s, flat_m, flat_x. reflexivity.
Qed.

Lemma sub_self : forall a, fin a -> Rabs (val a) <= 1000 -> fin (fsub a a) /\ val (fsub a a) = 0.
Proof.
  intros a F B. destruct (sub_near a a F F) as [Fs Es]; [rewrite Rminus_diag_eq, Rabs_R0 by auto; left; apply pow2_pos|].
  split; auto. rewrite (Rminus_diag_eq (val a) (val a)), Rabs_R0, Rmult_0_r, Rminus_0_r in Es by auto.
  apply Rabs_le_inv in Es. lra.
Qed.
Lemma y64_small : small64 (y64 np_inst).
Proof.
  destruct half_val as [Fh Vh]. pose proof np_inst_ok as C. assert (U : u = / 9007199254740992) by apply u_val.
  assert (P : pow2 (-100) <= / 4) by (change (/ 4) with (pow2 (-2)); apply pow2_mono; lia).
  pose proof (big_pow 100 ltac:(lia)) as P1.
  assert (Lh : Rabs (ln (/ 2)) <= 1).
  { apply (ln_size _ 1); [lia|]. change (pow2 (- (1))) with (/ 2). change (pow2 1) with 2. lra. }
  destruct (log_sub np_inst C fhalf fzero Fh (proj1 fzero_val)) as (_ & _ & F1 & E1).
  { rewrite (proj2 fzero_val), Vh. lra. }
  destruct (log_sub np_inst C fone fhalf (proj1 fone_val) Fh) as (_ & _ & F2 & E2).
  { rewrite (proj2 fone_val), Vh. lra. }
  rewrite (proj2 fzero_val), Vh, Rminus_0_r in E1. rewrite (proj2 fone_val), Vh in E2. replace (1 - / 2) with (/ 2) in E2 by lra.
  assert (Y : fin (yhalf np_inst) /\ Rabs (val (yhalf np_inst)) <= 100).
  { apply Rabs_le_inv in E1, E2. rewrite U in E1, E2. 
    assert (B : Rabs (val (np_log np_inst (fsub fhalf fzero)) - val (np_log np_inst (fsub fone fhalf))) <= 1) by (apply Rabs_le_both; lra).
    destruct (sub_near _ _ F1 F2) as [F E]. { apply small_huge. lra. }
    fold (yhalf np_inst) in F, E. split; auto. rewrite U in E. apply Rabs_le_inv in E. apply Rabs_le_inv in B.
    match type of E with _ <= _ <= _ * ?z => assert (z <= 1) by (apply Rabs_le_both; lra) end. apply Rabs_le_both; lra. }
  assert (S2 : fin (fsub (np_log np_inst fhalf) (np_log np_inst fhalf)) /\ Rabs (val (fsub (np_log np_inst fhalf) (np_log np_inst fhalf))) <= 100).
  { destruct (log_near _ (np_log_ok _ C) fhalf Fh) as [Fl El]; [lra|]. rewrite Vh in El.
    destruct (sub_self (np_log np_inst fhalf) Fl) as [F V].
    - apply Rabs_le_inv in El. assert (pow2 (-50) <= 1) by (change 1 with (pow2 0); apply pow2_mono; lia).
      assert (pow2 (-50) * Rabs (ln (/ 2)) <= 1 * 1) by (apply Rmult_le_compat; auto; [left; apply pow2_pos|apply Rabs_pos]).
      apply Rabs_le_inv in Lh. apply Rabs_le_both; lra.
    - split; auto. rewrite V, Rabs_R0. lra. }
  assert (S3 : fin (yone np_inst) /\ Rabs (val (yone np_inst)) <= 100).
  { destruct (log_near _ (np_log_ok _ C) fone (proj1 fone_val)) as [Fl El]; [rewrite (proj2 fone_val); lra|].
    rewrite (proj2 fone_val), ln_1, Rabs_R0, Rmult_0_r, Rminus_0_r in El. pose proof (Rabs_pos (val (np_log np_inst fone))).
    assert (Vl : val (np_log np_inst fone) = 0) by (apply Rabs_le_inv in El; lra).
    destruct (add_near (np_log np_inst fone) fone Fl (proj1 fone_val)) as [Fa Ea].
    { rewrite Vl, (proj2 fone_val), Rplus_0_l, Rabs_R1. apply small_huge. lra. }
    rewrite Vl, (proj2 fone_val), Rplus_0_l, Rabs_R1 in Ea. rewrite U in Ea. apply Rabs_le_inv in Ea.
    destruct (sub_near _ fone Fa (proj1 fone_val)) as [F E]. { rewrite (proj2 fone_val). apply small_huge. apply Rabs_le_both; lra. }
    fold (yone np_inst) in F, E. split; auto. rewrite (proj2 fone_val), U in E.
    apply Rabs_le_inv in E. match type of E with _ <= _ <= _ * ?z => assert (z <= 1) by (apply Rabs_le_both; lra) end. apply Rabs_le_both; lra. }
  unfold y64, small64. do 4 (constructor; [assumption|]). constructor; [split; fint; apply Rabs_le_both; lra|constructor].
Qed.

Lemma flatten64_case : np_contract np_inst /\ chol_contract chol_inst /\ gram_contract gram_inst /\ usable q64 /\ modest q64 /\
  roomy q64 v64 /\ exists y, pflatten64 np_inst chol_inst q64 v64 (Some true) = Ok y /\ small64 y.
Proof.
  split; [apply np_inst_ok|]. split; [apply chol_inst_ok|]. split; [apply gram_inst_ok|]. split; [apply q64_usable|].
  split; [apply q64_modest|]. split; [apply v64_roomy|]. exists (y64 np_inst). split; [apply v64_flat|apply y64_small].
Qed.

Lemma q64_exact : exact_bounds q64.
Proof.
  pose proof (exact_int 0 ltac:(lia)). pose proof (exact_int 1 ltac:(lia)). cbn [exact_bounds q64 all_items n01].
  pose proof (exact_float (S754_infinity true) eq_refl). pose proof (exact_float (S754_infinity false) eq_refl).
  assert (2 <= 1001)%nat by lia. repeat split; auto.
Qed.
Lemma v64_clear : clear q64 v64.
Proof.
  destruct half_val as [Fh Vh]. assert (P : 1 <= pow2 900) by (change 1 with (pow2 0); apply pow2_mono; lia).
  cbn [clear q64 all_items v64 n01]. repeat split; intros v' E; inversion E; subst; auto.
  intros i Hi. cbn [prod fold_right] in Hi. replace i with 0%nat by lia. change (slice _ _ _) with [fhalf; fhalf].
  unfold clear_row, rsum. cbn [map fold_right]. rewrite Vh. split; [auto|]. split; [lra|]. left. apply Rabs_le_both; lra.
Qed.
Lemma v64_sturdy : sturdy q64 v64.
Proof.
  cbn [sturdy q64 all_items v64 n01]. repeat split; intros v' E;
    try (change (Some (FArr (mkNd [1%nat; 1%nat] [fint 1])) = Some v') in E; assert (v' = FArr (mkNd [1%nat; 1%nat] [fint 1])) by congruence; subst v');
    try (inversion E; subst; auto; fail).
  rewrite b0. intros z. unfold reach, form, sum_to, rsum, shifted. cbn [seq map fold_right nth Nat.eqb Nat.mul Nat.add dat]. fint.
  rewrite (proj2 fzero_val), !Rminus_0_r, sqrt_1. set (x := z 0%nat).
  assert (X: Rabs x * Rabs x = x * x) by (rewrite <- Rabs_mult; apply Rabs_pos_eq, Rle_0_sqr).
  replace ((Rabs x * 1 + 0) * (Rabs x * 1 + 0)) with (x * x) by (rewrite <- X; ring).
  pose proof (Rle_0_sqr x) as Q. unfold Rsqr in Q. change (pow2 (-49)) with (/ 562949953421312). cbn [INR]. nra.
Qed.
Lemma v64_valid : validate s64 q64 v64 (Some true) = Ok None.
Proof.
  rewrite <- (valid_same_all np_inst np_inst_ok (Some true) q64 v64 q64_exact v64_clear). vm_compute. reflexivity.
Qed.
Lemma accepts64_case : np_contract np_inst /\ chol_contract chol_inst /\ usable q64 /\ exact_bounds q64 /\ roomy q64 v64 /\ clear q64 v64 /\
  sturdy q64 v64 /\ validate s64 q64 v64 (Some true) = Ok None.
Proof.
  split; [apply np_inst_ok|]. split; [apply chol_inst_ok|]. split; [apply q64_usable|]. split; [apply q64_exact|]. split; [apply v64_roomy|].
  split; [apply v64_clear|]. split; [apply v64_sturdy|apply v64_valid].
Qed.

(** An array of the wrong shape and one with an entry above the bound. *)
Definition w64 : fv f64 := FArr (mkNd [1%nat; 1%nat] [fhalf]).
Definition h64 : fv f64 := FArr (mkNd [2%nat; 1%nat] [fhalf; fint 2]).
Lemma validate64_case : np_contract np_inst /\ exact_bounds (PArr [2%nat] n01 None) /\ clear (PArr [2%nat] n01 None) w64 /\
  clear (PArr [2%nat] n01 None) h64 /\ validate s64 (PArr [2%nat] n01 None) w64 (Some true) = Ok (Some MsgShape) /\
  validate s64 (PArr [2%nat] n01 None) h64 (Some true) = Ok (Some (MsgAt [1%nat] MsgUpper)).
Proof.
  assert (E : exact_bounds (PArr [2%nat] n01 None)) by apply q64_exact. split; [apply np_inst_ok|]. split; [exact E|].
  assert (Cw : clear (PArr [2%nat] n01 None) w64) by (cbn; auto). assert (Ch : clear (PArr [2%nat] n01 None) h64) by (cbn; auto).
  split; auto. split; auto.
  rewrite <- (valid_same_all np_inst np_inst_ok (Some true) _ w64 E Cw), <- (valid_same_all np_inst np_inst_ok (Some true) _ h64 E Ch).
  split; vm_compute; reflexivity.
Qed.
(** -1/2 and -3. *)
Lemma bounds64_case : SpecFloat.valid_binary 53 1024 (S754_finite true 4503599627370496 (-53)) = true /\ (Z.abs (-3) < 2 ^ 53)%Z.
Proof. split; [reflexivity|lia]. Qed.
