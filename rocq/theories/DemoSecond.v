(** * Concrete cases for the theorems about second-order behaviour. *)
From Coq Require Import Reals Lra Lia String.
From Verif Require Import Base Num Nd Numeric Simplex Psd Pattern Spec ListFacts NumFacts PatFacts NonFree CholFacts Free Contract
  Api Demo Jac SpecJac JacBase JacFacts JacMore JacPsd JacProps PsdDiff FunWrap SpecOptim
  SpecEnd EndFacts GradFacts GradSimp RevPsd SpecRev RevFacts DemoEnd DemoRev SpecDir DirFacts FeasFacts DirProps DemoDir
  SpecSecond TotalDiff UnfreeDiff SecondFacts SecondProps.
Local Open Scope list_scope.
Local Open Scope nat_scope.

(** The bowl has twice the identity as its Hessian. *)
Definition twice (i j : nat) : R := if i =? j then 2%R else 0%R.
Lemma quadratic_twice : forall n h, quadratic n twice h = (2 * Rsum n (fun i => nth i h 0 * nth i h 0))%R.
Proof.
  intros n h. unfold quadratic. rewrite <- Rsum_scal. apply Rsum_ext. intros i Hi. rewrite (Rsum_single n _ i Hi).
  - unfold twice. rewrite Nat.eqb_refl. ring.
  - intros j Hj Hne. unfold twice. destruct (Nat.eqb_spec i j); [lia|]. ring.
Qed.
Lemma bowl_hessian : forall x a, List.length a = List.length x -> has_hessian (bowl x a) x a twice.
Proof.
  intros x a L. split; auto. intros eps He. exists 1%R. split; [lra|]. intros z Lz _.
  rewrite quadratic_twice. unfold bowl, dot. rewrite step_length by auto.
  assert (Rsum (List.length x) (fun i => (nth i z 0 - nth i x 0) * (nth i z 0 - nth i x 0) + nth i a 0 * nth i z 0) -
    Rsum (List.length x) (fun i => (nth i x 0 - nth i x 0) * (nth i x 0 - nth i x 0) + nth i a 0 * nth i x 0) -
    Rsum (List.length x) (fun i => nth i a 0 * nth i (step x z) 0) -
    2 * Rsum (List.length x) (fun i => nth i (step x z) 0 * nth i (step x z) 0) / 2 = 0)%R as ->.
  { assert (forall i, nth i (step x z) 0%R = nth i z 0 - nth i x 0)%R as N by (intros; apply nth_step; auto).
    generalize (List.length x) as n. induction n; cbn [Rsum]; [lra|]. rewrite N. lra. }
  rewrite Rabs_R0. apply Rmult_le_pos; [lra|]. apply Rmult_le_pos; apply distance_pos.
Qed.

Lemma total_case : usable demo /\ simplexes_nonempty demo /\ psds_nonempty demo /\ interior demo demo_value /\
  at_psd (jacobian_true psd_ad false) demo demo_value.
Proof.
  destruct image_case as (A & B & C & D & _). do 4 (split; [assumption|]). apply psd_ad_at; auto.
Qed.

Lemma hessian_case : usable demo /\ simplexes_nonempty demo /\ psds_nonempty demo /\ flat_length demo (Some true) = Ok (plint 10) /\
  (forall w z, admissible demo w -> flatten demo w (Some false) None = Ok (map Fin z) ->
     returns (flat_call demo (bowl demo_entries demo_slope)) w (bowl demo_entries demo_slope z)) /\
  interior demo demo_value /\ flatten demo demo_value (Some false) None = Ok (map Fin demo_entries) /\
  has_hessian (bowl demo_entries demo_slope) demo_entries demo_slope twice /\
  (forall h, feasible demo demo_entries h -> dot demo_slope h = 0%R) /\ ~ zero_vector demo_slope /\
  at_psd (jacobian_true psd_ad false) demo demo_value.
Proof.
  destruct order_case as (U & SN & L & C & I & Fx & _ & _ & N & O). destruct total_case as (_ & _ & PN & _ & AT).
  repeat (split; [assumption|]). split; [apply bowl_hessian; reflexivity|]. auto.
Qed.

(** On the pairs of positive numbers with sum 1 the function [-2 a b] has its minimum in the
    middle, although its Hessian is not positive definite. *)
Definition pair_pat : pat := PSimplex 2 [1] true (Some true).
Definition pair_value : fv num := FArr (mkNd [1; 2] [Fin (1/2); Fin (1/2)]).
Definition pair_objective (z : list R) : R := (-2 * nth 0 z 0 * nth 1 z 0)%R.
Definition pair_hessian (i j : nat) : R := if i =? j then 0%R else (-2)%R.

Lemma pair_direction : forall h, direction pair_pat h -> exists a, h = [a; - a]%R.
Proof.
  intros h (rows & Lr & -> & F). cbn in Lr. destruct rows as [|r [|]]; try discriminate.
  inversion F as [|? ? (L1 & S1) _]; subst. do 3 (destruct r as [|? r]; try discriminate). cbn in S1. cbn.
  exists r0. do 2 f_equal. lra.
Qed.
Lemma pair_quadratic : forall a b, quadratic 2 pair_hessian [a; b]%R = (-4 * a * b)%R.
Proof. intros. unfold quadratic, pair_hessian. cbn. lra. Qed.
Lemma pair_usable : usable pair_pat.
Proof. cbn. lia. Qed.
Lemma pair_interior : interior pair_pat pair_value.
Proof.
  cbn. repeat split; auto; try lia.
  all: try (exists [[1/2; 1/2]]%R; repeat split; auto; repeat constructor; cbn; lra).
Qed.
Lemma pair_flat : flatten pair_pat pair_value (Some false) None = Ok (map Fin [1/2; 1/2]%R).
Proof.
  unfold flatten, flatten_gen. cbn [free_with_default bind].
  rewrite flatten_nonfree; [|apply pair_usable|reflexivity].
  rewrite (interior_require None _ _ pair_usable pair_interior). reflexivity.
Qed.
Lemma pair_feasible : forall h, feasible pair_pat [1/2; 1/2]%R h -> exists a, h = [a; - a]%R.
Proof.
  intros h H. apply pair_direction. apply (feasible_is_direction pair_pat pair_value) in H;
    auto using pair_usable, pair_interior, pair_flat.
Qed.

Lemma pair_case : usable pair_pat /\ simplexes_nonempty pair_pat /\ flat_length pair_pat (Some true) = Ok (plint 1) /\
  (forall w z, admissible pair_pat w -> flatten pair_pat w (Some false) None = Ok (map Fin z) ->
     returns (flat_call pair_pat pair_objective) w (pair_objective z)) /\
  interior pair_pat pair_value /\ flatten pair_pat pair_value (Some false) None = Ok (map Fin [1/2; 1/2]%R) /\
  has_hessian pair_objective [1/2; 1/2]%R [-1; -1]%R pair_hessian /\
  (forall h, feasible pair_pat [1/2; 1/2]%R h -> dot [-1; -1]%R h = 0%R) /\
  (forall h, feasible pair_pat [1/2; 1/2]%R h -> ~ zero_vector h -> (0 < quadratic 2 pair_hessian h)%R) /\
  (quadratic 2 pair_hessian [1; 1]%R < 0)%R.
Proof.
  split; [exact pair_usable|]. split; [cbn; lia|]. split; [reflexivity|].
  split; [intros; apply flat_returns; auto|]. split; [exact pair_interior|]. split; [exact pair_flat|].
  split.
  { split; auto. intros eps He. exists 1%R. split; [lra|]. intros z Lz _. do 3 (destruct z as [|? z]; try discriminate).
    match goal with |- (_ <= _ * (distance ?a ?b * _))%R => pose proof (distance_pos a b) as PD; generalize dependent (distance a b) end. intros dist PD.
    cbn [List.length]. unfold step. cbn [map2]. rewrite pair_quadratic. unfold dot, pair_objective. cbn.
    match goal with |- (Rabs ?a <= _)%R => replace a with 0%R by field end.
    rewrite Rabs_R0. apply Rmult_le_pos; [lra|]. apply Rmult_le_pos; auto. }
  split; [intros h H; destruct (pair_feasible h H) as (a & ->); unfold dot; cbn; ring|].
  split; [|rewrite pair_quadratic; lra].
  intros h H N. destruct (pair_feasible h H) as (a & ->). rewrite pair_quadratic.
  destruct (Req_dec a 0) as [->|Na]; [exfalso; apply N; repeat constructor; ring|].
  pose proof (Rsqr_pos_lt a Na) as K. unfold Rsqr in K. lra.
Qed.

Lemma necessary_case : local_minimum_on (flat_inside demo) (bowl demo_entries demo_slope) demo_entries /\
  has_hessian (bowl demo_entries demo_slope) demo_entries demo_slope twice.
Proof. split; [exact local_case|apply hessian_case]. Qed.

Lemma definite_case : usable pair_pat /\ simplexes_nonempty pair_pat /\ interior pair_pat pair_value /\
  flatten pair_pat pair_value (Some false) None = Ok (map Fin [1/2; 1/2]%R) /\
  at_psd (jacobian_true psd_ad false) pair_pat pair_value /\
  exists J K, jacobian psd_ad false pair_pat pair_value = Ok J /\ pulled_form J pair_hessian K.
Proof.
  destruct pair_case as (U & SN & L & C & Iv & Fx & HH & HO & _). repeat (split; [assumption|]). split; [exact I|].
  destruct (second_order _ _ psd_ad pair_pat 1 pair_value _ _ _ _ U SN L C Iv Fx HH HO I) as (g & H & y & J & K & _ & _ & _ & EJ & HK & _).
  eauto.
Qed.

(** Without stationarity the Hessian is a different one. *)
Lemma hessian_refuted : ~ (forall ad p n v x y gr M Phi H J K,
  usable p -> simplexes_nonempty p -> flat_length p (Some true) = Ok (plint n) ->
  (forall z w u, List.length z = n -> fold p (vec (map Fin z)) (Some true) None = Ok w ->
     flatten p w (Some false) None = Ok (map Fin u) -> H z = Phi u) ->
  interior p v -> flatten p v (Some false) None = Ok (map Fin x) -> flatten p v (Some true) None = Ok (map Fin y) ->
  has_hessian Phi x gr M -> at_psd (jacobian_true ad false) p v ->
  jacobian ad false p v = Ok J -> pulled_form J M K -> exists D, has_hessian H y D K).
Proof.
  intros A. set (v := FArr (mkNd [1] [Fin 1])).
  assert (usable pos_pat) as U by (split; [discriminate|exact I]).
  assert (interior pos_pat v) as Iv.
  { cbn. repeat split; auto. constructor; [|constructor]. cbn. repeat split; auto; try exact I; try lra. exists 1%R. auto. }
  destruct (unfree_map psd_ad pos_pat v U I Iv I) as (J & y & x & G & c & EJ & Fy & Fx & _ & R1 & C1 & Ly & _ & Hc & _).
  cbn in Ly.
  assert (List.length x = 1) as Lx.
  { assert (flatten pos_pat v (Some false) None = Ok (map Fin [1%R])) as E.
    { unfold flatten, flatten_gen. cbn [free_with_default bind]. rewrite flatten_nonfree; [|apply U|reflexivity].
      rewrite (interior_require None _ _ U Iv). reflexivity. }
    rewrite E in Fx. injection Fx as Fx. destruct x as [|x0 [|]]; try discriminate. reflexivity. }
  specialize (A psd_ad pos_pat 1 v x y [1%R] (fun _ _ => 0%R) (fun z => nth 0 z 0%R) (fun z => exp (nth 0 z 0%R)) J (fun _ _ => 0%R)).
  destruct A as (D & _ & P); auto.
  - exact I.
  - intros z w u Lz Fw Fu. destruct z as [|z [|]]; try discriminate. cbn in Fw.
    injection Fw as <-. cbn in Fu. destruct (require_valid _ _ _ _) in Fu; [|discriminate].
    injection Fu as Fu. destruct u as [|u [|]]; try discriminate. injection Fu as <-. cbn. ring.
  - split; auto. intros eps He. exists 1%R. split; [lra|]. intros z Lz _. rewrite Lx in *.
    destruct x as [|x0 [|]]; try discriminate. destruct z as [|z0 [|]]; try discriminate.
    match goal with |- (_ <= _ * (distance ?a ?b * _))%R => pose proof (distance_pos a b) as PD; generalize dependent (distance a b) end. intros dist PD.
    unfold dot, quadratic. cbn. match goal with |- (Rabs ?a <= _)%R => replace a with 0%R by field end.
    rewrite Rabs_R0. apply Rmult_le_pos; [lra|]. apply Rmult_le_pos; auto.
  - exact I.
  - exists c. rewrite R1, C1. split; auto. intros a b _ _. symmetry. apply Rsum_zero. intros. apply Rsum_zero. intros. ring.
  - destruct y as [|y0 [|]]; try discriminate. clear - P.
    pose proof (exp_pos y0) as Pe. destruct (P (exp y0 / 8)%R ltac:(lra)) as (d & Hd & Q).
    set (t := (d / 2)%R). assert (0 < t)%R as Pt by (unfold t; lra).
    assert (forall s, distance [y0] [y0 + s]%R = Rabs s) as Ds.
    { intros s. unfold distance. cbn. rewrite Rplus_0_l. f_equal. ring. }
    pose proof (Q [y0 + t]%R eq_refl ltac:(rewrite Ds, Rabs_right; unfold t; lra)) as Q1.
    pose proof (Q [y0 + - t]%R eq_refl ltac:(rewrite Ds, Rabs_Ropp, Rabs_right; unfold t; lra)) as Q2.
    rewrite Ds in Q1, Q2. rewrite Rabs_Ropp in Q2. rewrite (Rabs_right t) in Q1, Q2 by lra.
    unfold dot, quadratic, step in Q1, Q2. cbn in Q1, Q2. set (g := nth 0 D 0%R) in *. rewrite !exp_plus in Q1, Q2.
    set (s := (t / 2)%R). assert (0 < s)%R as Ps by (unfold s; lra).
    assert (exp t = exp s * exp s)%R as E1 by (rewrite <- exp_plus; f_equal; unfold s; field).
    assert (exp (- t) = / exp s * / exp s)%R as E2 by (rewrite <- !exp_Ropp, <- exp_plus; f_equal; unfold s; field).
    rewrite E1 in Q1. rewrite E2 in Q2. pose proof (exp_ineq1 s ltac:(lra)) as E3.
    set (e := exp s) in *. assert (0 < e)%R as Pe' by apply exp_pos.
    assert (/ e < 1)%R as Pi by (rewrite <- Rinv_1; apply Rinv_lt_contravar; lra).
    assert (e * / e = 1)%R as Ei by (field; lra).
    assert (0 < / e)%R as Pie by (apply Rinv_0_lt_compat; auto).
    set (r := (/ e)%R) in *.
    assert (s * s < (e - r) * (e - r))%R as SS by (apply Rmult_le_0_lt_compat; lra).
    assert ((e - r) * (e - r) = e * e + r * r - 2)%R as SE by (replace 2%R with (2 * (e * r))%R by lra; ring).
    rewrite SE in SS. unfold s in SS.
    assert (exp y0 * (t / 2 * (t / 2)) < exp y0 * (e * e + r * r - 2))%R as F by (apply Rmult_lt_compat_l; auto).
    pose proof (Rle_abs (exp y0 * (e * e) - exp y0 - (0 + g * (y0 + t - y0)) - (0 + (0 + 0 * (y0 + t - y0) * (y0 + t - y0))) / 2)) as L1.
    pose proof (Rle_abs (exp y0 * (r * r) - exp y0 - (0 + g * (y0 + - t - y0)) - (0 + (0 + 0 * (y0 + - t - y0) * (y0 + - t - y0))) / 2)) as L2.
    lra.
Qed.
