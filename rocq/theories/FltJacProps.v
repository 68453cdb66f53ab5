(** * Jacobians and log determinants in float64: the results. *)
From Coq Require Import Reals Lra Lia ZArith.
From Verif Require Import Base Num Nd ListFacts Pattern Spec PatFacts Jac SpecJac
  Flt SpecFlt FltPat SpecFltPat FltJac SpecFltJac FltBase FltJacTree FltJacDet FltJacLost FltInst FltLeaf JacMore DemoJac DemoFltJac.
Local Open Scope R_scope.

Theorem jac64_accurate : forall np, np_contract np -> forall ad freeing p v,
  usable p -> exact_bounds p -> no_psd p -> simplexes_nonempty p -> roomy p v ->
  exists m e, pjac64 np freeing p v = Ok m /\ jacobian ad freeing p (exact_value v) = Ok e /\ mat_near freeing (gaps p v) m e /\
    flat_length p (Some freeing) = Ok (plint (r64 m)) /\ flat_length p (Some (negb freeing)) = Ok (plint (c64 m)) /\
    flat_length p (Some false) = Ok (plint (length (gaps p v))).
Proof.
  intros np C ad fr p v U M Np Ps R. destruct (jac_near_all np ad fr C p v U M Np Ps R) as (m & e & E1 & E2 & (S & P & L) & Rr & Cc).
  exists m, e. split; auto. split; auto. split; auto. cbn [b_m b_g b_f b_n] in *.
  assert (Fl : forall f, flat_length p (Some f) = Ok (flat_len p f)) by reflexivity. rewrite !Fl.
  assert (I : forall f, flat_len p f = plint (pl_n (flat_len p f))).
  { intros f. pose proof (usable_int p f U) as K. destruct (flat_len p f) as [n [|]]; [discriminate K|reflexivity]. }
  rewrite (I fr), (I (negb fr)), (I false), L, Rr, Cc. destruct fr; cbn [negb]; auto.
Qed.

Theorem det64_accurate : forall np, np_contract np -> forall freeing p v n,
  usable p -> exact_bounds p -> numeric_only p -> roomy p v -> (freeing = false -> balanced p v) ->
  flat_length p (Some false) = Ok (plint n) -> (n <= Z.to_nat 1048576)%nat ->
  exists s r, plog_det64 np freeing p v = Ok s /\ log_abs_det freeing p (exact_value v) = Ok (Fin r) /\ fin s /\
    Rabs (val s - r) <= (if freeing then pow2 (-43) else pow2 (-26)) * INR n + pow2 (-45) * INR n * INR n.
Proof. intros np C fr. apply (log_det_accurate np fr C). Qed.

Theorem det64_raises : forall np freeing p v, roomy p v -> ~ numeric_only p -> plog_det64 np freeing p v = Err NotImplementedError.
Proof.
  intros np fr p v R N.
  assert (D : forall p, numeric_only p \/ ~ numeric_only p).
  { apply (pat_ind' (fun p => numeric_only p \/ ~ numeric_only p)); cbn [numeric_only]; auto.
    intros items l fl fd lk IH. induction IH as [|[k q] its [Hq|Hq] IH [Hi|Hi]]; cbn [all_items snd] in *; tauto. }
  assert (K : forall p v, roomy p v -> (numeric_only p -> exists s, plog_det64 np fr p v = Ok s) /\
    (~ numeric_only p -> plog_det64 np fr p v = Err NotImplementedError)).
  { apply (pat_ind' (fun p => forall v, roomy p v -> (numeric_only p -> exists s, plog_det64 np fr p v = Ok s) /\
      (~ numeric_only p -> plog_det64 np fr p v = Err NotImplementedError))); cbn [numeric_only plog_det64]; try tauto.
    - intros k s lb ub dv fd [a|d] H; [|destruct H]. split; [eauto|tauto].
    - intros items l fl fd lk IH [a|d] H; [destruct H|]. cbn [roomy] in H. generalize fzero as acc. revert H.
      induction IH as [|[k q] its Hq IH Hi]; intros H acc; cbn [all_items log_det64_items].
      + split; [eauto|tauto].
      + destruct H as [(w & Ew & Rw) H]. cbn [snd] in Hq. destruct (Hq w Rw) as [A B]. rewrite Ew. split.
        * intros [Nq Ni]. destruct (A Nq) as (x & ->). cbn [bind]. apply Hi; auto.
        * intros Nn. destruct (D q) as [Dq|Dq].
          -- destruct (A Dq) as (x & ->). cbn [bind]. apply (Hi H (fadd acc x)). tauto.
          -- rewrite (B Dq). reflexivity. }
  apply (K p v R). auto.
Qed.

(** The exact log determinant is finite where the computed one is not. *)
Lemma roomy_interior : forall k s lb ub dv fd a, usable (PNum k s lb ub dv fd) -> exact_bounds (PNum k s lb ub dv fd) ->
  roomy (PNum k s lb ub dv fd) (FArr a) -> interior (PNum k s lb ub dv fd) (exact_value (FArr a)).
Proof.
  intros k s lb ub dv fd a (Hs & O) (El & Eu) (Sa & Oa & R). cbn [interior exact_value]. split.
  - unfold fits, nd_ok in *. cbn [shp dat]. rewrite map_length. auto.
  - cbn [dat]. apply Forall_map. eapply Forall_impl; [|exact R]. intros x (Fx & Hl & Hu). cbn beta. rewrite (num64_fin x Fx).
    pose proof (pow2_pos (-100)). split; [eexists; reflexivity|]. split.
    + destruct (pyval lb) as [l| | |] eqn:Lb; try exact I; try (destruct (pyval ub); contradiction).
      destruct (exact_fin lb l El Lb) as [Fl Vl]. pose proof (Hl Fl) as [L _]. rewrite Vl in L. cbn. lra.
    + destruct (pyval ub) as [l| | |] eqn:Ub; try exact I; try (destruct (pyval lb); contradiction).
      destruct (exact_fin ub l Eu Ub) as [Fl Vl]. pose proof (Hu Fl) as [L _]. rewrite Vl in L. cbn. lra.
Qed.
Theorem det64_lost : forall np, np_contract np -> forall k s lb ub dv fd a, let p := PNum k s lb ub dv fd in
  usable p -> exact_bounds p -> roomy p (FArr a) -> fin (bound64 lb) -> fin (bound64 ub) -> (prod s <= Z.to_nat 1048576)%nat ->
  (exists x, In x (dat a) /\ pow2 57 * (val (bound64 ub) - val x) <= val x - val (bound64 lb)) ->
  plog_det64 np false p (FArr a) = Ok fninf /\ exists r, log_abs_det false p (exact_value (FArr a)) = Ok (Fin r).
Proof.
  intros np C k s lb ub dv fd a p U E R Fl Fu L X. split; [exact (det_lost np C k s lb ub dv fd a U E R Fl Fu L X)|].
  destruct (inv_num no_ad k s lb ub dv fd _ U (roomy_interior k s lb ub dv fd a U E R)) as (_ & ds & _ & _ & _ & _ & _ & K). eauto.
Qed.

(** Without [balanced] the unfreeing log determinant need not even be finite. *)
Theorem det64_refuted : ~ (forall np, np_contract np -> forall p v n,
  usable p -> exact_bounds p -> numeric_only p -> roomy p v ->
  flat_length p (Some false) = Ok (plint n) -> (n <= Z.to_nat 1048576)%nat ->
  exists s, plog_det64 np false p v = Ok s /\ fin s).
Proof.
  intros H. destruct lost64_case as (C & U & E & R & F0 & F1 & L & G).
  destruct (H np_inst C ql (FArr (mkNd [1%nat] [al])) 1%nat U E I R eq_refl L) as (s & Es & Fs).
  change ql with (PNum KArray [1%nat] (PyInt (-1)) (PyInt 0) true None) in Es.
  rewrite (det_lost np_inst C KArray [1%nat] (PyInt (-1)) (PyInt 0) true None (mkNd [1%nat] [al]) U E R F0 F1 L) in Es.
  - inversion Es; subst s. discriminate Fs.
  - exists al. split; [left; reflexivity|exact G].
Qed.

Theorem jac64_no_blocks : forall np freeing p v, roomy p v ->
  match p with PDict [] _ _ _ _ => True | PArr s _ _ => prod s = 0%nat | _ => False end ->
  pjac64 np freeing p v = Err ValueError.
Proof.
  intros np fr [k s lb ub dv fd|n s dv fd|sz fl dlb dv fd|s b fd|items l fl fd lk] [a|d] R H; try contradiction.
  - destruct R as (Sa & _). cbn [pjac64]. rewrite Sa, shape_eqb_refl. cbn [negb].
    replace (indices s) with (@nil (list nat)); [reflexivity|]. destruct (indices s) eqn:E; auto. pose proof (indices_length s) as L. rewrite E in L. cbn in L. lia.
  - destruct items; [reflexivity|destruct H].
Qed.
