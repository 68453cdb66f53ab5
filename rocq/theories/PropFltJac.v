(** * C90: Jacobians and log determinants in float64. *)
From Coq Require Import Reals ZArith.
From Verif Require Import Base Num Nd Pattern Spec Jac SpecJac Flt SpecFlt FltPat SpecFltPat FltJac SpecFltJac
  FltJacLost FltJacProps FltInst DemoFltPat DemoFltJac.
Local Open Scope R_scope.

Theorem C90_jacobian : forall np, np_contract np -> forall ad freeing p v,
  usable p -> exact_bounds p -> no_psd p -> simplexes_nonempty p -> roomy p v ->
  exists m e, pjac64 np freeing p v = Ok m /\ jacobian ad freeing p (exact_value v) = Ok e /\ mat_near freeing (gaps p v) m e /\
    flat_length p (Some freeing) = Ok (plint (r64 m)) /\ flat_length p (Some (negb freeing)) = Ok (plint (c64 m)) /\
    flat_length p (Some false) = Ok (plint (length (gaps p v))).
Proof. exact jac64_accurate. Qed.
Print Assumptions C90_jacobian.

Example C90_jacobian_case : np_contract np_inst /\ usable qj /\ exact_bounds qj /\ no_psd qj /\ simplexes_nonempty qj /\ roomy qj vj /\
  gaps qj vj = [/ 2; / 2; / 2; / 2; / 2; / 2].
Proof. exact jac64_case. Qed.

Theorem C90_log_det : forall np, np_contract np -> forall freeing p v n,
  usable p -> exact_bounds p -> numeric_only p -> roomy p v -> (freeing = false -> balanced p v) ->
  flat_length p (Some false) = Ok (plint n) -> (n <= Z.to_nat 1048576)%nat ->
  exists s r, plog_det64 np freeing p v = Ok s /\ log_abs_det freeing p (exact_value v) = Ok (Fin r) /\ fin s /\
    Rabs (val s - r) <= (if freeing then pow2 (-43) else pow2 (-26)) * INR n + pow2 (-45) * INR n * INR n.
Proof. exact det64_accurate. Qed.
Print Assumptions C90_log_det.

Example C90_log_det_case : np_contract np_inst /\ usable qd /\ exact_bounds qd /\ numeric_only qd /\ roomy qd vd /\ balanced qd vd /\
  flat_length qd (Some false) = Ok (plint 2) /\ (2 <= Z.to_nat 1048576)%nat.
Proof. exact det64_case. Qed.

Theorem C90_raises : forall np freeing p v, roomy p v -> ~ numeric_only p -> plog_det64 np freeing p v = Err NotImplementedError.
Proof. exact det64_raises. Qed.
Print Assumptions C90_raises.

Example C90_raises_case : roomy qj vj /\ ~ numeric_only qj.
Proof. exact raises64_case. Qed.

Theorem C90_log_det_refuted : ~ (forall np, np_contract np -> forall p v n,
  usable p -> exact_bounds p -> numeric_only p -> roomy p v ->
  flat_length p (Some false) = Ok (plint n) -> (n <= Z.to_nat 1048576)%nat ->
  exists s, plog_det64 np false p v = Ok s /\ fin s).
Proof. exact det64_refuted. Qed.
Print Assumptions C90_log_det_refuted.

Theorem C90_lost : forall np, np_contract np -> forall k s lb ub dv fd a, let p := PNum k s lb ub dv fd in
  usable p -> exact_bounds p -> roomy p (FArr a) -> fin (bound64 lb) -> fin (bound64 ub) -> (prod s <= Z.to_nat 1048576)%nat ->
  (exists x, In x (dat a) /\ pow2 57 * (val (bound64 ub) - val x) <= val x - val (bound64 lb)) ->
  plog_det64 np false p (FArr a) = Ok fninf /\ exists r, log_abs_det false p (exact_value (FArr a)) = Ok (Fin r).
Proof. exact det64_lost. Qed.
Print Assumptions C90_lost.

Example C90_lost_case : np_contract np_inst /\ usable ql /\ exact_bounds ql /\ roomy ql (FArr (mkNd [1%nat] [al])) /\
  fin (bound64 (PyInt (-1))) /\ fin (bound64 (PyInt 0)) /\ (1 <= Z.to_nat 1048576)%nat /\
  pow2 57 * (val (bound64 (PyInt 0)) - val al) <= val al - val (bound64 (PyInt (-1))).
Proof. exact lost64_case. Qed.

(** The case of [C90_lost_case] meets the hypotheses. *)
Theorem C90_row_lost : forall np, np_contract np -> forall k s lb ub dv fd a i, let p := PNum k s lb ub dv fd in
  usable p -> exact_bounds p -> roomy p (FArr a) -> fin (bound64 lb) -> fin (bound64 ub) -> (i < length (dat a))%nat ->
  pow2 57 * (val (bound64 ub) - val (nth i (dat a) fnan)) <= val (nth i (dat a) fnan) - val (bound64 lb) ->
  exists m, pjac64 np false p (FArr a) = Ok m /\ forall j, (j < c64 m)%nat -> fin (at64 m i j) /\ val (at64 m i j) = 0.
Proof. exact jac_lost. Qed.
Print Assumptions C90_row_lost.

Theorem C90_no_blocks : forall np freeing p v, roomy p v ->
  match p with PDict [] _ _ _ _ => True | PArr s _ _ => prod s = 0%nat | _ => False end ->
  pjac64 np freeing p v = Err ValueError.
Proof. exact jac64_no_blocks. Qed.
Print Assumptions C90_no_blocks.

Example C90_no_blocks_case : roomy (PArr [0%nat] n01 None) (FArr (mkNd [0%nat; 1%nat] [])) /\ prod [0%nat] = 0%nat.
Proof. exact no_blocks_case. Qed.
