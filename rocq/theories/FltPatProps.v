(** * Whole patterns in float64: the results for the public methods. *)
From Coq Require Import Reals Lra Lia ZArith.
From Flocq Require Import Core IEEE754.BinarySingleNaN.
From Verif Require Import Base Num Nd ListFacts Pattern Spec PatFacts Free Contract Flt SpecFlt FltMat SpecFltMat FltChol SpecFltChol
  FltPat SpecFltPat FltLeaf FltTree FltTreeV FltFlatTree.
Local Open Scope nat_scope.

Lemma pat64_fold : forall np, np_contract np -> forall gram, gram_contract gram ->
  forall p x vv, usable p -> modest p -> flat_length p (Some true) = Ok (plint (length x)) -> small64 x ->
  exists v w, pfold64 np gram p x = Ok v /\ fold p (vec (map num64 x)) (Some true) vv = Ok w /\ leafwise fold_err p v w.
Proof.
  intros np C gram G p x vv U M L S. unfold fold, fold_gen. cbn [free_with_default bind].
  apply (fold_near_all np gram C G vv p x U M); auto. unfold flat_length in L. cbn [free_with_default bind] in L.
  assert (E : flat_len p true = plint (length x)) by congruence. rewrite E. reflexivity.
Qed.

Lemma len_ok : forall p (x : list f64), flat_length p (Some true) = Ok (plint (length x)) -> length x = pl_n (flat_len p true).
Proof.
  intros p x L. unfold flat_length in L. cbn [free_with_default bind] in L.
  assert (E : flat_len p true = plint (length x)) by congruence. rewrite E. reflexivity.
Qed.

Lemma pat64_wrong : forall np gram p x vv, usable p -> flat_length p (Some true) <> Ok (plint (length x)) ->
  exists e, pfold64 np gram p x = Err e /\ fold p (vec (map num64 x)) (Some true) vv = Err e.
Proof.
  intros np gram p x vv U L.
  assert (N : length x <> pl_n (flat_len p true)).
  { intros E. apply L. unfold flat_length. cbn [free_with_default bind]. f_equal. pose proof (usable_int p true U) as I.
    destruct (flat_len p true) as [n f]. cbn [pl_n] in E. cbn in I. subst. reflexivity. }
  unfold fold, fold_gen. cbn [free_with_default bind].
  rewrite fold_wrong_length by (rewrite map_length; auto). eexists. split; [|reflexivity].
  apply Nat.eqb_neq in N. destruct p; cbn [pfold64]; try (cbn [flat_len plint pl_n] in N; rewrite N; reflexivity).
  - cbn [flat_len] in N. rewrite simplex_flen in N. rewrite prod_app. cbn [prod fold_right]. rewrite Nat.mul_1_r, N. reflexivity.
  - rewrite N. reflexivity.
  - cbn [flat_len plint pl_n] in N. cbn [flat_len]. rewrite N. cbn [negb is_dict andb]. destruct (str_ok _); reflexivity.
Qed.

Lemma pat64_valid : forall np, np_contract np -> forall gram, gram_contract gram ->
  forall p x vv, usable p -> modest p -> unit_bounds p -> flat_length p (Some true) = Ok (plint (length x)) -> small64 x ->
  exists v, pfold64 np gram p x = Ok v /\ pvalid64 np p v vv = Ok None.
Proof.
  intros np C gram G p x vv U M B L S. destruct (pat64_fold np C gram G p x vv U M L S) as (v & w & E & _ & _).
  exists v. split; auto. apply (valid_near_all np gram C G vv p x v); auto. apply len_ok. auto.
Qed.

Lemma pat64_flatten : forall np, np_contract np -> forall chol, chol_contract chol ->
  forall p v vv y, usable p -> modest p -> roomy p v -> pflatten64 np chol p v (Some true) = Ok y ->
  flat_length p (Some true) = Ok (plint (length y)) /\ Forall fin y /\
  exists w, fold p (vec (map num64 y)) (Some true) vv = Ok w /\ leafwise flat_err p v w.
Proof.
  intros np C chol H p v vv y U M R E. destruct (flat_near_all np chol C H vv p v y U M R E) as (L & F & W). split; [|split; auto].
  unfold flat_length. cbn [free_with_default bind]. f_equal. pose proof (usable_int p true U) as I.
  destruct (flat_len p true) as [n f]. cbn [pl_n] in L. cbn in I. subst. reflexivity.
Qed.

Lemma pat64_round : forall np, np_contract np -> forall chol, chol_contract chol -> forall gram, gram_contract gram ->
  forall p v vv y, usable p -> modest p -> roomy p v -> pflatten64 np chol p v (Some true) = Ok y -> small64 y ->
  exists v' w, pfold64 np gram p y = Ok v' /\ fold p (vec (map num64 y)) (Some true) vv = Ok w /\
    leafwise flat_err p v w /\ leafwise fold_err p v' w.
Proof.
  intros np C chol H gram G p v vv y U M R E S. destruct (pat64_flatten np C chol H p v vv y U M R E) as (L & F & w & Ew & Lw).
  destruct (pat64_fold np C gram G p y vv U M L S) as (v' & w' & Ev & Ew' & Lv). assert (w' = w) by congruence. subst w'.
  exists v', w. auto.
Qed.
