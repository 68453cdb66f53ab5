(** * Objectives in free coordinates. *)
From Coq Require Import Reals NArith Lra Lia.
From Verif Require Import Base Num Nd Pattern Spec ListFacts Jac SpecJac FunWrap Api SpecOptim LinAlg
  Optim Random SpecEnd.
Local Open Scope list_scope.
Local Open Scope nat_scope.

(** ** The bijection *)

Lemma map_Fin_inj : forall x y, map Fin x = map Fin y -> x = y.
Proof.
  induction x as [|a x IH]; intros [|b y] H; try discriminate H; auto.
  injection H as H1 H2. f_equal; auto.
Qed.

Lemma fold_admissible : forall p x n, usable p -> flat_length p (Some true) = Ok (plint n) -> length x = n ->
  exists v, admissible p v /\ (forall vv, fold p (vec (map Fin x)) (Some true) vv = Ok v) /\
    (forall vv, flatten p v (Some true) vv = Ok (map Fin x)).
Proof.
  intros p x n U L E. subst n.
  destruct (api_fold_interior p x None U L) as (v & Fv & I & _).
  destruct (api_free_flatten_of_fold p x None None U L) as (v' & Fv' & Fl).
  rewrite Fv in Fv'. injection Fv' as <-.
  assert (A: forall vv, fold p (vec (map Fin x)) (Some true) vv = Ok (canon p v)).
  { intros vv. destruct (api_free_fold_of_flatten p v None vv U I) as (x' & F1 & _ & F2).
    rewrite Fl in F1. injection F1 as F1. apply map_Fin_inj in F1. subst x'. exact F2. }
  assert (C: canon p v = v) by (specialize (A None); rewrite Fv in A; injection A; auto).
  exists v. repeat split; auto.
  - intros vv. rewrite A, C. reflexivity.
  - intros vv. destruct (api_free_flatten_of_fold p x None vv U L) as (v' & Fv' & Fl').
    rewrite Fv in Fv'. injection Fv' as <-. exact Fl'.
Qed.

Lemma admissible_unique : forall p v n, usable p -> flat_length p (Some true) = Ok (plint n) -> admissible p v ->
  exists x, (length x = n /\ fold p (vec (map Fin x)) (Some true) None = Ok v) /\
    forall y, length y = n /\ fold p (vec (map Fin y)) (Some true) None = Ok v -> x = y.
Proof.
  intros p v n U L [I C].
  destruct (api_free_fold_of_flatten p v None None U I) as (x & F1 & L1 & F2).
  rewrite L in L1. injection L1 as L1. rewrite C in F2.
  exists x. split; [auto|]. intros y [Ly Fy].
  destruct (fold_admissible p y n U L Ly) as (w & _ & W1 & W2).
  rewrite W1 in Fy. injection Fy as ->. rewrite W2 in F1. injection F1 as F1. symmetry. apply map_Fin_inj; auto.
Qed.

Lemma fold_bijection : forall p n, usable p -> flat_length p (Some true) = Ok (plint n) ->
  (forall x, length x = n -> exists v, admissible p v /\ fold p (vec (map Fin x)) (Some true) None = Ok v) /\
  (forall v, admissible p v -> exists x, (length x = n /\ fold p (vec (map Fin x)) (Some true) None = Ok v) /\
     forall y, length y = n /\ fold p (vec (map Fin y)) (Some true) None = Ok v -> x = y).
Proof.
  intros p n U L. split.
  - intros x E. destruct (fold_admissible p x n U L E) as (v & A & F & _). eauto.
  - intros v A. apply admissible_unique; auto.
Qed.

(** ** The wrapped objective *)

Lemma free_call : forall S (f : callable (obj R) S) p, exists g, free_objective f p = Ok g /\
  forall x v r, fold p (vec (map Fin x)) (Some true) None = Ok v -> returns f v r ->
    returns g (FArr (vec (map Fin x))) r.
Proof.
  intros S f p. eexists. split; [reflexivity|].
  intros x v r F C s. destruct (C s) as (s1 & E). exists s1. rewrite <- E.
  cbn -[fold vec]. rewrite F. reflexivity.
Qed.

Lemma free_minimisers : forall S (f : callable (obj R) S) p n (F : fv num -> R),
  usable p -> flat_length p (Some true) = Ok (plint n) ->
  (forall v, admissible p v -> returns f v (F v)) ->
  exists g (H : list R -> R), free_objective f p = Ok g /\
    (forall x, length x = n -> returns g (FArr (vec (map Fin x))) (H x)) /\
    forall x v, length x = n -> fold p (vec (map Fin x)) (Some true) None = Ok v ->
      H x = F v /\
      ((forall y, length y = n -> (H x <= H y)%R) <-> (forall w, admissible p w -> (F v <= F w)%R)).
Proof.
  intros S f p n F U L C.
  destruct (free_call S f p) as (g & G1 & G2).
  exists g, (fun x => match fold p (vec (map Fin x)) (Some true) None with Ok v => F v | Err _ => 0%R end).
  split; [exact G1|]. split.
  - intros x E. destruct (fold_admissible p x n U L E) as (v & A & Fv & _). rewrite Fv.
    eapply G2; eauto.
  - intros x v E Fv. rewrite Fv. split; [reflexivity|]. split; intros M.
    + intros w A. destruct (admissible_unique p w n U L A) as (y & (Ly & Fy) & _).
      specialize (M y Ly). rewrite Fy in M. exact M.
    + intros y Ly. destruct (fold_admissible p y n U L Ly) as (w & A & Fw & _). rewrite Fw. auto.
Qed.

(** ** Preconditioning *)

Lemma pre_minimisers : forall S (f : list num -> S -> res R * S) s n (H : list R -> R),
  mutually_inverse n (unprecondition s) (precondition s) ->
  (forall x st, length x = n -> exists st', f (map Fin x) st = (Ok (H x), st')) ->
  (forall z, length z = n -> exists x, length x = n /\ unprecondition s (map Fin z) = Ok (map Fin x)) ->
  (forall x, length x = n -> exists z, length z = n /\ precondition s (map Fin x) = Ok (map Fin z)) ->
  exists K : list R -> R,
    (forall z st, length z = n -> exists st', pre_call f s (map Fin z) st = (Ok (K z), st')) /\
    forall z x, length z = n -> length x = n -> unprecondition s (map Fin z) = Ok (map Fin x) ->
      K z = H x /\
      ((forall z', length z' = n -> (K z <= K z')%R) <-> (forall x', length x' = n -> (H x <= H x')%R)).
Proof.
  intros S f s n H I Cf A B.
  exists (fun z => match unprecondition s (map Fin z) with
                   | Ok l => H (map (fun a => match a with Fin r => r | _ => 0%R end) l)
                   | Err _ => 0%R end).
  assert (E: forall x, map (fun a => match a with Fin r => r | _ => 0%R end) (map Fin x) = x).
  { intros x. rewrite map_map, map_id. reflexivity. }
  split.
  - intros z st Lz. destruct (A z Lz) as (x & Lx & Ux). unfold pre_call. rewrite Ux, E. apply Cf; auto.
  - intros z x Lz Lx Ux. rewrite Ux, E. split; [reflexivity|]. split; intros M.
    + intros x' Lx'. destruct (B x' Lx') as (z' & Lz' & Pz').
      assert (Uz': unprecondition s (map Fin z') = Ok (map Fin x')).
      { destruct (I (fun i => nth i x' 0%R)) as (_ & I2).
        rewrite <- Lx', <- fvec_list in I2. rewrite Pz' in I2. cbn [bind] in I2. exact I2. }
      specialize (M z' Lz'). rewrite Uz', E in M. exact M.
    + intros z' Lz'. destruct (A z' Lz') as (x' & Lx' & Ux'). rewrite Ux', E. auto.
Qed.

(** The same for operators that are matrices, as [set_preconditioner_matrix] and
    [set_preconditioner_with_hessian] install. *)
Lemma pre_minimisers_matrix : forall S (f : list num -> S -> res R * S) s n A B (H : list R -> R),
  is_matvec n (unprecondition s) A -> is_matvec n (precondition s) B ->
  mutually_inverse n (precondition s) (unprecondition s) ->
  (forall x st, length x = n -> exists st', f (map Fin x) st = (Ok (H x), st')) ->
  exists K : list R -> R,
    (forall z st, length z = n -> exists st', pre_call f s (map Fin z) st = (Ok (K z), st')) /\
    forall z x, length z = n -> length x = n -> unprecondition s (map Fin z) = Ok (map Fin x) ->
      K z = H x /\
      ((forall z', length z' = n -> (K z <= K z')%R) <-> (forall x', length x' = n -> (H x <= H x')%R)).
Proof.
  intros S f s n A B H HA HB I Cf.
  assert (T: forall g m z, is_matvec n g m -> length z = n ->
             exists x, length x = n /\ g (map Fin z) = Ok (map Fin x)).
  { intros g m z Hg Lz. exists (map (Rmatvec n m (fun i => nth i z 0%R)) (seq 0 n)).
    rewrite map_length, seq_length. split; [reflexivity|].
    rewrite fvec_list, Lz, Hg, map_map. reflexivity. }
  apply pre_minimisers; auto.
  - intros x. destruct (I x) as (I1 & I2). auto.
  - intros z. apply T with A; auto.
  - intros x. apply T with B; auto.
Qed.
