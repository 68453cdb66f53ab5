(** * Concrete cases for the Jacobian theorems about PSD members. *)
From Coq Require Import Reals Lra Lia String.
From Verif Require Import Base Num Nd Pattern Spec Demo Jac SpecJac JacPsd DemoJac PsdDiff AlongFacts.
Local Open Scope list_scope.
Local Open Scope nat_scope.

(** The oracle with symmetrised columns meets the assumptions at the demo
    value; the direction changes every member and keeps [cov] symmetric. *)
Definition demo_direction : list R := [1; 0; 1; -1; 0; 2; 5; 2; 2; 7; 1; 1; -3]%R.
Lemma along_case :
  usable demo /\ simplexes_nonempty demo /\ interior demo demo_value /\ ~ no_psd demo /\
  (exists ad, at_psd (jacobian_on_symmetric ad) demo demo_value /\
              at_psd (jacobian_true ad false) demo demo_value) /\
  tangent demo demo_direction.
Proof.
  split; [exact demo_usable|]. split; [simpl; repeat split; lia|]. split; [exact demo_interior|].
  split; [simpl; tauto|]. split.
  - destruct symmetrised_accepted as (ad & H).
    destruct (H demo demo_value demo_usable demo_interior) as (A & B & _). exists ad. auto.
  - eexists. split; [reflexivity|]. cbn [demo at_psd all_items].
    repeat match goal with |- _ /\ _ => split end; auto; intros w Hw; injection Hw as <-;
      try exact I; cbn [at_psd all_items d_sub d_arr d_num d_simp d_cov].
    + intros i j Hi Hj. assert (i = 0 \/ i = 1) as [-> | ->] by lia;
        assert (j = 0 \/ j = 1) as [-> | ->] by lia; reflexivity.
    + intros it _. exact I.
    + split; auto.
Qed.
Lemma partials_case :
  usable demo /\ interior demo demo_value /\ ~ no_psd demo /\
  exists ad, at_psd (jacobian_true ad true) demo demo_value.
Proof.
  split; [exact demo_usable|]. split; [exact demo_interior|]. split; [simpl; tauto|].
  destruct psd_differentiable as (ad & H). exists ad. apply H; [exact demo_usable|exact demo_interior].
Qed.
(** The symmetrised Jacobian of the two by two member of the demo. *)
Lemma symmetrised_case :
  2 <= 2 /\ usable d_cov /\ interior d_cov (FArr (mkNd [2; 2] [Fin 3; Fin 1; Fin 1; Fin 3])) /\
  exists ad J, jacobian ad true d_cov (FArr (mkNd [2; 2] [Fin 3; Fin 1; Fin 1; Fin 3])) = Ok J /\
    forall k i j, k < 3 -> i < 2 -> j < 2 -> m_at J k (i * 2 + j) = m_at J k (j * 2 + i).
Proof.
  pose proof demo_usable as Hu. unfold demo in Hu. cbn [usable all_items] in Hu.
  destruct Hu as (_ & _ & _ & _ & _ & _ & Hu & _).
  pose proof demo_interior as (_ & _ & (w & Hw & Hi) & _). injection Hw as <-.
  split; [lia|]. split; [exact Hu|]. split; [exact Hi|].
  destruct symmetrised_accepted as (ad & H). destruct (H _ _ Hu Hi) as (A & _ & B).
  destruct A as (J & x & y & HJ & _). exists ad, J. split; [exact HJ|].
  intros k i j _ Hi' Hj. exact (B _ _ _ _ _ J eq_refl HJ k i j Hi' Hj).
Qed.
