(** * Concrete cases for the validation theorems. *)
From Coq Require Import Reals Lra String.
From Verif Require Import Base Num Nd Numeric Simplex Psd Pattern Spec SpecValid ListFacts PatFacts
  NonFree NumFacts CholFacts Free Contract Build Demo Valid.
Local Open Scope list_scope.
Local Open Scope nat_scope.

(** As [demo_value] but 'num' leaves its bounds. *)
Definition demo_invalid : fv num :=
  FDict [(ks "num", FArr (mkNd [2] [Fin (1/2); Fin 2]));
         (ks "simp", FArr (mkNd [2; 2] [Fin (1/2); Fin (1/2); Fin (1/3); Fin (2/3)]));
         (ks "cov", FArr (mkNd [2; 2] [Fin 3; Fin 1; Fin 1; Fin 3]));
         (ks "arr", FArr (mkNd [2; 1] [Fin 5; Fin (-2)]));
         (ks "sub", FDict [(ks "x", FArr (mkNd [] [Fin 7]))])].

Lemma demo_valid_case : usable demo /\ fv_ok demo_value /\ valid demo demo_value /\
  fv_ok demo_invalid /\ ~ valid demo demo_invalid.
Proof.
  split; [exact demo_usable|]. split; [exact demo_value_ok|].
  split; [apply validate_iff; [exact demo_usable|exact demo_value_ok|];
          apply interior_valid; [exact demo_usable|exact demo_interior]|].
  split; [simpl; unfold nd_ok; simpl; tauto|].
  unfold demo, demo_invalid. cbn [valid all_items]. intros ((w & E & H) & _).
  simpl in E. inversion E; subst w. clear E. simpl in H. destruct H as (_ & H).
  inversion H as [|? ? _ H1]; subst. inversion H1 as [|? ? [E|(_ & E)] _]; subst; [discriminate|].
  unfold nle in E. simpl in E. destruct E as [E|(E & _)]; [lra|]. inversion E. lra.
Qed.

Lemma d_two_case : usable d_two /\
  validate snum d_two (FArr (mkNd [3] [Fin 5; Fin 2; Fin 3])) (Some true) = Ok None.
Proof.
  split; [exact d_two_usable|]. apply validate_iff; [exact d_two_usable|reflexivity|].
  simpl. split; [split; [reflexivity|auto]|].
  apply Forall_forall. intros x Hx. right. unfold nle.
  simpl in Hx. destruct Hx as [<- | [<- | [<- | []]]]; simpl; split;
    ((left; lra) || (right; split; [f_equal; lra|discriminate])).
Qed.

Lemma demo_raises_case : exists d w,
  validate snum d_num (FArr (mkNd [2] [Fin (1/2); Fin (1/4)])) (Some true) = Ok None /\
  validate snum d_simp (FArr w) (Some true) = Err ValueError /\
  validate snum demo (FDict d) (Some true) = Err ValueError /\
  validate snum d_arr (FArr (mkNd [5] (repeat (Fin 0) 5))) (Some true) = Ok (Some MsgDims).
Proof.
  assert (validate snum d_num (FArr (mkNd [2] [Fin (1/2); Fin (1/4)])) (Some true) = Ok None) as H1.
  { apply interior_valid; [simpl; split; [discriminate|lra]|]. simpl. split; [split; [reflexivity|auto]|].
    repeat constructor; try (eexists; reflexivity); simpl; lra. }
  exists [(ks "num", FArr (mkNd [2] [Fin (1/2); Fin (1/4)])); (ks "simp", FArr (mkNd [3] [Fin 0; Fin 0; Fin 1]))],
    (mkNd [3] [Fin 0; Fin 0; Fin 1]).
  split; auto. split; [reflexivity|]. split; [|reflexivity].
  unfold demo. cbn [validate validate_items].
  change (dict_get _ (ks "num")) with (Some (FArr (mkNd [2] [Fin (1/2); Fin (1/4)]))).
  cbv beta iota. rewrite H1. reflexivity.
Qed.
