(** * Concrete cases with infinite free values. *)
From Coq Require Import Reals Lra String.
From Verif Require Import Base Num Nd Numeric Simplex Psd Pattern Spec SpecBound ListFacts PatFacts
  NonFree NumFacts CholFacts Free Contract Build Api BoundFacts BoundTree BoundLost Demo.
Local Open Scope list_scope.
Local Open Scope nat_scope.

(** Numbers in [0,1], two simplexes, a PSD matrix, an array of numbers above -3 and an
    unbounded number. *)
Definition edge_free : list num :=
  [NInf; Fin 1; NInf; Fin 2; Fin 0; Fin 1; Fin 0; PInf; NInf; NInf].

Ltac lows := repeat (apply Forall_cons; [first [right; reflexivity | left; eexists; reflexivity]|]); apply Forall_nil.

Lemma edge_free_case : usable demo /\ boundary_free demo edge_free.
Proof.
  split; [exact demo_usable|]. unfold demo, edge_free. cbn [boundary_free snd].
  exists [NInf; Fin 1]. eexists. split; [reflexivity|]. split.
  { simpl. split; auto. repeat constructor; discriminate. }
  exists [NInf; Fin 2]. eexists. split; [reflexivity|]. split.
  { simpl. split; auto. lows. }
  exists [Fin 0; Fin 1; Fin 0]. eexists. split; [reflexivity|]. split.
  { simpl. split; auto. repeat (apply Forall_cons; [eexists; reflexivity|]). apply Forall_nil. }
  exists [PInf; NInf]. eexists. split; [reflexivity|]. split.
  { simpl. split; auto. intros i Hi. assert (i = 0 \/ i = 1) as [-> | ->] by lia; simpl; split; auto;
      repeat constructor; try discriminate; intros _; right; reflexivity. }
  exists [NInf]. eexists. split; [reflexivity|]. split.
  { simpl. exists [NInf], []. repeat split; auto. repeat constructor; discriminate. }
  reflexivity.
Qed.

Definition edge_value : fv num :=
  FDict [(ks "num", FArr (mkNd [2] [Fin 0; Fin (1/4)]));
         (ks "simp", FArr (mkNd [2; 2] [Fin 1; Fin 0; Fin (1/3); Fin (2/3)]));
         (ks "cov", FArr (mkNd [2; 2] [Fin 3; Fin 1; Fin 1; Fin 3]));
         (ks "arr", FArr (mkNd [2; 1] [PInf; Fin (-3)]));
         (ks "sub", FDict [(ks "x", FArr (mkNd [] [NInf]))])].

Ltac ext := split; [discriminate|]; simpl; repeat split; try lra; try tauto;
  try (intros _ (? & ?); discriminate); try (intros (? & ?); discriminate);
  try (intros _ _ ?E; inversion E; lra).

Lemma edge_value_case : usable demo /\ boundary_value demo edge_value /\ ~ interior demo edge_value.
Proof.
  split; [exact demo_usable|]. split.
  - unfold demo, edge_value. cbn [boundary_value all_items].
    pose proof demo_interior as D. unfold demo, demo_value in D. cbn [interior all_items] in D.
    destruct D as (_ & _ & (w & Ew & Dc) & _). inversion Ew; subst w.
    repeat match goal with |- _ /\ _ => split end; auto.
    + eexists; split; [reflexivity|]. simpl. split; [split; [reflexivity|auto]|].
      repeat (apply Forall_cons; [ext; fail|]); apply Forall_nil.
    + eexists; split; [reflexivity|]. simpl. split; auto.
      exists [[1; 0]; [1/3; 2/3]]%R. split; auto. split; auto.
      apply Forall_cons; [|apply Forall_cons; [|apply Forall_nil]]; (split; [reflexivity|]).
      * split; [|simpl; lra]. exists 1%R, [0%R]. repeat split; try lra. repeat constructor; lra.
      * split; [|simpl; lra]. exists (1/3)%R, [(2/3)%R]. repeat split; try lra. repeat constructor; lra.
    + eexists; split; [reflexivity|]. exact Dc.
    + eexists; split; [reflexivity|]. cbn [boundary_value d_arr]. split; [reflexivity|]. split; [reflexivity|].
      intros i Hi. cbn in Hi. assert (i = 0 \/ i = 1) as [-> | ->] by lia; simpl;
        (split; [split; [reflexivity|auto]|]); repeat (apply Forall_cons; [ext; fail|]); apply Forall_nil.
    + eexists; split; [reflexivity|]. simpl. split; auto. eexists; split; [reflexivity|].
      split; [split; [reflexivity|auto]|]. repeat (apply Forall_cons; [ext; fail|]); apply Forall_nil.
  - intros H. unfold demo, edge_value in H. cbn [interior all_items] in H.
    destruct H as ((w & Ew & H) & _). inversion Ew; subst w. simpl in H. destruct H as (_ & H).
    inversion H as [|? ? (_ & H1 & _) _]; subst. simpl in H1. lra.
Qed.

(** [scale] in [0, inf): [-inf] stands for the bound itself. *)
Lemma fold_on_bound : fold (PNum KScalar [1] (PyInt 0) py_inf true None) (vec [NInf]) (Some true) None
  = Ok (FArr (mkNd [1] [Fin 0])).
Proof.
  unfold fold, fold_gen. cbn. unfold num_fold_free. cbn.
  replace (0 + IZR 0)%R with 0%R by (simpl; ring). reflexivity.
Qed.

Lemma lost_cases : usable d_num /\ finite (pyval (PyInt 0)) /\ finite (pyval (PyInt 1)) /\
  nth_error [PInf; Fin 0] 0 = Some PInf /\ usable d_simp /\ In PInf (slice [Fin 0; PInf] (1 * (2 - 1)) (2 - 1)) /\
  usable d_cov /\ nth_error [Fin 0; Fin 1; NInf] (1 * (1 + 1) / 2 + 1) = Some NInf /\ ~ finite NInf.
Proof.
  split; [simpl; split; [discriminate|lra]|]. split; [eexists; reflexivity|]. split; [eexists; reflexivity|].
  split; [reflexivity|]. split; [simpl; lia|]. split; [left; reflexivity|].
  split; [simpl; split; auto; exists 1%R; split; auto; lra|]. split; [reflexivity|]. intros (r & E). discriminate.
Qed.

Lemma lse_case : Forall low [NInf; Fin 0; Fin 1] /\ Exists finite [NInf; Fin 0; Fin 1].
Proof.
  split; [lows|].
  right. left. eexists; reflexivity.
Qed.

(** "Folding a free vector always gives a value that satisfies the bounds": with [inf] in a
    number between two bounds it gives NaN, and validation accepts it. *)
Lemma infinite_fold_refuted : ~ (forall p x vv, usable p ->
  flat_length p (Some true) = Ok (plint (length x)) -> ~ In NaN x ->
  exists v, fold p (vec x) (Some true) vv = Ok v /\
    (validate snum p v (Some true) = Ok None -> flatten p v (Some true) (Some true) = Ok x)).
Proof.
  intros H. assert (usable (PNum KScalar [1] (PyInt 0) (PyInt 1) true None)) as U.
  { simpl. split; [discriminate|lra]. }
  destruct (H _ [PInf] (Some true) U) as (v & F & V); [reflexivity| |].
  { simpl. intros [E|[]]. discriminate. }
  destruct (numeric_lost _ _ _ _ _ _ [PInf] (Some true) U) as (a & F' & S & N);
    [eexists; reflexivity|eexists; reflexivity|reflexivity|].
  rewrite F' in F. inversion F; subst v. specialize (N 0 (or_introl eq_refl)).
  destruct a as [s [|y d]]; simpl in S, N; [discriminate|]. inversion N; subst.
  assert (d = []) as ->.
  { unfold fold, fold_gen in F'. cbn in F'. unfold num_fold_free in F'. cbn in F'. inversion F'. auto. }
  assert (validate snum (PNum KScalar [1] (PyInt 0) (PyInt 1) true None) (FArr (mkNd [1] [NaN])) (Some true) = Ok None) as E
    by reflexivity.
  specialize (V E). discriminate.
Qed.

Lemma demo_interior_case : usable demo /\ interior demo demo_value.
Proof. split; [exact demo_usable|exact demo_interior]. Qed.

Lemma off_diagonal_case : usable (PPsd 3 6 (PyInt 0) true None) /\
  length [Fin 0; Fin 0; Fin 0; Fin 0; PInf; Fin 0] = 6 /\
  nth_error [Fin 0; Fin 0; Fin 0; Fin 0; PInf; Fin 0] (2 * (2 + 1) / 2 + 1) = Some PInf /\ ~ finite PInf.
Proof.
  split; [split; [reflexivity|]; exists 0%R; split; [reflexivity|lra]|]. split; [reflexivity|].
  split; [reflexivity|]. intros (r & E). discriminate.
Qed.
