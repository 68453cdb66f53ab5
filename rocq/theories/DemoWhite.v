(** * Concrete cases for the theorems about curvature in preconditioned coordinates. *)
From Coq Require Import Reals Lra Lia.
From Verif Require Import Base Num Nd Pattern Spec ListFacts NumFacts CholFacts Contract Demo Jac SpecJac JacBase JacMore JacPsd
  FunWrap Optim SpecOptim LinAlg OptimFacts DemoOptim SpecEnd DemoEnd SpecDir SpecSecond TotalDiff SecondFacts SecondProps DemoSecond
  SpecWhite WhiteProps.
Local Open Scope list_scope.
Local Open Scope nat_scope.

(** The function [a^2 + a b + b^2] at [(1, 1)], counting its calls. *)
Definition oval (z : list R) : R := (nth 0 z 0 * nth 0 z 0 + nth 0 z 0 * nth 1 z 0 + nth 1 z 0 * nth 1 z 0)%R.
Definition oval_call (x : list num) (st : nat) : res R * nat := (Ok (oval (fins x)), Datatypes.S st).
Lemma oval_computes : computes 2 oval_call (fun r => r) oval.
Proof. intros x st _. exists (Datatypes.S st). unfold oval_call. assert (fins (map Fin x) = x) as -> by (unfold fins; rewrite map_map, map_id; auto). auto. Qed.
Lemma oval_hessian : has_hessian oval [1; 1]%R [3; 3]%R demo_h.
Proof.
  split; auto. intros eps He. exists 1%R. split; [lra|]. intros z Lz _. do 3 (destruct z as [|? z]; try discriminate).
  match goal with |- (_ <= _ * (distance ?a ?b * _))%R => pose proof (distance_pos a b) as PD; generalize dependent (distance a b) end. intros dist PD.
  unfold dot, quadratic, oval, demo_h, m2. cbn.
  match goal with |- (Rabs ?a <= _)%R => replace a with 0%R by field end.
  rewrite Rabs_R0. apply Rmult_le_pos; [lra|]. apply Rmult_le_pos; auto.
Qed.

Lemma pre_hessian_case : exists s, set_op no_tools (SetMatrix false (fmat 2 demo_a) (Some (fmat 2 demo_b))) = Ok s /\
  is_matvec 2 (unprecondition s) demo_a /\ computes 2 oval_call (fun r => r) oval /\
  unprecondition s (map Fin [0; 1]%R) = Ok (map Fin [1; 1]%R) /\ has_hessian oval [1; 1]%R [3; 3]%R demo_h /\
  Rmat_eq 2 (Rmatmul 2 (Rtrans demo_a) (Rmatmul 2 demo_h demo_a)) (m2 8 6 6 6).
Proof.
  destruct (precond_matrix no_tools false 2 demo_a demo_b _ _ (array_fmat 2 _) (array_fmat 2 _) demo_inverse
    (Some (fmat 2 demo_b))) as (s & Hs & HA & HB & HI); auto.
  exists s. split; auto. split; auto. split; [exact oval_computes|]. split; [|split; [exact oval_hessian|]].
  - rewrite (matvec_times 2 _ demo_a [0; 1]%R HA eq_refl). do 2 f_equal. unfold times. cbn. f_equal; [lra|f_equal; lra].
  - two; flat; unfold demo_a; cbn; lra.
Qed.

Lemma truncated_case : computes 2 oval_call (fun r => r) oval /\ has_hessian oval [1; 1]%R [3; 3]%R demo_h /\
  hessian_array 2 (mkNd [2; 2] (rows_of 2 demo_h)) demo_h /\ orthonormal 2 demo_v /\
  Rmat_eq 2 (with_spectrum 2 demo_v demo_w) (sym_part demo_h) /\
  (forall m, is_array 2 2 (sym_part demo_h) m -> t_eigh eigh_tools m = Ok (vec (fvec 2 demo_w), mkNd [2; 2] (rows_of 2 demo_v))) /\
  (forall i, i < 2 -> (0 < rclamp None (Some 2%R) (demo_w i))%R) /\ (forall i, i < 2 -> (0 < demo_w i)%R) /\
  t_hessian eigh_tools (map Fin [1; 1]%R) = Ok (HDense (mkNd [2; 2] (rows_of 2 demo_h))) /\
  (demo_w 0 / rclamp None (Some 2) (demo_w 0) = 3 / 2)%R.
Proof.
  split; [exact oval_computes|]. split; [exact oval_hessian|]. split; [apply array_rows|]. split; [exact demo_v_ortho|].
  split; [exact demo_spectrum|]. split; [reflexivity|]. split; [|split; [|split; [reflexivity|]]].
  - intros i Hi. unfold rclamp, demo_w, Rmin. destruct i; destruct (Rle_dec _ _); lra.
  - intros i Hi. unfold demo_w. destruct i; lra.
  - unfold rclamp, demo_w, Rmin. destruct (Rle_dec _ _); lra.
Qed.

Lemma ratio_case : (0 < 1 <= 8)%R /\ (rclamp (Some 2) (Some 4) 1 = 2)%R /\ (rclamp (Some 2) (Some 4) 8 = 4)%R.
Proof. unfold rclamp, Rmax, Rmin. repeat destruct (Rle_dec _ _); lra. Qed.

Lemma optimum_case : exists t J K V w, at_psd (jacobian_true psd_ad false) pair_pat pair_value /\
  jacobian psd_ad false pair_pat pair_value = Ok J /\ pulled_form J pair_hessian K /\
  orthonormal 1 V /\ Rmat_eq 1 (with_spectrum 1 V w) (sym_part K) /\
  (forall m, is_array 1 1 (sym_part K) m -> t_eigh t m = Ok (vec (fvec 1 w), mkNd [1; 1] (rows_of 1 V))).
Proof.
  destruct definite_case as (_ & _ & _ & _ & AT & J & K & EJ & HK).
  set (w := fun _ : nat => K 0 0).
  exists (mkTools (fun _ => Err LinAlgError) (fun _ => Err LinAlgError)
    (fun _ => Ok (vec (fvec 1 w), mkNd [1; 1] (rows_of 1 (fun _ _ => 1%R)))) (fun _ => Err LinAlgError)), J, K, (fun _ _ => 1%R), w.
  split; auto. split; auto. split; auto.
  split; [intros i j Hi Hj; assert (i = 0) as -> by lia; assert (j = 0) as -> by lia; unfold Rmatmul, Rtrans, Rid; cbn; lra|].
  split; [|reflexivity].
  intros i j Hi Hj. assert (i = 0) as -> by lia. assert (j = 0) as -> by lia.
  unfold with_spectrum, sym_part, Rmatmul, Rdiag, Rtrans, w. cbn. lra.
Qed.
