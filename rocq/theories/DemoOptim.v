(** * Concrete cases meeting the hypotheses of the preconditioner and objective
    theorems. *)
From Coq Require Import Reals Lra Lia ZArith.
From Verif Require Import Base Num Nd Spec SpecValid ListFacts NumFacts CholFacts Jac JacBase Optim SpecOptim LinAlg
  OptimFacts OptimHist.
Local Open Scope list_scope.
Local Open Scope nat_scope.

(** The matrix [[a, b], [c, d]]. *)
Definition m2 (a b c d : R) : nat -> nat -> R :=
  fun i j => match i, j with 0, 0 => a | 0, 1 => b | 1, 0 => c | 1, 1 => d | _, _ => 0%R end.
Ltac two := let i := fresh in let j := fresh in let Hi := fresh in let Hj := fresh in
  intros i j Hi Hj; destruct i as [|[|i]]; [| |lia]; (destruct j as [|[|j]]; [| |lia]).

(** *** Preconditioner histories *)
Definition no_tools : tools :=
  mkTools (fun _ => Err LinAlgError) (fun _ => Err LinAlgError) (fun _ => Err LinAlgError)
    (fun _ => Err LinAlgError).
Definition demo_a := m2 2 1 0 1.
Definition demo_b := m2 (1 / 2) (- 1 / 2) 0 1.
Lemma demo_inverse : inverse_matrices 2 demo_a demo_b.
Proof. split; two; cbn; lra. Qed.
(** A matrix, then two calls that raise. *)
Definition demo_ops : list pre_op :=
  [SetIdentity; SetMatrix false (fmat 2 demo_a) (Some (fmat 2 demo_b));
   SetMatrix false (fmat 2 demo_a) None; SetHessian None None None None].
Lemma history_case : exists s, set_op no_tools (SetMatrix false (fmat 2 demo_a) (Some (fmat 2 demo_b))) = Ok s /\
  run_ops no_tools demo_ops = s /\
  unprecondition s (fvec 2 (fun _ => 1%R)) = Ok (fvec 2 (fun i => match i with 0 => 3 | _ => 1 end)%R) /\
  do_op no_tools s (SetHessian None None None None) = (s, Some ValueError) /\
  mutually_inverse 2 (precondition s) (unprecondition s).
Proof.
  destruct (precond_matrix no_tools false 2 demo_a demo_b _ _ (array_fmat 2 _) (array_fmat 2 _) demo_inverse
    (Some (fmat 2 demo_b))) as (s & Hs & HA & HB & HI); auto.
  exists s. split; auto. injection Hs as <-. split; [reflexivity|]. split; [|split; [reflexivity|auto]].
  rewrite HA. f_equal. apply fvec_ext. intros i Hi. destruct i as [|[|i]]; [| |lia]; cbn; lra.
Qed.

(** *** A Hessian with eigenvalues 3 and 1, truncated to at most 2 *)
Definition demo_h := m2 2 1 1 2.
Definition demo_v := m2 (/ sqrt 2) (/ sqrt 2) (/ sqrt 2) (- / sqrt 2).
Definition demo_w : nat -> R := fun i => match i with 0 => 3%R | _ => 1%R end.
Ltac flat := unfold with_spectrum, sym_part, Rmatmul, Rmatvec, Rtrans, Rid, Rdiag, orthonormal;
  cbv [Rsum Nat.eqb m2 demo_v demo_h demo_w].

Lemma half : (/ sqrt 2 * / sqrt 2 = 1 / 2)%R.
Proof. rewrite <- Rinv_mult. rewrite sqrt_sqrt; lra. Qed.
Lemma demo_v_ortho : orthonormal 2 demo_v.
Proof. pose proof half. two; flat; lra. Qed.
Lemma demo_spectrum : Rmat_eq 2 (with_spectrum 2 demo_v demo_w) (sym_part demo_h).
Proof. pose proof half. two; flat; lra. Qed.
(** [eigh] for this matrix only. *)
Definition eigh_tools : tools :=
  mkTools (fun _ => Err LinAlgError) (fun _ => Err LinAlgError)
    (fun _ => Ok (vec (fvec 2 demo_w), mkNd [2; 2] (rows_of 2 demo_v)))
    (fun _ => Ok (HDense (mkNd [2; 2] (rows_of 2 demo_h)))).
Lemma hessian_case : exists s A B, set_op eigh_tools (SetHessian (Some []) None None (rbound (Some 2%R))) = Ok s /\
  is_matvec 2 (unprecondition s) A /\ is_matvec 2 (precondition s) B /\
  mutually_inverse 2 (precondition s) (unprecondition s) /\
  Rmat_eq 2 (Rmatmul 2 B B) (m2 (3 / 2) (1 / 2) (1 / 2) (3 / 2)).
Proof.
  destruct (hessian_preconditioner eigh_tools 2 _ demo_h demo_v demo_w None (Some 2%R) (Some []) None (array_rows 2 demo_h))
    as (s & A & B & Hs & HA & HB & HI & _ & _ & _ & HR).
  - exact demo_v_ortho.
  - reflexivity.
  - intros i Hi. unfold rclamp, demo_w, Rmin. destruct i; destruct (Rle_dec _ _); lra.
  - right. exists []. auto.
  - exists s, A, B. split; auto. split; auto. split; auto. split; auto.
    eapply meq_trans; [exact HR|]. pose proof half. unfold rclamp, demo_w, Rmin.
    two; flat; repeat destruct (Rle_dec _ _); lra.
Qed.
Lemma whitened_case : exists s A, set_op eigh_tools
    (SetHessian None (Some (HDense (mkNd [2; 2] (rows_of 2 demo_h)))) None None) = Ok s /\
  is_matvec 2 (unprecondition s) A /\ symmetric 2 A /\
  Rmat_eq 2 (Rmatmul 2 A (Rmatmul 2 (m2 2 1 1 2) A)) Rid.
Proof.
  destruct (hessian_whitened eigh_tools 2 _ demo_h demo_v demo_w (array_rows 2 demo_h))
    as (s & A & Hs & HA & HS & _ & HR).
  - exact demo_v_ortho.
  - exact demo_spectrum.
  - reflexivity.
  - intros i Hi. unfold demo_w. destruct i; lra.
  - exists s, A. split; auto. split; auto. split; auto. eapply meq_trans; [|exact HR].
    apply mm_ext; [apply meq_refl|]. apply mm_ext; [|apply meq_refl]. two; flat; lra.
Qed.

(** A vector of ones is the matrix of ones, with eigenvalues 2 and 0; a number. *)
Definition ones_w : nat -> R := fun i => match i with 0 => 2%R | _ => 0%R end.
Definition ones_tools : tools :=
  mkTools (fun _ => Err LinAlgError) (fun _ => Err LinAlgError)
    (fun m => if m_rows m =? 2 then Ok (vec (fvec 2 ones_w), mkNd [2; 2] (rows_of 2 demo_v))
              else Ok (vec (fvec 1 (fun _ => 4%R)), mkNd [1; 1] (rows_of 1 (fun _ _ => 1%R))))
    (fun _ => Err LinAlgError).
Lemma odd_hessian_case :
  (exists s A B, set_op ones_tools (SetHessian None (Some (HDense (vec (fvec 2 (fun _ => 1%R))))) (rbound (Some 1%R)) None) = Ok s /\
    is_matvec 2 (unprecondition s) A /\ is_matvec 2 (precondition s) B /\
    Rmat_eq 2 (Rmatmul 2 B B) (m2 (3 / 2) (1 / 2) (1 / 2) (3 / 2))) /\
  (exists s A B, set_op ones_tools (SetHessian None (Some (HDense (mkNd [] [Fin 4]))) None None) = Ok s /\
    is_matvec 1 (unprecondition s) A /\ is_matvec 1 (precondition s) B /\ (B 0%nat 0%nat * B 0%nat 0%nat = 4)%R).
Proof.
  split.
  - destruct (hessian_preconditioner ones_tools 2 (vec (fvec 2 (fun _ => 1%R))) (fun i j => (1 + 1) / 2)%R demo_v ones_w
      (Some 1%R) None None (Some (HDense (vec (fvec 2 (fun _ => 1%R))))))
      as (s & A & B & Hs & HA & HB & HI & _ & _ & _ & HR).
    + apply (array_vector 2 [2] (fun _ => 1%R)). cbn; auto.
    + exact demo_v_ortho.
    + intros m (Hm & _). cbn [t_eigh ones_tools]. rewrite Hm. reflexivity.
    + intros i Hi. unfold rclamp, ones_w, Rmax. destruct i; destruct (Rle_dec _ _); lra.
    + left. auto.
    + exists s, A, B. split; auto. split; auto. split; auto.
      eapply meq_trans; [exact HR|]. pose proof half. unfold rclamp, ones_w, Rmax.
      two; flat; repeat destruct (Rle_dec _ _); lra.
  - destruct (hessian_preconditioner ones_tools 1 (mkNd [] [Fin 4]) (fun i j => 4)%R (fun _ _ => 1)%R (fun _ => 4)%R
      None None None (Some (HDense (mkNd [] [Fin 4]))))
      as (s & A & B & Hs & HA & HB & HI & _ & _ & _ & HR).
    + apply (array_number 1 4). reflexivity.
    + intros i j Hi Hj. assert (i = 0) as -> by lia. assert (j = 0) as -> by lia. flat. lra.
    + intros m (Hm & _). cbn [t_eigh ones_tools]. rewrite Hm. reflexivity.
    + intros i Hi. unfold rclamp. lra.
    + left. auto.
    + exists s, A, B. split; auto. split; auto. split; auto.
      specialize (HR 0 0 ltac:(lia) ltac:(lia)). revert HR. flat. unfold rclamp. intros. lra.
Qed.

(** *** Truncation: below, inside, NaN, above; then crossed bounds *)
Lemma truncation_case :
  truncate_eigenvalues [[Fin 1; Fin 3; NaN; PInf]] 0 (Some (BNum (Fin 2))) (Some (BNum (Fin 4))) =
    (Ok 1, [[Fin 1; Fin 3; NaN; PInf]; [Fin 2; Fin 3; NaN; Fin 4]]) /\
  truncate_eigenvalues [[Fin 1; Fin 3; NaN; PInf]] 0 (Some (BNum (Fin 4))) (Some (BNum (Fin 2))) =
    (Ok 1, [[Fin 1; Fin 3; NaN; PInf]; [Fin 2; Fin 2; NaN; Fin 2]]) /\
  truncate_eigenvalues [[Fin 1]] 0 (Some (BComplex (Fin 1) (Fin 1))) None = (Err ValueError, [[Fin 1]; [Fin 1]]).
Proof.
  split; [|split].
  - unfold truncate_eigenvalues, set_where. cbn -[nleb ngeb].
    assert (nleb (Fin 1) (Fin 2) = true) as -> by (apply nleb_nle; left; simpl; lra).
    assert (nleb (Fin 3) (Fin 2) = false) as -> by
      (apply Bool.not_true_iff_false; rewrite nleb_nle; intros [H|(H & _)]; [simpl in H; lra|injection H; lra]).
    cbn -[nleb ngeb]. unfold ngeb.
    assert (nleb (Fin 4) (Fin 2) = false) as -> by
      (apply Bool.not_true_iff_false; rewrite nleb_nle; intros [H|(H & _)]; [simpl in H; lra|injection H; lra]).
    assert (nleb (Fin 4) (Fin 3) = false) as -> by
      (apply Bool.not_true_iff_false; rewrite nleb_nle; intros [H|(H & _)]; [simpl in H; lra|injection H; lra]).
    reflexivity.
  - unfold truncate_eigenvalues, set_where. cbn -[nleb ngeb].
    assert (nleb (Fin 1) (Fin 4) = true) as -> by (apply nleb_nle; left; simpl; lra).
    assert (nleb (Fin 3) (Fin 4) = true) as -> by (apply nleb_nle; left; simpl; lra).
    cbn -[nleb ngeb]. unfold ngeb.
    assert (nleb (Fin 2) (Fin 4) = true) as -> by (apply nleb_nle; left; simpl; lra).
    reflexivity.
  - unfold truncate_eigenvalues, isreal, neqb, Reqb. destruct (Req_EM_T 1 0); [lra|]. reflexivity.
Qed.

(** *** Matrix of an operator, and the check *)
Lemma matvec_linear : forall r c m s, is_array r c m s -> linear_operator c r (matvec s) (Rmatvec c m).
Proof.
  intros r c m s H. split.
  - intro x. apply matvec_array. auto.
  - intros. apply mv_lin.
Qed.
Lemma operator_case : exists M A, matrix_from_operator (matvec (fmat 2 demo_a)) 2 = Ok M /\
  is_array 2 2 A M /\ Rmat_eq 2 A demo_a.
Proof.
  pose proof (matvec_linear 2 2 demo_a _ (array_fmat 2 demo_a)) as HL.
  destruct (operator_matrix 2 2 _ _ ltac:(lia) HL) as (M & A & HM & HA & Hx).
  exists M, A. split; auto. split; auto. intros i j Hi Hj.
  pose proof (Hx (fun k => Rid k j)) as E. rewrite (matvec_array 2 2 demo_a _ _ (array_fmat 2 demo_a)) in E.
  injection E as E. assert (fvec 2 (Rmatvec 2 demo_a (fun k => Rid k j)) = fvec 2 (Rmatvec 2 A (fun k => Rid k j))) as E'
    by (unfold fvec; cbn [seq map]; congruence).
  pose proof (fvec_inj _ _ _ E' i Hi) as E2. rewrite !mv_unit in E2 by auto. auto.
Qed.
(** A wrong inverse is found; an operator that returns NaN is not. *)
Lemma check_case :
  check_preconditioner (mkPre (matvec (fmat 1 (fun _ _ => 2%R))) (fun x => Ok x)) [Fin 1] (Fin (1 / 2)) = Err ValueError /\
  check_preconditioner (mkPre (matvec (fmat 1 (fun _ _ => 2%R))) (fun x => Ok x)) [Fin 1] (Fin 2) = Ok tt /\
  check_preconditioner (mkPre (fun x => Ok (map (fun _ => NaN) x)) (fun x => Ok x)) [Fin 1] (Fin 0) = Ok tt.
Proof.
  assert (sqrt ((1 - (0 + 2 * 1)) * (1 - (0 + 2 * 1))) = 1)%R as E.
  { replace ((1 - (0 + 2 * 1)) * (1 - (0 + 2 * 1)))%R with 1%R by ring. apply sqrt_1. }
  assert (forall tol, check_preconditioner (mkPre (matvec (fmat 1 (fun _ _ => 2%R))) (fun x => Ok x)) [Fin 1] (Fin tol)
    = if Rlt_dec tol 1 then Err ValueError else Ok tt) as H.
  { intro tol.
    change [Fin 1] with (fvec 1 (fun _ => 1%R)).
    rewrite (check_raises _ 1 (fun _ => 1%R) (fvec 1 (fun _ => 1%R)) (Rmatvec 1 (fun _ _ => 2%R) (fun _ => 1%R)) tol).
    - unfold Rmatvec. cbn [Rsum]. rewrite !Rplus_0_l in *. rewrite E. auto.
    - reflexivity.
    - exact (matvec_array 1 1 _ _ (fun _ => 1%R) (array_fmat 1 _)). }
  split; [|split].
  - rewrite H. destruct (Rlt_dec (1 / 2) 1); auto. lra.
  - rewrite H. destruct (Rlt_dec 2 1); auto. lra.
  - reflexivity.
Qed.

(** *** Objective: log every second evaluation, one call raises, a reset of the log *)
Definition demo_f (x : nat) : res Z := if x =? 5 then Err ValueError else Ok (Z.of_nat x * 10)%Z.
Definition demo_calls : list (obj_op nat) :=
  [Eval 1; ResetLog; Eval 2; Eval 3; Eval 5; Eval 4; SetLog 1%Z; SetPrint 5%Z; Eval 6; Eval 7].
Lemma objective_case :
  obj_run demo_f (fun y => negb (y =? 70)%Z) (new_objective 0 2) demo_calls =
  (mkObj 5 5 1 [(2, 3, 30%Z); (4, 6, 60%Z)] [],
   [(Eval 1, Some (Ok 10%Z)); (ResetLog, None); (Eval 2, Some (Ok 20%Z)); (Eval 3, Some (Ok 30%Z));
    (Eval 5, Some (Err ValueError)); (Eval 4, Some (Ok 40%Z)); (SetLog 1%Z, None); (SetPrint 5%Z, None);
    (Eval 6, Some (Ok 60%Z)); (Eval 7, Some (Err TypeError))]).
Proof. reflexivity. Qed.

(** *** Sparse preconditioner: S = [[2, 0], [1, 1]] *)
Definition demo_s := m2 2 0 1 1.
Definition demo_st_inv := m2 (1 / 2) (- 1 / 2) 0 1.
Lemma sparse_case : exists mult solve B A,
  sparse_inv_sqrt_funcs (fun _ => Ok (fmat 2 demo_s)) (fun _ => Ok (matvec (fmat 2 demo_st_inv))) true
    (fmat 2 (m2 4 2 2 2)) = Ok (mult, solve) /\
  is_matvec 2 mult B /\ is_matvec 2 solve A /\ mutually_inverse 2 mult solve /\
  Rmat_eq 2 (Rmatmul 2 (Rtrans B) B) (m2 4 2 2 2) /\
  Rmat_eq 2 (Rmatmul 2 (Rtrans A) (Rmatmul 2 (m2 4 2 2 2) A)) Rid.
Proof.
  eapply (sparse_preconditioner _ _ _ 2 (m2 4 2 2 2) demo_s).
  - apply array_fmat.
  - reflexivity.
  - apply array_fmat.
  - two; cbn; lra.
  - reflexivity.
  - reflexivity.
  - intro y. exists (Rmatvec 2 demo_st_inv y). split.
    + apply matvec_array, array_fmat.
    + intros i Hi. destruct i as [|[|i]]; [| |lia]; cbn; lra.
Qed.

(** *** Aliasing: writing to another array, or before the call, is harmless *)
Definition demo_writes : list alias_op :=
  [Write 0 [Fin 3]; Call (Eval 0); Write 1 [Fin 4]; Call (Eval 1)].
Lemma alias_case : no_late_writes [] demo_writes /\
  alias_run (fun v => Ok (nth 0 v NaN)) (fun _ => true) [[Fin 1]; [Fin 2]] 0 1 demo_writes =
  ([[Fin 3]; [Fin 4]], mkObj 2 0 1 [(0, 0, Fin 3); (1, 1, Fin 4)] []).
Proof. split; [|reflexivity]. cbn. intuition lia. Qed.

Lemma rectangle_case : shp (mkNd [2; 3] (repeat (Fin 1) 6)) = [2; 3] /\ 2 <> 3 /\ 2 <> 1 /\ 3 <> 1 /\
  set_op no_tools (SetHessian None (Some (HDense (mkNd [2; 3] (repeat (Fin 1) 6)))) None None) = Err ValueError.
Proof. repeat split; discriminate. Qed.
