(** * Cases meeting the hypotheses of PropFltMat.v. *)
From Coq Require Import Reals ZArith Lra Lia List Permutation.
From Flocq Require Import Core IEEE754.BinarySingleNaN.
From Verif Require Import Base Flt SpecFlt FltBase FltExp FltNum FltNum2 FltInst FltMat SpecFltMat FltDot
  FltMatProps DemoFlt.
Import ListNotations.
Local Open Scope R_scope.

(** One order of summation: one fused multiply-add after the other, one triangle only. *)
Definition fdot (l : list (f64 * f64)) : f64 :=
  fold_right (fun p a => ffma (fst p) (snd p) a) fzero l.
Definition gram_inst : gram64 := fun n l i j =>
  if Nat.leb i j then fdot (map (fun k => (l i k, l j k)) (seq 0 n))
  else fdot (map (fun k => (l j k, l i k)) (seq 0 n)).

Lemma fdot_of : forall l, dot_of l (fdot l).
Proof. induction l as [|[x y] l IH]; cbn [fdot fold_right fst snd]; [apply dot_none|apply dot_fma, IH]. Qed.

Lemma ffma_comm : forall x y z, ffma x y z = ffma y x z.
Proof.
  intros [sx|sx| |sx mx ex Hx] [sy|sy| |sy my ey Hy] [sz|sz| |sz mz ez Hz]; try reflexivity;
    unfold ffma, Bfma, Bfma_szero, Bfma; cbn;
    rewrite ?(Bool.xorb_comm sx sy), ?(Z.mul_comm (SpecFloat.cond_Zopp sx _)), ?(Z.add_comm ex ey); reflexivity.
Qed.
Lemma fdot_comm : forall (f g : nat -> f64) l, fdot (map (fun k => (f k, g k)) l) = fdot (map (fun k => (g k, f k)) l).
Proof.
  intros f g l. induction l as [|k l IH]; [reflexivity|]. unfold fdot in *. cbn [map fold_right fst snd].
  rewrite IH, ffma_comm. reflexivity.
Qed.

Lemma gram_inst_ok : gram_contract gram_inst.
Proof.
  constructor.
  - intros n l i j _ _. unfold gram_inst. destruct (Nat.leb i j); [apply fdot_of|].
    rewrite fdot_comm. apply fdot_of.
  - intros n l i j. unfold gram_inst.
    destruct (Nat.leb_spec i j) as [A|A]; destruct (Nat.leb_spec j i) as [B|B]; try reflexivity.
    + apply fdot_comm.
    + lia.
Qed.

(** A free vector of a 3 x 3 matrix with a large and a tiny diagonal entry. *)
Definition x3 : list f64 := [fint 100; fint 5; fint (-300); fint (-2); flit 1 300; fint 0].

Lemma tame_x3 : tame 3 x3.
Proof.
  split; [apply Nat2Z.inj_le; rewrite Z2Nat.id by lia; lia|].
  pose proof (big_pow 400 ltac:(lia)) as B.
  assert (V: fin (flit 1 300) /\ Rabs (val (flit 1 300)) <= pow2 400).
  { destruct (flit_val 1 300) as [F V]; [lia|lia| |].
    - rewrite Rmult_1_l, Rabs_pos_eq by (left; apply pow2_pos). apply pow2_mono. lia.
    - split; auto. rewrite V, Rmult_1_l, Rabs_pos_eq by (left; apply pow2_pos). apply pow2_mono. lia. }
  intros i j H.
  assert (I: (i = 0 /\ j = 0 \/ i = 1 /\ j = 0 \/ i = 1 /\ j = 1 \/ i = 2 /\ j = 0 \/ i = 2 /\ j = 1 \/ i = 2 /\ j = 2)%nat) by lia.
  decompose [and or] I; clear I; subst i j; eexists; (split; [reflexivity|]);
    try (split; [apply V|split; [apply V|discriminate]]);
    (split; [fint|]); (split; [fint; apply Rabs_le_both; lra|]); fint; intros; try discriminate; lra.
Qed.

Lemma case_lb : fin (fint (-7)) /\ Rabs (val (fint (-7))) <= pow2 1000.
Proof. pose proof (big_pow 1000 ltac:(lia)). split; fint. apply Rabs_le_both; lra. Qed.

Lemma mat_case : np_contract np_inst /\ gram_contract gram_inst /\ tame 3 x3 /\
  fin (fint (-7)) /\ Rabs (val (fint (-7))) <= pow2 1000 /\ psd64_valid 3 (fint (-7)) (unpack64 np_inst gram_inst 3 (fint (-7)) x3) = true.
Proof.
  split; [apply np_inst_ok|]. split; [apply gram_inst_ok|]. split; [apply tame_x3|].
  split; [apply case_lb|]. split; [apply case_lb|].
  apply unpack64_valid; [apply np_inst_ok|apply gram_inst_ok|apply tame_x3|apply case_lb|apply case_lb].
Qed.

Lemma mat_entry_case : (2 < 3)%nat /\ (1 < 3)%nat /\ tame 3 x3.
Proof. split; [lia|]. split; [lia|apply tame_x3]. Qed.

Definition x2 : list f64 := [fint 800; B754_zero false; fint 1].
Lemma overflow_case : (0 < 1 < 2)%nat /\ nth_error x2 (0 * (0 + 1) / 2 + 0) = Some (fint 800) /\
  fin (fint 800) /\ 711 <= val (fint 800) /\ nth_error x2 (1 * (1 + 1) / 2 + 0) = Some (B754_zero false).
Proof. repeat split; fint; try lia; lra. Qed.
