(** * Cases meeting the hypotheses of PropFltWide.v. *)
From Coq Require Import Reals ZArith Lra Lia List.
From Flocq Require Import Core IEEE754.BinarySingleNaN.
From Verif Require Import Base Flt SpecFlt FltBase FltExp FltNum2 FltSimp FltInst DemoFlt DemoFltSum SpecFltWide FltWide FltGaps.
Import ListNotations.
Local Open Scope R_scope.

(** Far outside the range of C72. *)
Lemma wide_case : np_contract np_inst /\ wide 1000000 [fint 1000000; fint (-1000000); fint 999999].
Proof.
  split; [apply np_inst_ok|]. split; [|split].
  - split; [lra|]. apply big_pow. lia.
  - unfold lt. apply few. cbn. lia.
  - repeat (apply Forall_cons; [split; fint; apply Rabs_le_both; lra|]). constructor.
Qed.
Lemma inf_case : In finf [fint 3; finf; fninf] \/ In fnan [fint 3; finf; fninf].
Proof. left. cbn. auto. Qed.
Lemma zero_case : fin fzero /\ val fzero = 0 /\ [fone; fzero] <> [] /\
  Forall (fun v => fin v /\ 0 <= val v) [fone; fzero] /\ simplex64_valid np_inst [fzero; fone; fzero] = true.
Proof.
  destruct fone_val as [F V]. destruct fzero_val as [F0 V0]. split; [auto|]. split; [auto|]. split; [discriminate|]. split.
  - constructor; [rewrite V; split; [auto|lra]|]. constructor; [rewrite V0; split; [auto|lra]|constructor].
  - vm_compute. reflexivity.
Qed.
Lemma gone_case : wide_or_gone 1000000 [fint 1000000; fninf; fint (-7)] /\ finite [fint 1000000; fninf; fint (-7)] = [fint 1000000; fint (-7)].
Proof.
  split; [|reflexivity]. split; [|split].
  - split; [lra|]. apply big_pow. lia.
  - unfold lt. apply few. cbn. lia.
  - constructor; [right; split; fint; apply Rabs_le_both; lra|]. constructor; [left; auto|].
    constructor; [right; split; fint; apply Rabs_le_both; lra|constructor].
Qed.
Lemma row_case : In (fint 3) [fninf; fint 3; fninf] /\ fin (fint 3) /\
  Forall (fun v => fin v \/ v = fninf) [fninf; fint 3; fninf] /\ (length [fninf; fint 3; fninf] <= Z.to_nat 1048576)%nat.
Proof.
  split; [cbn; auto|]. split; [fint|]. split; [|apply few; cbn; lia].
  constructor; [auto|]. constructor; [left; fint|]. constructor; auto.
Qed.
Lemma later_case : fin fone /\ 0 < val fone /\ Forall (fun v => fin v /\ 0 <= val v) [fzero] /\
  (length [fzero] < Z.to_nat 1048576)%nat /\ simplex64_valid np_inst [fone; fzero] = true.
Proof.
  destruct fone_val as [F V]. destruct fzero_val as [F0 V0]. split; [auto|]. split; [rewrite V; lra|].
  split; [constructor; [rewrite V0; split; [auto|lra]|constructor]|]. split; [unfold lt; apply few; cbn; lia|].
  vm_compute. reflexivity.
Qed.
