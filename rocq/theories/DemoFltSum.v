(** * Cases meeting the hypotheses of PropFltSum.v. *)
From Coq Require Import Reals ZArith Lra Lia List Arith.
From Flocq Require Import Core IEEE754.BinarySingleNaN.
From Verif Require Import Base Nd AdSupp SpecAd Flt SpecFlt FltBase FltExp FltNum2 FltSimp FltInst DemoFlt FltSum SpecFltSum FltSumProps.
Import ListNotations.
Local Open Scope nat_scope.

(** Three observations of two columns, in groups 0, 1 and (written -2) 0 again. *)
Definition obs : nd f64 := mkNd [3; 2] [fint 1; tiny; fint 2; fint 5; fint 4; fone].
Definition obs_groups : list Z := [0; 1; -2]%Z.
Lemma obs_ok : nd_ok obs /\ shp obs = length obs_groups :: [2] /\ obs_groups <> [] /\ Forall (in_range 2) obs_groups /\
  group_count 2 obs_groups None.
Proof.
  split; [reflexivity|]. split; [reflexivity|]. split; [discriminate|]. split.
  - repeat constructor; unfold in_range; cbn; lia.
  - right. split; auto. cbn. auto.
Qed.
Lemma obs_members : members 2 obs_groups 2 (dat obs) 0 0 = [fint 1; fint 4] /\
  members 2 obs_groups 2 (dat obs) 0 1 = [tiny; fone].
Proof. split; reflexivity. Qed.
Lemma same_doubles : forall (a : res (nd f64)) s l,
  match a with Ok n => Some (shp n, map B2SF (dat n)) | Err _ => None end = Some (s, map B2SF l) -> a = Ok (mkNd s l).
Proof.
  intros [[s' l']|e] s l H; [|discriminate]. cbn [shp dat] in H. injection H as -> H. f_equal. f_equal.
  revert l H. induction l' as [|x l' IH]; intros [|y l] H; try discriminate; auto.
  cbn [map] in H. injection H as H1 H2. f_equal; auto. apply B2SF_inj. exact H1.
Qed.
Lemma obs_sum : grouped_sum64 obs (vec obs_groups) None = Ok (mkNd [2; 2] [fint 5; fone; fint 2; fint 5]).
Proof. apply same_doubles. vm_compute. reflexivity. Qed.

Lemma few : forall n, (Z.of_nat n <= 1048576)%Z -> n <= Z.to_nat 1048576.
Proof. intros n H. apply Nat2Z.inj_le. rewrite Z2Nat.id by lia. exact H. Qed.
Lemma grouped_case : nd_ok obs /\ shp obs = length obs_groups :: [2] /\ obs_groups <> [] /\ Forall (in_range 2) obs_groups /\
  group_count 2 obs_groups None /\
  grouped_sum64 obs (vec obs_groups) None = Ok (mkNd [2; 2] [fint 5; fone; fint 2; fint 5]) /\
  members 2 obs_groups 2 (dat obs) 0 1 = [tiny; fone].
Proof. destruct obs_ok as (A & B & C & D & E). repeat (split; auto using obs_sum, (proj2 obs_members)). Qed.
Lemma failures_case : grouped_sum64 obs (vec [0; 1]%Z) None = Err ValueError /\
  grouped_sum64 obs (vec [0; 1; -3]%Z) None = Err IndexError /\ grouped_sum64 obs (vec obs_groups) (Some 1%Z) = Err ValueError.
Proof. repeat split; vm_compute; reflexivity. Qed.
Lemma accuracy_case : let l := members 2 obs_groups 2 (dat obs) 0 1 in
  Forall fin l /\ length l <= Z.to_nat 1048576 /\ (mass l <= pow2 1000)%R /\ (val (running l) <> total l).
Proof.
  cbv zeta. rewrite (proj2 obs_members). destruct tiny_val as [T Tv]. destruct fone_val as [O Ov].
  pose proof (pow2_pos (-53)) as P. assert (S: (pow2 (-53) <= 1)%R) by (apply (pow2_mono (-53) 0); lia).
  split; [repeat constructor; auto|]. split; [apply few; cbn; lia|]. split.
  - unfold mass. cbn [map fold_right]. rewrite Tv, Ov, (Rabs_pos_eq (pow2 _)), Rabs_R1 by lra.
    apply Rle_trans with 1000000%R; [lra|]. apply big_pow. lia.
  - unfold total. cbn [map fold_right]. rewrite Tv, Ov.
    replace (running [tiny; fone]) with fone by (apply B2SF_inj; vm_compute; reflexivity). rewrite Ov. lra.
Qed.
Lemma whole_case : let l := members 2 obs_groups 2 (dat obs) 0 0 in
  Forall whole l /\ (mass l < pow2 53)%R /\ total l = 5%R.
Proof.
  cbv zeta. rewrite (proj1 obs_members). split; [|split].
  - repeat constructor; unfold whole; try (split; [fint|]); [exists 1%Z|exists 4%Z]; fint; auto.
  - unfold mass. cbn [map fold_right]. fint. rewrite !Rabs_pos_eq by lra.
    apply Rlt_le_trans with 1000000%R; [lra|]. apply big_pow. lia.
  - unfold total. cbn [map fold_right]. fint. lra.
Qed.
Lemma nan_case : let x := mkNd [2; 1] [fnan; fint 2] in
  nd_ok x /\ shp x = length [1; 0]%Z :: [1] /\ Forall (in_range 2) [1; 0]%Z /\ group_count 2 [1; 0]%Z (Some 2%Z) /\
  belongs 2 1 1 = true /\ grouped_sum64 x (vec [1; 0]%Z) (Some 2%Z) = Ok (mkNd [2; 1] [fint 2; fnan]).
Proof.
  cbv zeta. split; [reflexivity|]. split; [reflexivity|]. split; [repeat constructor; unfold in_range; cbn; lia|].
  split; [left; auto|]. split; [reflexivity|]. apply same_doubles. vm_compute. reflexivity.
Qed.
(** The largest double and its negative in one row: the difference overflows. *)
Definition largest : f64 := flit 9007199254740991 971.
Lemma lse_case : np_contract np_inst /\ [largest; flit (-9007199254740991) 971] <> [] /\ Forall fin [largest; flit (-9007199254740991) 971] /\
  length [largest; flit (-9007199254740991) 971] <= Z.to_nat 1048576 /\ fsub (flit (-9007199254740991) 971) largest = fninf.
Proof.
  split; [apply np_inst_ok|]. split; [discriminate|]. split; [repeat constructor|]. split; [apply few; cbn; lia|]. apply B2SF_inj. vm_compute. reflexivity.
Qed.
