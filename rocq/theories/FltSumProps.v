(** * The float64 sums: the statements. *)
From Coq Require Import Reals ZArith Lra Lia List Arith Permutation.
From Flocq Require Import IEEE754.BinarySingleNaN.
From Verif Require Import Base Nd AdSupp SpecAd Flt SpecFlt FltBase FltExp FltNum2 FltSimp FltLse FltSum SpecFltSum FltSumFacts.
Import ListNotations.
Local Open Scope nat_scope.

Theorem grouped_accurate : forall x zs num K rest r k j,
  nd_ok x -> shp x = length zs :: rest -> zs <> [] -> Forall (in_range K) zs -> group_count K zs num ->
  grouped_sum64 x (vec zs) num = Ok r -> k < K -> j < prod rest ->
  let l := members K zs (prod rest) (dat x) k j in
  let s := nth (k * prod rest + j) (dat r) fnan in
  Forall fin l -> length l <= Z.to_nat 1048576 -> (mass l <= pow2 1000)%R ->
  fin s /\ (Rabs (val s - total l) <= INR (length l) * pow2 (-52) * mass l)%R.
Proof.
  intros x zs num K rest r k j Hok Hs Hne Hr Hc E Hk Hj l s F L B.
  destruct (grouped_sum64_value x zs num K rest Hok Hs Hne Hr Hc) as (r' & E' & _ & _ & V).
  rewrite E in E'. injection E' as <-. unfold s. rewrite V by auto. apply running_accurate; auto.
Qed.
Theorem grouped_whole : forall x zs num K rest r k j,
  nd_ok x -> shp x = length zs :: rest -> zs <> [] -> Forall (in_range K) zs -> group_count K zs num ->
  grouped_sum64 x (vec zs) num = Ok r -> k < K -> j < prod rest ->
  let l := members K zs (prod rest) (dat x) k j in
  let s := nth (k * prod rest + j) (dat r) fnan in
  Forall whole l -> (mass l < pow2 53)%R -> fin s /\ val s = total l.
Proof.
  intros x zs num K rest r k j Hok Hs Hne Hr Hc E Hk Hj l s F B.
  destruct (grouped_sum64_value x zs num K rest Hok Hs Hne Hr Hc) as (r' & E' & _ & _ & V).
  rewrite E in E'. injection E' as <-. unfold s. rewrite V by auto. apply running_whole; auto.
Qed.
Theorem grouped_nan : forall x zs num K rest r k j n,
  nd_ok x -> shp x = length zs :: rest -> zs <> [] -> Forall (in_range K) zs -> group_count K zs num ->
  grouped_sum64 x (vec zs) num = Ok r -> k < K -> j < prod rest -> n < length zs ->
  belongs K (nth n zs 0%Z) k = true -> nth (n * prod rest + j) (dat x) fone = fnan ->
  nth (k * prod rest + j) (dat r) fone = fnan.
Proof.
  intros x zs num K rest r k j n Hok Hs Hne Hr Hc E Hk Hj Hn Hb Hx.
  destruct (grouped_sum64_value x zs num K rest Hok Hs Hne Hr Hc) as (r' & E' & S' & O & V).
  rewrite E in E'. injection E' as <-. unfold nd_ok in O, Hok. rewrite S' in O. rewrite Hs in Hok. cbn [prod fold_right] in O, Hok.
  fold (prod rest) in O, Hok.
  rewrite (nth_indep _ fone fnan) by (rewrite O; nia). rewrite V by auto. apply running_nan. unfold members.
  apply in_map_iff. exists n. split.
  - rewrite (nth_indep _ fnan fone) by (rewrite Hok; nia). auto.
  - apply filter_In. split; auto. apply in_seq. lia.
Qed.

Definition tiny : f64 := flit 1 (-53).
Definition up_order : list f64 := [tiny; tiny; fone].
Definition down_order : list f64 := [fone; tiny; tiny].
Lemma tiny_val : fin tiny /\ val tiny = pow2 (-53).
Proof.
  destruct (flit_val 1 (-53)) as [F V]; try lia.
  - rewrite Rmult_1_l, Rabs_pos_eq by (left; apply pow2_pos). apply pow2_mono. lia.
  - split; [exact F|]. unfold tiny. rewrite V. ring.
Qed.
Theorem order_matters : ~ (forall a b zs num, Permutation a b -> Forall fin a -> Forall (fun z => z = 0%Z) zs ->
  length zs = length a -> grouped_sum64 (vec a) (vec zs) num = grouped_sum64 (vec b) (vec zs) num).
Proof.
  intros H. specialize (H up_order down_order [0; 0; 0]%Z None). assert (X: Permutation up_order down_order).
  { unfold up_order, down_order. change [tiny; tiny; fone] with ([tiny; tiny] ++ [fone]). apply Permutation_sym, Permutation_cons_append. }
  specialize (H X). destruct tiny_val as [T _]. destruct fone_val as [O _].
  specialize (H ltac:(repeat constructor; auto) ltac:(repeat constructor) eq_refl).
  apply (f_equal (fun r => match r with Ok n => map B2SF (dat n) | Err _ => [] end)) in H.
  vm_compute in H. discriminate.
Qed.
