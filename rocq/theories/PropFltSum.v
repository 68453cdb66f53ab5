(** * Property theorems C94: grouped sums and [logsumexp] in float64. *)
From Coq Require Import Reals ZArith List Permutation.
From Verif Require Import Base Nd AdSupp SpecAd Flt SpecFlt FltInst DemoFlt FltSum SpecFltSum FltLse FltSumFacts FltSumProps DemoFltSum.
Import ListNotations.
Local Open Scope nat_scope.

(** Every entry is the running sum of its members in the order of the observations. *)
Theorem C94_grouped : forall x zs num K rest,
  nd_ok x -> shp x = length zs :: rest -> zs <> [] -> Forall (in_range K) zs -> group_count K zs num ->
  exists r, grouped_sum64 x (vec zs) num = Ok r /\ shp r = K :: rest /\ nd_ok r /\
    forall k j, k < K -> j < prod rest ->
      nth (k * prod rest + j) (dat r) fnan = running (members K zs (prod rest) (dat x) k j).
Proof. exact grouped_sum64_value. Qed.
Print Assumptions C94_grouped.
Example C94_grouped_case : nd_ok obs /\ shp obs = length obs_groups :: [2] /\ obs_groups <> [] /\ Forall (in_range 2) obs_groups /\
  group_count 2 obs_groups None /\
  grouped_sum64 obs (vec obs_groups) None = Ok (mkNd [2; 2] [fint 5; fone; fint 2; fint 5]) /\
  members 2 obs_groups 2 (dat obs) 0 1 = [tiny; fone].
Proof. exact grouped_case. Qed.

(** It fails when, and as, the exact sum fails (C53). *)
Theorem C94_failures : forall x y z num, shp x = shp y ->
  match grouped_sum64 x z num, grouped_sum y (GInt z) num with
  | Ok r, Ok r' => shp r = shp r'
  | Err e, Err e' => e = e'
  | _, _ => False
  end.
Proof. exact grouped_alike. Qed.
Print Assumptions C94_failures.
Example C94_failures_case : grouped_sum64 obs (vec [0; 1]%Z) None = Err ValueError /\
  grouped_sum64 obs (vec [0; 1; -3]%Z) None = Err IndexError /\ grouped_sum64 obs (vec obs_groups) (Some 1%Z) = Err ValueError.
Proof. exact failures_case. Qed.

(** Its error is at most the number of members times 2^-52 of the sum of their sizes. *)
Theorem C94_accuracy : forall x zs num K rest r k j,
  nd_ok x -> shp x = length zs :: rest -> zs <> [] -> Forall (in_range K) zs -> group_count K zs num ->
  grouped_sum64 x (vec zs) num = Ok r -> k < K -> j < prod rest ->
  let l := members K zs (prod rest) (dat x) k j in
  let s := nth (k * prod rest + j) (dat r) fnan in
  Forall fin l -> length l <= Z.to_nat 1048576 -> (mass l <= pow2 1000)%R ->
  fin s /\ (Rabs (val s - total l) <= INR (length l) * pow2 (-52) * mass l)%R.
Proof. exact grouped_accurate. Qed.
Print Assumptions C94_accuracy.
Example C94_accuracy_case : let l := members 2 obs_groups 2 (dat obs) 0 1 in
  Forall fin l /\ length l <= Z.to_nat 1048576 /\ (mass l <= pow2 1000)%R /\ (val (running l) <> total l).
Proof. exact accuracy_case. Qed.

(** Counts are exact. *)
Theorem C94_whole : forall x zs num K rest r k j,
  nd_ok x -> shp x = length zs :: rest -> zs <> [] -> Forall (in_range K) zs -> group_count K zs num ->
  grouped_sum64 x (vec zs) num = Ok r -> k < K -> j < prod rest ->
  let l := members K zs (prod rest) (dat x) k j in
  let s := nth (k * prod rest + j) (dat r) fnan in
  Forall whole l -> (mass l < pow2 53)%R -> fin s /\ val s = total l.
Proof. exact grouped_whole. Qed.
Print Assumptions C94_whole.
Example C94_whole_case : let l := members 2 obs_groups 2 (dat obs) 0 0 in
  Forall whole l /\ (mass l < pow2 53)%R /\ total l = 5%R.
Proof. exact whole_case. Qed.

(** A NaN reaches the sum of its own group. *)
Theorem C94_nan : forall x zs num K rest r k j n,
  nd_ok x -> shp x = length zs :: rest -> zs <> [] -> Forall (in_range K) zs -> group_count K zs num ->
  grouped_sum64 x (vec zs) num = Ok r -> k < K -> j < prod rest -> n < length zs ->
  belongs K (nth n zs 0%Z) k = true -> nth (n * prod rest + j) (dat x) fone = fnan ->
  nth (k * prod rest + j) (dat r) fone = fnan.
Proof. exact grouped_nan. Qed.
Print Assumptions C94_nan.
Example C94_nan_case : let x := mkNd [2; 1] [fnan; fint 2] in
  nd_ok x /\ shp x = length [1; 0]%Z :: [1] /\ Forall (in_range 2) [1; 0]%Z /\ group_count 2 [1; 0]%Z (Some 2%Z) /\
  belongs 2 1 1 = true /\ grouped_sum64 x (vec [1; 0]%Z) (Some 2%Z) = Ok (mkNd [2; 1] [fint 2; fnan]).
Proof. exact nan_case. Qed.

(** The order of the observations can change the sum. *)
Theorem C94_order_refuted : ~ (forall a b zs num, Permutation a b -> Forall fin a -> Forall (fun z => z = 0%Z) zs ->
  length zs = length a -> grouped_sum64 (vec a) (vec zs) num = grouped_sum64 (vec b) (vec zs) num).
Proof. exact order_matters. Qed.
Print Assumptions C94_order_refuted.

(** [logsumexp] of finite doubles of any size is finite and accurate. *)
Theorem C94_logsumexp : forall np, np_contract np -> forall row,
  row <> [] -> Forall fin row -> length row <= Z.to_nat 1048576 ->
  fin (logsumexp64 np row) /\
  (Rabs (val (logsumexp64 np row) - real_lse row)
    <= INR (length row) * pow2 (-46) + pow2 (-53) * Rabs (real_lse row))%R.
Proof. exact lse_accurate. Qed.
Print Assumptions C94_logsumexp.
Example C94_logsumexp_case : np_contract np_inst /\ [largest; flit (-9007199254740991) 971] <> [] /\
  Forall fin [largest; flit (-9007199254740991) 971] /\
  length [largest; flit (-9007199254740991) 971] <= Z.to_nat 1048576 /\ fsub (flit (-9007199254740991) 971) largest = fninf.
Proof. exact lse_case. Qed.
