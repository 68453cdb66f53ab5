(** * Facts about the float64 sums. *)
From Coq Require Import Reals ZArith Lra Lia List Arith Permutation.
From Flocq Require Import Core IEEE754.BinarySingleNaN.
From Verif Require Import Base Num Nd Spec ListFacts NumFacts CholFacts Jac JacBase Optim SpecOptim LinAlg OptimFacts   OptimHist AdSupp SpecAd AdFacts Flt SpecFlt FltBase FltExp FltSimp FltSimp2 FltDot FltSum SpecFltSum.
Import ListNotations.
Local Open Scope nat_scope.

Lemma add_rows64_spec : forall K m l acc, length acc = K -> Forall (fun r => length r = m) acc ->
  Forall (fun gr => in_range K (fst gr) /\ length (snd gr) = m) l ->
  exists acc', add_rows64 acc l = Ok acc' /\ length acc' = K /\ Forall (fun r => length r = m) acc' /\
    forall k j, k < K -> j < m ->
      nth j (nth k acc' []) fnan =
      fold_left fadd (map (fun gr => nth j (snd gr) fnan) (filter (fun gr => belongs K (fst gr) k) l))
        (nth j (nth k acc []) fnan).
Proof.
  intros K m. induction l as [|(g, row) l IH]; intros acc HK Hm Hl.
  - exists acc. repeat split; auto.
  - inversion Hl as [|? ? (Hg & Hr) Hl']; subst. cbn [fst snd] in *.
    destruct (py_row_ok _ _ Hg) as (E & Hlt).
    cbn [add_rows64]. unfold add_row64. rewrite E. cbn [bind].
    set (i := row_of (length acc) g) in *.
    assert (length (nth i acc []) = length row) as HL.
    { rewrite Forall_forall in Hm. rewrite (Hm (nth i acc [])); auto. apply nth_In. auto. }
    destruct (IH (upd acc i (map2 fadd (nth i acc []) row))) as (acc' & E' & HK' & Hm' & Hs).
    + apply upd_length.
    + apply upd_Forall; auto. rewrite map2_len. lia.
    + eapply Forall_impl; [|exact Hl']. auto.
    + exists acc'. split; auto. split; auto. split; auto.
      intros k j Hk Hj. rewrite Hs by auto. cbn [filter fst].
      rewrite (belongs_row _ g k) by auto. fold i.
      destruct (Nat.eqb_spec i k) as [<-|Hne].
      * rewrite upd_same_nth by auto. rewrite (nth_map2 _ _ _ _ _ _ _ _ fnan fnan) by lia. reflexivity.
      * rewrite nth_upd_ne by auto. auto.
Qed.

Theorem grouped_sum64_value : forall x zs num K rest,
  nd_ok x -> shp x = length zs :: rest -> zs <> [] -> Forall (in_range K) zs -> group_count K zs num ->
  exists r, grouped_sum64 x (vec zs) num = Ok r /\ shp r = K :: rest /\ nd_ok r /\
    forall k j, k < K -> j < prod rest ->
      nth (k * prod rest + j) (dat r) fnan = running (members K zs (prod rest) (dat x) k j).
Proof.
  intros x zs num K rest Hok Hs Hne Hr Hc.
  assert (length (dat x) = length zs * prod rest) as HL by (unfold nd_ok in Hok; rewrite Hok, Hs; auto).
  destruct x as [sx dx]. cbn [shp dat] in *. subst sx.
  unfold grouped_sum64, atleast_1d, vec, ndim. cbn [shp dat length nth tl].
  rewrite Nat.eqb_refl. cbn [Nat.ltb Nat.leb negb].
  destruct zs as [|z0 zr]; [congruence|]. set (zs := z0 :: zr) in *.
  assert (forall z, In z zs -> (z <= fold_left Z.max zr z0)%Z) as Hmax.
  { intros z [<-|Hz]; [exact (proj1 (fold_max_ge zr z0))|exact (proj2 (fold_max_ge zr z0) z Hz)]. }
  assert (fold_left Z.max zr z0 <= Z.of_nat K - 1)%Z as Hle.
  { unfold zs in Hr. inversion Hr as [|? ? H1 H2]; subst. apply fold_max_le; [unfold in_range in *; lia|].
    eapply Forall_impl; [|exact H2]. unfold in_range. intros; lia. }
  assert (match num with None => Ok (fold_left Z.max zr z0 + 1)%Z
          | Some k => if (k <=? fold_left Z.max zr z0)%Z then Err ValueError else Ok k end = Ok (Z.of_nat K)) as Hk.
  { destruct Hc as [->|(-> & Hin)].
    - rewrite (proj2 (Z.leb_gt _ _)) by lia. auto.
    - f_equal. specialize (Hmax _ Hin). lia. }
  rewrite Hk. cbn [bind]. rewrite (proj2 (Z.ltb_ge _ _)) by lia. rewrite Nat2Z.id.
  destruct (add_rows64_spec K (prod rest) (combine zs (chunks (prod rest) (length zs) dx))
    (repeat (repeat fzero (prod rest)) K)) as (acc & E & HK & Hm & Hv).
  - apply repeat_length.
  - apply Forall_forall. intros r Hi. apply repeat_spec in Hi. subst. apply repeat_length.
  - apply (combine_Forall _ _ (in_range K) (fun r => length r = prod rest)); auto. apply chunks_Forall. auto.
  - rewrite E. cbn [bind]. eexists. split; [reflexivity|]. split; auto. split.
    + unfold nd_ok. cbn [dat shp prod fold_right]. rewrite (concat_len _ (prod rest)) by auto. rewrite HK. auto.
    + intros k j Hk' Hj. cbn [dat]. rewrite nth_concat by (auto; lia). rewrite Hv by auto.
      rewrite (filter_combine _ _ (fun z => belongs K z k) zs _ 0%Z []) by (rewrite chunks_length; auto).
      rewrite map_map. cbn [snd].
      replace (nth j (nth k (repeat (repeat fzero (prod rest)) K) []) fnan) with fzero.
      2:{ rewrite (nth_indep _ [] (repeat fzero (prod rest))) by (rewrite repeat_length; auto).
          rewrite nth_repeat. rewrite (nth_indep _ fnan fzero) by (rewrite repeat_length; auto).
          rewrite nth_repeat. auto. }
      unfold running, members. f_equal. apply map_ext_in. intros n Hn. apply filter_In in Hn.
      destruct Hn as (Hn & _). apply in_seq in Hn.
      unfold chunks. rewrite (nth_map_gen _ _ _ _ _ [] 0) by (rewrite seq_length; lia).
      rewrite seq_nth by lia. unfold chunk. rewrite nth_slice; auto.
Qed.

(** Success and failure do not depend on the entries. *)
Lemma rows_alike : forall l l' acc acc', map fst l = map fst l' -> length acc = length acc' ->
  match add_rows64 acc l, add_rows acc' l' with
  | Ok r, Ok r' => length r = length r'
  | Err e, Err e' => e = e'
  | _, _ => False
  end.
Proof.
  induction l as [|(g, row) l IH]; intros [|(g', row') l'] acc acc' H HL; try discriminate H; [exact HL|].
  cbn [map fst] in H. injection H as <- H. cbn [add_rows64 add_rows]. unfold add_row64, add_row. rewrite <- HL.
  destruct (py_row (length acc) g) as [i|e]; cbn [bind]; [|reflexivity]. apply IH; auto. rewrite !upd_length. auto.
Qed.
Lemma combine_fst : forall A B C (l : list A) (m : list B) (m' : list C), length m = length m' ->
  map fst (combine l m) = map fst (combine l m').
Proof. induction l; intros [|b m] [|c m'] H; cbn in *; auto; try discriminate. f_equal. apply IHl. congruence. Qed.
Theorem grouped_alike : forall x y z num, shp x = shp y ->
  match grouped_sum64 x z num, grouped_sum y (GInt z) num with
  | Ok r, Ok r' => shp r = shp r'
  | Err e, Err e' => e = e'
  | _, _ => False
  end.
Proof.
  intros x y z num H. unfold grouped_sum64, grouped_sum. cbn [as_int64 bind].
  assert (shp (atleast_1d x) = shp (atleast_1d y)) as HS.
  { destruct x as [sx dx], y as [sy dy]. cbn [shp] in H. subst sx. destruct sy; reflexivity. }
  rewrite HS. set (zz := atleast_1d z). destruct (1 <? ndim zz); [reflexivity|].
  destruct (negb _); [reflexivity|]. destruct (dat zz) as [|a r]; [reflexivity|].
  destruct (match num with None => _ | Some k => _ end) as [k|e]; cbn [bind]; [|reflexivity].
  destruct (k <? 0)%Z; [reflexivity|].
  pose proof (rows_alike
    (combine (a :: r) (chunks (prod (tl (shp (atleast_1d y)))) (nth 0 (shp zz) 0) (dat (atleast_1d x))))
    (combine (a :: r) (chunks (prod (tl (shp (atleast_1d y)))) (nth 0 (shp zz) 0) (dat (atleast_1d y))))
    (repeat (repeat fzero (prod (tl (shp (atleast_1d y))))) (Z.to_nat k))
    (repeat (repeat (Fin 0) (prod (tl (shp (atleast_1d y))))) (Z.to_nat k))) as R.
  rewrite !repeat_length in R. specialize (R ltac:(apply combine_fst; rewrite !chunks_length; reflexivity) eq_refl).
  destruct (add_rows64 _ _), (add_rows _ _); cbn [bind]; auto; contradiction.
Qed.

Local Open Scope R_scope.
Lemma mass_nonneg : forall l, 0 <= mass l.
Proof. intros l. unfold mass. apply (rsum_nonneg (map (fun v => Rabs (val v)) l)). rewrite Forall_map. apply Forall_forall. intros. apply Rabs_pos. Qed.

(** The error after the remaining additions. *)
Lemma running_from : forall l acc w, Forall fin l -> fin acc ->
  (length l <= Z.to_nat 1048576)%nat ->
  Rabs (val acc) <= w -> grow (length l) * (w + mass l) <= pow2 1001 ->
  fin (fold_left fadd l acc) /\
  Rabs (val (fold_left fadd l acc) - (val acc + total l)) <= (grow (length l) - 1) * (w + mass l).
Proof.
  induction l as [|v l IH]; intros acc w Hl Ha Hn Hw B.
  - cbn [fold_left total map fold_right length grow pow]. split; auto. unfold total. cbn [map fold_right].
    rewrite Rplus_0_r, Rminus_diag_eq, Rabs_R0 by auto. unfold grow. cbn [pow]. lra.
  - inversion Hl as [|? ? Hv Hl']; subst. cbn [fold_left length] in *.
    pose proof u_pos as Up. pose proof (mass_nonneg l) as Ml. pose proof (Rabs_pos (val v)) as Av. pose proof (Rabs_pos (val acc)) as Aa.
    unfold mass in B. cbn [map fold_right] in B. fold (mass l) in B. rewrite grow_S in B.
    pose proof (grow_1 (length l)) as G1.
    assert (A1: Rabs (val acc + val v) <= w + Rabs (val v)) by (eapply Rle_trans; [apply Rabs_triang|]; lra).
    assert (X: 1 <= (1 + u) * grow (length l)).
    { rewrite <- grow_S. apply grow_1. }
    assert (W: w + (Rabs (val v) + mass l) <= pow2 1001).
    { eapply Rle_trans; [|exact B]. rewrite <- (Rmult_1_l (w + _)) at 1. apply Rmult_le_compat_r; lra. }
    assert (P: pow2 1001 <= pow2 1023) by (apply pow2_mono; lia).
    destruct (fadd_val acc v Ha Hv) as [F V]; [lra|].
    pose proof (rnd_add_error (val acc) (val v) (fmt_val _) (fmt_val _)) as E. rewrite <- V in E.
    set (s := fadd acc v) in *.
    assert (Eu: Rabs (val s - (val acc + val v)) <= u * (w + Rabs (val v))).
    { eapply Rle_trans; [exact E|]. apply Rmult_le_compat_l; lra. }
    destruct (IH s ((1 + u) * (w + Rabs (val v))) Hl' F) as [Fr Er]; [lia| | |].
    + replace (val s) with ((val s - (val acc + val v)) + (val acc + val v)) by ring.
      eapply Rle_trans; [apply Rabs_triang|]. lra.
    + eapply Rle_trans; [|exact B]. rewrite (Rmult_comm (1 + u) (grow _)), Rmult_assoc.
      apply Rmult_le_compat_l; [lra|]. pose proof (Rmult_le_pos u (mass l)). lra.
    + split; auto. unfold total, mass. cbn [map fold_right]. fold (total l) (mass l).
      replace (val (fold_left fadd l s) - (val acc + (val v + total l)))
        with ((val (fold_left fadd l s) - (val s + total l)) + (val s - (val acc + val v))) by ring.
      eapply Rle_trans; [apply Rabs_triang|]. rewrite grow_S.
      set (g := grow (length l)) in *. set (t := w + Rabs (val v)) in *.
      replace (w + (Rabs (val v) + mass l)) with (t + mass l) by (unfold t; ring).
      apply Rle_trans with ((g - 1) * ((1 + u) * t + mass l) + u * t); [lra|].
      assert (0 <= u * g * mass l) by (apply Rmult_le_pos; [apply Rmult_le_pos; lra|auto]). lra.
Qed.

Theorem running_accurate : forall l, Forall fin l -> (length l <= Z.to_nat 1048576)%nat -> mass l <= pow2 1000 ->
  fin (running l) /\ Rabs (val (running l) - total l) <= INR (length l) * pow2 (-52) * mass l.
Proof.
  intros l F L B. destruct fzero_val as [F0 V0]. pose proof (grow_bound _ L) as G. pose proof (mass_nonneg l) as M.
  assert (Nb: INR (length l) <= 1048576).
  { apply le_INR in L. rewrite (INR_Z (Z.to_nat _)), Z2Nat.id in L by lia. exact L. }
  pose proof (pos_INR (length l)) as Np.
  destruct (running_from l fzero 0 F F0 L) as [R E].
  - rewrite V0, Rabs_R0. lra.
  - rewrite Rplus_0_l. replace (pow2 1001) with (2 * pow2 1000) by (change 1001%Z with (1 + 1000)%Z; rewrite pow2_add; change (pow2 1) with 2; ring).
    apply Rmult_le_compat; auto; [pose proof (grow_1 (length l)); lra|]. rewrite u_val in G. lra.
  - split; [exact R|]. unfold running. rewrite V0, !Rplus_0_l in E. eapply Rle_trans; [exact E|].
    apply Rmult_le_compat_r; auto. eapply Rle_trans; [exact G|].
    replace (pow2 (-52)) with (2 * u) by (rewrite u_val; unfold pow2; cbn; lra). lra.
Qed.

Lemma running_whole_from : forall l acc z, Forall whole l -> fin acc -> val acc = IZR z ->
  Rabs (IZR z) + mass l < pow2 53 ->
  fin (fold_left fadd l acc) /\ val (fold_left fadd l acc) = val acc + total l.
Proof.
  induction l as [|v l IH]; intros acc z Hl Ha Hz B; unfold total; cbn [fold_left map fold_right].
  - split; auto. ring.
  - inversion Hl as [|? ? [Fv [k Hk]] Hl']; subst. unfold mass in B. cbn [map fold_right] in B. fold (mass l) in B. rewrite Hk in B.
    pose proof (mass_nonneg l) as M.
    assert (T: Rabs (IZR (z + k)) <= Rabs (IZR z) + Rabs (IZR k)) by (rewrite plus_IZR; apply Rabs_triang).
    assert (S53: Rabs (IZR (z + k)) < pow2 53) by lra.
    destruct (fadd_val acc v Ha Fv) as [F V].
    { rewrite Hz, Hk, <- plus_IZR. left. eapply Rlt_le_trans; [exact S53|]. apply pow2_mono. lia. }
    rewrite Hz, Hk, <- plus_IZR, rnd_fmt in V.
    2:{ apply fmt_IZR. rewrite pow2_Z, <- abs_IZR in S53 by lia. apply lt_IZR in S53. exact S53. }
    destruct (IH _ _ Hl' F V) as [F2 V2]; [lra|]. split; auto. rewrite V2, V, plus_IZR, Hz, Hk. unfold total. ring.
Qed.
Theorem running_whole : forall l, Forall whole l -> mass l < pow2 53 -> fin (running l) /\ val (running l) = total l.
Proof.
  intros l H B. destruct fzero_val as [F0 V0].
  destruct (running_whole_from l fzero 0 H F0 V0) as [F V]; [rewrite Rabs_R0; lra|].
  split; [exact F|]. unfold running. rewrite V, V0. ring.
Qed.

(** NaN among the members. *)
Lemma fadd_nan_r : forall v, fadd v fnan = fnan.
Proof. intros [ | | | ]; reflexivity. Qed.
Theorem running_nan : forall l, In fnan l -> running l = fnan.
Proof.
  unfold running. intros l. generalize fzero. induction l as [|v l IH]; intros a H; [destruct H|].
  cbn [fold_left]. destruct H as [->|H]; auto. rewrite fadd_nan_r. clear IH. induction l as [|w l IH]; auto.
Qed.
