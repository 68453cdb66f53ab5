(** * Cases meeting the hypotheses of PropFltChol.v. *)
From Coq Require Import Reals ZArith Lra Lia List Permutation.
From Flocq Require Import Core IEEE754.BinarySingleNaN.
From Verif Require Import Base Flt SpecFlt FltBase FltExp FltNum FltNum2 FltInst FltMat SpecFltMat FltDot
  FltMatProps FltChol SpecFltChol FltElim FltCholFacts FltForm FltCholProps FltCholDef FltCholOne DemoFlt DemoFltMat.
Import ListNotations.
Local Open Scope R_scope.

(** ** One routine: column by column, products subtracted one by one. *)
Definition fless (a : f64) (l : list (f64 * f64)) : f64 :=
  fold_right (fun p r => fsub r (fmul (fst p) (snd p))) a l.
Fixpoint fcols (b : nat -> nat -> f64) (p : nat) : nat -> nat -> f64 :=
  match p with
  | O => fun _ _ => fzero
  | S j =>
      let l := fcols b j in
      let s i := fless (b i j) (map (fun k => (l i k, l j k)) (seq 0 j)) in
      fun i k => if Nat.eqb k j then
                   (if Nat.ltb i j then fzero else if Nat.eqb i j then fsqrt (s j) else fdiv (s i) (fsqrt (s j)))
                 else l i k
  end.
Definition fpivot (b : nat -> nat -> f64) (j : nat) : f64 :=
  fless (b j j) (map (fun k => (fcols b j j k, fcols b j j k)) (seq 0 j)).
Definition chol_inst : chol64 := fun n b =>
  if forallb (fun j => flt fzero (fpivot b j)) (seq 0 n) then Some (fcols b n) else None.

Lemma fless_of : forall a l, less_of a l (fless a l).
Proof.
  intros a l. induction l as [|[x y] l IH]; [apply less_none|]. cbn [fless fold_right fst snd].
  apply (less_group a l [(x, y)] _ _ IH). apply dot_mul.
Qed.
Lemma fcols_stable : forall b p q i k, (k < q)%nat -> (q <= p)%nat -> fcols b p i k = fcols b q i k.
Proof.
  intros b p q i k Hk Hq. induction Hq as [|p Hq IH]; [reflexivity|]. cbn [fcols].
  rewrite (proj2 (Nat.eqb_neq k p)) by lia. exact IH.
Qed.
Lemma fcols_rows : forall b n j i i', (j <= n)%nat ->
  map (fun k => (fcols b n i k, fcols b n i' k)) (seq 0 j) = map (fun k => (fcols b j i k, fcols b j i' k)) (seq 0 j).
Proof.
  intros b n j i i' H. apply map_ext_in. intros k Hk. apply in_seq in Hk. rewrite !(fcols_stable b n j) by lia. reflexivity.
Qed.
Lemma fcols_column : forall b n j, (j < n)%nat -> flt fzero (fpivot b j) = true -> column n b (fcols b n) j.
Proof.
  intros b n j Hj P. split.
  - exists (fpivot b j). split; [|split; auto].
    + unfold remainder. rewrite fcols_rows by lia. apply fless_of.
    + rewrite (fcols_stable b n (S j)) by lia. cbn [fcols]. rewrite !Nat.eqb_refl, Nat.ltb_irrefl. reflexivity.
  - intros i Hi. exists (fless (b i j) (map (fun k => (fcols b j i k, fcols b j j k)) (seq 0 j))). split.
    + unfold remainder. rewrite fcols_rows by lia. apply fless_of.
    + left. rewrite !(fcols_stable b n (S j)) by lia. cbn [fcols]. rewrite !Nat.eqb_refl, Nat.ltb_irrefl.
      rewrite (proj2 (Nat.eqb_neq i j)) by lia. rewrite (proj2 (Nat.ltb_ge i j)) by lia. reflexivity.
Qed.
Lemma first_bad : forall (f : nat -> bool) n, forallb f (seq 0 n) = false ->
  exists j, (j < n)%nat /\ f j = false /\ forall k, (k < j)%nat -> f k = true.
Proof.
  intros f n. induction n as [|n IH]; intros H; [discriminate H|]. rewrite seq_S, forallb_app in H. cbn [forallb Nat.add] in H.
  destruct (forallb f (seq 0 n)) eqn:E.
  - exists n. split; [lia|]. cbn in H. rewrite andb_true_r in H. split; auto. intros k Hk. rewrite forallb_forall in E.
    apply E. apply in_seq. lia.
  - destruct (IH eq_refl) as (j & Hj & F & G). exists j. split; [lia|auto].
Qed.
Lemma chol_inst_ok : chol_contract chol_inst.
Proof.
  constructor.
  - intros n b l H. unfold chol_inst in H. destruct (forallb _ (seq 0 n)) eqn:E; [|discriminate]. injection H as <-.
    rewrite forallb_forall in E. split.
    + intros j Hj. apply fcols_column; auto. apply E. apply in_seq. lia.
    + intros i j H. rewrite (fcols_stable b n (S j)) by lia. cbn [fcols]. rewrite Nat.eqb_refl.
      rewrite (proj2 (Nat.ltb_lt i j)) by lia. reflexivity.
  - intros n b H. unfold chol_inst in H. destruct (forallb _ (seq 0 n)) eqn:E; [discriminate|].
    destruct (first_bad _ n E) as (j & Hj & F & G). exists (fcols b n), j, (fpivot b j). split; auto. split; [|split; auto].
    + intros k Hk. apply fcols_column; [lia|auto].
    + unfold remainder. rewrite fcols_rows by lia. apply fless_of.
Qed.

(** ** Matrices given by rows *)
Definition rows (r : list (list Z)) (i j : nat) : f64 := fint (nth j (nth i r []) 0%Z).

(** [4 2 0; 2 5 1; 0 1 9] with [diag_lb = 1]. *)
Definition m3 : nat -> nat -> f64 := rows [[4; 2; 0]; [2; 5; 1]; [0; 1; 9]]%Z.
Lemma three : forall i, (i < 3)%nat -> i = 0%nat \/ i = 1%nat \/ i = 2%nat. Proof. intros. lia. Qed.
Lemma m3_decent : decent 3 (fint 1) m3 /\ forall i, (i < 3)%nat -> val (m3 i i) - val (fint 1) <= pow2 80.
Proof.
  pose proof (big_pow 80 ltac:(lia)) as P80. pose proof (big_pow 400 ltac:(lia)) as P400.
  assert (Pm: pow2 (-800) <= 1) by (change 1 with (pow2 0); apply pow2_mono; lia).
  split; [split; [apply Nat2Z.inj_le; rewrite Z2Nat.id by lia; lia|]; split; [fint|]; split; [|split]|].
  - intros i j Hi Hj. destruct (three i Hi) as [-> |[-> | ->]]; destruct (three j Hj) as [-> |[-> | ->]]; unfold m3, rows; cbn [nth]; fint.
  - intros i j Hi Hj Ne. destruct (three i Hi) as [-> |[-> | ->]]; destruct (three j Hj) as [-> |[-> | ->]]; try lia;
      unfold m3, rows; cbn [nth]; fint; apply Rabs_le_both; lra.
  - intros i Hi. destruct (three i Hi) as [-> |[-> | ->]]; unfold m3, rows; cbn [nth]; fint; lra.
  - intros i Hi. destruct (three i Hi) as [-> |[-> | ->]]; unfold m3, rows; cbn [nth]; fint; lra.
Qed.
Lemma m3_flat : exists x, flatten64 np_inst chol_inst 3 (fint 1) m3 = Ok x.
Proof.
  assert (V: psd64_valid 3 (fint 1) m3 = true) by (vm_compute; reflexivity).
  assert (C: forallb (fun j => flt fzero (fpivot (less_diag64 (fint 1) m3) j)) (seq 0 3) = true) by (vm_compute; reflexivity).
  unfold flatten64, pack64, chol_inst. rewrite V, C. eexists. reflexivity.
Qed.
Lemma flat_case : np_contract np_inst /\ chol_contract chol_inst /\ gram_contract gram_inst /\ decent 3 (fint 1) m3 /\
  (forall i, (i < 3)%nat -> val (m3 i i) - val (fint 1) <= pow2 80) /\ Rabs (val (fint 1)) <= pow2 1000 /\
  exists x, flatten64 np_inst chol_inst 3 (fint 1) m3 = Ok x.
Proof.
  split; [apply np_inst_ok|]. split; [apply chol_inst_ok|]. split; [apply gram_inst_ok|]. split; [apply m3_decent|].
  split; [apply m3_decent|]. split; [|apply m3_flat]. fint. pose proof (big_pow 1000 ltac:(lia)). apply Rabs_le_both; lra.
Qed.

(** [2 1; 1 2] and [1 2; 2 1]. *)
Lemma two : forall i, (i < 2)%nat -> i = 0%nat \/ i = 1%nat. Proof. intros. lia. Qed.
Lemma small_decent : forall a c d : Z, (1 <= a <= 9)%Z -> (1 <= c <= 9)%Z -> (1 <= d <= 9)%Z -> decent 2 (fint 0) (rows [[a; c]; [c; d]]).
Proof.
  intros a c d Ha Hc Hd. pose proof (big_pow 400 ltac:(lia)) as P400.
  assert (Pm: pow2 (-800) <= 1) by (change 1 with (pow2 0); apply pow2_mono; lia).
  assert (Ra: 1 <= IZR a <= 9) by (split; apply IZR_le; lia). assert (Rc: 1 <= IZR c <= 9) by (split; apply IZR_le; lia).
  assert (Rd: 1 <= IZR d <= 9) by (split; apply IZR_le; lia).
  split; [apply Nat2Z.inj_le; rewrite Z2Nat.id by lia; lia|]. split; [fint|]. split; [|split].
  - intros i j Hi Hj. destruct (two i Hi) as [-> | ->]; destruct (two j Hj) as [-> | ->]; unfold rows; cbn [nth]; fint.
  - intros i j Hi Hj Ne. destruct (two i Hi) as [-> | ->]; destruct (two j Hj) as [-> | ->]; try lia;
      unfold rows; cbn [nth]; fint; apply Rabs_le_both; lra.
  - intros i Hi. destruct (two i Hi) as [-> | ->]; unfold rows; cbn [nth]; fint; lra.
Qed.
Definition m2 : nat -> nat -> f64 := rows [[2; 1]; [1; 2]]%Z.
Lemma accept_case : chol_contract chol_inst /\ decent 2 (fint 0) m2 /\ psd64_valid 2 (fint 0) m2 = true /\
  forall z, pow2 (-49) * INR (2 + 1) * (reach 2 (fint 0) m2 z * reach 2 (fint 0) m2 z) <= form 2 (shifted (fint 0) m2) z.
Proof.
  split; [apply chol_inst_ok|]. split; [apply small_decent; lia|]. split; [vm_compute; reflexivity|].
  intros z. unfold reach, form, sum_to, rsum, shifted, m2, rows. cbn [seq map fold_right nth Nat.eqb]. fint.
  set (x := z 0%nat). set (y := z 1%nat). rewrite !Rminus_0_r. cbn [Nat.add INR].
  replace ((Rabs x * sqrt 2 + (Rabs y * sqrt 2 + 0)) * (Rabs x * sqrt 2 + (Rabs y * sqrt 2 + 0)))
    with ((sqrt 2 * sqrt 2) * ((Rabs x + Rabs y) * (Rabs x + Rabs y))) by ring.
  rewrite sqrt_sqrt by lra.
  assert (X: Rabs x * Rabs x = x * x) by (rewrite <- Rabs_mult; apply Rabs_pos_eq, Rle_0_sqr).
  assert (Y: Rabs y * Rabs y = y * y) by (rewrite <- Rabs_mult; apply Rabs_pos_eq, Rle_0_sqr).
  pose proof (Rle_0_sqr (Rabs x - Rabs y)) as Q. unfold Rsqr in Q.
  pose proof (Rle_0_sqr (x + y)) as Q2. unfold Rsqr in Q2. pose proof (Rle_0_sqr x) as Q3. pose proof (Rle_0_sqr y) as Q4. unfold Rsqr in *.
  assert (P: pow2 (-49) <= / 100) by (change (pow2 (-49)) with (/ 562949953421312); lra). pose proof (pow2_pos (-49)).
  assert (S0: (Rabs x + Rabs y) * (Rabs x + Rabs y) <= 2 * (x * x) + 2 * (y * y)) by lra.
  pose proof (Rle_0_sqr (Rabs x + Rabs y)) as Q5. unfold Rsqr in Q5.
  apply Rle_trans with (/ 100 * (1 + 1 + 1) * (2 * ((Rabs x + Rabs y) * (Rabs x + Rabs y)))); [|lra].
  apply Rmult_le_compat_r; [lra|]. lra.
Qed.
Definition m2' : nat -> nat -> f64 := rows [[1; 2]; [2; 1]]%Z.
Definition z2 (i : nat) : R := if Nat.eqb i 0 then 1 else -1.
Lemma reject_case : chol_contract chol_inst /\ decent 2 (fint 0) m2' /\ psd64_valid 2 (fint 0) m2' = true /\
  form 2 (shifted (fint 0) m2') z2 < - (pow2 (-50) * INR (2 + 1) * (reach 2 (fint 0) m2' z2 * reach 2 (fint 0) m2' z2)).
Proof.
  split; [apply chol_inst_ok|]. split; [apply small_decent; lia|]. split; [vm_compute; reflexivity|].
  unfold reach, form, sum_to, rsum, shifted, m2', rows, z2. cbn [seq map fold_right nth Nat.eqb]. fint.
  cbn [Nat.add INR]. rewrite Rminus_0_r, sqrt_1. replace (Rabs (-1)) with 1 by (rewrite Rabs_left; lra). rewrite Rabs_R1.
  change (pow2 (-50)) with (/ 1125899906842624). lra.
Qed.

(** ** A positive definite matrix that is rejected, and an indefinite one that is accepted *)
Lemma fint_big : forall z, (Z.abs z < 2 ^ 53)%Z -> fin (fint z) /\ val (fint z) = IZR z.
Proof.
  intros z H. destruct (flit_val z 0) as [F V]; [lia|lia| |].
  - change (pow2 0) with 1. rewrite Rmult_1_r, <- abs_IZR. apply Rle_trans with (IZR (2 ^ 53)); [apply IZR_le; lia|].
    rewrite <- pow2_Z by lia. apply pow2_mono. lia.
  - split; auto. unfold fint. rewrite V. change (pow2 0) with 1. ring.
Qed.
Ltac fbig := repeat match goal with |- context [val (fint ?z)] => rewrite (proj2 (fint_big z ltac:(lia))) end.
Definition pd : nat -> nat -> f64 := rows [[2971215073; 4807526976]; [4807526976; 7778742049]]%Z.
Definition indef : nat -> nat -> f64 := rows [[4807526976; 7778742049]; [7778742049; 12586269025]]%Z.
Definition pd_below : f64 := fdiv (pd 1%nat 0%nat) (fsqrt (pd 0%nat 0%nat)).
Definition in_below : f64 := fdiv (indef 1%nat 0%nat) (fsqrt (indef 0%nat 0%nat)).

Lemma same_less : forall m i j, feq (m i j) (fzero) = false -> less_diag64 fzero m i j = m i j.
Proof.
  intros m i j H. unfold less_diag64. replace (if Nat.eqb i j then fzero else fzero) with fzero by (destruct (Nat.eqb i j); reflexivity).
  change fzero with (B754_zero false : f64). destruct (minus_zero (m i j) false) as [E|(s & t & _ & E)]; [exact E|].
  rewrite E in H. destruct t; discriminate H.
Qed.
Lemma first_column : forall m l, feq (m 0%nat 0%nat) fzero = false -> feq (m 1%nat 0%nat) fzero = false ->
  column 2 (less_diag64 fzero m) l 0 -> l 0%nat 0%nat = fsqrt (m 0%nat 0%nat) /\
  (l 1%nat 0%nat = fdiv (m 1%nat 0%nat) (fsqrt (m 0%nat 0%nat)) \/
   l 1%nat 0%nat = fmul (m 1%nat 0%nat) (fdiv fone (fsqrt (m 0%nat 0%nat)))).
Proof.
  intros m l H0 H1 ((s & R & _ & E) & C). unfold remainder in R. cbn [seq map] in R. rewrite same_less in R by auto.
  apply less_nil_nonzero in R; [|intros s' K; rewrite K in H0; destruct s'; discriminate H0]. subst s.
  split; auto. destruct (C 1%nat ltac:(lia)) as (s & R & K). unfold remainder in R. cbn [seq map] in R.
  rewrite same_less in R by auto. apply less_nil_nonzero in R; [|intros s' K'; rewrite K' in H1; destruct s'; discriminate H1].
  subst s. rewrite E in K. exact K.
Qed.

Lemma pd_form : forall z, z 0%nat <> 0 \/ z 1%nat <> 0 -> 0 < form 2 (shifted fzero pd) z.
Proof.
  intros z H. unfold form, sum_to, rsum, shifted, pd, rows. cbn [seq map fold_right nth Nat.eqb].
  fbig. rewrite (proj2 fzero_val). set (x := z 0%nat) in *. set (y := z 1%nat) in *.
  apply Rmult_lt_reg_l with 2971215073; [lra|]. rewrite Rmult_0_r.
  replace (2971215073 * _) with (Rsqr (2971215073 * x + 4807526976 * y) + Rsqr y) by (unfold Rsqr; ring).
  pose proof (Rle_0_sqr (2971215073 * x + 4807526976 * y)) as A. pose proof (Rle_0_sqr y) as B.
  destruct (Req_dec y 0) as [E|E].
  - rewrite E in *. assert (x <> 0) by tauto. apply Rplus_lt_le_0_compat; auto. apply Rlt_0_sqr. lra.
  - apply Rplus_le_lt_0_compat; auto. apply Rlt_0_sqr. auto.
Qed.
Lemma pd_rejected : forall np chol, chol_contract chol -> flatten64 np chol 2 fzero pd = Err LinAlgError.
Proof.
  intros np chol CC. unfold flatten64, pack64. replace (psd64_valid 2 fzero pd) with true by (vm_compute; reflexivity).
  destruct (chol 2%nat (less_diag64 fzero pd)) as [l|] eqn:E; [|reflexivity]. exfalso.
  destruct (chol_done chol CC _ _ _ E) as (C & _).
  destruct (first_column pd l ltac:(vm_compute; reflexivity) ltac:(vm_compute; reflexivity) (C 0%nat ltac:(lia))) as (_ & Q).
  assert (Q': l 1%nat 0%nat = pd_below).
  { destruct Q as [->| ->]; [reflexivity|]. apply B2SF_inj. vm_compute. reflexivity. }
  destruct (C 1%nat ltac:(lia)) as ((s & R & P & _) & _). unfold remainder in R. cbn [seq map] in R. rewrite Q' in R.
  rewrite same_less in R by (vm_compute; reflexivity).
  destruct (positive_pivot _ _ s R) as (_ & _ & A); auto.
  { apply (fint_big 7778742049). lia. }
  { constructor; [reflexivity|constructor]. }
  inversion A as [|p ps (Fp & Ap) _]; subst. unfold pv in Ap. cbn [fst snd] in Fp, Ap.
  assert (B: Rabs (val pd_below * val pd_below) <= pow2 1023).
  { assert (Fq: fin pd_below /\ fin (fint 100000) /\ fin (fint 0)) by (split; [vm_compute; reflexivity|split; fint]).
    assert (L1: flt pd_below (fint 100000) = true) by (vm_compute; reflexivity).
    assert (L0: flt pd_below (fint 0) = false) by (vm_compute; reflexivity).
    assert (V1: val pd_below < 100000).
    { apply Rnot_le_lt. intros K. rewrite flt_false in L1; [discriminate L1|apply Fq|apply Fq|fint; exact K]. }
    assert (V0: 0 <= val pd_below).
    { apply Rnot_lt_le. intros K. rewrite flt_true in L0; [discriminate L0|apply Fq|apply Fq|fint; exact K]. }
    rewrite Rabs_pos_eq by (apply Rmult_le_pos; lra). apply Rle_trans with (100000 * 100000); [apply Rmult_le_compat; lra|].
    apply Rle_trans with (pow2 40); [rewrite pow2_Z by lia; change (2 ^ 40)%Z with 1099511627776%Z; lra|apply pow2_mono; lia]. }
  destruct (fmul_val pd_below pd_below eq_refl eq_refl B) as (Fm & Vm). rewrite <- Vm in Ap.
  assert (L: flt (pd 1%nat 1%nat) (fmul pd_below pd_below) = true) by (vm_compute; reflexivity).
  rewrite flt_false in L; [discriminate L|apply (fint_big 7778742049); lia|exact Fm|exact Ap].
Qed.

Lemma indef_form : form 2 (shifted fzero indef) (fun i => if Nat.eqb i 0 then 7778742049 else -4807526976) < 0.
Proof.
  unfold form, sum_to, rsum, shifted, indef, rows. cbn [seq map fold_right nth Nat.eqb].
  fbig. rewrite (proj2 fzero_val). lra.
Qed.
Lemma indef_accepted : forall np chol, chol_contract chol -> exists x, flatten64 np chol 2 fzero indef = Ok x.
Proof.
  intros np chol CC. unfold flatten64, pack64. replace (psd64_valid 2 fzero indef) with true by (vm_compute; reflexivity).
  destruct (chol 2%nat (less_diag64 fzero indef)) as [l|] eqn:E; [eexists; reflexivity|]. exfalso.
  destruct (chol_stop chol CC _ _ E) as (l & j & s & Hj & C & R & F).
  destruct (two j Hj) as [-> | ->]; unfold remainder in R; cbn [seq map] in R; rewrite same_less in R by (vm_compute; reflexivity).
  - apply less_nil in R; [|reflexivity]. rewrite (alike_flt _ _ R) in F. vm_compute in F. discriminate F.
  - destruct (first_column indef l ltac:(vm_compute; reflexivity) ltac:(vm_compute; reflexivity) (C 0%nat ltac:(lia))) as (_ & Q).
    assert (Q': l 1%nat 0%nat = in_below).
    { destruct Q as [->| ->]; [reflexivity|]. apply B2SF_inj. vm_compute. reflexivity. }
    rewrite Q' in R. destruct (fint_big 12586269025 ltac:(lia)) as (Fd & Vd). change (fint 12586269025) with (indef 1%nat 1%nat) in Fd, Vd.
    assert (P0: IZR 12586269025 <= pow2 999).
    { apply Rle_trans with (pow2 40); [rewrite pow2_Z by lia; apply IZR_le; lia|apply pow2_mono; lia]. }
    destruct (less_one _ _ s R Fd) as (_ & K); [rewrite Vd; lra|].
    assert (Fq: fin in_below) by (vm_compute; reflexivity).
    assert (Vq: val in_below = 7709537923120970 * pow2 (-36)).
    { unfold val. rewrite <- SF2R_B2SF. replace (B2SF in_below) with (SpecFloat.S754_finite false 7709537923120970 (-36)) by (vm_compute; reflexivity).
      reflexivity. }
    assert (Sq: val in_below * val in_below = 7709537923120970 * 7709537923120970 * pow2 (-72)).
    { rewrite Vq. replace (pow2 (-72)) with (pow2 (-36) * pow2 (-36)) by (rewrite <- pow2_add; reflexivity). ring. }
    assert (P72: 12586269025 = 12586269025 * IZR (2 ^ 72) * pow2 (-72)).
    { rewrite <- (pow2_Z 72) by lia. rewrite Rmult_assoc, <- pow2_add. change (72 + -72)%Z with 0%Z. change (pow2 0) with 1. ring. }
    assert (P1: pow2 (-1000) <= pow2 (-72)) by (apply pow2_mono; lia). pose proof (pow2_pos (-72)) as P2.
    assert (Gap: pow2 (-72) <= 12586269025 - val in_below * val in_below).
    { rewrite P72, Sq. rewrite <- Rmult_minus_distr_r. rewrite <- (Rmult_1_l (pow2 (-72))) at 1. apply Rmult_le_compat_r; [lra|].
      change (2 ^ 72)%Z with 4722366482869645213696%Z. lra. }
    pose proof (Rle_0_sqr (val in_below)) as Q0. unfold Rsqr in Q0.
    destruct (K in_below eq_refl Fq) as (Fs & Ps).
    + assert (B: Rabs (val in_below * val in_below) <= pow2 1023).
      { rewrite Rabs_pos_eq by auto. apply Rle_trans with (pow2 999); [lra|apply pow2_mono; lia]. }
      destruct (fmul_val in_below in_below Fq Fq B) as (Fm & Vm). rewrite <- Vm.
      apply Rnot_le_lt. intros Le.
      assert (L: flt (fmul in_below in_below) (indef 1%nat 1%nat) = true) by (vm_compute; reflexivity).
      rewrite flt_false in L; [discriminate L|exact Fm|exact Fd|exact Le].
    + rewrite Vd. lra.
    + rewrite flt_true in F; [discriminate F|apply fzero_val|exact Fs|]. rewrite (proj2 fzero_val). exact Ps.
Qed.

(** An infinite diagonal. *)
Definition m_inf : nat -> nat -> f64 := fun _ _ => finf.
Lemma infinite_case : m_inf 0%nat 0%nat = finf /\ fin (fint 3) /\ exists x, flatten64 np_inst chol_inst 1 (fint 3) m_inf = Ok x.
Proof.
  split; [reflexivity|]. split; [fint|].
  assert (V: psd64_valid 1 (fint 3) m_inf = true) by (vm_compute; reflexivity).
  assert (C: forallb (fun j => flt fzero (fpivot (less_diag64 (fint 3) m_inf) j)) (seq 0 1) = true) by (vm_compute; reflexivity).
  unfold flatten64, pack64, chol_inst. rewrite V, C. eexists. reflexivity.
Qed.
