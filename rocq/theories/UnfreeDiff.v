(** * The unfreeing transform is differentiable. *)
From Coq Require Import Reals Lra Lia.
From Verif Require Import Base Num Nd Numeric Simplex Psd Pattern Spec ListFacts PatFacts NonFree
  NumFacts CholFacts Free Contract Indices2 Jac SpecJac JacBase JacFacts JacMore JacPsd CholDiff PsdDiff AlongFacts
  SpecEnd GradFacts GradSimp SpecDir SpecSecond TotalDiff.
Local Open Scope list_scope.
Local Open Scope nat_scope.

(** [F] is defined on all finite vectors of length [n], with values of length [m], and
    differentiable. *)
Definition smooth (n m : nat) (F : list num -> res (list num)) : Prop :=
  exists G : list R -> list R,
    (forall x, length x = n -> F (map Fin x) = Ok (map Fin (G x)) /\ length (G x) = m) /\
    forall x, length x = n -> forall i, i < m -> dif n (fun z => nth i (G z) 0%R) x.

Lemma smooth_weaken : forall n m F F', smooth n m F ->
  (forall x y, length x = n -> F (map Fin x) = Ok (map Fin y) -> F' (map Fin x) = Ok (map Fin y)) -> smooth n m F'.
Proof.
  intros n m F F' (G & HG & HD) H. exists G. split; auto. intros x Lx. destruct (HG x Lx) as (E & L). split; auto.
Qed.

(** ** From partial derivatives to the total derivative *)
Lemma unit_length : forall n j, length (unit_vec n j) = n.
Proof. intros. unfold unit_vec. rewrite map_length, seq_length. auto. Qed.
Lemma line_unit : forall n x j t, length x = n -> j < n -> line x (unit_vec n j) t = upd x j (nth j x 0 + t)%R.
Proof.
  intros n x j t Lx Hj. apply (list_eq_nth _ _ _ 0%R).
  - rewrite line_length, upd_length; auto. rewrite unit_length. auto.
  - intros i Hi. rewrite line_length in Hi by (rewrite unit_length; auto).
    rewrite nth_line by (rewrite unit_length; auto). rewrite nth_upd by lia. rewrite nth_unit_vec.
    rewrite (proj2 (Nat.ltb_lt i n)) by lia. destruct (Nat.eqb_spec i j) as [->|]; cbn [andb]; ring.
Qed.

Lemma dif_functions : forall n m (G : list R -> list R) x,
  (forall i, i < m -> dif n (fun z => nth i (G z) 0%R) x) ->
  exists c : nat -> nat -> R, forall i, i < m -> fre n (fun z => nth i (G z) 0%R) x (c i).
Proof.
  induction m; intros G x H.
  - exists (fun _ _ => 0%R). intros; lia.
  - destruct (IHm G x) as (c & Hc); [intros; apply H; lia|]. destruct (H m ltac:(lia)) as (e & He).
    exists (fun i => if i =? m then e else c i). intros i Hi. destruct (Nat.eqb_spec i m) as [->|]; auto. apply Hc. lia.
Qed.

Lemma smooth_rows : forall n m F G x y J,
  (forall x, length x = n -> F (map Fin x) = Ok (map Fin (G x)) /\ length (G x) = m) ->
  (forall i, i < m -> dif n (fun z => nth i (G z) 0%R) x) ->
  length x = n -> derivative_at F x y J ->
  exists c : nat -> nat -> R,
    (forall i j, i < m -> j < n -> m_at J i j = Fin (c i j)) /\
    forall i, i < m -> fre n (fun z => nth i (G z) 0%R) x (c i).
Proof.
  intros n m F G x y J HG HD Lx (E & R1 & C1 & D).
  destruct (HG x Lx) as (Ex & Lg). rewrite E in Ex. assert (y = G x) as Ey by (apply map_fin_inj'; congruence).
  assert (Lm : length y = m) by (rewrite Ey; auto).
  destruct (dif_functions n m G x HD) as (c & Hc). exists c. split; auto.
  intros i j Hi Hj. destruct (D j ltac:(lia)) as (r & G' & Hr & HG' & Hd). destruct (Hd i ltac:(lia)) as (d & Ed & HL). rewrite Ed. f_equal.
  pose proof (fre_line n _ x (c i) (unit_vec n j) Lx (unit_length n j) (Hc i Hi)) as K.
  rewrite (Rsum_single n _ j Hj) in K.
  2:{ intros k Hk Hne. rewrite nth_unit_vec. destruct (Nat.eqb_spec k j); [lia|]. cbn [andb]. ring. }
  rewrite nth_unit_vec, Nat.eqb_refl, (proj2 (Nat.ltb_lt j n)) in K by lia. cbn [andb] in K. rewrite Rmult_1_r in K.
  apply (uniqueness_limite (fun t => nth i (G (line x (unit_vec n j) t)) 0%R) 0); auto.
  pose proof (affine_lim (fun t => nth i (G' t) 0%R) (nth j x 0%R) 1 d HL) as A. rewrite Rmult_1_r in A.
  eapply (lim_ext _ _ _ _ r Hr); [|exact A]. intros t Ht. rewrite Rminus_0_r in Ht. cbv beta.
  destruct (HG' (nth j x 0 + t * 1)%R) as (E' & L').
  { replace (nth j x 0 + t * 1 - nth j x 0)%R with t by ring. auto. }
  destruct (HG (line x (unit_vec n j) t)) as (E2 & _); [rewrite line_length, ?unit_length; auto; rewrite unit_length; lia|].
  pose proof (line_unit n x j t Lx Hj) as LU.
  rewrite LU in *. rewrite Rmult_1_r in *. rewrite E' in E2. injection E2 as E2. apply map_fin_inj' in E2. rewrite E2. auto.
Qed.

(** ** Elementwise maps *)
Lemma smooth_map : forall n F g (gr : R -> R) (dr : R -> R),
  (forall x, length x = n -> F (map Fin x) = Ok (map g (map Fin x))) ->
  (forall t, g (Fin t) = Fin (gr t)) -> (forall t, derivable_pt_lim gr t (dr t)) -> smooth n n F.
Proof.
  intros n F g gr dr HF Hg Hd. exists (map gr). split.
  - intros x Lx. rewrite HF, map_length by auto. split; auto. f_equal. rewrite !map_map. apply map_ext. auto.
  - intros x Lx i Hi. apply (dif_ext n (fun z => gr (nth i z 0%R))); auto.
    + intros z Lz. rewrite (nth_map_gen _ _ _ _ _ 0%R 0%R) by lia. auto.
    + apply (dif_comp n (fun z => nth i z 0%R) x gr (dr (nth i x 0%R)) Lx); auto. apply dif_coord; auto.
Qed.

(** ** Simplex rows *)
Lemma Rlsum_exp_nth : forall l, Rlsum (map exp l) = Rsum (length l) (fun j => exp (nth j l 0%R)).
Proof.
  intros l. rewrite <- (rs_list (map exp l)), map_length. apply Rsum_ext. intros i Hi. apply (nth_map_gen _ _ exp); auto.
Qed.
Lemma smooth_row : forall n, smooth n (S n) (fun x => Ok (constrain_row x)).
Proof.
  intros n. exists softmax. split.
  { intros x Lx. rewrite constrain_row_fin. split; auto. destruct (softmax_spec x) as (-> & _). lia. }
  intros x Lx i Hi.
  assert (A : forall j, j < S n -> dif n (fun z => exp (nth j (0%R :: z) 0%R)) x).
  { intros [|j] Hj; cbn [nth]; [apply dif_const|].
    apply (dif_comp n (fun z => nth j z 0%R) x exp (exp (nth j x 0%R)) Lx); [apply dif_coord; lia|apply derivable_pt_lim_exp]. }
  apply (dif_ext n (fun z => exp (nth i (0%R :: z) 0) / Rsum (S n) (fun j => exp (nth j (0%R :: z) 0%R)))%R); auto.
  { intros z Lz. rewrite nth_softmax by lia. rewrite Rlsum_exp_nth. cbn [length]. rewrite Lz. auto. }
  apply (dif_div n (fun z => exp (nth i (0%R :: z) 0%R)) (fun z => Rsum (S n) (fun j => exp (nth j (0%R :: z) 0%R))) x Lx); auto.
  - apply (dif_sum n (S n) (fun j z => exp (nth j (0%R :: z) 0%R))). exact A.
  - assert (0 < Rsum (S n) (fun j => exp (nth j (0%R :: x) 0%R)))%R; [|lra]. generalize (0%R :: x). intros l. clear. induction n.
    + cbn. pose proof (exp_pos (nth 0 l 0%R)). lra.
    + change (0 < Rsum (S n) (fun j => exp (nth j l 0%R)) + exp (nth (S n) l 0%R))%R. pose proof (exp_pos (nth (S n) l 0%R)). lra.
Qed.

(** ** PSD matrices *)
Lemma ld_ind_below : forall n i j, j <= i -> i < n -> ld_ind i j < T n.
Proof. intros n i j H1 H2. change (ld_ind i j) with (j + T i). assert (T (S i) <= T n) by (apply T_mono; lia). rewrite T_S in H. lia. Qed.
Lemma chol_dif : forall n x i k, length x = T n -> i < n -> dif (T n) (fun z => chol_of z i k) x.
Proof.
  intros n x i k Lx Hi. unfold chol_of, diag_map. destruct (Nat.leb_spec k i) as [Hk|Hk]; [|apply dif_const].
  assert (ld_ind i k < T n) as Hl by (apply ld_ind_below; auto). destruct (i =? k); [|apply dif_coord; auto].
  apply (dif_comp (T n) (fun z => nth (ld_ind i k) z 0%R) x exp (exp (nth (ld_ind i k) x 0%R)) Lx); [apply dif_coord; auto|apply derivable_pt_lim_exp].
Qed.
Lemma smooth_psd : forall sz fl dlb dv fd c, usable (PPsd sz fl dlb dv fd) -> pyval dlb = Fin c ->
  smooth (T sz) (sz * sz) (transform false (PPsd sz fl dlb dv fd)).
Proof.
  intros sz fl dlb dv fd c Hu Hc. exists (flat_of sz c). split.
  { intros x Lx. split; [apply psd_unfree; auto|]. unfold flat_of. apply rrows_length. }
  intros x Lx i Hi. assert (sz <> 0) as Hz by (intros ->; lia).
  assert (i / sz < sz) as Hd by (apply Nat.div_lt_upper_bound; auto). pose proof (Nat.mod_upper_bound i sz Hz) as Hm.
  apply (dif_ext (T sz) (fun z => gram sz (chol_of z) (i / sz) (i mod sz) + (if (i / sz =? i mod sz)%nat then c else 0))%R); auto.
  { intros z _. unfold flat_of. rewrite nth_rrows by auto. auto. }
  apply dif_plus; [|apply dif_const]. unfold gram.
  apply (dif_sum (T sz) sz (fun k z => (chol_of z (i / sz) k * chol_of z (i mod sz) k)%R)). intros k Hk.
  apply dif_mult; auto; apply chol_dif; auto.
Qed.

(** ** Blocks *)
Lemma smooth_joint : forall l, Forall (fun nF => exists m, smooth (fst nF) m (snd nF)) l ->
  exists m, smooth (lsum (map fst l)) m (joint l).
Proof.
  intros l H. induction H as [|[n F] l (m & G & HG & HD) H (m' & G' & HG' & HD')].
  - exists 0, (fun _ => []). split; [intros; split; auto|]. intros; lia.
  - cbn [map fst snd lsum fold_right] in *. fold (lsum (map fst l)) in *. set (n' := lsum (map fst l)) in *.
    exists (m + m'), (fun x => G (firstn n x) ++ G' (skipn n x)).
    assert (L1 : forall x : list R, length x = n + n' -> length (firstn n x) = n /\ length (skipn n x) = n').
    { intros x Lx. rewrite firstn_length, skipn_length. lia. }
    split.
    + intros x Lx. destruct (L1 x Lx) as (A & B). destruct (HG _ A) as (E1 & M1). destruct (HG' _ B) as (E2 & M2).
      split; [|rewrite app_length; lia]. rewrite <- (firstn_skipn n x) at 1. apply joint_cons_app; auto.
    + intros x Lx i Hi. destruct (L1 x Lx) as (A & B).
      assert (S1 : forall z, length z = n + n' -> length (G (firstn n z)) = m).
      { intros z Lz. apply HG. apply L1. auto. }
      destruct (Nat.lt_ge_cases i m) as [Hm|Hm].
      * apply (dif_ext (n + n') (fun z => nth i (G (firstn n z)) 0%R)); auto.
        { intros z Lz. rewrite app_nth1; auto. rewrite S1; auto. }
        apply (dif_firstn n n' (fun z => nth i (G z) 0%R)); auto.
      * apply (dif_ext (n + n') (fun z => nth (i - m) (G' (skipn n z)) 0%R)); auto.
        { intros z Lz. rewrite app_nth2; rewrite S1; auto. }
        apply (dif_skipn n n' (fun z => nth (i - m) (G' z) 0%R)); auto. apply HD'; auto. lia.
Qed.

(** ** Trees *)
Lemma smooth_num : forall k s lb ub dv fd, usable (PNum k s lb ub dv fd) ->
  smooth (prod s) (prod s) (transform false (PNum k s lb ub dv fd)).
Proof.
  intros k s lb ub dv fd Hu. pose proof Hu as (Hs & Hlu). set (p := PNum k s lb ub dv fd) in *.
  destruct (constrain1_lim (pyval lb) (pyval ub) 0 Hlu) as (gr & _ & Hg & _ & _).
  apply (smooth_map (prod s) _ (constrain1 (pyval lb) (pyval ub)) gr
    (fun t => match constrain1_jac (pyval lb) (pyval ub) (Fin t) with Fin d => d | _ => 0%R end)); auto.
  - intros x' Lx'. rewrite transform_eq. cbn [negb].
    assert (length x' = pl_n (flat_len p true)) as Lp by (simpl; lia).
    destruct (free_fold_ok p x' (Some false) Hu Lp) as (v & Ev & Hiv).
    rewrite Ev. cbn [bind]. pose proof Ev as Ev'. unfold p in Ev'. cbn [fold_] in Ev'.
    rewrite atleast_vec, ndim_vec, size_vec, map_length, Lx', !Nat.eqb_refl in Ev'. cbn [negb] in Ev'.
    injection Ev' as <-. destruct (interior_fv_arr p _ Hu Hiv) as (K & K').
    rewrite flatten_lenient; [|auto|apply lenient_false|exact K|exact K'].
    cbn [entries p]. unfold p, num_fold_free. cbn [nd_map dat vec snum of_num to_num]. rewrite !map_id. auto.
  - intros t. destruct (constrain1_lim (pyval lb) (pyval ub) t Hlu) as (gr' & d & Hg' & -> & Hl).
    eapply (lim_ext gr' _ _ _ 1); [lra| |exact Hl]. intros y _. specialize (Hg y). rewrite Hg' in Hg. injection Hg as ->. auto.
Qed.

Lemma lsum_const : forall A (l : list A) k, lsum (map (fun _ => k) l) = length l * k.
Proof. induction l; intros k; cbn; auto. Qed.

Lemma smooth_simplex : forall n s dv fd, usable (PSimplex n s dv fd) ->
  exists m, smooth (prod s * (n - 1)) m (transform false (PSimplex n s dv fd)).
Proof.
  intros n s dv fd Hu. set (p := PSimplex n s dv fd) in *. cbn [usable p] in Hu.
  destruct (smooth_joint (map (fun _ : nat => (n - 1, fun x => Ok (constrain_row x))) (seq 0 (prod s)))) as (m & S).
  { apply Forall_map, Forall_forall. intros _ _. exists (S (n - 1)). apply smooth_row. }
  exists m. rewrite map_map in S. cbn [fst] in S. rewrite lsum_const, seq_length in S.
  apply (smooth_weaken _ _ _ _ S). intros x' y' Lx' HJ.
  rewrite joint_const, seq_length in HJ. rewrite <- HJ. rewrite transform_eq. cbn [negb].
  assert (length x' = pl_n (flat_len p true)) as Lp by (rewrite Lx'; unfold p; cbn [flat_len]; rewrite simplex_flen; auto).
  destruct (free_fold_ok p x' (Some false) Hu Lp) as (v & Ev & Hiv).
  rewrite Ev. cbn [bind]. pose proof Ev as Ev'. unfold p in Ev'. cbn [fold_] in Ev'.
  cbn [pylen vec shp bind] in Ev'. rewrite map_length in Ev'.
  change (flat_len (PSimplex n s dv fd) true) with (flat_len p true) in Ev'.
  rewrite <- Lp, Nat.eqb_refl in Ev'. cbn [negb] in Ev'.
  assert (reshape (mkNd [length x'] (map Fin x')) (s ++ [n - 1]) = Ok (mkNd (s ++ [n - 1]) (map Fin x'))) as Er.
  { unfold reshape, size. cbn [shp dat]. rewrite prod_app. cbn [prod fold_right].
    rewrite (proj2 (Nat.eqb_eq _ _)); auto. rewrite Lx'. cbn. lia. }
  unfold vec in Ev'. rewrite ?map_length in Ev'. rewrite Er in Ev'. cbn [bind] in Ev'. injection Ev' as <-.
  destruct (interior_fv_arr p _ Hu Hiv) as (K & K'). rewrite flatten_lenient; [|auto|apply lenient_false|exact K|exact K'].
  unfold p. cbn [entries]. unfold simplex_fold_free. cbn [nd_map dat snum of_num to_num]. rewrite !map_id. auto.
Qed.

Theorem smooth_all : forall p, usable p -> exists m, smooth (pl_n (flat_len p true)) m (transform false p).
Proof.
  apply (pat_ind' (fun p => usable p -> exists m, smooth (pl_n (flat_len p true)) m (transform false p))).
  - intros k s lb ub dv fd Hu. eexists. apply smooth_num. auto.
  - intros n s dv fd Hu. destruct (smooth_simplex n s dv fd Hu) as (m & S). exists m. cbn [flat_len]. rewrite simplex_flen. exact S.
  - intros sz fl dlb dv fd Hu. pose proof Hu as (Hfl & Hd). destruct Hd as (c & Ec & Hc).
    exists (sz * sz). cbn [flat_len plint pl_n]. replace fl with (T sz) at 1 by (rewrite Hfl; reflexivity). apply (smooth_psd sz fl dlb dv fd c); auto.
  - intros s b fd IH Hu. pose proof Hu as (Hne & Hp & Hd & Hub). destruct (IH Hub) as (m & S).
    destruct (smooth_joint (map (fun _ => (pl_n (flat_len b true), transform false b)) (indices s))) as (m' & S').
    { apply Forall_map, Forall_forall. intros; eauto. }
    exists m'. rewrite map_map in S'. cbn [fst] in S'. rewrite lsum_const, indices_length in S'.
    assert (E : pl_n (flat_len (PArr s b fd) true) = prod s * pl_n (flat_len b true)) by (cbn [flat_len]; rewrite np_prod_int by auto; reflexivity).
    rewrite E. apply (smooth_weaken _ _ _ _ S'). intros x y Lx HJ. apply joint_arr; auto. cbn [negb]. lia.
  - intros items l fl fd lk IH Hu. pose proof Hu as (Hne & Hnd & Hl & Hfl & Hus).
    destruct (smooth_joint (map (fun kq => (pl_n (flat_len (snd kq) true), transform false (snd kq))) items)) as (m & S).
    { apply Forall_map. apply all_items_Forall in Hus. rewrite Forall_forall in *. intros kq Hkq. cbn [fst snd]. apply IH; auto. }
    exists m. rewrite map_map in S. cbn [fst] in S.
    assert (E : pl_n (flat_len (PDict items l fl fd lk) true) = lsum (map (fun kq => pl_n (flat_len (snd kq) true)) items)).
    { cbn [flat_len]. rewrite Hfl. auto. }
    rewrite E. apply (smooth_weaken _ _ _ _ S). intros x y Lx HJ. apply joint_dict; auto. cbn [negb]. lia.
Qed.

(** The unfreeing transform as a function of real vectors, with its Jacobian. *)
Theorem unfree_map : forall ad p v,
  usable p -> simplexes_nonempty p -> interior p v -> at_psd (jacobian_true ad false) p v ->
  exists (J : matrix) (y x : list R) (G : list R -> list R) (c : nat -> nat -> R),
    jacobian ad false p v = Ok J /\
    flatten p v (Some true) None = Ok (map Fin y) /\ flatten p v (Some false) None = Ok (map Fin x) /\
    G y = x /\ m_rows J = length x /\ m_cols J = length y /\ length y = pl_n (flat_len p true) /\
    (forall z, length z = length y -> transform false p (map Fin z) = Ok (map Fin (G z)) /\ length (G z) = length x) /\
    (forall i j, i < length x -> j < length y -> m_at J i j = Fin (c i j)) /\
    forall i, i < length x -> fre (length y) (fun z => nth i (G z) 0%R) y (c i).
Proof.
  intros ad p v Hu Hs Hi Hp.
  destruct (all_good ad false p v Hu Hs Hi Hp) as (y & x & J & HJ & Hy & Hx & Ly & Lx & HD). cbn [negb] in *.
  destruct (smooth_all p Hu) as (m & G & HG & HS).
  destruct (smooth_rows _ m _ G y x J HG (HS y Ly) Ly HD) as (c & Hc & Hf).
  pose proof HD as (E & R1 & C1 & _). destruct (HG y Ly) as (Ey & Lm). rewrite E in Ey.
  assert (x = G y) as Ex by (apply map_fin_inj'; congruence).
  assert (m = length x) as -> by (rewrite Ex; auto).
  exists J, y, x, G, c. rewrite <- Ly in *. repeat (split; [auto|]). exact Hf.
Qed.
