(** * Proofs about grouped sums, replacement, sparse products and solvers. *)
From Coq Require Import Reals Lra Lia ZArith.
From Verif Require Import Base Num Nd Spec ListFacts NumFacts CholFacts Jac JacBase Optim SpecOptim LinAlg OptimFacts
  OptimHist AdSupp SpecAd.
Local Open Scope list_scope.
Local Open Scope nat_scope.

(** ** maps given by matrices *)
Definition acts (s s' : list nat) (F : nd num -> res (nd num)) (m : nat -> nat -> R) : Prop :=
  forall x, F (farr s x) = Ok (farr s' (Rmatvec (prod s) m x)).
Lemma acts_derivative : forall s s' F J m, acts s s' F m -> acts s s' J m -> exact_derivative s s' F J.
Proof.
  intros s s' F J m HF HJ x u.
  exists (Rmatvec (prod s) m x), (Rmatvec (prod s) m u). split; auto. split; auto.
  intro t. rewrite HF. unfold farr. do 2 f_equal. apply fvec_ext. intros i _.
  rewrite <- (Rmult_1_l (Rmatvec (prod s) m x i)), <- mv_lin. unfold Rmatvec. apply Rsum_ext. intros; ring.
Qed.
Lemma acts_adjoint : forall s s' J G m, acts s s' J m -> acts s' s G (Rtrans m) -> adjoint s s' J G.
Proof.
  intros s s' J G m HJ HG u v.
  exists (Rmatvec (prod s) m u), (Rmatvec (prod s') (Rtrans m) v). split; auto. split; auto.
  unfold Rmatvec, Rtrans.
  transitivity (Rsum (prod s') (fun i => Rsum (prod s) (fun j => (m i j * u j) * v i)))%R.
  { apply Rsum_ext. intros i _. rewrite Rsum_scal_r. auto. }
  rewrite Rsum_swap. apply Rsum_ext. intros j _. rewrite <- Rsum_scal. apply Rsum_ext. intros; ring.
Qed.

(** ** sums of extended reals *)
Lemma nadd_assoc : forall a b c, nadd (nadd a b) c = nadd a (nadd b c).
Proof. intros [] [] []; cbn; auto. f_equal. ring. Qed.
Lemma nadd_comm : forall a b, nadd a b = nadd b a.
Proof. intros [] []; cbn; auto. f_equal. ring. Qed.
Lemma nadd_0_r : forall a, nadd a (Fin 0) = a.
Proof. intros []; cbn; auto. f_equal. ring. Qed.
Lemma nadd_0_l : forall a, nadd (Fin 0) a = a.
Proof. intros []; cbn; auto. f_equal. ring. Qed.

(** ** rows *)
Definition row_of (n : nat) (z : Z) : nat := Z.to_nat (if (z <? 0)%Z then z + Z.of_nat n else z)%Z.
Lemma py_row_ok : forall n z, in_range n z -> py_row n z = Ok (row_of n z) /\ row_of n z < n.
Proof.
  intros n z H. unfold in_range in H. unfold py_row, row_of.
  destruct (Z.ltb_spec z 0).
  - replace (0 <=? z)%Z with false by (symmetry; apply Z.leb_gt; auto). cbn [andb].
    rewrite (proj2 (Z.leb_le _ _)) by lia. cbn [andb]. split; auto. lia.
  - rewrite (proj2 (Z.leb_le _ _)) by lia. rewrite (proj2 (Z.ltb_lt _ _)) by lia. cbn [andb]. split; auto. lia.
Qed.
Lemma py_row_err : forall n z, ~ in_range n z -> py_row n z = Err IndexError.
Proof.
  intros n z H. unfold in_range in H. unfold py_row.
  destruct (Z.leb_spec 0 z), (Z.ltb_spec z (Z.of_nat n)), (Z.leb_spec (- Z.of_nat n) z), (Z.ltb_spec z 0);
    cbn [andb]; auto; lia.
Qed.
Lemma belongs_row : forall n z k, in_range n z -> k < n -> belongs n z k = (row_of n z =? k).
Proof.
  intros n z k H Hk. unfold in_range in H. unfold belongs, row_of.
  destruct (Z.ltb_spec z 0); destruct (Z.eqb_spec z (Z.of_nat k)); destruct (Z.eqb_spec z (Z.of_nat k - Z.of_nat n));
    cbn [orb]; symmetry; try (apply Nat.eqb_eq; lia); try (apply Nat.eqb_neq; lia); lia.
Qed.

Lemma upd_same_nth : forall A (l : list A) i x d, i < length l -> nth i (upd l i x) d = x.
Proof. intros. apply nth_error_nth. apply nth_upd_eq. auto. Qed.
Lemma map2_len : forall A B C (f : A -> B -> C) l m, length (map2 f l m) = Nat.min (length l) (length m).
Proof. induction l; intros [|b m]; simpl; auto. Qed.
Lemma nth_map2 : forall A B C (f : A -> B -> C) l m i d d1 d2, i < length l -> i < length m ->
  nth i (map2 f l m) d = f (nth i l d1) (nth i m d2).
Proof.
  induction l; intros [|b m] [|i] d d1 d2 Hl Hm; simpl in *; auto; try lia. apply IHl; lia.
Qed.

Lemma upd_Forall : forall A (P : A -> Prop) l i x, Forall P l -> P x -> Forall P (upd l i x).
Proof.
  induction l; intros [|i] x Hl Hx; simpl; auto; inversion Hl; subst; constructor; auto.
Qed.
Lemma add_rows_spec : forall K m l acc, length acc = K -> Forall (fun r => length r = m) acc ->
  Forall (fun gr => in_range K (fst gr) /\ length (snd gr) = m) l ->
  exists acc', add_rows acc l = Ok acc' /\ length acc' = K /\ Forall (fun r => length r = m) acc' /\
    forall k j, k < K -> j < m ->
      nth j (nth k acc' []) NaN =
      nadd (nth j (nth k acc []) NaN)
        (nsum (map (fun gr => nth j (snd gr) NaN) (filter (fun gr => belongs K (fst gr) k) l))).
Proof.
  intros K m. induction l as [|(g, row) l IH]; intros acc HK Hm Hl.
  - exists acc. repeat split; auto. intros. cbn. rewrite nadd_0_r. auto.
  - inversion Hl as [|? ? (Hg & Hr) Hl']; subst. cbn [fst snd] in *.
    destruct (py_row_ok _ _ Hg) as (E & Hlt).
    cbn [add_rows]. unfold add_row. rewrite E. cbn [bind].
    set (i := row_of (length acc) g) in *.
    assert (length (nth i acc []) = length row) as HL.
    { rewrite Forall_forall in Hm. rewrite (Hm (nth i acc [])); auto. apply nth_In. auto. }
    destruct (IH (upd acc i (map2 nadd (nth i acc []) row))) as (acc' & E' & HK' & Hm' & Hs).
    + apply upd_length.
    + apply upd_Forall; auto. rewrite map2_len. lia.
    + eapply Forall_impl; [|exact Hl']. auto.
    + exists acc'. split; auto. split; auto. split; auto.
      intros k j Hk Hj. rewrite Hs by auto. cbn [filter fst].
      rewrite (belongs_row _ g k) by auto. fold i.
      destruct (Nat.eqb_spec i k) as [<-|Hne].
      * rewrite upd_same_nth by auto. rewrite (nth_map2 _ _ _ _ _ _ _ _ NaN NaN) by lia.
        cbn [map nsum fold_right snd]. rewrite nadd_assoc. auto.
      * rewrite nth_upd_ne by auto. auto.
Qed.

Lemma nth_concat : forall A m (ls : list (list A)) k j d, Forall (fun r => length r = m) ls ->
  k < length ls -> j < m -> nth (k * m + j) (concat ls) d = nth j (nth k ls []) d.
Proof.
  induction ls as [|r ls IH]; intros k j d Hf Hk Hj; [simpl in Hk; lia|].
  inversion Hf; subst. simpl concat. destruct k.
  - rewrite app_nth1 by (simpl; lia). auto.
  - rewrite app_nth2 by (simpl; lia). simpl nth at 2. rewrite <- IH; auto; [|simpl in Hk; lia].
    f_equal. simpl. lia.
Qed.
Lemma concat_len : forall A m (ls : list (list A)), Forall (fun r => length r = m) ls ->
  length (concat ls) = length ls * m.
Proof.
  induction ls; intros H; simpl; auto. inversion H; subst. rewrite app_length, IHls; auto.
Qed.
Lemma fold_max_ge : forall l a, (a <= fold_left Z.max l a)%Z /\ forall z, In z l -> (z <= fold_left Z.max l a)%Z.
Proof.
  induction l as [|b l IH]; intros a; cbn [fold_left]; [split; [lia|intros z []]|].
  destruct (IH (Z.max a b)) as (H1 & H2). split; [lia|]. intros z [<-|Hz]; [lia|auto].
Qed.
Lemma fold_max_le : forall l a B, (a <= B)%Z -> Forall (fun z => z <= B)%Z l -> (fold_left Z.max l a <= B)%Z.
Proof.
  induction l as [|b l IH]; intros a B Ha Hl; cbn [fold_left]; auto. inversion Hl; subst.
  apply IH; auto. lia.
Qed.
Lemma chunks_Forall : forall A m n (l : list A), length l = n * m ->
  Forall (fun r => length r = m) (chunks m n l).
Proof.
  intros A m n l H. apply Forall_forall. intros r Hr. unfold chunks in Hr. apply in_map_iff in Hr.
  destruct Hr as (i & <- & Hi). apply in_seq in Hi. apply (chunk_length A m l i n); auto. lia.
Qed.
Lemma combine_Forall : forall A B (P : A -> Prop) (Q : B -> Prop) l m, Forall P l -> Forall Q m ->
  Forall (fun gr => P (fst gr) /\ Q (snd gr)) (combine l m).
Proof.
  induction l; intros [|b m] Hl Hm; simpl; constructor; inversion Hl; inversion Hm; subst; auto.
Qed.
(** Filtering pairs by the first component, through positions. *)
Lemma filter_combine : forall A B (p : A -> bool) (l : list A) (m : list B) d e, length l = length m ->
  filter (fun gr => p (fst gr)) (combine l m) =
  map (fun n => (nth n l d, nth n m e)) (filter (fun n => p (nth n l d)) (seq 0 (length l))).
Proof.
  intros A B p l m d e. revert m. induction l as [|a l IH]; intros [|b m] H; simpl in *; try lia; auto.
  injection H as H. rewrite <- seq_shift.
  assert (forall ns, filter (fun n => p match n with 0 => a | S k => nth k l d end) (map S ns)
    = map S (filter (fun n => p (nth n l d)) ns)) as F.
  { induction ns; simpl; auto. rewrite IHns. destruct (p (nth a0 l d)); auto. }
  rewrite F. rewrite (IH m H).
  destruct (p a); cbn [map]; rewrite !map_map; auto.
Qed.

Lemma grouped_sum_value : forall x zs num K rest,
  nd_ok x -> shp x = length zs :: rest -> zs <> [] -> Forall (in_range K) zs -> group_count K zs num ->
  exists r, grouped_sum x (GInt (vec zs)) num = Ok r /\ shp r = K :: rest /\ nd_ok r /\
    forall k j, k < K -> j < prod rest ->
      nth (k * prod rest + j) (dat r) NaN =
      nsum (map (fun n => nth (n * prod rest + j) (dat x) NaN)
              (filter (fun n => belongs K (nth n zs 0%Z) k) (seq 0 (length zs)))).
Proof.
  intros x zs num K rest Hok Hs Hne Hr Hc.
  assert (length (dat x) = length zs * prod rest) as HL by (unfold nd_ok in Hok; rewrite Hok, Hs; auto).
  destruct x as [sx dx]. cbn [shp dat] in *. subst sx.
  unfold grouped_sum, atleast_1d, vec, ndim. cbn [as_int64 bind shp dat length nth tl].
  rewrite Nat.eqb_refl. cbn [Nat.ltb Nat.leb negb].
  destruct zs as [|z0 zr]; [congruence|]. set (zs := z0 :: zr) in *.
  assert (forall z, In z zs -> (z <= fold_left Z.max zr z0)%Z) as Hmax.
  { intros z [<-|Hz]; [exact (proj1 (fold_max_ge zr z0))|exact (proj2 (fold_max_ge zr z0) z Hz)]. }
  assert (fold_left Z.max zr z0 <= Z.of_nat K - 1)%Z as Hle.
  { unfold zs in Hr. inversion Hr as [|? ? H1 H2]; subst. apply fold_max_le; [unfold in_range in *; lia|].
    eapply Forall_impl; [|exact H2]. unfold in_range. intros; lia. }
  assert (match num with None => Ok (fold_left Z.max zr z0 + 1)%Z
          | Some k => if (k <=? fold_left Z.max zr z0)%Z then Err ValueError else Ok k end = Ok (Z.of_nat K)) as Hk.
  { destruct Hc as [->|(-> & Hin)].
    - rewrite (proj2 (Z.leb_gt _ _)) by lia. auto.
    - f_equal. specialize (Hmax _ Hin). lia. }
  rewrite Hk. cbn [bind]. rewrite (proj2 (Z.ltb_ge _ _)) by lia. rewrite Nat2Z.id.
  destruct (add_rows_spec K (prod rest) (combine zs (chunks (prod rest) (length zs) dx))
    (repeat (repeat (Fin 0) (prod rest)) K)) as (acc & E & HK & Hm & Hv).
  - apply repeat_length.
  - apply Forall_forall. intros r Hi. apply repeat_spec in Hi. subst. apply repeat_length.
  - apply (combine_Forall _ _ (in_range K) (fun r => length r = prod rest)); auto. apply chunks_Forall. auto.
  - rewrite E. cbn [bind]. eexists. split; [reflexivity|]. split; auto. split.
    + unfold nd_ok. cbn [dat shp prod fold_right]. rewrite (concat_len _ (prod rest)) by auto. rewrite HK. auto.
    + intros k j Hk' Hj. cbn [dat]. rewrite nth_concat by (auto; lia). rewrite Hv by auto.
      rewrite (filter_combine _ _ (fun z => belongs K z k) zs _ 0%Z []) by (rewrite chunks_length; auto).
      rewrite map_map. cbn [snd].
      replace (nth j (nth k (repeat (repeat (Fin 0) (prod rest)) K) []) NaN) with (Fin 0).
      2:{ rewrite (nth_indep _ [] (repeat (Fin 0) (prod rest))) by (rewrite repeat_length; auto).
          rewrite nth_repeat. rewrite (nth_indep _ NaN (Fin 0)) by (rewrite repeat_length; auto).
          rewrite nth_repeat. auto. }
      rewrite nadd_0_l. f_equal. apply map_ext_in. intros n Hn. apply filter_In in Hn.
      destruct Hn as (Hn & _). apply in_seq in Hn.
      unfold chunks. rewrite (nth_map_gen _ _ _ _ _ [] 0) by (rewrite seq_length; lia).
      rewrite seq_nth by lia. unfold chunk. rewrite nth_slice; auto.
Qed.

Lemma grouped_sum_errors : forall x z num,
  (1 < ndim z -> grouped_sum x (GInt z) num = Err ValueError) /\
  (ndim z = 1 -> nth 0 (shp (atleast_1d x)) 0 <> nth 0 (shp z) 0 -> grouped_sum x (GInt z) num = Err ValueError) /\
  (ndim z = 1 -> dat z = [] -> grouped_sum x (GInt z) num = Err ValueError) /\
  (ndim z = 1 -> forall k g, num = Some k -> In g (dat z) -> (k <= g)%Z ->
     grouped_sum x (GInt z) num = Err ValueError).
Proof.
  intros x [sz dz] num. unfold ndim. cbn [shp dat].
  split; [|split; [|split]].
  - intros H. destruct sz as [|a [|b sz]]; cbn [length] in H; try lia. reflexivity.
  - intros H1 H2. destruct sz as [|a [|b sz]]; cbn [length] in H1; try lia.
    unfold grouped_sum, ndim. cbn [as_int64 bind].
    change (atleast_1d (mkNd [a] dz)) with (mkNd [a] dz). cbn [shp length Nat.ltb Nat.leb].
    apply Nat.eqb_neq in H2. rewrite H2. auto.
  - intros H1 ->. destruct sz as [|a [|b sz]]; cbn [length] in H1; try lia.
    unfold grouped_sum, ndim. cbn [as_int64 bind].
    change (atleast_1d (@mkNd Z [a] [])) with (@mkNd Z [a] []). cbn [shp length Nat.ltb Nat.leb dat].
    destruct (negb _); auto.
  - intros H1 k g -> Hg Hle. destruct sz as [|a [|b sz]]; cbn [length] in H1; try lia.
    unfold grouped_sum, ndim. cbn [as_int64 bind].
    change (atleast_1d (mkNd [a] dz)) with (mkNd [a] dz). cbn [shp length Nat.ltb Nat.leb dat].
    destruct (negb _); auto. destruct dz as [|z0 zr]; auto.
    rewrite (proj2 (Z.leb_le _ _)); auto.
    destruct Hg as [<-|Hg]; [pose proof (proj1 (fold_max_ge zr z0))|pose proof (proj2 (fold_max_ge zr z0) g Hg)]; lia.
Qed.
Lemma add_rows_error : forall l acc, Exists (fun gr => ~ in_range (length acc) (fst gr)) l ->
  add_rows acc l = Err IndexError.
Proof.
  induction l as [|(g, row) l IH]; intros acc H; [inversion H|]. cbn [add_rows]. unfold add_row.
  destruct (Z_lt_le_dec g (Z.of_nat (length acc))) as [L1|L1];
    [destruct (Z_lt_le_dec g (- Z.of_nat (length acc))) as [L2|L2]|].
  1,3: (rewrite py_row_err by (unfold in_range; lia); auto).
  destruct (py_row_ok (length acc) g) as (E & _); [unfold in_range; lia|]. rewrite E. cbn [bind].
  apply IH. rewrite upd_length. inversion H; subst; auto. cbn [fst] in *. exfalso. apply H1.
  unfold in_range. lia.
Qed.
Lemma in_combine_l' : forall A B (a : A) (l : list A) (m : list B), length l = length m -> In a l ->
  exists b, In (a, b) (combine l m).
Proof.
  induction l; intros [|b m] H Hi; simpl in *; try lia.
  destruct Hi as [->|Hi]; [exists b; auto|]. destruct (IHl m) as (c & Hc); auto. exists c. auto.
Qed.
Lemma grouped_sum_low_label : forall x zs K rest g,
  shp x = length zs :: rest -> Forall (fun z => z < Z.of_nat K)%Z zs -> In g zs -> (g < - Z.of_nat K)%Z ->
  grouped_sum x (GInt (vec zs)) (Some (Z.of_nat K)) = Err IndexError.
Proof.
  intros [sx dx] zs K rest g Hs Hr Hg Hl. cbn [shp] in Hs. subst sx.
  unfold grouped_sum, atleast_1d, vec, ndim. cbn [as_int64 bind shp dat length nth tl].
  rewrite Nat.eqb_refl. cbn [Nat.ltb Nat.leb negb]. destruct zs as [|z0 zr]; [destruct Hg|].
  set (zs := z0 :: zr) in *.
  assert (fold_left Z.max zr z0 <= Z.of_nat K - 1)%Z as Hle.
  { unfold zs in Hr. inversion Hr as [|? ? H1 H2]; subst. apply fold_max_le; [lia|].
    eapply Forall_impl; [|exact H2]. cbn. intros; lia. }
  rewrite (proj2 (Z.leb_gt _ _)) by lia. cbn [bind]. rewrite (proj2 (Z.ltb_ge _ _)) by lia. rewrite Nat2Z.id.
  rewrite add_rows_error; auto. rewrite repeat_length.
  destruct (in_combine_l' _ _ g zs (chunks (prod rest) (length zs) dx)) as (b & Hb); auto.
  { rewrite chunks_length. auto. }
  apply Exists_exists. exists (g, b). split; auto. cbn [fst]. unfold in_range. lia.
Qed.
Lemma grouped_sum_float_labels : forall x zs s num,
  grouped_sum x (GFloat (mkNd s (map (fun z => Fin (IZR z)) zs))) num = grouped_sum x (GInt (mkNd s zs)) num.
Proof.
  intros x zs s num. unfold grouped_sum. cbn [as_int64 dat shp].
  assert (mapM (fun a => match a with Fin r => Ok (truncR r) | _ => Err Unmodelled end)
    (map (fun z => Fin (IZR z)) zs) = Ok zs) as ->; auto.
  apply mapM_of_Forall2. induction zs as [|z zs IH]; constructor; auto. f_equal.
  unfold truncR. assert (forall y, Int_part (IZR y) = y) as HI.
  { intro y. unfold Int_part. rewrite <- (tech_up (IZR y) (y + 1)); [lia| |]; rewrite plus_IZR; lra. }
  unfold Rltb. destruct (Rlt_dec (IZR z) 0).
  - rewrite <- opp_IZR, HI. lia.
  - auto.
Qed.

(** ** derivatives of grouped sums *)
Definition gmat (K M : nat) (zs : list Z) : nat -> nat -> R := fun a b =>
  if (a mod M =? b mod M) && belongs K (nth (b / M) zs 0%Z) (a / M) then 1%R else 0%R.
Lemma Rsum_app : forall a b f, (Rsum (a + b) f = Rsum a f + Rsum b (fun i => f (a + i)%nat))%R.
Proof.
  induction b; intros f; simpl; [rewrite Nat.add_0_r; ring|].
  rewrite Nat.add_succ_r. simpl. rewrite IHb. ring.
Qed.
Lemma Rsum_blocks : forall n m f, Rsum (n * m) f = Rsum n (fun i => Rsum m (fun j => f (i * m + j)%nat)).
Proof.
  induction n; intros m f; [auto|].
  replace (S n * m) with (n * m + m) by lia. rewrite Rsum_app, IHn. auto.
Qed.
Lemma divmod_block : forall m i j, j < m -> (i * m + j) / m = i /\ (i * m + j) mod m = j.
Proof.
  intros m i j H. split.
  - rewrite Nat.div_add_l by lia. rewrite Nat.div_small by auto. lia.
  - rewrite Nat.add_comm, Nat.mod_add by lia. apply Nat.mod_small. auto.
Qed.
Lemma div_lt : forall a K m, a < K * m -> a / m < K /\ a mod m < m /\ a = a / m * m + a mod m.
Proof.
  intros a K m H. assert (m <> 0) by nia. split; [|split].
  - apply Nat.div_lt_upper_bound; auto. lia.
  - apply Nat.mod_upper_bound. auto.
  - rewrite Nat.mul_comm. apply Nat.div_mod. auto.
Qed.
Lemma gmat_row : forall K M zs x a, a < K * M ->
  Rmatvec (length zs * M) (gmat K M zs) x a =
  Rsum (length zs) (fun n => if belongs K (nth n zs 0%Z) (a / M) then x (n * M + a mod M)%nat else 0%R).
Proof.
  intros K M zs x a Ha. destruct (div_lt _ _ _ Ha) as (H1 & H2 & _). unfold Rmatvec. rewrite Rsum_blocks.
  apply Rsum_ext. intros n Hn. rewrite (Rsum_single M _ (a mod M) H2).
  - unfold gmat. destruct (divmod_block M n (a mod M) H2) as (-> & ->). rewrite Nat.eqb_refl. cbn [andb].
    destruct (belongs K (nth n zs 0%Z) (a / M)); ring.
  - intros j Hj Hne. unfold gmat. destruct (divmod_block M n j Hj) as (_ & ->).
    rewrite (proj2 (Nat.eqb_neq _ _)) by auto. cbn [andb]. ring.
Qed.
Lemma gmat_col : forall K M zs v b, Forall (in_range K) zs -> b < length zs * M ->
  Rmatvec (K * M) (Rtrans (gmat K M zs)) v b = v (row_of K (nth (b / M) zs 0%Z) * M + b mod M)%nat.
Proof.
  intros K M zs v b Hr Hb. destruct (div_lt _ _ _ Hb) as (H1 & H2 & _).
  assert (in_range K (nth (b / M) zs 0%Z)) as Hin.
  { rewrite Forall_forall in Hr. apply Hr. apply nth_In. auto. }
  destruct (py_row_ok _ _ Hin) as (_ & Hlt). set (r := row_of K (nth (b / M) zs 0%Z)) in *.
  assert (r * M + b mod M < K * M) as Hi by nia.
  destruct (divmod_block M r (b mod M) H2) as (Hd & Hm).
  unfold Rmatvec, Rtrans. rewrite (Rsum_single _ _ _ Hi).
  - unfold gmat. rewrite Hd, Hm, Nat.eqb_refl, belongs_row by auto. fold r. rewrite Nat.eqb_refl. cbn [andb]. ring.
  - intros a Ha Hne. unfold gmat. destruct (Nat.eqb_spec (a mod M) (b mod M)) as [E|E]; [|cbn [andb]; ring].
    destruct (div_lt _ _ _ Ha) as (H3 & _ & H4). rewrite belongs_row by auto. fold r.
    destruct (Nat.eqb_spec r (a / M)) as [E2|E2]; cbn [andb]; [|ring].
    exfalso. apply Hne. rewrite H4, <- E2, E. auto.
Qed.
Lemma nsum_filter : forall (p : nat -> bool) (f : nat -> R) n,
  nsum (map (fun i => Fin (f i)) (filter p (seq 0 n))) = Fin (Rsum n (fun i => if p i then f i else 0%R)).
Proof.
  intros p f n. rewrite <- (map_map f Fin), nsum_fin. f_equal.
  induction n; auto. rewrite seq_S, filter_app, map_app, Rlsum_app, IHn. simpl.
  destruct (p n); simpl; ring.
Qed.
Lemma nth_farr : forall s f i d, i < prod s -> nth i (dat (farr s f)) d = Fin (f i).
Proof. intros. unfold farr. cbn [dat]. apply nth_fvec. auto. Qed.
Lemma farr_ok : forall s f, nd_ok (farr s f).
Proof. intros. unfold nd_ok, farr. cbn [dat shp]. apply fvec_length. Qed.
Lemma farr_eq : forall s f a, shp a = s -> nd_ok a -> (forall i, i < prod s -> nth i (dat a) NaN = Fin (f i)) ->
  a = farr s f.
Proof.
  intros s f [sa da] Hs Hok H. cbn [shp dat] in *. subst. unfold farr. f_equal. unfold nd_ok in Hok. cbn [shp dat] in Hok.
  apply (nth_ext _ _ NaN NaN); [rewrite fvec_length; auto|]. intros i Hi. rewrite Hok in Hi.
  rewrite H by auto. rewrite nth_fvec; auto.
Qed.
Lemma grouped_acts : forall zs num K rest, zs <> [] -> Forall (in_range K) zs -> group_count K zs num ->
  acts (length zs :: rest) (K :: rest) (fun x => grouped_sum x (GInt (vec zs)) num) (gmat K (prod rest) zs).
Proof.
  intros zs num K rest Hne Hr Hc x.
  destruct (grouped_sum_value (farr (length zs :: rest) x) zs num K rest) as (r & E & Hs & Hok & Hv); auto.
  { apply farr_ok. }
  rewrite E. f_equal. apply farr_eq; auto. change (prod (K :: rest)) with (K * prod rest). intros a Ha.
  destruct (div_lt _ _ _ Ha) as (H1 & H2 & H3). rewrite H3 at 1. rewrite Hv by auto.
  change (prod (length zs :: rest)) with (length zs * prod rest). rewrite gmat_row by auto.
  rewrite <- nsum_filter. f_equal. apply map_ext_in. intros n Hn. apply filter_In in Hn. destruct Hn as (Hn & _).
  apply in_seq in Hn. apply nth_farr. change (prod (length zs :: rest)) with (length zs * prod rest). nia.
Qed.
Lemma ungroup_acts : forall zs num K rest, Forall (in_range K) zs ->
  acts (K :: rest) (length zs :: rest) (fun v => grouped_sum_vjp (GInt (vec zs)) num v) (Rtrans (gmat K (prod rest) zs)).
Proof.
  intros zs num K rest Hr v. unfold grouped_sum_vjp, ungroup. unfold farr at 1. cbn [shp vec dat].
  assert (mapM (fun g => i <- py_row K g ;; Ok (chunk (prod rest) (dat (farr (K :: rest) v)) i)) zs =
    Ok (map (fun g => chunk (prod rest) (dat (farr (K :: rest) v)) (row_of K g)) zs)) as ->.
  { apply mapM_of_Forall2. induction zs; constructor; inversion Hr; subst; auto.
    destruct (py_row_ok K a) as (-> & _); auto. }
  cbn [bind]. f_equal. apply farr_eq.
  - reflexivity.
  - unfold nd_ok. cbn [dat shp app prod fold_right]. rewrite (concat_len _ (prod rest)).
    + rewrite map_length. auto.
    + apply Forall_forall. intros r Hi. apply in_map_iff in Hi. destruct Hi as (g & <- & Hg).
      rewrite Forall_forall in Hr. destruct (py_row_ok K g (Hr g Hg)) as (_ & Hlt).
      apply (chunk_length _ _ _ _ K); auto. apply farr_ok.
  - change (prod (length zs :: rest)) with (length zs * prod rest). change (prod (K :: rest)) with (K * prod rest).
    intros b Hb. rewrite gmat_col by auto. destruct (div_lt _ _ _ Hb) as (H1 & H2 & H3).
    cbn [dat]. rewrite H3 at 1.
    assert (forall g, In g zs -> row_of K g < K) as Hlt.
    { intros g Hg. rewrite Forall_forall in Hr. apply (py_row_ok K g (Hr g Hg)). }
    rewrite nth_concat; auto.
    + rewrite (nth_map_gen _ _ _ _ _ [] 0%Z) by auto. unfold chunk. rewrite nth_slice by auto.
      apply nth_farr. change (prod (K :: rest)) with (K * prod rest).
      specialize (Hlt _ (nth_In zs 0%Z H1)). nia.
    + apply Forall_forall. intros r Hi. apply in_map_iff in Hi. destruct Hi as (g & <- & Hg).
      apply (chunk_length _ _ _ _ K); auto. apply farr_ok.
    + rewrite map_length. auto.
Qed.
Lemma grouped_sum_derivatives : forall zs num K rest,
  zs <> [] -> Forall (in_range K) zs -> group_count K zs num ->
  exact_derivative (length zs :: rest) (K :: rest)
    (fun x => grouped_sum x (GInt (vec zs)) num) (grouped_sum_jvp (GInt (vec zs)) num) /\
  adjoint (length zs :: rest) (K :: rest)
    (grouped_sum_jvp (GInt (vec zs)) num) (grouped_sum_vjp (GInt (vec zs)) num).
Proof.
  intros zs num K rest Hne Hr Hc. pose proof (grouped_acts zs num K rest Hne Hr Hc) as HA. split.
  - eapply acts_derivative; [exact HA|exact HA].
  - eapply acts_adjoint; [exact HA|]. apply ungroup_acts. auto.
Qed.
(** Labels given as floats or booleans work forwards but not in reverse. *)
Lemma grouped_vjp_float : forall x num v, grouped_sum_vjp (GFloat x) num v = Err IndexError.
Proof. intros. unfold grouped_sum_vjp, ungroup. destruct (shp v); auto. Qed.
