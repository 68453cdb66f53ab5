(** * Proofs about replacement, sparse products and solvers. *)
From Coq Require Import Reals Lra Lia ZArith.
From Verif Require Import Base Num Nd Spec ListFacts NumFacts CholFacts Jac JacBase Optim SpecOptim LinAlg OptimFacts
  OptimHist AdSupp SpecAd AdFacts.
Local Open Scope list_scope.
Local Open Scope nat_scope.

(** ** broadcasting *)
Lemma indices_lt : forall s it, In it (indices s) -> Forall2 (fun i d => i < d) it s.
Proof.
  induction s as [|n s IH]; intros it H; simpl in H.
  - destruct H as [<-|[]]. constructor.
  - apply in_flat_map in H. destruct H as (i & Hi & H). apply in_map_iff in H. destruct H as (t & <- & Ht).
    apply in_seq in Hi. constructor; [lia|auto].
Qed.
Lemma broadcast_same : forall a, nd_ok a -> broadcast_to (shp a) a = Ok a.
Proof.
  intros [s d] H. unfold nd_ok in H. cbn [shp dat] in *. unfold broadcast_to. cbn [shp dat].
  rewrite Nat.sub_diag. cbn [repeat app skipn firstn forallb andb].
  assert (forallb (fun b => b) (map2 (fun d t => (d =? t) || (d =? 1)) s s) = true) as ->.
  { clear. induction s; simpl; auto. rewrite Nat.eqb_refl. auto. }
  do 2 f_equal. transitivity (map (fun i => nth i d NaN) (seq 0 (prod s))).
  2: { rewrite <- H. apply map_nth_seq. }
  rewrite <- ravel_indices, map_map. apply map_ext_in. intros it Hit. f_equal. f_equal.
  apply indices_lt in Hit. clear - Hit. induction Hit; simpl; auto. f_equal; auto.
  destruct (Nat.eqb_spec y 1); auto. lia.
Qed.
Lemma map_const : forall A B (c : B) (l : list A), map (fun _ => c) l = repeat c (length l).
Proof. induction l; simpl; congruence. Qed.
Lemma broadcast_scalar : forall target c, broadcast_to target (scalar c) = Ok (mkNd target (repeat c (prod target))).
Proof.
  intros target c. unfold broadcast_to, scalar. cbn [shp dat length].
  rewrite Nat.sub_0_r. cbn [Nat.sub firstn forallb andb skipn]. rewrite app_nil_r.
  assert (forallb (fun b => b) (map2 (fun d t => (d =? t) || (d =? 1)) (repeat 1 (length target)) target) = true) as ->.
  { induction target; simpl; auto. destruct (match a with 0 => false | _ => _ end); auto. }
  do 2 f_equal. rewrite <- indices_length. rewrite <- (map_const _ _ c (indices target)). apply map_ext_in. intros it Hit.
  apply indices_lt in Hit.
  assert (ravel (map2 (fun d i => if d =? 1 then 0 else i) (repeat 1 (length target)) it) (repeat 1 (length target)) = 0) as ->; auto.
  clear - Hit. induction Hit; simpl; auto.
Qed.

(** ** assigning rows *)
Lemma set_none : forall (prs : list (nat * list num)) rows k,
  (forall pr, In pr prs -> fst pr <> k) ->
  nth k (fold_left (fun acc pr => upd acc (fst pr) (snd pr)) prs rows) [] = nth k rows [].
Proof.
  induction prs as [|pr prs IH]; intros rows k H; auto. cbn [fold_left]. rewrite IH by (intros; apply H; right; auto).
  apply nth_upd_ne. intro E. apply (H pr); auto. left. auto.
Qed.
Lemma set_len : forall (prs : list (nat * list num)) rows,
  length (fold_left (fun acc pr => upd acc (fst pr) (snd pr)) prs rows) = length rows.
Proof. induction prs; intros; auto. cbn [fold_left]. rewrite IHprs. apply upd_length. Qed.
Lemma set_Forall : forall (P : list num -> Prop) (prs : list (nat * list num)) rows,
  Forall P rows -> Forall (fun pr => P (snd pr)) prs ->
  Forall P (fold_left (fun acc pr => upd acc (fst pr) (snd pr)) prs rows).
Proof.
  induction prs; intros; auto. cbn [fold_left]. inversion H0; subst. apply IHprs; auto. apply upd_Forall; auto.
Qed.
Lemma set_last : forall (prs : list (nat * list num)) rows k p, k < length rows -> p < length prs ->
  fst (nth p prs (0, [])) = k -> (forall q, p < q -> q < length prs -> fst (nth q prs (0, [])) <> k) ->
  nth k (fold_left (fun acc pr => upd acc (fst pr) (snd pr)) prs rows) [] = snd (nth p prs (0, [])).
Proof.
  induction prs as [|pr prs IH]; intros rows k p Hk Hp Hf Hq; [simpl in Hp; lia|]. cbn [fold_left].
  destruct p.
  - cbn [nth] in *. rewrite set_none.
    + rewrite <- Hf. apply upd_same_nth. rewrite Hf. auto.
    + intros pr' Hin. destruct (In_nth _ _ (0, []) Hin) as (q & Hql & <-).
      apply (Hq (S q)); simpl; lia.
  - cbn [nth] in *. apply IH; auto.
    + rewrite upd_length. auto.
    + simpl in Hp. lia.
    + intros q H1 H2. apply (Hq (S q)); simpl; lia.
Qed.
Lemma positions_int : forall n l, Forall (in_range n) l -> positions n (IInt l) = Ok (map (row_of n) l).
Proof.
  intros n l H. cbn [positions]. apply mapM_of_Forall2. induction l; constructor; inversion H; subst; auto.
  apply py_row_ok. auto.
Qed.

Lemma set_rows_spec : forall a l v n rest, nd_ok a -> shp a = n :: rest -> Forall (in_range n) l ->
  forall w, broadcast_to (length l :: rest) v = Ok w -> length (dat w) = length l * prod rest ->
  exists r, set_rows a (IInt l) v = Ok r /\ shp r = n :: rest /\ nd_ok r /\
    forall k j, k < n -> j < prod rest ->
      (forall p, last_at n l k p -> nth (k * prod rest + j) (dat r) NaN = nth (p * prod rest + j) (dat w) NaN) /\
      ((forall p, p < length l -> belongs n (nth p l 0%Z) k = false) ->
       nth (k * prod rest + j) (dat r) NaN = nth (k * prod rest + j) (dat a) NaN).
Proof.
  intros [sa da] l v n rest Hok Hs Hr w Hb Hw. unfold nd_ok in Hok. cbn [shp dat] in *. subst sa.
  change (prod (n :: rest)) with (n * prod rest) in Hok.
  unfold set_rows. cbn [shp]. rewrite (positions_int n l Hr), map_length, Hb. cbn [bind dat].
  set (M := prod rest) in *. set (prs := combine (map (row_of n) l) (chunks M (length l) (dat w))).
  assert (length prs = length l) as HL.
  { unfold prs. rewrite combine_length, map_length, chunks_length. apply Nat.min_id. }
  assert (forall p, p < length l -> nth p prs (0, []) = (row_of n (nth p l 0%Z), chunk M (dat w) p)) as Hn.
  { intros p Hp. unfold prs. rewrite combine_nth by (rewrite map_length, chunks_length; auto).
    rewrite (nth_map_gen _ _ _ _ _ 0 0%Z) by auto. f_equal. unfold chunks.
    rewrite (nth_map_gen _ _ _ _ _ [] 0) by (rewrite seq_length; auto). rewrite seq_nth by auto. auto. }
  assert (forall p, p < length l -> in_range n (nth p l 0%Z)) as Hin.
  { intros p Hp. rewrite Forall_forall in Hr. apply Hr, nth_In. auto. }
  assert (Forall (fun r => length r = M) (fold_left (fun acc pr => upd acc (fst pr) (snd pr)) prs (chunks M n da))) as HF.
  { apply set_Forall; [apply chunks_Forall; auto|]. apply Forall_forall. intros pr Hpr.
    destruct (In_nth _ _ (0, []) Hpr) as (p & Hp & <-). rewrite HL in Hp. rewrite Hn by auto. cbn [snd].
    apply (chunk_length _ _ _ _ (length l)); auto. }
  eexists. split; [reflexivity|]. split; auto. split.
  - unfold nd_ok. cbn [dat shp]. rewrite (concat_len _ M) by auto. rewrite set_len, chunks_length. auto.
  - intros k j Hk Hj. cbn [dat]. rewrite nth_concat; auto; [|rewrite set_len, chunks_length; auto]. split.
    + intros p (Hp & Hbel & Hlast).
      rewrite (set_last prs _ k p); rewrite ?chunks_length, ?HL; auto.
      * rewrite Hn by auto. cbn [snd]. unfold chunk. rewrite nth_slice; auto.
      * rewrite Hn by auto. cbn [fst]. rewrite belongs_row in Hbel by auto. apply Nat.eqb_eq. auto.
      * intros q H1 H2. rewrite Hn by auto. cbn [fst]. specialize (Hlast q H1 H2).
        rewrite belongs_row in Hlast by auto. apply Nat.eqb_neq. auto.
    + intros Hnone. rewrite set_none.
      * unfold chunks. rewrite (nth_map_gen _ _ _ _ _ [] 0) by (rewrite seq_length; auto). rewrite seq_nth by auto.
        unfold chunk. rewrite nth_slice; auto.
      * intros pr Hpr. destruct (In_nth _ _ (0, []) Hpr) as (p & Hp & <-). rewrite HL in Hp. rewrite Hn by auto.
        cbn [fst]. specialize (Hnone p Hp). rewrite belongs_row in Hnone by auto. apply Nat.eqb_neq. auto.
Qed.

(** ** replace *)
Lemma nth_repeat_lt : forall A (a d : A) n i, i < n -> nth i (repeat a n) d = a.
Proof. induction n; intros [|i] H; simpl; auto; try lia. apply IHn. lia. Qed.
Lemma upd_end : forall A (l : list A) a b, upd (l ++ [a]) (length l) b = l ++ [b].
Proof. induction l; intros; simpl; auto. f_equal; auto. Qed.
Lemma replace_at_eq : forall h xs a x i, nth_error h a = Some x ->
  replace_at h xs a i =
  match shp x with
  | [] => (Err IndexError, h ++ [mkNd [] (repeat NaN 1)])
  | _ => match set_rows x i xs with
         | Err e => (Err e, h ++ [x])
         | Ok r => (Ok (length h), h ++ [r])
         end
  end.
Proof.
  intros h xs a x i H. unfold replace_at. rewrite (nth_error_nth _ _ _ H).
  destruct (shp x) as [|n rest] eqn:E.
  - unfold size. rewrite E. reflexivity.
  - rewrite upd_end. rewrite app_nth2 by lia. rewrite Nat.sub_diag. cbn [nth].
    destruct (set_rows x i xs); auto. rewrite upd_end. auto.
Qed.
Lemma replace_eq : forall xs x i,
  replace xs x i = match shp x with [] => Err IndexError | _ => set_rows x i xs end.
Proof.
  intros xs x i. unfold replace. rewrite (replace_at_eq [x] xs 0 x i eq_refl).
  destruct (shp x); auto. destruct (set_rows x i xs); auto.
Qed.

Lemma replace_value : forall h a x x_sub l n rest,
  nth_error h a = Some x -> nd_ok x -> nd_ok x_sub -> shp x = n :: rest -> shp x_sub = length l :: rest ->
  Forall (in_range n) l ->
  exists r, replace_at h x_sub a (IInt l) = (Ok (length h), h ++ [r]) /\
    replace x_sub x (IInt l) = Ok r /\ shp r = n :: rest /\ nd_ok r /\
    forall k j, k < n -> j < prod rest ->
      (forall p, last_at n l k p ->
         nth (k * prod rest + j) (dat r) NaN = nth (p * prod rest + j) (dat x_sub) NaN) /\
      ((forall p, p < length l -> belongs n (nth p l 0%Z) k = false) ->
       nth (k * prod rest + j) (dat r) NaN = nth (k * prod rest + j) (dat x) NaN).
Proof.
  intros h a x xs l n rest Ha Hx Hxs Es Exs Hr.
  destruct (set_rows_spec x l xs n rest Hx Es Hr xs) as (r & E & H1 & H2 & H3).
  - rewrite <- Exs. apply broadcast_same; auto.
  - red in Hxs. rewrite Exs in Hxs. auto.
  - exists r. rewrite (replace_at_eq _ _ _ _ _ Ha), replace_eq, Es, E. auto.
Qed.
Lemma replace_number : forall h a x c l n rest,
  nth_error h a = Some x -> nd_ok x -> shp x = n :: rest -> Forall (in_range n) l ->
  exists r, replace_at h (scalar c) a (IInt l) = (Ok (length h), h ++ [r]) /\
    replace (scalar c) x (IInt l) = Ok r /\ shp r = n :: rest /\ nd_ok r /\
    forall k j, k < n -> j < prod rest ->
      nth (k * prod rest + j) (dat r) NaN =
      if existsb (fun z => belongs n z k) l then c else nth (k * prod rest + j) (dat x) NaN.
Proof.
  intros h a x c l n rest Ha Hx Es Hr.
  destruct (set_rows_spec x l (scalar c) n rest Hx Es Hr _ (broadcast_scalar _ _)) as (r & E & H1 & H2 & H3).
  - cbn [dat]. rewrite repeat_length. auto.
  - exists r. rewrite (replace_at_eq _ _ _ _ _ Ha), replace_eq, Es, E. repeat split; auto.
    intros k j Hk Hj. destruct (H3 k j Hk Hj) as (HA & HB).
    assert ((exists p, last_at n l k p) \/ (forall p, p < length l -> belongs n (nth p l 0%Z) k = false)) as [(p & Hp)|HN].
    { clear. induction l as [|z l IH].
      - right. simpl. lia.
      - destruct IH as [(p & H1 & H2 & H3)|IH].
        + left. exists (S p). repeat split; simpl; auto; [lia|]. intros [|q] Hq1 Hq2; [lia|]. apply H3; lia.
        + destruct (belongs n z k) eqn:Eb.
          * left. exists 0. repeat split; simpl; auto; [lia|]. intros [|q] Hq1 Hq2; [lia|]. apply IH; lia.
          * right. intros [|p] Hp; auto. apply IH. simpl in Hp. lia. }
    + rewrite (HA p Hp). destruct Hp as (Hp & Hb & _).
      replace (existsb (fun z => belongs n z k) l) with true.
      2: { symmetry. apply existsb_exists. exists (nth p l 0%Z). split; auto. apply nth_In; auto. }
      cbn [dat]. rewrite nth_repeat_lt; auto. change (prod (length l :: rest)) with (length l * prod rest). nia.
    + rewrite (HB HN). replace (existsb (fun z => belongs n z k) l) with false; auto.
      symmetry. apply not_true_is_false. intro Hex. apply existsb_exists in Hex. destruct Hex as (z & Hz & Hb).
      destruct (In_nth _ _ 0%Z Hz) as (p & Hp & Ep). rewrite <- Ep in Hb. rewrite HN in Hb; auto. discriminate.
Qed.
Lemma replace_inputs_kept : forall h x_sub a i, firstn (length h) (snd (replace_at h x_sub a i)) = h.
Proof.
  intros. assert (forall b : nd num, firstn (length h) (h ++ [b]) = h) as HF.
  { intros. rewrite firstn_app, firstn_all, Nat.sub_diag. simpl. apply app_nil_r. }
  unfold replace_at. destruct (shp _); [apply HF|]. rewrite upd_end.
  destruct (set_rows _ _ _); cbn [snd]; rewrite ?upd_end; apply HF.
Qed.
Lemma replace_bad_index : forall x_sub x l n rest, shp x = n :: rest -> ~ Forall (in_range n) l ->
  replace x_sub x (IInt l) = Err IndexError.
Proof.
  intros xs x l n rest E H. rewrite replace_eq, E. unfold set_rows. rewrite E. cbn [positions].
  assert (mapM (py_row n) l = Err IndexError) as ->; auto.
  assert (forall z, {in_range n z} + {~ in_range n z}) as Hdec.
  { intros z. unfold in_range. destruct (Z_le_dec (- Z.of_nat n) z), (Z_lt_dec z (Z.of_nat n)); [left|right|right|right]; lia. }
  induction l as [|z l IH]; [exfalso; apply H; auto|]. cbn [mapM].
  destruct (Hdec z) as [Hz|Hz].
  - rewrite (proj1 (py_row_ok n z Hz)). cbn [bind]. rewrite IH; auto.
  - rewrite (py_row_err n z Hz). auto.
Qed.
(** A boolean mask selects the positions at which it is true. *)
Lemma positions_mask : forall n l, length l = n ->
  positions n (IBool l) = positions n (IInt (map Z.of_nat (select (seq 0 n) l))).
Proof.
  intros n l H. cbn [positions]. rewrite H, Nat.eqb_refl. symmetry. rewrite mapM_map.
  assert (forall p, In p (select (seq 0 n) l) -> p < n) as Hlt.
  { intros p Hp. assert (In p (seq 0 n)) as Hs; [|apply in_seq in Hs; lia].
    revert Hp. clear. generalize (seq 0 n). intros s. revert l. induction s as [|a s IH]; intros [|b l]; simpl; try tauto.
    destruct b; simpl; intros; firstorder. }
  revert Hlt. generalize (select (seq 0 n) l). clear. induction l as [|p l IH]; intros H; auto. cbn [mapM].
  assert (py_row n (Z.of_nat p) = Ok p) as ->.
  { unfold py_row. assert (p < n) by (apply H; left; auto).
    replace ((0 <=? Z.of_nat p) && (Z.of_nat p <? Z.of_nat n))%Z with true by lia. rewrite Nat2Z.id. auto. }
  cbn [bind]. rewrite IH by (intros; apply H; right; auto). auto.
Qed.
Lemma replace_mask : forall x_sub x l n rest, shp x = n :: rest -> length l = n ->
  replace x_sub x (IBool l) = replace x_sub x (IInt (map Z.of_nat (select (seq 0 n) l))).
Proof.
  intros. rewrite !replace_eq. unfold set_rows. rewrite H. rewrite positions_mask by auto. auto.
Qed.

(** ** the derivatives of replace *)
Lemma last_or_none : forall n l k,
  (exists p, last_at n l k p) \/ (forall p, p < length l -> belongs n (nth p l 0%Z) k = false).
Proof.
  intros n l k. induction l as [|z l IH].
  - right. simpl. lia.
  - destruct IH as [(p & H1 & H2 & H3)|IH].
    + left. exists (S p). repeat split; simpl; auto; [lia|]. intros [|q] Hq1 Hq2; [lia|]. apply H3; lia.
    + destruct (belongs n z k) eqn:Eb.
      * left. exists 0. repeat split; simpl; auto; [lia|]. intros [|q] Hq1 Hq2; [lia|]. apply IH; lia.
      * right. intros [|p] Hp; auto. apply IH. simpl in Hp. lia.
Qed.
Definition is_last (n : nat) (l : list Z) (k p : nat) : bool :=
  belongs n (nth p l 0%Z) k && forallb (fun q => negb (belongs n (nth q l 0%Z) k)) (seq (S p) (length l - S p)).
Lemma is_last_at : forall n l k p, p < length l -> (is_last n l k p = true <-> last_at n l k p).
Proof.
  intros n l k p Hp. unfold is_last, last_at. rewrite andb_true_iff, forallb_forall. split.
  - intros (H1 & H2). repeat split; auto. intros q Hq Hl. specialize (H2 q). rewrite in_seq in H2.
    apply negb_true_iff. apply H2. lia.
  - intros (_ & H1 & H2). split; auto. intros q Hq. apply in_seq in Hq. rewrite H2; auto; lia.
Qed.
Lemma last_unique : forall n l k p q, last_at n l k p -> last_at n l k q -> p = q.
Proof.
  intros n l k p q (H1 & H2 & H3) (H4 & H5 & H6). destruct (lt_eq_lt_dec p q) as [[H|H]|H]; auto.
  - rewrite H3 in H5; auto. discriminate.
  - rewrite H6 in H2; auto. discriminate.
Qed.
Definition msub (n : nat) (l : list Z) (k p : nat) : R := if is_last n l k p then 1%R else 0%R.
Lemma msub_last : forall n l k p u, last_at n l k p -> Rsum (length l) (fun q => msub n l k q * u q)%R = u p.
Proof.
  intros n l k p u H. rewrite (Rsum_single _ _ p).
  - unfold msub. rewrite (proj2 (is_last_at n l k p (proj1 H)) H). ring.
  - apply H.
  - intros q Hq Hne. unfold msub. destruct (is_last n l k q) eqn:E; [|ring].
    apply is_last_at in E; auto. exfalso. apply Hne. eapply last_unique; eauto.
Qed.
Lemma msub_none : forall n l k u, (forall p, p < length l -> belongs n (nth p l 0%Z) k = false) ->
  Rsum (length l) (fun q => msub n l k q * u q)%R = 0%R.
Proof.
  intros n l k u H. apply Rsum_zero. intros q Hq. unfold msub, is_last. rewrite H by auto. cbn [andb]. ring.
Qed.
Definition chosen (n : nat) (l : list Z) (k : nat) : bool := existsb (fun z => belongs n z k) l.
Lemma chosen_last : forall n l k p, last_at n l k p -> chosen n l k = true.
Proof.
  intros n l k p (H1 & H2 & _). apply existsb_exists. exists (nth p l 0%Z). split; auto. apply nth_In; auto.
Qed.
Lemma chosen_none : forall n l k, (forall p, p < length l -> belongs n (nth p l 0%Z) k = false) -> chosen n l k = false.
Proof.
  intros n l k HN. apply not_true_is_false. intro Hex. apply existsb_exists in Hex. destruct Hex as (z & Hz & Hb).
  destruct (In_nth _ _ 0%Z Hz) as (p & Hp & Ep). rewrite <- Ep in Hb. rewrite HN in Hb; auto. discriminate.
Qed.
Lemma replace_farr : forall l n rest u x, Forall (in_range n) l ->
  replace (farr (length l :: rest) u) (farr (n :: rest) x) (IInt l) =
  Ok (farr (n :: rest) (fun a =>
    Rsum (length l) (fun p => msub n l (a / prod rest) p * u (p * prod rest + a mod prod rest)%nat)
    + (if chosen n l (a / prod rest) then 0 else x a)))%R.
Proof.
  intros l n rest u x Hr.
  destruct (replace_value [farr (n :: rest) x] 0 (farr (n :: rest) x) (farr (length l :: rest) u) l n rest)
    as (r & _ & E & H1 & H2 & H3); auto; try apply farr_ok.
  rewrite E. f_equal. apply farr_eq; auto.
  change (prod (n :: rest)) with (n * prod rest). intros a Ha. destruct (div_lt _ _ _ Ha) as (Hd & Hm & Ea).
  destruct (H3 (a / prod rest) (a mod prod rest) Hd Hm) as (HA & HB). rewrite <- Ea in HA, HB.
  destruct (last_or_none n l (a / prod rest)) as [(p & Hp)|HN].
  - rewrite (HA p Hp), (chosen_last _ _ _ _ Hp).
    rewrite (msub_last n l (a / prod rest) p (fun p => u (p * prod rest + a mod prod rest)) Hp).
    rewrite nth_farr; [f_equal; ring|]. destruct Hp as (Hp & _).
    change (prod (length l :: rest)) with (length l * prod rest). nia.
  - rewrite (HB HN), (chosen_none _ _ _ HN), nth_farr by auto.
    rewrite (msub_none n l (a / prod rest) (fun p => u (p * prod rest + a mod prod rest)) HN). f_equal. ring.
Qed.
Definition mkeep (n : nat) (l : list Z) (M a b : nat) : R :=
  if (a =? b) && negb (chosen n l (a / M)) then 1%R else 0%R.
Lemma replace_zero_acts : forall l n rest, Forall (in_range n) l ->
  acts (n :: rest) (n :: rest) (fun x => replace (scalar (Fin 0)) x (IInt l)) (mkeep n l (prod rest)).
Proof.
  intros l n rest Hr x.
  destruct (replace_number [farr (n :: rest) x] 0 (farr (n :: rest) x) (Fin 0) l n rest)
    as (r & _ & E & H1 & H2 & H3); auto; try apply farr_ok.
  rewrite E. f_equal. apply farr_eq; auto.
  change (prod (n :: rest)) with (n * prod rest). intros a Ha. destruct (div_lt _ _ _ Ha) as (Hd & Hm & Ea).
  rewrite Ea at 1. rewrite (H3 _ _ Hd Hm), <- Ea, nth_farr by auto. unfold Rmatvec.
  rewrite (Rsum_single _ _ a Ha).
  - unfold mkeep. fold (chosen n l (a / prod rest)). rewrite Nat.eqb_refl. cbn [andb].
    destruct (chosen n l (a / prod rest)); cbn [negb]; f_equal; ring.
  - intros b Hb Hne. unfold mkeep. rewrite (proj2 (Nat.eqb_neq _ _)) by auto. cbn [andb]. ring.
Qed.
Lemma acts_ext : forall s s' F m m', acts s s' F m -> (forall i j, i < prod s' -> j < prod s -> m i j = m' i j) ->
  acts s s' F m'.
Proof.
  intros s s' F m m' H E x. rewrite H. f_equal. unfold farr. f_equal. apply fvec_ext. intros i Hi. unfold Rmatvec.
  apply Rsum_ext. intros j Hj. rewrite E; auto.
Qed.
Lemma get_rows_acts : forall l n, Forall (in_range n) l ->
  acts [n] [length l] (fun g => get_rows g (IInt l)) (fun p k => if belongs n (nth p l 0%Z) k then 1%R else 0%R).
Proof.
  intros l n Hr v. unfold get_rows. cbn [shp farr dat]. rewrite (positions_int n l Hr). cbn [bind].
  rewrite map_length. f_equal. apply farr_eq; auto.
  - unfold nd_ok. cbn [shp dat]. rewrite (concat_len _ 1).
    + rewrite !map_length. auto.
    + apply Forall_forall. intros c Hc. apply in_map_iff in Hc. destruct Hc as (k & <- & Hk).
      apply in_map_iff in Hk. destruct Hk as (z & <- & Hz). rewrite Forall_forall in Hr.
      destruct (py_row_ok _ _ (Hr z Hz)) as (_ & Hlt).
      apply (chunk_length _ _ _ _ n); auto. rewrite fvec_length. auto.
  - change (prod [length l]) with (length l * 1). intros p Hp. rewrite Nat.mul_1_r in Hp. cbn [dat].
    change (prod []) with 1.
    replace p with (p * 1 + 0) at 1 by lia. rewrite nth_concat; try rewrite !map_length; auto.
    + rewrite (nth_map_gen _ _ _ _ _ [] 0) by (rewrite map_length; auto).
      rewrite (nth_map_gen _ _ _ _ _ 0 0%Z) by auto. unfold chunk. rewrite nth_slice by auto.
      assert (in_range n (nth p l 0%Z)) as Hin by (rewrite Forall_forall in Hr; apply Hr, nth_In; auto).
      destruct (py_row_ok _ _ Hin) as (_ & Hlt). set (r := row_of n (nth p l 0%Z)) in *.
      replace (r * 1 + 0) with r by lia. change (prod [n]) with (n * 1). rewrite Nat.mul_1_r.
      rewrite nth_fvec by auto. f_equal. unfold Rmatvec. rewrite (Rsum_single _ _ r Hlt).
      * rewrite belongs_row by auto. fold r. rewrite Nat.eqb_refl. ring.
      * intros k Hk Hne. rewrite belongs_row by auto. fold r. rewrite (proj2 (Nat.eqb_neq _ _)) by auto. ring.
    + apply Forall_forall. intros c Hc. apply in_map_iff in Hc. destruct Hc as (k & <- & Hk).
      apply in_map_iff in Hk. destruct Hk as (z & <- & Hz). rewrite Forall_forall in Hr.
      destruct (py_row_ok _ _ (Hr z Hz)) as (_ & Hlt).
      apply (chunk_length _ _ _ _ n); auto. rewrite fvec_length. auto.
Qed.
Lemma replace_jvp_sub_acts : forall l n x, Forall (in_range n) l -> shp x = [n] ->
  acts [length l] [n] (replace_jvp_sub x (IInt l)) (msub n l).
Proof.
  intros l n x Hr Hx u. unfold replace_jvp_sub, pylen. rewrite Hx. cbn [bind].
  assert (vec (repeat (Fin 0) n) = farr [n] (fun _ => 0%R)) as ->.
  { apply farr_eq; auto.
    - unfold vec. rewrite repeat_length. auto.
    - unfold nd_ok, vec. cbn [shp dat]. rewrite repeat_length. simpl. lia.
    - intros i Hi. unfold vec. cbn [dat]. apply nth_repeat_lt. simpl in Hi. lia. }
  rewrite replace_farr by auto. f_equal. unfold farr. f_equal. apply fvec_ext. intros k Hk.
  change (prod []) with 1. rewrite Nat.div_1_r. unfold Rmatvec. change (prod [length l]) with (length l * 1).
  rewrite Nat.mul_1_r. destruct (chosen n l k); rewrite Rplus_0_r; apply Rsum_ext; intros p _; do 2 f_equal;
    rewrite Nat.mod_1_r; lia.
Qed.
(** The rules are the derivatives; in reverse, rows must not be repeated. *)
Lemma replace_derivatives : forall l n rest x x_sub, Forall (in_range n) l ->
  exact_derivative [length l] [n] (fun u => replace u (farr [n] x) (IInt l)) (replace_jvp_sub (farr [n] x) (IInt l)) /\
  exact_derivative (n :: rest) (n :: rest) (fun y => replace (farr (length l :: rest) x_sub) y (IInt l))
    (replace_jvp_x (IInt l)) /\
  adjoint (n :: rest) (n :: rest) (replace_jvp_x (IInt l)) (replace_vjp_x (IInt l)) /\
  (distinct_rows n l -> adjoint [length l] [n] (replace_jvp_sub (farr [n] x) (IInt l)) (replace_vjp_sub (IInt l))).
Proof.
  intros l n rest x xs Hr. split; [|split; [|split]].
  - intros u0 u. pose proof (replace_jvp_sub_acts l n (farr [n] x) Hr eq_refl) as HJ.
    eexists; eexists. split; [apply replace_farr; auto|]. split; [apply HJ|].
    intros t. rewrite replace_farr by auto. f_equal. unfold farr. f_equal. apply fvec_ext. intros k Hk.
    change (prod []) with 1. rewrite Nat.div_1_r, Nat.mod_1_r. unfold Rmatvec.
    change (prod [length l]) with (length l * 1). rewrite Nat.mul_1_r.
    set (c := if chosen n l k then 0%R else x k).
    rewrite <- Rsum_scal.
    transitivity (Rsum (length l) (fun p => msub n l k p * u0 (p * 1 + 0)%nat) + Rsum (length l) (fun p => t * (msub n l k p * u p)) + c)%R; [|ring].
    f_equal. rewrite <- Rsum_plus. apply Rsum_ext. intros p Hp. replace (p * 1 + 0) with p by lia. ring.
  - intros y0 y. pose proof (replace_zero_acts l n rest Hr) as HJ.
    eexists; eexists. split; [apply replace_farr; auto|]. split; [apply HJ|].
    intros t. rewrite replace_farr by auto. f_equal. unfold farr. f_equal. apply fvec_ext. intros k Hk.
    unfold Rmatvec. rewrite (Rsum_single _ _ k Hk).
    + unfold mkeep. rewrite Nat.eqb_refl. cbn [andb]. destruct (chosen n l (k / prod rest)); cbn [negb]; ring.
    + intros b Hb Hne. unfold mkeep. rewrite (proj2 (Nat.eqb_neq _ _)) by auto. cbn [andb]. ring.
  - apply (acts_adjoint _ _ _ _ (mkeep n l (prod rest))); [apply replace_zero_acts; auto|].
    apply (acts_ext _ _ _ (mkeep n l (prod rest))); [apply replace_zero_acts; auto|].
    intros i j _ _. unfold Rtrans, mkeep. rewrite (Nat.eqb_sym j i). destruct (Nat.eqb_spec i j); subst; auto.
  - intros Hd. apply (acts_adjoint _ _ _ _ (msub n l)); [apply replace_jvp_sub_acts; auto|].
    apply (acts_ext _ _ _ _ _ (get_rows_acts l n Hr)).
    intros p k Hp Hk. change (prod [n]) with (n * 1) in Hk. change (prod [length l]) with (length l * 1) in Hp.
    rewrite Nat.mul_1_r in Hp, Hk. unfold Rtrans, msub, is_last.
    destruct (belongs n (nth p l 0%Z) k) eqn:E; auto. cbn [andb].
    assert (forallb (fun q => negb (belongs n (nth q l 0%Z) k)) (seq (S p) (length l - S p)) = true) as ->; auto.
    apply forallb_forall. intros q Hq. apply in_seq in Hq. apply negb_true_iff, not_true_is_false. intro Hb.
    assert (p = q) by (apply (Hd p q k); auto; lia). lia.
Qed.
(** With more than one axis, the forward rule for the substitute raises. *)
Lemma replace_jvp_sub_matrix : forall l n rest x g, Forall (in_range n) l -> shp x = n :: rest ->
  shp g = length l :: rest -> rest <> [] -> ~ (length l = 1 /\ Forall (eq 1) rest) ->
  replace_jvp_sub x (IInt l) g = Err ValueError.
Proof.
  intros l n rest x g Hr Hx Hg Hne Hone. unfold replace_jvp_sub, pylen. rewrite Hx. cbn [bind].
  rewrite replace_eq. unfold set_rows, vec. cbn [shp]. rewrite repeat_length, (positions_int n l Hr), map_length.
  assert (broadcast_to [length l] g = Err ValueError) as ->; auto.
  unfold broadcast_to. rewrite Hg. cbn [length]. replace (S (length rest) - 1) with (length rest) by lia.
  replace (1 - S (length rest)) with 0 by lia. cbn [repeat app].
  destruct (exists_last Hne) as (init & z & E). rewrite E. rewrite app_length. cbn [length]. rewrite Nat.add_1_r.
  cbn [firstn skipn]. rewrite firstn_app, firstn_all, Nat.sub_diag, skipn_app, skipn_all, Nat.sub_diag.
  cbn [firstn skipn app map2 forallb]. rewrite app_nil_r.
  match goal with |- (if ?b then _ else _) = _ => destruct b eqn:Eb; auto end. exfalso. apply Hone.
  repeat rewrite andb_true_iff in Eb. destruct Eb as ((E1 & E2) & E3 & _). apply Nat.eqb_eq in E1. split; auto.
  rewrite E. apply Forall_app. split.
  - rewrite forallb_forall in E2. apply Forall_forall. intros d Hd. symmetry. apply Nat.eqb_eq; auto.
  - constructor; auto. rewrite E1 in E3. apply orb_true_iff in E3.
    destruct E3 as [E3|E3]; apply Nat.eqb_eq in E3; auto.
Qed.
