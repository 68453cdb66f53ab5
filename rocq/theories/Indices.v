(** * flat_indices (C12-C15). *)
From Coq Require Import Reals Lra Sorting.Sorted.
From Verif Require Import Base Num Nd Numeric Simplex Psd Pattern Spec ListFacts PatFacts
  NonFree NumFacts CholFacts Free Contract.
Local Open Scope list_scope.
Local Open Scope nat_scope.

(** ** selecting from a range *)
Lemma select_seq_shift : forall m n o c,
  map (fun i => i + c) (select (seq o n) m) = select (seq (o + c) n) m.
Proof.
  induction m as [|b m IH]; intros [|n] o c; simpl; auto.
  destruct b; simpl; rewrite IH; auto.
Qed.

Lemma select_seq_app : forall o m m',
  select (seq o (length (m ++ m'))) (m ++ m') =
  select (seq o (length m)) m ++ select (seq (o + length m) (length m')) m'.
Proof.
  intros o m m'. rewrite app_length, seq_app. apply select_app. rewrite seq_length. auto.
Qed.

Lemma select_seq_sorted : forall m n o, StronglySorted lt (select (seq o n) m).
Proof.
  assert (forall m n o i, In i (select (seq o n) m) -> o <= i < o + n) as HI.
  { induction m as [|b m IH]; intros [|n] o i; simpl; try tauto.
    destruct b; simpl; intros H.
    - destruct H as [<-|H]; [lia|]. apply IH in H. lia.
    - apply IH in H. lia. }
  induction m as [|b m IH]; intros [|n] o; simpl; try constructor.
  destruct b; auto. constructor; auto. apply Forall_forall. intros i Hi. apply HI in Hi. lia.
Qed.

Lemma select_all_false : forall A (l : list A) n, select l (repeat false n) = [].
Proof. intros. apply select_none. apply anyb_false_iff. intros b H. apply repeat_spec in H. auto. Qed.
Lemma select_all_true : forall A (l : list A) n, length l <= n -> select l (repeat true n) = l.
Proof. induction l as [|a l IH]; intros [|n] H; simpl in *; auto; try lia. rewrite IH; auto. lia. Qed.

Lemma in_select_full : forall m i,
  In i (select (seq 0 (length m)) m) <-> nth_error m i = Some true.
Proof.
  intros m i. rewrite in_select_seq. rewrite Nat.sub_0_r. split.
  - intros (_ & H). destruct (nth_error m i) as [b|] eqn:E.
    + erewrite nth_error_nth in H by eauto. congruence.
    + apply nth_error_None in E. rewrite nth_overflow in H by auto. discriminate.
  - intros H. split; [lia|]. erewrite nth_error_nth by eauto. auto.
Qed.

(** ** which flat positions are reported *)
Definition imask_items (g : pat -> fv bool -> list bool) (d : list (key * fv bool))
  : list (key * pat) -> list bool :=
  fix go its :=
    match its with
    | [] => []
    | (k, q) :: rest => match dict_get d k with Some w => g q w ++ go rest | None => go rest end
    end.
Fixpoint imask (f : bool) (p : pat) (m : fv bool) : list bool :=
  match p, m with
  | PNum _ _ _ _ _ _, FArr a => dat a
  | PSimplex n s _ _, FArr a =>
      if f then flat_map (fun off => repeat (anyb (chunk n (dat a) off)) (n - 1)) (seq 0 (prod s))
      else dat a
  | PPsd _ fl _ _ _, FArr a => if f then repeat (anyb (dat a)) fl else dat a
  | PArr s b _, FArr a =>
      flat_map (fun i => imask f b (FArr (mkNd (folded_shape b)
        (chunk (prod (folded_shape b)) (dat a) i)))) (seq 0 (prod s))
  | PDict items _ _ _ _, FDict d => imask_items (imask f) d items
  | _, _ => []
  end.

Lemma chunk_shape_fits : forall A b (x : list A), is_dict b = false ->
  shape_fits b (FArr (mkNd (folded_shape b) x)).
Proof. intros A b x H. destruct b; simpl; auto. discriminate. Qed.

Lemma flat_map_len : forall A B (f : A -> list B) k l,
  (forall a, In a l -> length (f a) = k) -> length (flat_map f l) = length l * k.
Proof.
  induction l as [|a l IH]; simpl; intros H; auto. rewrite app_length, H, IH; auto.
Qed.

Lemma imask_length : forall f p m, usable p -> fv_ok m -> shape_fits p m ->
  length (imask f p m) = pl_n (flat_len p f).
Proof.
  intros f. apply (pat_ind' (fun p => forall m, usable p -> fv_ok m -> shape_fits p m ->
    length (imask f p m) = pl_n (flat_len p f))).
  - intros k s lb ub dv fd [a|d] Hu Hok H; simpl in H; [|tauto]. simpl. simpl in Hok. unfold nd_ok in Hok.
    destruct H as [H|[H ->]]; rewrite Hok, H; auto.
  - intros n s dv fd [a|d] Hu Hok H; simpl in H; [|tauto]. simpl. simpl in Hok. unfold nd_ok in Hok.
    destruct f; rewrite simplex_flen.
    + rewrite flat_map_len with (k := n - 1); [rewrite seq_length; auto|].
      intros. apply repeat_length.
    + rewrite Hok, H, prod_app. simpl. lia.
  - intros sz fl dl dv fd [a|d] Hu Hok H; simpl in H; [|tauto]. simpl. simpl in Hok. unfold nd_ok in Hok.
    destruct f; [apply repeat_length|]. rewrite Hok, H. simpl. lia.
  - intros s b fd IH [a|d] Hu Hok H; simpl in H; [|tauto]. destruct Hu as (Hs & Hp & Hd & Hu).
    cbn [imask flat_len]. rewrite np_prod_int by auto. unfold plint, plen_mul. cbn [pl_n].
    rewrite flat_map_len with (k := pl_n (flat_len b f)); [rewrite seq_length; auto|].
    intros i Hi. apply in_seq in Hi. apply IH; auto.
    + simpl. unfold nd_ok. simpl. eapply chunk_length; [|apply Hi].
      simpl in Hok. unfold nd_ok in Hok. rewrite Hok, H, prod_app. auto.
    + apply chunk_shape_fits; auto.
  - intros items l fl fd lk IH [a|d] Hu Hok H; simpl in H; [tauto|].
    destruct Hu as (_ & _ & -> & -> & Hu). cbn [imask flat_len].
    assert (length (imask_items (imask f) d items) =
            lsum (map (fun kq => pl_n (flat_len (snd kq) f)) items)) as ->; [|destruct f; auto].
    induction items as [|[k q] items IHi]; simpl; auto.
    inversion IH; subst. destruct H as ((w & Hg & Hw) & H). destruct Hu as (Hu1 & Hu2).
    rewrite Hg, app_length, IHi; auto. f_equal. apply H2; auto. eapply fv_ok_get; eauto.
Qed.

Lemma imask_entries : forall p m, usable p -> fv_ok m -> shape_fits p m ->
  imask false p m = entries p m.
Proof.
  apply (pat_ind' (fun p => forall m, usable p -> fv_ok m -> shape_fits p m ->
    imask false p m = entries p m)).
  - intros k s lb ub dv fd [a|d] Hu Hok H; simpl in H; [|tauto]. auto.
  - intros n s dv fd [a|d] Hu Hok H; simpl in H; [|tauto]. auto.
  - intros sz fl dl dv fd [a|d] Hu Hok H; simpl in H; [|tauto]. auto.
  - intros s b fd IH [a|d] Hu Hok H; simpl in H; [|tauto]. destruct Hu as (Hs & Hp & Hd & Hu).
    cbn [imask entries].
    assert (length (dat a) = prod s * prod (folded_shape b)) as L.
    { simpl in Hok. unfold nd_ok in Hok. rewrite Hok, H, prod_app. auto. }
    transitivity (concat (chunks (prod (folded_shape b)) (prod s) (dat a)));
      [|apply concat_chunks; auto].
    rewrite flat_map_concat. f_equal. unfold chunks. apply map_ext_in. intros i Hi. apply in_seq in Hi.
    rewrite IH; auto.
    + destruct b; try discriminate; auto.
    + simpl. unfold nd_ok. simpl. eapply chunk_length; [|apply Hi]. auto.
    + apply chunk_shape_fits; auto.
  - intros items l fl fd lk IH [a|d] Hu Hok H; simpl in H; [tauto|].
    destruct Hu as (_ & _ & _ & _ & Hu). cbn [imask entries]. clear l fl.
    induction items as [|[k q] items IHi]; simpl; auto.
    inversion IH; subst. destruct H as ((w & Hg & Hw) & H). destruct Hu as (Hu1 & Hu2).
    rewrite Hg, IHi; auto. f_equal. apply H2; auto. eapply fv_ok_get; eauto.
Qed.

Lemma imask_none : forall f p m, usable p -> fv_ok m -> shape_fits p m ->
  anyb (entries p m) = false -> anyb (imask f p m) = false.
Proof.
  intros f. apply (pat_ind' (fun p => forall m, usable p -> fv_ok m -> shape_fits p m ->
    anyb (entries p m) = false -> anyb (imask f p m) = false)).
  - intros k s lb ub dv fd [a|d] Hu Hok H; simpl in H; [|tauto]. auto.
  - intros n s dv fd [a|d] Hu Hok H; simpl in H; [|tauto]. intros Ha. simpl in *. destruct f; auto.
    rewrite anyb_false_iff in *. intros b Hb. apply in_flat_map in Hb. destruct Hb as (off & _ & Hb).
    apply repeat_spec in Hb. subst b. apply anyb_false_iff. intros b Hb. apply Ha.
    unfold chunk in Hb. eapply in_slice; eauto.
  - intros sz fl dl dv fd [a|d] Hu Hok H; simpl in H; [|tauto]. intros Ha. simpl in *. destruct f; auto.
    apply anyb_false_iff. intros b Hb. apply repeat_spec in Hb. congruence.
  - intros s b fd IH [a|d] Hu Hok H; simpl in H; [|tauto]. destruct Hu as (Hs & Hp & Hd & Hu).
    cbn [imask entries]. intros Ha. rewrite anyb_false_iff in *. intros c Hc.
    apply in_flat_map in Hc. destruct Hc as (i & Hi & Hc). apply in_seq in Hi.
    assert (anyb (imask f b (FArr {| shp := folded_shape b;
       dat := chunk (prod (folded_shape b)) (dat a) i |})) = false) as E.
    { apply IH; auto.
      + simpl. unfold nd_ok. simpl. eapply chunk_length; [|apply Hi].
        simpl in Hok. unfold nd_ok in Hok. rewrite Hok, H, prod_app. auto.
      + apply chunk_shape_fits; auto.
      + apply anyb_false_iff. intros c' Hc'. apply Ha.
        assert (In c' (chunk (prod (folded_shape b)) (dat a) i)) as Hc2
          by (destruct b; simpl in Hc'; auto; discriminate).
        eapply in_slice; eauto. }
    rewrite anyb_false_iff in E. apply E; auto.
  - intros items l fl fd lk IH [a|d] Hu Hok H; simpl in H; [tauto|].
    destruct Hu as (_ & _ & _ & _ & Hu). cbn [imask entries]. clear l fl.
    induction items as [|[k q] items IHi]; simpl; auto.
    inversion IH; subst. destruct H as ((w & Hg & Hw) & H). destruct Hu as (Hu1 & Hu2).
    rewrite Hg. unfold anyb. rewrite !existsb_app. intros Ha. apply orb_false_elim in Ha. destruct Ha as (A1 & A2).
    apply orb_false_intro; auto. apply H2; auto. eapply fv_ok_get; eauto.
Qed.

Lemma shift_plint : forall o ix, shift_indices (plint o) ix = Ok (map (fun i => i + o) ix).
Proof. intros o [|i ix]; simpl; auto. Qed.

Lemma indices_cells_spec : forall (ib : nd bool -> res (list nat)) (bm : nd bool -> list bool) m s bs st,
  shp m = s ++ bs ->
  (forall i, i < prod s -> let c := mkNd bs (chunk (prod bs) (dat m) i) in
     length (bm c) = st /\
     (anyb (dat c) = true -> ib c = Ok (select (seq 0 st) (bm c))) /\
     (anyb (dat c) = false -> anyb (bm c) = false)) ->
  forall cells o, map (fun it => ravel it s) cells = seq o (length cells) -> o + length cells <= prod s ->
  indices_cells ib m (length s) (plint st) cells (plint (o * st)) =
  Ok (select (seq (o * st) (length cells * st))
        (flat_map (fun i => bm (mkNd bs (chunk (prod bs) (dat m) i))) (seq o (length cells)))).
Proof.
  intros ib bm m s bs st Hs Hc. induction cells as [|it cells IH]; intros o Hm Ho; [reflexivity|].
  simpl in Hm. injection Hm as E1 E2. cbn [length] in Ho |- *.
  cbn [indices_cells]. rewrite (subarr_chunk _ m it s bs Hs), E1.
  specialize (IH (S o) E2 ltac:(lia)).
  assert (plen_add (plint (o * st)) (plint st) = plint (S o * st)) as ->.
  { unfold plen_add, plint. simpl. f_equal. lia. }
  rewrite IH. destruct (Hc o ltac:(lia)) as (L & HT & HF). cbn zeta in *.
  cbn [seq flat_map].
  set (c := mkNd bs (chunk (prod bs) (dat m) o)) in *.
  assert (S (length cells) * st = st + length cells * st) as -> by lia.
  rewrite seq_app, select_app by (rewrite seq_length; auto).
  assert (o * st + st = S o * st) as -> by lia.
  destruct (anyb (dat c)) eqn:Ea.
  - rewrite HT by auto. cbn [bind]. rewrite shift_plint. cbn [bind].
    rewrite select_seq_shift. simpl (0 + o * st). auto.
  - cbn [bind]. rewrite (select_none _ _ (bm c)) by auto. auto.
Qed.

Theorem flat_indices_spec : forall f p m, usable p -> fv_ok m -> shape_fits p m ->
  flat_indices p m (Some f) = Ok (select (seq 0 (pl_n (flat_len p f))) (imask f p m)).
Proof.
  intros f. apply (pat_ind' (fun p => forall m, usable p -> fv_ok m -> shape_fits p m ->
    flat_indices p m (Some f) = Ok (select (seq 0 (pl_n (flat_len p f))) (imask f p m)))).
  - intros k s lb ub dv fd [a|d] Hu Hok H; simpl in H; [|tauto]. cbn [flat_indices imask].
    destruct (anyb (dat a)) eqn:E; cbn [negb]; [|rewrite select_none; auto].
    cbn [free_with_default bind]. rewrite atleast_dat.
    assert (shp (atleast_1d a) = s) as ->; [|rewrite shape_eqb_refl; auto].
    unfold atleast_1d. destruct H as [H|[H ->]]; rewrite H; auto.
    destruct s; auto. destruct Hu; contradiction.
  - intros n s dv fd [a|d] Hu Hok H; simpl in H; [|tauto].
    destruct (anyb (dat a)) eqn:E.
    2:{ rewrite select_none.
        - cbn [flat_indices]. rewrite E. auto.
        - apply imask_none; auto. }
    cbn [flat_indices imask]. rewrite E. cbn [negb free_with_default bind]. rewrite H, shape_eqb_refl. cbn [negb].
    destruct f.
    + f_equal. cbn [flat_len]. rewrite simplex_flen. unfold simplex_free_indices.
      assert (forall c o, flat_map (fun off => if anyb (chunk n (dat a) off) then seq (off * (n - 1)) (n - 1) else [])
                 (seq o c) =
              select (seq (o * (n - 1)) (c * (n - 1)))
                (flat_map (fun off => repeat (anyb (chunk n (dat a) off)) (n - 1)) (seq o c))) as G.
      { induction c as [|c IH]; intros o; [reflexivity|]. cbn [seq flat_map]. rewrite IH.
        assert (S c * (n - 1) = (n - 1) + c * (n - 1)) as -> by lia.
        rewrite seq_app, select_app by (rewrite seq_length, repeat_length; auto).
        assert (S o * (n - 1) = o * (n - 1) + (n - 1)) as -> by lia.
        destruct (anyb (chunk n (dat a) o)).
        - rewrite select_all_true; auto. rewrite seq_length. auto.
        - rewrite select_all_false. auto. }
      apply (G (prod s) 0).
    + pose proof (fold_nonfree _ snat (Some false) (PSimplex n s dv fd) Hu
          (seq 0 (pl_n (flat_len (PSimplex n s dv fd) false)))) as F.
      rewrite F by apply seq_length. clear F.
      rewrite (proj2 (require_valid_ok _ _ _ _ _ tt)).
      * cbn [bind layout as_arr dat]. auto.
      * apply validate_lenient; simpl; auto.
  - intros sz fl dl dv fd [a|d] Hu Hok H; simpl in H; [|tauto].
    destruct (anyb (dat a)) eqn:E.
    2:{ rewrite select_none.
        - cbn [flat_indices]. rewrite E. auto.
        - apply imask_none; auto. }
    cbn [flat_indices imask]. rewrite E. cbn [negb free_with_default bind]. rewrite H, shape_eqb_refl. cbn [negb].
    destruct f.
    + cbn [flat_len pl_n plint]. rewrite select_all_true; auto. rewrite seq_length. auto.
    + pose proof (fold_nonfree _ snat (Some false) (PPsd sz fl dl dv fd) Hu
          (seq 0 (pl_n (flat_len (PPsd sz fl dl dv fd) false)))) as F.
      rewrite F by apply seq_length. clear F.
      rewrite (proj2 (require_valid_ok _ _ _ _ _ tt)).
      * cbn [bind layout as_arr dat]. auto.
      * apply validate_lenient; simpl; auto.
  - intros s b fd IH [a|d] Hu Hok H; [|simpl in H; tauto].
    assert (require_valid sbool (PArr s b fd) (FArr a) (Some false) = Ok tt) as Hv.
    { apply require_valid_ok. apply validate_lenient; auto. clear. simpl. 
      generalize b. apply pat_ind'; simpl; auto. intros. apply all_items_Forall. auto. }
    simpl in H. pose proof Hu as (Hs & Hp & Hd & Hub).
    cbn [flat_indices imask]. cbn [free_with_default bind]. rewrite Hv. cbn [bind].
    pose proof (usable_int b f Hub) as Hi. rewrite (plint_n _ Hi).
    pose proof (indices_cells_spec (fun sub => flat_indices b (FArr sub) (Some f))
       (fun c => imask f b (FArr c)) a s (folded_shape b) (pl_n (flat_len b f)) H) as G.
    rewrite (G) with (o := 0).
    + rewrite indices_length. simpl (0 * _). f_equal. f_equal. cbn [flat_len]. rewrite np_prod_int by auto. auto.
    + intros i Hii. cbn zeta.
      assert (fv_ok (FArr {| shp := folded_shape b; dat := chunk (prod (folded_shape b)) (dat a) i |})) as Hc.
      { simpl. unfold nd_ok. simpl. eapply chunk_length; eauto.
        simpl in Hok. unfold nd_ok in Hok. rewrite Hok, H, prod_app. auto. }
      split; [apply imask_length; auto; apply chunk_shape_fits; auto|]. split.
      * intros _. apply IH; auto. apply chunk_shape_fits; auto.
      * intros Ha. apply imask_none; auto; [apply chunk_shape_fits; auto|].
        destruct b; try discriminate; auto.
    + rewrite indices_length. apply ravel_indices.
    + rewrite indices_length. auto.
  - intros items l fl fd lk IH [a|d] Hu Hok H; [simpl in H; tauto|].
    assert (require_valid sbool (PDict items l fl fd lk) (FDict d) (Some false) = Ok tt) as Hv.
    { apply require_valid_ok. apply validate_lenient; auto. clear. 
      generalize (PDict items l fl fd lk). apply pat_ind'; simpl; auto. intros. apply all_items_Forall. auto. }
    cbn [flat_indices]. cbn [free_with_default bind]. rewrite Hv. cbn [bind].
    destruct Hu as (_ & _ & -> & -> & Hu). cbn [imask flat_len]. simpl in H.
    assert (forall o, indices_items (fun q w => flat_indices q w (Some f)) f d items (plint o) =
      Ok (select (seq o (lsum (map (fun kq => pl_n (flat_len (snd kq) f)) items))) (imask_items (imask f) d items))) as G.
    { clear Hv. induction items as [|[k q] items IHi]; intros o; [reflexivity|].
      simpl. inversion IH; subst. destruct H as ((w & Hg & Hw) & H). destruct Hu as (Hu1 & Hu2).
      rewrite Hg. assert (fv_ok w) as Hokw by (eapply fv_ok_get; eauto).
      simpl in H2. rewrite H2 by auto. cbn [bind]. rewrite shift_plint. cbn [bind].
      pose proof (usable_int q f Hu1) as Hi.
      assert (plen_add (plint o) (flat_len q f) = plint (o + pl_n (flat_len q f))) as ->.
      { rewrite (plint_n _ Hi). auto. }
      rewrite IHi; auto. cbn [bind]. rewrite select_seq_shift.
      rewrite seq_app, select_app by (rewrite seq_length, imask_length; auto). auto. }
    rewrite G. destruct f; auto.
Qed.
