(** * The directions that keep the constraints are the image of the unfreeing Jacobian. *)
From Coq Require Import Reals Lra Lia.
From Verif Require Import Base Num Nd Numeric Simplex Psd Pattern Spec ListFacts PatFacts NonFree
  NumFacts CholFacts Free Contract Jac SpecJac JacBase JacFacts JacMore JacPsd CholDiff PsdDiff
  AlongFacts JacProps SpecOptim SpecEnd EndFacts GradFacts GradSimp RevPsd SpecRev RevFacts SpecDir.
Local Open Scope list_scope.
Local Open Scope nat_scope.

Definition spans (J : matrix) (P : list R -> Prop) : Prop :=
  forall h, P h <-> exists w, matrix_times J w h.

Lemma spans_ext : forall J P Q, (forall h, P h <-> Q h) -> spans J P -> spans J Q.
Proof. intros J P Q E H h. rewrite <- E. apply H. Qed.

Lemma spans_zero : spans zero_mat (fun h => h = []).
Proof.
  intros h. split.
  - intros ->. exists []. split; [reflexivity|]. split; [reflexivity|]. simpl. intros; lia.
  - intros (w & _ & L & _). simpl in L. destruct h; auto. discriminate.
Qed.

Lemma spans_block2 : forall A B P Q, spans A P -> spans B Q ->
  spans (block2 A B) (fun h => exists y z, h = y ++ z /\ P y /\ Q z).
Proof.
  intros A B P Q HA HB h. split.
  - intros (y & z & -> & Hy & Hz). apply HA in Hy. apply HB in Hz.
    destruct Hy as (w & Lw & Ly & Hw). destruct Hz as (u & Lu & Lz & Hu).
    exists (w ++ u). split; [cbn [block2 m_cols]; rewrite app_length; lia|].
    split; [cbn [block2 m_rows]; rewrite app_length; lia|].
    intros i Hi. cbn [block2 m_rows m_cols m_at] in *.
    destruct (Nat.ltb_spec i (m_rows A)) as [Hi1|Hi1].
    + destruct (Hw i Hi1) as (c & Hc & E). exists (fun j => if j <? m_cols A then c j else 0%R). split.
      * intros j Hj. destruct (Nat.ltb_spec j (m_cols A)); auto.
      * rewrite app_nth1 by lia. rewrite E, Rsum_add.
        rewrite (Rsum_zero (m_cols B)).
        2:{ intros j Hj. rewrite (proj2 (Nat.ltb_ge _ _)) by lia. ring. }
        rewrite Rplus_0_r. apply Rsum_ext. intros j Hj. rewrite (proj2 (Nat.ltb_lt _ _)) by auto.
        rewrite app_nth1 by lia. auto.
    + destruct (Hu (i - m_rows A) ltac:(lia)) as (c & Hc & E).
      exists (fun j => if j <? m_cols A then 0%R else c (j - m_cols A)). split.
      * intros j Hj. destruct (Nat.ltb_spec j (m_cols A)); auto. apply Hc. lia.
      * rewrite app_nth2 by lia. rewrite Ly, E, Rsum_add.
        rewrite (Rsum_zero (m_cols A)).
        2:{ intros j Hj. rewrite (proj2 (Nat.ltb_lt _ _)) by auto. ring. }
        rewrite Rplus_0_l. apply Rsum_ext. intros j Hj. rewrite (proj2 (Nat.ltb_ge _ _)) by lia.
        rewrite app_nth2 by lia. replace (m_cols A + j - m_cols A) with j by lia.
        replace (m_cols A + j - length w) with j by lia. auto.
  - intros (w & Lw & Lh & Hw). cbn [block2 m_rows m_cols m_at] in *.
    exists (firstn (m_rows A) h), (skipn (m_rows A) h). split; [rewrite firstn_skipn; auto|].
    assert (forall k (l : list R) m, k < m -> m <= length l -> nth k (firstn m l) 0%R = nth k l 0%R) as N1.
    { intros k l m Hk Hm. rewrite <- (firstn_skipn m l) at 2. rewrite app_nth1; auto.
      rewrite firstn_length. lia. }
    assert (forall k (l : list R) m, m <= length l -> nth k (skipn m l) 0%R = nth (m + k) l 0%R) as N2.
    { intros k l m Hm. rewrite <- (firstn_skipn m l) at 2. rewrite app_nth2; rewrite firstn_length; [f_equal; lia|lia]. }
    split.
    + apply HA. exists (firstn (m_cols A) w). split; [rewrite firstn_length; lia|].
      split; [rewrite firstn_length; lia|]. intros i Hi. destruct (Hw i ltac:(lia)) as (c & Hc & E).
      exists c. split.
      * intros j Hj. specialize (Hc j ltac:(lia)).
        rewrite !(proj2 (Nat.ltb_lt _ _)) in Hc by auto. auto.
      * rewrite N1 by lia. rewrite E, Rsum_add. rewrite (Rsum_zero (m_cols B)).
        -- rewrite Rplus_0_r. apply Rsum_ext. intros j Hj. rewrite N1 by lia. auto.
        -- intros j Hj. specialize (Hc (m_cols A + j) ltac:(lia)).
           rewrite (proj2 (Nat.ltb_lt i _)), (proj2 (Nat.ltb_ge _ (m_cols A))) in Hc by lia.
           injection Hc as <-. ring.
    + apply HB. exists (skipn (m_cols A) w). split; [rewrite skipn_length; lia|].
      split; [rewrite skipn_length; lia|]. intros i Hi. destruct (Hw (m_rows A + i) ltac:(lia)) as (c & Hc & E).
      exists (fun j => c (m_cols A + j)). split.
      * intros j Hj. specialize (Hc (m_cols A + j) ltac:(lia)).
        rewrite !(proj2 (Nat.ltb_ge _ _)) in Hc by lia. rewrite <- Hc. f_equal; lia.
      * rewrite N2 by lia. rewrite E, Rsum_add. rewrite (Rsum_zero (m_cols A)).
        -- rewrite Rplus_0_l. apply Rsum_ext. intros j Hj. rewrite N2 by lia. auto.
        -- intros j Hj. specialize (Hc j ltac:(lia)).
           rewrite (proj2 (Nat.ltb_ge _ (m_rows A))), (proj2 (Nat.ltb_lt j _)) in Hc by lia.
           injection Hc as <-. ring.
Qed.

(** ** Leaves *)
Lemma spans_diags : forall ds, Forall (Rlt 0) ds ->
  spans (diags (map Fin ds)) (fun h => length h = length ds).
Proof.
  intros ds Hd h. split.
  - intros Lh. exists (map2 (fun a d => a / d)%R h ds).
    assert (length (map2 (fun a d => a / d)%R h ds) = length ds) as Lw.
    { clear Hd. revert ds Lh. induction h; intros [|d ds] Lh; try discriminate; auto. cbn [map2 length]. f_equal.
      apply IHh. simpl in Lh. lia. }
    split; [cbn [diags m_cols]; rewrite map_length; auto|].
    split; [cbn [diags m_rows]; rewrite map_length; auto|].
    intros i Hi. cbn [diags m_rows m_cols m_at] in *. rewrite map_length in *.
    exists (fun j => if i =? j then nth i ds 0%R else 0%R). split.
    + intros j Hj. destruct (i =? j); auto. rewrite nth_fin by auto. auto.
    + rewrite (Rsum_single _ _ i); auto.
      * rewrite Nat.eqb_refl. pose proof (Forall_nth' _ _ ds i 0%R Hd Hi).
        assert (forall (a b : list R) k, k < length a -> length a = length b ->
          nth k (map2 (fun a d => a / d)%R a b) 0%R = (nth k a 0 / nth k b 0)%R) as N.
        { clear. induction a; intros [|e b] k Hk L; try discriminate; [simpl in Hk; lia|].
          destruct k; cbn [map2 nth]; auto. apply IHa; simpl in *; lia. }
        rewrite N by lia. field. lra.
      * intros j Hj Hne. rewrite (proj2 (Nat.eqb_neq i j)) by auto. ring.
  - intros (w & _ & L & _). rewrite L. cbn [diags m_rows]. apply map_length.
Qed.

Lemma spans_row : forall s, 2 <= length s -> Forall (Rlt 0) s -> Rlsum s = 1%R ->
  spans (simplex_jac false (map Fin s)) (fun h => length h = length s /\ Rlsum h = 0%R).
Proof.
  intros s Hn Hp S1 h.
  assert (Ps: forall i, i < length s -> (0 < nth i s 0)%R).
  { intros i Hi. apply (Forall_nth' _ (Rlt 0)); auto. }
  assert (S1': Rsum (length s) (fun i => nth i s 0%R) = 1%R) by (rewrite rs_list; auto).
  set (n := length s) in *.
  set (e := fun i j => (- (nth i s 0 * nth (S j) s 0) + if i =? S j then nth i s 0 else 0)%R).
  assert (forall (w : list R) i, i < n ->
    Rsum (n - 1) (fun j => e i j * nth j w 0)%R =
    (nth i s 0 * ((if i =? 0 then 0 else nth (i - 1) w 0) -
       Rsum (n - 1) (fun j => nth (S j) s 0 * nth j w 0)))%R) as Es.
  { intros w i Hi. unfold e.
    rewrite (Rsum_ext _ _ (fun j => (- nth i s 0) * (nth (S j) s 0 * nth j w 0) +
       (if i =? S j then nth i s 0 * nth j w 0 else 0))%R).
    2:{ intros j Hj. destruct (i =? S j); ring. }
    rewrite rs_plus, rs_scal. destruct i as [|i].
    - rewrite (Rsum_zero (n - 1) (fun j => if 0 =? S j then _ else _)) by (intros; reflexivity). cbn [Nat.eqb]. ring.
    - rewrite (Rsum_single (n - 1) (fun j => if S i =? S j then _ else _) i).
      + rewrite Nat.eqb_refl. replace (S i - 1) with i by lia. cbn [Nat.eqb]. ring.
      + lia.
      + intros j Hj Hne. destruct (Nat.eqb_spec (S i) (S j)); [lia|auto]. }
  split.
  - intros (Lh & S0).
    assert (S0': Rsum n (fun i => nth i h 0%R) = 0%R) by (rewrite <- Lh, rs_list; auto).
    exists (map (fun j => nth (S j) h 0 / nth (S j) s 0 - nth 0 h 0 / nth 0 s 0)%R (seq 0 (n - 1))).
    unfold matrix_times. cbn [simplex_jac m_rows m_cols m_at]. rewrite !map_length. fold n.
    split; [rewrite ?seq_length; auto|]. split; [auto|]. intros i Hi.
    exists (e i). split; [intros j Hj; apply constrain_jac_fin; fold n; lia|].
    rewrite Es by auto.
    rewrite (Rsum_ext (n - 1) _ (fun j => nth (S j) h 0 + (- (nth 0 h 0 / nth 0 s 0)) * nth (S j) s 0)%R).
    2:{ intros j Hj. rewrite (nth_map_gen _ _ _ _ _ 0%R 0), seq_nth by (rewrite ?seq_length; auto).
        cbn [Nat.add]. pose proof (Ps (S j) ltac:(lia)). field. split; [|lra].
        pose proof (Ps 0 ltac:(lia)). lra. }
    rewrite rs_plus, rs_scal.
    replace n with (S (n - 1)) in S0', S1' by lia. rewrite Rsum_S_first in S0', S1'.
    pose proof (Ps 0 ltac:(lia)) as P0. pose proof (Ps i Hi) as Pi.
    replace (Rsum (n - 1) (fun i => nth (S i) h 0%R)) with (- nth 0 h 0)%R by lra.
    replace (Rsum (n - 1) (fun i => nth (S i) s 0%R)) with (1 - nth 0 s 0)%R by lra.
    destruct i as [|i]; cbn [Nat.eqb].
    + field. lra.
    + replace (S i - 1) with i by lia.
      rewrite (nth_map_gen _ _ _ _ _ 0%R 0), seq_nth by (rewrite ?seq_length; lia). cbn [Nat.add].
      field. lra.
  - intros (w & Lw & Lh & Hw). cbn [simplex_jac m_rows m_cols m_at] in Lw, Lh, Hw. rewrite !map_length in Lw, Lh, Hw. fold n in Lw, Lh, Hw.
    split; auto.
    assert (forall i, i < n -> nth i h 0%R = Rsum (n - 1) (fun j => e i j * nth j w 0)%R) as Eh.
    { intros i Hi. destruct (Hw i Hi) as (c & Hc & ->). apply Rsum_ext. intros j Hj. specialize (Hc j Hj).
      rewrite constrain_jac_fin in Hc by (fold n; lia). injection Hc as <-. reflexivity. }
    rewrite <- rs_list, Lh.
    set (m := Rsum (n - 1) (fun j => nth (S j) s 0 * nth j w 0)%R) in *.
    rewrite (Rsum_ext n _ (fun i => (- m) * nth i s 0 + (if i =? 0 then 0 else nth i s 0 * nth (i - 1) w 0))%R).
    2:{ intros i Hi. rewrite Eh, Es by auto. fold m; destruct (i =? 0); ring. }
    rewrite rs_plus, rs_scal, S1'. replace n with (S (n - 1)) at 1 by lia. rewrite Rsum_S_first. cbn [Nat.eqb].
    rewrite (Rsum_ext (n - 1) _ (fun j => nth (S j) s 0 * nth j w 0)%R).
    2:{ intros j Hj. replace (S j - 1) with j by lia. auto. }
    fold m. ring.
Qed.

Lemma spans_rows : forall n rows, 2 <= n ->
  Forall (fun r => length r = n /\ Forall (Rlt 0) r /\ Rlsum r = 1%R) rows ->
  spans (bdiag (map (fun r => simplex_jac false (map Fin r)) rows))
    (fun h => exists hs : list (list R), length hs = length rows /\ h = concat hs /\
       Forall (fun r => length r = n /\ Rlsum r = 0%R) hs).
Proof.
  intros n rows Hn H. induction H as [|r rows (L & Hp & Hs) H IH].
  - eapply spans_ext; [|apply spans_zero]. intros h. split.
    + intros ->. exists []. auto.
    + intros ([|] & L & -> & _); [auto|discriminate].
  - cbn [map]. change (bdiag (?J :: ?Js)) with (block2 J (bdiag Js)).
    eapply spans_ext; [|apply spans_block2; [apply spans_row; auto; lia|exact IH]].
    intros h. split.
    + intros (y & z & -> & (Ly & Sy) & hs & Lhs & -> & F). exists (y :: hs). split; [simpl; auto|].
      split; [auto|]. constructor; auto. split; auto. lia.
    + intros (hs & Lhs & -> & F). destruct hs as [|y hs]; [discriminate|]. inversion F; subst.
      exists y, (concat hs). split; auto. split; [tauto|]. exists hs. simpl in Lhs. auto.
Qed.

Lemma flat_of_rl : forall n c xf i k, i < n -> k < n ->
  rl (rmat n c (flat_of n c xf)) n i k = chol_of xf i k.
Proof.
  intros n c xf i k Hi Hk. apply (rl_unique _ (chol_of xf) n); auto.
  - apply chol_of_lower.
  - intros; apply chol_of_diag.
  - intros i' j Hi' Hj. unfold flat_of. rewrite rmat_rrows by lia. unfold add_diag. ring.
Qed.

(** Products with the derivative of the free vector. *)
Lemma dchol_dfree : forall n c xf h a l, length xf = T n -> a < n -> l < n ->
  Rsum (T n) (fun k => dchol xf k a l * dfree n c (flat_of n c xf) h k)%R =
  dl (rmat n c (flat_of n c xf)) (fun i j => nth (i * n + j) h 0%R) n a l.
Proof.
  intros n c xf h a l Lx Ha Hl. destruct (Nat.le_gt_cases l a) as [Hla|Hla].
  - rewrite (Rsum_single _ _ (ld_ind a l)).
    + unfold dfree. rewrite nth_tril by auto. cbn [fst snd]. unfold dchol.
      rewrite (proj2 (Nat.leb_le l a)), Nat.eqb_refl by auto. cbn [andb].
      destruct (Nat.eqb_spec a l) as [->|]; [|ring].
      assert (rl (rmat n c (flat_of n c xf)) n l l = exp (nth (ld_ind l l) xf 0%R)) as ->.
      { rewrite flat_of_rl by auto. unfold chol_of, diag_map. rewrite Nat.leb_refl, Nat.eqb_refl. auto. }
      field. apply Rgt_not_eq, exp_pos.
    + apply ld_ind_lt; auto.
    + intros k Hk Hne. unfold dchol. rewrite (proj2 (Nat.eqb_neq (ld_ind a l) k)) by auto.
      rewrite andb_false_r. ring.
  - rewrite dl_lower by auto. apply Rsum_zero. intros k Hk. unfold dchol.
    rewrite (proj2 (Nat.leb_gt l a)) by auto. cbn [andb]. ring.
Qed.

Lemma spans_psd : forall n (c : R) xf J, length xf = T n -> m_rows J = n * n -> m_cols J = T n ->
  (forall l k, l < n * n -> k < T n -> m_at J l k = Fin (dgram n xf k (l / n) (l mod n))) ->
  spans J (symmetric_direction n).
Proof.
  intros n c xf J Lx R1 C1 HJ h. split.
  - intros (Lh & Sh).
    set (x := flat_of n c xf).
    assert (pivots_pos n c x) as Hp by apply flat_of_pivots.
    exists (map (dfree n c x h) (seq 0 (T n))). split; [rewrite map_length, seq_length; auto|].
    split; [congruence|]. rewrite R1, C1. intros l Hl.
    assert (n <> 0) as Hn by (intros ->; lia).
    assert (l mod n < n) as Hm by (apply Nat.mod_upper_bound; auto).
    assert (l / n < n) as Hd by (apply Nat.div_lt_upper_bound; auto).
    exists (fun k => dgram n xf k (l / n) (l mod n)). split; [intros; apply HJ; auto|].
    set (a := l / n) in *. set (b := l mod n) in *.
    assert (nth l h 0%R = nth (a * n + b) h 0%R) as ->.
    { f_equal. pose proof (Nat.div_mod l n Hn). unfold a, b. lia. }
    rewrite (Rsum_ext (T n) _ (fun k => Rsum n (fun m =>
        chol_of xf b m * (dchol xf k a m * dfree n c x h k) + chol_of xf a m * (dchol xf k b m * dfree n c x h k))%R)).
    2:{ intros k Hk. rewrite (nth_map_gen _ _ _ _ _ 0%R 0), seq_nth by (rewrite ?seq_length; auto). cbn [Nat.add].
        unfold dgram. rewrite Rmult_comm, <- rs_scal. apply Rsum_ext. intros. ring. }
    rewrite Rsum_swap.
    set (A := rmat n c x) in *. set (H := fun i j => nth (i * n + j) h 0%R).
    assert (forall i k, i < n -> k < n -> rl A n i k = chol_of xf i k) as EL.
    { intros i k Hi Hk. apply flat_of_rl; auto. }
    change (nth (a * n + b) h 0%R) with (H a b).
    rewrite <- (dl_symmetric A H n Hp) by auto.
    apply Rsum_ext. intros m Hmn. rewrite rs_plus, !rs_scal. unfold x. rewrite !dchol_dfree by auto.
    fold x. fold A. fold H. rewrite !EL by auto. ring.
  - intros (w & Lw & Lh & Hw). rewrite R1, C1 in *. split; auto.
    intros i j Hi Hj.
    destruct (Hw (i * n + j) ltac:(nia)) as (c1 & Hc1 & ->).
    destruct (Hw (j * n + i) ltac:(nia)) as (c2 & Hc2 & ->).
    apply Rsum_ext. intros k Hk. specialize (Hc1 k Hk). specialize (Hc2 k Hk).
    rewrite HJ in Hc1, Hc2 by (auto; nia).
    destruct (div_pos n i j Hj) as (D1 & D2). destruct (div_pos n j i Hi) as (D3 & D4).
    rewrite D1, D2 in Hc1. rewrite D3, D4, dgram_sym in Hc2. congruence.
Qed.

(** The entries of the unfreeing Jacobian of a PSD pattern. *)
Lemma psd_entries : forall ad sz fl dlb dv fd v,
  usable (PPsd sz fl dlb dv fd) -> interior (PPsd sz fl dlb dv fd) v ->
  jacobian_true ad false (PPsd sz fl dlb dv fd) v ->
  exists J c xf, jacobian ad false (PPsd sz fl dlb dv fd) v = Ok J /\
    pyval dlb = Fin c /\ length xf = T sz /\ m_rows J = sz * sz /\ m_cols J = T sz /\
    forall l k, l < sz * sz -> k < T sz -> m_at J l k = Fin (dgram sz xf k (l / sz) (l mod sz)).
Proof.
  intros ad sz fl dlb dv fd v Hu Hi (J & HJ & x & y & Hx & Hy & HD).
  destruct (psd_vectors sz fl dlb dv fd v Hu Hi) as (c & xf & Hc & Lxf & Hfree & Hflat).
  change (flatten_ snum (PPsd sz fl dlb dv fd) v true None = Ok (map Fin x)) in Hx.
  change (flatten_ snum (PPsd sz fl dlb dv fd) v false None = Ok (map Fin y)) in Hy.
  rewrite Hfree in Hx. injection Hx as Hx. apply map_fin_inj' in Hx. subst x.
  rewrite Hflat in Hy. injection Hy as Hy. apply map_fin_inj' in Hy. subst y.
  assert (length (flat_of sz c xf) = sz * sz) as Lx by apply rrows_length.
  destruct HD as (_ & R2 & C2 & HD).
  exists J, c, xf. split; [auto|]. split; [auto|]. split; [auto|]. split; [lia|]. split; [lia|].
  intros l k Hl Hk. rewrite Lxf in HD. destruct (HD k Hk) as (r & G & Hr & HG & Hd).
  rewrite Lx in Hd. destruct (Hd l Hl) as (d & -> & Hlim). f_equal.
  eapply uniqueness_limite; [exact Hlim|].
  apply (lim_ext (fun t => add_diag c (gram sz (chol_of (upd xf k t))) (l / sz) (l mod sz)) _ _ _ r);
    [auto| |apply gram_lim; lia].
  intros t Ht. destruct (HG t Ht) as (E & _).
  rewrite (psd_unfree sz fl dlb dv fd c) in E by (auto; rewrite upd_length; auto).
  injection E as E. apply map_fin_inj' in E. rewrite <- E. unfold flat_of. rewrite nth_rrows by auto. auto.
Qed.

(** ** Trees *)
Definition good_span ad (p : pat) (v : fv num) : Prop :=
  exists J, jacobian ad false p v = Ok J /\ spans J (direction p).

Lemma span_items : forall ad d its,
  all_items (fun k q => exists w, dict_get d k = Some w /\ good_span ad q w) its ->
  exists Js, jac_items (jacobian ad false) d its = Ok Js /\ length Js = length its /\
    spans (bdiag Js) ((fix go its h :=
         match its with
         | [] => h = []
         | kq :: its => exists y z, h = y ++ z /\ direction (snd kq) y /\ go its z
         end) its).
Proof.
  intros ad d. induction its as [|[k q] its IH]; intros H.
  - exists []. split; auto. split; auto. apply spans_zero.
  - destruct H as ((w & Hw & J & E & S) & H). destruct (IH H) as (Js & Es & L & Ss).
    exists (J :: Js). cbn [jac_items map snd length]. rewrite Hw, E, Es, L. cbn [bind].
    split; auto. split; auto. exact (spans_block2 J (bdiag Js) _ _ S Ss).
Qed.

Lemma span_cells : forall ad b (g : list nat -> fv num) its,
  (forall it, In it its -> good_span ad b (g it)) ->
  exists Js, mapM (fun it => jacobian ad false b (g it)) its = Ok Js /\ length Js = length its /\
    spans (bdiag Js) (fun h => exists hs : list (list R), length hs = length its /\ h = concat hs /\
       Forall (direction b) hs).
Proof.
  intros ad b g. induction its as [|it its IH]; intros H.
  - exists []. split; auto. split; auto. eapply spans_ext; [|apply spans_zero]. intros h. split.
    + intros ->. exists []. auto.
    + intros ([|] & L & -> & _); [auto|discriminate].
  - destruct (H it (or_introl eq_refl)) as (J & E & S).
    destruct IH as (Js & Es & L & Ss). { intros. apply H. right. auto. }
    exists (J :: Js). cbn [mapM length]. rewrite E, Es, L. cbn [bind]. split; auto. split; auto.
    eapply spans_ext; [|exact (spans_block2 J (bdiag Js) _ _ S Ss)].
    intros h. split.
    + intros (y & z & -> & Hy & hs & Lhs & -> & F). exists (y :: hs). split; [simpl; auto|].
      split; [auto|]. constructor; auto.
    + intros (hs & Lhs & -> & F). destruct hs as [|y hs]; [discriminate|]. inversion F; subst.
      exists y, (concat hs). split; auto. split; [auto|]. exists hs. simpl in Lhs. auto.
Qed.

Theorem image_is_directions : forall ad p v,
  usable p -> simplexes_nonempty p -> interior p v -> at_psd (jacobian_true ad false) p v ->
  exists J, jacobian ad false p v = Ok J /\
    forall h, direction p h <-> exists w, matrix_times J w h.
Proof.
  intros ad.
  apply (pat_ind' (fun p => forall v, usable p -> simplexes_nonempty p -> interior p v ->
    at_psd (jacobian_true ad false) p v -> good_span ad p v)).
  - intros k s lb ub dv fd v Hu _ Hi _.
    destruct (inv_num ad k s lb ub dv fd v Hu Hi) as (_ & ds & Hd & _ & E & L & _).
    eexists. split; [exact E|]. eapply spans_ext; [|apply spans_diags].
    + intros h. cbn. rewrite map_length, L. tauto.
    + apply Forall_forall. intros x Hx. apply in_map_iff in Hx. destruct Hx as (y & <- & Hy).
      rewrite Forall_forall in Hd. apply Rinv_0_lt_compat. auto.
  - intros n s dv fd v Hu Hs Hi _.
    destruct (simplex_jacobian_form ad n s dv fd v Hu Hs Hi) as (rows & Lr & Hr & E).
    eexists. split; [exact E|]. eapply spans_ext; [|apply (spans_rows n); auto].
    intros h. cbn. rewrite Lr. tauto.
  - intros sz fl dl dv fd v Hu _ Hi Hp.
    destruct (psd_entries ad sz fl dl dv fd v Hu Hi Hp) as (J & c & xf & E & _ & Lx & R1 & C1 & HJ).
    exists J. split; auto. exact (spans_psd sz c xf J Lx R1 C1 HJ).
  - intros s b fd IH [a|d] Hu Hn Hi Hp; [|contradiction].
    destruct (span_cells ad b (fun it => FArr (subarr a it (length s))) (indices s)) as (Js & E & L & S).
    { intros it Hit. apply IH; auto; [apply Hu|]. eapply interior_block; eauto. }
    destruct Hu as (Hs & Hpp & Hd & Hub). destruct Hi as (Hsh & _).
    rewrite indices_length in L, S.
    exists (bdiag Js). cbn [jacobian]. rewrite Hsh, shape_eqb_refl. cbn [negb].
    rewrite E. cbn [bind]. split; [apply block_diag_ok; intros ->; simpl in L; lia|]. exact S.
  - intros items l fl fd lk IH [a|d] Hu Hn Hi Hp; [contradiction|].
    destruct Hu as (Hne & _ & Hl & Hfl & Hu). simpl in Hn, Hi, Hp.
    destruct (span_items ad d items) as (Js & E & L & S).
    { apply all_items_Forall in Hu, Hn, Hi, Hp. apply all_items_Forall.
      rewrite Forall_forall in *. intros kq Hkq. destruct (Hi _ Hkq) as (w & Hw & Hiw).
      exists w. split; [exact Hw|]. apply IH; auto. }
    exists (bdiag Js). cbn [jacobian]. rewrite E. cbn [bind].
    split; [apply block_diag_ok; intros ->; destruct items; [contradiction|discriminate]|]. exact S.
Qed.

(** ** Stationary points *)
Lemma stationary_directions : forall J gr D P, spans J P -> length gr = m_rows J ->
  finite_entries J -> pulled_back J gr D ->
  (zero_vector D <-> forall h, P h -> dot gr h = 0%R).
Proof.
  intros J gr D P HS Lg HF (LD & PB).
  set (c := fun i j => real_of (m_at J i j)).
  assert (forall i j, i < m_rows J -> j < m_cols J -> m_at J i j = Fin (c i j)) as Hc.
  { intros i j Hi Hj. apply fin_real; auto. }
  assert (forall j, j < m_cols J -> nth j D 0%R = Rsum (m_rows J) (fun i => nth i gr 0 * c i j)%R) as HD.
  { intros j Hj. destruct (PB j Hj) as (c' & Hc' & ->). apply Rsum_ext. intros i Hi.
    specialize (Hc' i Hi). rewrite Hc in Hc' by auto. injection Hc' as <-. auto. }
  rewrite zero_nth, LD. split.
  - intros Z h Hh. apply HS in Hh. destruct Hh as (w & Lw & Lh & Hw). unfold dot. rewrite Lh.
    rewrite (Rsum_ext (m_rows J) _ (fun i => Rsum (m_cols J) (fun j => nth j w 0 * (nth i gr 0 * c i j)))%R).
    + rewrite Rsum_swap. apply Rsum_zero. intros j Hj. rewrite rs_scal, <- HD, Z by auto. ring.
    + intros i Hi. destruct (Hw i Hi) as (c' & Hc' & ->). rewrite <- rs_scal. apply Rsum_ext. intros j Hj.
      specialize (Hc' j Hj). rewrite Hc in Hc' by auto. injection Hc' as <-. ring.
  - intros Z j Hj. rewrite HD by auto.
    set (h := map (fun i => c i j) (seq 0 (m_rows J))).
    assert (length h = m_rows J) as Lh by (unfold h; rewrite map_length, seq_length; auto).
    assert (forall i, i < m_rows J -> nth i h 0%R = c i j) as Nh.
    { intros i Hi. unfold h. rewrite (nth_map_gen _ _ _ _ _ 0%R 0), seq_nth by (rewrite ?seq_length; auto). auto. }
    transitivity (dot gr h); [|apply Z].
    + unfold dot. rewrite Lh. apply Rsum_ext. intros i Hi. rewrite Nh by auto. auto.
    + apply HS. exists (unit_vec (m_cols J) j). split; [apply unit_vec_length|]. split; [auto|].
      intros i Hi. exists (c i). split; [intros; apply Hc; auto|]. rewrite Nh by auto.
      rewrite (Rsum_single _ _ j Hj).
      * rewrite nth_unit_vec, Nat.eqb_refl, (proj2 (Nat.ltb_lt _ _)) by auto. cbn [andb]. ring.
      * intros k Hk Hne. rewrite nth_unit_vec, (proj2 (Nat.eqb_neq k j)) by auto. cbn [andb]. ring.
Qed.
