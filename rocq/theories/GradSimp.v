(** * Stationary points on simplexes. *)
From Coq Require Import Reals NArith Lra Lia.
From Verif Require Import Base Num Nd Simplex Pattern Spec ListFacts PatFacts NonFree NumFacts CholFacts
  Free Contract Indices2 Jac SpecJac SpecEnd
  JacBase JacFacts JacProps GradFacts.
Local Open Scope list_scope.
Local Open Scope nat_scope.

Lemma rs_blocks : forall m n f, Rsum (m * n) f = Rsum m (fun k => Rsum n (fun i => f (k * n + i))).
Proof.
  assert (A: forall a b f, Rsum (a + b) f = (Rsum a f + Rsum b (fun i => f (a + i)%nat))%R).
  { intros a b f. induction b; cbn; [rewrite Nat.add_0_r; lra|].
    rewrite Nat.add_succ_r. cbn. rewrite IHb. lra. }
  induction m; intros n f; [reflexivity|].
  cbn [Rsum]. rewrite <- IHm. replace (S m * n) with (m * n + n) by lia. apply A.
Qed.
Lemma rs_zero : forall n f, (forall i, i < n -> f i = 0%R) -> Rsum n f = 0%R.
Proof. induction n; intros f H; cbn; auto. rewrite IHn, H; auto. lra. Qed.
Lemma rs_single : forall n f k, k < n -> (forall i, i < n -> i <> k -> f i = 0%R) -> Rsum n f = f k.
Proof.
  induction n; intros f k Hk H; [lia|]. cbn. destruct (Nat.eq_dec k n) as [->|Hne].
  - rewrite rs_zero; [lra|]. intros i Hi. apply H; lia.
  - rewrite (IHn f k) by (try lia; intros; apply H; lia). rewrite (H n) by lia. lra.
Qed.
Lemma rs_list : forall l, Rsum (length l) (fun i => nth i l 0%R) = Rlsum l.
Proof.
  intros l. induction l as [|a l IH] using rev_ind; [reflexivity|].
  rewrite app_length, Nat.add_1_r. cbn [Rsum].
  rewrite app_nth2, Nat.sub_diag by lia. cbn [nth].
  rewrite (Rsum_ext_lt _ _ (fun i => nth i l 0%R)) by (intros; apply app_nth1; auto).
  rewrite IH. unfold Rlsum. rewrite fold_right_app. cbn.
  clear. induction l; cbn; lra.
Qed.

(** One row: the free gradient of a row vanishes iff the gradient is constant on it. *)
Lemma row_stationary : forall (s : list R) (g : nat -> R) n, length s = n -> 2 <= n ->
  Forall (Rlt 0) s -> Rlsum s = 1%R ->
  ((forall j, S j < n -> Rsum n (fun i => g i * (- (nth i s 0 * nth (S j) s 0) + if i =? S j then nth i s 0 else 0))%R = 0%R)
   <-> exists c, forall i, i < n -> g i = c).
Proof.
  intros s g n L Hn P S1.
  assert (Ps: forall i, i < n -> (0 < nth i s 0)%R).
  { intros i Hi. rewrite Forall_forall in P. apply P. apply nth_In. lia. }
  set (m := Rsum n (fun i => g i * nth i s 0)%R).
  assert (E: forall j, S j < n ->
    Rsum n (fun i => g i * (- (nth i s 0 * nth (S j) s 0) + if i =? S j then nth i s 0 else 0))%R
    = (nth (S j) s 0 * (g (S j) - m))%R).
  { intros j Hj.
    rewrite (Rsum_ext_lt n _ (fun i => (- nth (S j) s 0) * (g i * nth i s 0) + (if i =? S j then g i * nth i s 0 else 0))%R).
    - rewrite rs_plus, rs_scal. fold m. rewrite (rs_single n _ (S j)); auto.
      + rewrite Nat.eqb_refl. lra.
      + intros i Hi N. destruct (Nat.eqb_spec i (S j)); [contradiction|]. auto.
    - intros i Hi. destruct (i =? S j); lra. }
  assert (S1': Rsum n (fun i => nth i s 0%R) = 1%R) by (rewrite <- L, rs_list; auto).
  split.
  - intros H. exists m.
    assert (K: forall j, S j < n -> g (S j) = m).
    { intros j Hj. specialize (H j Hj). rewrite E in H by auto. specialize (Ps (S j) Hj).
      apply Rmult_integral in H. destruct H; lra. }
    intros [|i] Hi; [|apply K; auto].
    assert (m = m + nth 0 s 0 * (g 0%nat - m))%R.
    { unfold m at 1. rewrite (Rsum_ext_lt n _ (fun i => m * nth i s 0 + (if i =? 0 then nth 0 s 0 * (g 0%nat - m) else 0))%R).
      - rewrite rs_plus, rs_scal, S1'. rewrite (rs_single n _ 0); [cbn; lra|lia|]. intros [|i] A B; [lia|reflexivity].
      - intros [|i] Hi'; cbn [Nat.eqb]; [lra|]. rewrite K by auto. lra. }
    specialize (Ps 0 Hi).
    assert (nth 0 s 0 * (g 0%nat - m) = 0)%R by lra. apply Rmult_integral in H1. destruct H1; lra.
  - intros (c & Hc) j Hj. rewrite E by auto.
    assert (m = c).
    { unfold m. rewrite (Rsum_ext_lt n _ (fun i => c * nth i s 0)%R) by (intros; rewrite Hc; auto).
      rewrite rs_scal, S1'. lra. }
    rewrite Hc by auto. rewrite H. lra.
Qed.

Lemma constrain_jac_fin : forall s i j, i < length s -> S j < length s ->
  constrain_row_jac (map Fin s) i j = Fin (- (nth i s 0 * nth (S j) s 0) + if i =? S j then nth i s 0 else 0)%R.
Proof.
  intros s i j Hi Hj. unfold constrain_row_jac.
  rewrite !(nth_indep _ NaN (Fin 0)) by (rewrite map_length; auto).
  rewrite !(map_nth Fin). cbn. destruct (Nat.eqb_spec i (S j)); cbn; f_equal; lra.
Qed.

Lemma simplex_jacobian_form : forall ad n s dv fd v,
  usable (PSimplex n s dv fd) -> 0 < prod s -> interior (PSimplex n s dv fd) v ->
  exists rows, length rows = prod s /\
    Forall (fun r => length r = n /\ Forall (Rlt 0) r /\ Rlsum r = 1%R) rows /\
    jacobian ad false (PSimplex n s dv fd) v = Ok (bdiag (map (fun r => simplex_jac false (map Fin r)) rows)).
Proof.
  intros ad n s dv fd [a|dct] Hu Hs H; [|contradiction].
  destruct H as (Hsh & rows & Lr & Ed & Hr). cbn [usable] in Hu.
  exists rows. split; auto. split; auto.
  assert (forall r, In r rows -> length r = n) as Hrn.
  { intros r Hin. rewrite Forall_forall in Hr. apply (Hr r Hin). }
  assert (map (fun item => simplex_jac false (dat (subarr a item (length s)))) (indices s)
          = map (fun r => simplex_jac false (map Fin r)) rows) as EJ.
  { transitivity (map (simplex_jac false) (chunks n (prod s) (dat a))).
    - unfold chunks. rewrite map_map, <- ravel_indices, map_map. apply map_ext. intros it.
      rewrite (subarr_chunk _ a it s [n]) by auto. cbn [dat prod fold_right].
      rewrite Nat.mul_1_r. auto.
    - rewrite Ed, chunks_map, chunks_concat, map_map by auto. auto. }
  cbn [jacobian]. rewrite Hsh, shape_eqb_refl. cbn [negb]. rewrite EJ. apply block_diag_ok.
  destruct rows; [simpl in Lr; lia|discriminate].
Qed.

Lemma offsets : forall (f : matrix -> nat) Js n k, Forall (fun J => f J = n) Js -> k <= length Js ->
  lsum (map f (firstn k Js)) = k * n.
Proof.
  intros f Js n k H. revert k. induction H as [|J Js E H IH]; intros [|k] Hk; try (simpl in Hk; lia); try reflexivity.
  cbn [firstn map lsum fold_right]. unfold lsum in *. rewrite IH by (simpl in Hk; lia). rewrite E. lia.
Qed.

Lemma simplex_stationary : forall ad n s dv fd v J gr D,
  usable (PSimplex n s dv fd) -> 0 < prod s -> interior (PSimplex n s dv fd) v ->
  jacobian ad false (PSimplex n s dv fd) v = Ok J -> length gr = m_rows J -> pulled_back J gr D ->
  (zero_vector D <->
   forall k, k < prod s -> exists c, forall i, i < n -> nth (k * n + i) gr 0%R = c).
Proof.
  intros ad n s dv fd v J gr D U Hs I EJ Lg (LD & PB).
  destruct (simplex_jacobian_form ad n s dv fd v U Hs I) as (rows & Lr & Hr & E).
  assert (EJ': J = bdiag (map (fun r => simplex_jac false (map Fin r)) rows)) by congruence. subst J. clear E.
  cbn [usable] in U.
  set (Js := map (fun r => simplex_jac false (map Fin r)) rows) in *.
  assert (LJ: length Js = prod s) by (unfold Js; rewrite map_length; auto).
  assert (HR: Forall (fun B => m_rows B = n) Js).
  { unfold Js. rewrite Forall_map. eapply Forall_impl; [|exact Hr]. cbn. intros r (L & _). rewrite map_length; auto. }
  assert (HC: Forall (fun B => m_cols B = n - 1) Js).
  { unfold Js. rewrite Forall_map. eapply Forall_impl; [|exact Hr]. cbn. intros r (L & _). rewrite map_length; lia. }
  assert (NR: m_rows (bdiag Js) = prod s * n).
  { rewrite bdiag_rows, <- (firstn_all Js), (offsets m_rows Js n) by auto. rewrite LJ. auto. }
  assert (NC: m_cols (bdiag Js) = prod s * (n - 1)).
  { rewrite bdiag_cols, <- (firstn_all Js), (offsets m_cols Js (n - 1)) by auto. rewrite LJ. auto. }
  assert (At: forall a b i j, a < prod s -> b < prod s -> i < n -> j < n - 1 ->
    m_at (bdiag Js) (a * n + i) (b * (n - 1) + j) =
    if a =? b then Fin (- (nth i (nth a rows []) 0 * nth (S j) (nth a rows []) 0)
                        + if i =? S j then nth i (nth a rows []) 0 else 0)%R else Fin 0).
  { intros a b i j Ha Hb Hi Hj.
    destruct (nth_error Js a) as [Ja|] eqn:Ea; [|apply nth_error_None in Ea; lia].
    destruct (nth_error Js b) as [Jb|] eqn:Eb; [|apply nth_error_None in Eb; lia].
    rewrite Forall_forall in HR, HC.
    pose proof (HR Ja (nth_error_In _ _ Ea)). pose proof (HC Jb (nth_error_In _ _ Eb)).
    pose proof (bdiag_at Js a b Ja Jb i j Ea Eb ltac:(lia) ltac:(lia)) as Q.
    unfold row_offset, col_offset in Q.
    rewrite (offsets m_rows Js n), (offsets m_cols Js (n - 1)) in Q by (try lia; apply Forall_forall; auto).
    rewrite Q. destruct (Nat.eqb_spec a b) as [->|]; auto.
    unfold Js in Ea. rewrite nth_error_map in Ea.
    destruct (nth_error rows b) as [r|] eqn:Er; [|discriminate]. injection Ea as <-.
    rewrite (nth_error_nth _ _ [] Er).
    rewrite Forall_forall in Hr. destruct (Hr r (nth_error_In _ _ Er)) as (L & _).
    cbn [simplex_jac m_at]. apply constrain_jac_fin; lia. }
  assert (Dv: forall b j, b < prod s -> j < n - 1 ->
    nth (b * (n - 1) + j) D 0%R =
    Rsum n (fun i => nth (b * n + i) gr 0 *
       (- (nth i (nth b rows []) 0 * nth (S j) (nth b rows []) 0)
        + if i =? S j then nth i (nth b rows []) 0 else 0))%R).
  { intros b j Hb Hj.
    assert (Hbj: b * (n - 1) + j < prod s * (n - 1)) by nia.
    destruct (PB (b * (n - 1) + j)) as (c & Hc & Ed); [rewrite NC; exact Hbj|]. rewrite NR in Hc. rewrite Ed, NR, rs_blocks.
    rewrite (rs_single (prod s) _ b); auto.
    - apply Rsum_ext_lt. intros i Hi. f_equal.
      assert (Hbi: b * n + i < prod s * n) by nia.
      specialize (Hc (b * n + i) Hbi). rewrite At, Nat.eqb_refl in Hc by auto.
      injection Hc as Hc. symmetry. exact Hc.
    - intros a Ha Nab. apply rs_zero. intros i Hi.
      assert (Hai: a * n + i < prod s * n) by nia.
      specialize (Hc (a * n + i) Hai). rewrite At in Hc by auto.
      destruct (Nat.eqb_spec a b); [contradiction|]. injection Hc as <-. lra. }
  assert (Row: forall b, b < prod s -> length (nth b rows []) = n /\ Forall (Rlt 0) (nth b rows []) /\ Rlsum (nth b rows []) = 1%R).
  { intros b Hb. rewrite Forall_forall in Hr. apply Hr. apply nth_In. lia. }
  rewrite zero_nth, LD, NC. split.
  - intros Z k Hk. destruct (Row k Hk) as (L & P & S1).
    apply (row_stationary (nth k rows []) (fun i => nth (k * n + i) gr 0%R) n L U P S1).
    intros j Hj. rewrite <- Dv by lia. apply Z. nia.
  - intros Z jj Hjj.
    assert (N0: n - 1 <> 0) by lia.
    rewrite (Nat.div_mod jj (n - 1) N0) in *. set (b := jj / (n - 1)) in *. set (j := jj mod (n - 1)) in *.
    assert (Hj: j < n - 1) by (apply Nat.mod_upper_bound; auto).
    assert (Hb: b < prod s) by nia.
    rewrite (Nat.mul_comm (n - 1) b), Dv by auto.
    destruct (Row b Hb) as (L & P & S1).
    apply (row_stationary (nth b rows []) (fun i => nth (b * n + i) gr 0%R) n L U P S1); auto. lia.
Qed.
