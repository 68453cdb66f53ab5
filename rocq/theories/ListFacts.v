(** * Lemmas about lists, slices, blocks and multi-indices. *)
From Verif Require Import Base Nd.

(** ** bind / mapM *)
Lemma bind_ok : forall A B (x : res A) (f : A -> res B) b,
  bind x f = Ok b <-> exists a, x = Ok a /\ f a = Ok b.
Proof.
  intros A B [a|e] f b; simpl; split; intros H.
  - eauto.
  - destruct H as (a' & E & H'); inversion E; subst; auto.
  - discriminate.
  - destruct H as (a' & E & H'); discriminate.
Qed.

Lemma mapM_ok_all : forall A B (f : A -> res B) (g : A -> B) l,
  (forall a, In a l -> f a = Ok (g a)) -> mapM f l = Ok (map g l).
Proof.
  induction l as [|a l IH]; intros H; simpl; auto.
  rewrite H by (left; auto). simpl. rewrite IH; auto.
  intros b Hb; apply H; right; auto.
Qed.

Lemma mapM_ext : forall A B (f g : A -> res B) l,
  (forall a, In a l -> f a = g a) -> mapM f l = mapM g l.
Proof.
  induction l as [|a l IH]; intros H; simpl; auto.
  rewrite H by (left; auto). rewrite IH; auto.
  intros b Hb; apply H; right; auto.
Qed.

Lemma mapM_map : forall A B C (f : B -> res C) (g : A -> B) l,
  mapM f (map g l) = mapM (fun a => f (g a)) l.
Proof. induction l; simpl; auto. rewrite IHl; auto. Qed.

Lemma mapM_ok_inv : forall A B (f : A -> res B) l r,
  mapM f l = Ok r -> Forall2 (fun a b => f a = Ok b) l r.
Proof.
  induction l as [|a l IH]; intros r H; simpl in H.
  - inversion H; constructor.
  - apply bind_ok in H. destruct H as (b & Hb & H).
    apply bind_ok in H. destruct H as (bs & Hbs & H). inversion H; subst.
    constructor; auto.
Qed.

Lemma mapM_of_Forall2 : forall A B (f : A -> res B) l r,
  Forall2 (fun a b => f a = Ok b) l r -> mapM f l = Ok r.
Proof. induction 1; simpl; auto. rewrite H. simpl. rewrite IHForall2. auto. Qed.

Lemma Forall2_len : forall A B (P : A -> B -> Prop) l r, Forall2 P l r -> length l = length r.
Proof. induction 1; simpl; auto. Qed.

Lemma mapM_length : forall A B (f : A -> res B) l r,
  mapM f l = Ok r -> length r = length l.
Proof.
  intros. apply mapM_ok_inv in H. apply Forall2_len in H. auto.
Qed.

(** ** prod *)
Lemma prod_app : forall s t, prod (s ++ t) = prod s * prod t.
Proof. induction s; intros; simpl; [lia|]. rewrite IHs. lia. Qed.

(** ** slices *)
Lemma slice_length : forall A (l : list A) off len,
  off + len <= length l -> length (slice l off len) = len.
Proof. intros. unfold slice. rewrite firstn_length, skipn_length. lia. Qed.

Lemma slice_all : forall A (l : list A), slice l 0 (length l) = l.
Proof. intros. unfold slice. simpl. apply firstn_all. Qed.

Lemma slice_app_1 : forall A (l m : list A) n, n = length l -> slice (l ++ m) 0 n = l.
Proof.
  intros; subst. unfold slice. simpl.
  rewrite firstn_app, firstn_all, Nat.sub_diag. simpl. apply app_nil_r.
Qed.

Lemma slice_app_2 : forall A (l m : list A) off len,
  length l <= off -> slice (l ++ m) off len = slice m (off - length l) len.
Proof. intros. unfold slice. rewrite skipn_app, skipn_all2 by auto. simpl. auto. Qed.

Lemma slice_app_l : forall A (l m : list A) off len,
  off + len <= length l -> slice (l ++ m) off len = slice l off len.
Proof.
  intros. unfold slice. rewrite skipn_app, firstn_app.
  rewrite skipn_length.
  replace (len - (length l - off)) with 0 by lia. rewrite app_nil_r. auto.
Qed.

Lemma slice_mid : forall A (l m r : list A) off len,
  off = length l -> len = length m -> slice (l ++ m ++ r) off len = m.
Proof.
  intros; subst. rewrite slice_app_2 by lia. rewrite Nat.sub_diag.
  apply slice_app_1; auto.
Qed.

Lemma slice_map : forall A B (f : A -> B) l off len,
  slice (map f l) off len = map f (slice l off len).
Proof. intros. unfold slice. rewrite skipn_map, firstn_map. auto. Qed.

Lemma slice_split : forall A (l : list A) off n m,
  slice l off (n + m) = slice l off n ++ slice l (off + n) m.
Proof.
  intros A l off n m. unfold slice.
  assert (skipn (off + n) l = skipn n (skipn off l)) as ->.
  { revert l; induction off; intros; simpl; auto.
    destruct l; simpl; auto. destruct n; auto. }
  generalize (skipn off l) as k. clear.
  induction n; intros k; simpl; auto.
  destruct k; simpl; auto. - rewrite firstn_nil; auto. - rewrite IHn. auto.
Qed.

Lemma nth_slice : forall A (l : list A) off len i d,
  i < len -> nth i (slice l off len) d = nth (off + i) l d.
Proof.
  intros A l off len i d H. unfold slice.
  assert (forall (k : list A) n j, j < n -> nth j (firstn n k) d = nth j k d) as E.
  { clear. induction k; intros n j H; destruct n, j; simpl; auto; try lia.
    apply IHk; lia. }
  rewrite E by auto. revert l; induction off; intros; simpl; auto.
  destruct l; simpl; auto. destruct i; auto.
Qed.

Lemma slice_slice : forall A (l : list A) o n o' n',
  o' + n' <= n -> slice (slice l o n) o' n' = slice l (o + o') n'.
Proof.
  intros A l o n o' n' H. unfold slice.
  rewrite skipn_firstn_comm, firstn_firstn.
  replace (min n' (n - o')) with n' by lia.
  f_equal. clear. revert l. induction o; intros; simpl; auto.
  destruct l; simpl; auto. rewrite skipn_nil. auto.
Qed.

(** ** chunks *)
Lemma chunk_length : forall A k (l : list A) i cnt,
  length l = cnt * k -> i < cnt -> length (chunk k l i) = k.
Proof. intros. unfold chunk. apply slice_length. nia. Qed.

Lemma concat_chunks : forall A k cnt (l : list A),
  length l = cnt * k -> concat (chunks k cnt l) = l.
Proof.
  intros A k cnt l H. unfold chunks.
  assert (forall n, n <= cnt -> concat (map (chunk k l) (seq 0 n)) = slice l 0 (n * k)) as E.
  { induction n; intros Hn. - simpl. auto.
    - rewrite seq_S, map_app, concat_app, IHn by lia. simpl. rewrite app_nil_r.
      unfold chunk. replace (k + n * k) with (n * k + k) by lia.
      rewrite slice_split. auto. }
  rewrite E by auto. rewrite <- H. apply slice_all.
Qed.

Lemma flat_map_concat : forall A B (f : A -> list B) l, flat_map f l = concat (map f l).
Proof. intros. apply flat_map_concat_map. Qed.

Lemma chunk_concat : forall A k (ls : list (list A)) i d,
  (forall x, In x ls -> length x = k) -> i < length ls ->
  chunk k (concat ls) i = nth i ls d.
Proof.
  intros A k ls. induction ls as [|x ls IH]; intros i d H Hi; simpl in *; [lia|].
  assert (length x = k) as Hx by auto.
  destruct i.
  - unfold chunk. simpl. apply slice_app_1. auto.
  - unfold chunk in *. rewrite slice_app_2 by nia.
    replace (S i * k - length x) with (i * k) by lia.
    apply IH; auto. lia.
Qed.

Lemma map_nth_seq : forall A (l : list A) d,
  map (fun i => nth i l d) (seq 0 (length l)) = l.
Proof.
  induction l; intros; simpl; auto. f_equal.
  rewrite <- seq_shift, map_map. apply IHl.
Qed.

Lemma map_nth_seq_gen : forall A (l : list A) d n,
  length l = n -> map (fun i => nth i l d) (seq 0 n) = l.
Proof. intros; subst; apply map_nth_seq. Qed.

Lemma chunks_concat : forall A k (ls : list (list A)) cnt,
  (forall x, In x ls -> length x = k) -> cnt = length ls ->
  chunks k cnt (concat ls) = ls.
Proof.
  intros A k ls cnt H ->. unfold chunks.
  transitivity (map (fun i => nth i ls []) (seq 0 (length ls))); [|apply map_nth_seq].
  apply map_ext_in.
  intros i Hi. apply in_seq in Hi. apply chunk_concat; auto. lia.
Qed.

Lemma chunks_length : forall A k cnt (l : list A), length (chunks k cnt l) = cnt.
Proof. intros. unfold chunks. rewrite map_length, seq_length. auto. Qed.

Lemma in_chunks : forall A k cnt (l x : list A),
  In x (chunks k cnt l) -> exists i, i < cnt /\ x = chunk k l i.
Proof.
  intros. unfold chunks in H. apply in_map_iff in H. destruct H as (i & E & Hi).
  apply in_seq in Hi. exists i. split; auto. lia.
Qed.

Lemma chunk_map : forall A B (f : A -> B) k l i, chunk k (map f l) i = map f (chunk k l i).
Proof. intros. apply slice_map. Qed.

Lemma chunks_map : forall A B (f : A -> B) k cnt l,
  chunks k cnt (map f l) = map (map f) (chunks k cnt l).
Proof.
  intros. unfold chunks. rewrite map_map. apply map_ext. intros; apply chunk_map.
Qed.

Lemma concat_length_uniform : forall A k (ls : list (list A)),
  (forall x, In x ls -> length x = k) -> length (concat ls) = length ls * k.
Proof.
  induction ls; intros; simpl; auto.
  rewrite app_length, IHls by (intros; apply H; right; auto).
  rewrite H by (left; auto). auto.
Qed.

Lemma in_slice : forall A (l : list A) off len x, In x (slice l off len) -> In x l.
Proof.
  intros. unfold slice in H.
  rewrite <- (firstn_skipn off l). apply in_or_app. right.
  rewrite <- (firstn_skipn len (skipn off l)). apply in_or_app. auto.
Qed.

Lemma slice_in_bound : forall A (l : list A) off len,
  length (slice l off len) <= len.
Proof. intros. unfold slice. rewrite firstn_length. lia. Qed.

(** ** multi-indices *)
Lemma indices_length : forall s, length (indices s) = prod s.
Proof.
  induction s as [|n s IH]; simpl; auto.
  assert (forall l, length (flat_map (fun i => map (cons i) (indices s)) l)
                    = length l * prod s) as E.
  { induction l; simpl; auto. rewrite app_length, map_length, IH, IHl. auto. }
  rewrite E, seq_length. auto.
Qed.

Lemma map_add_seq : forall a b n, map (fun i => a + i) (seq b n) = seq (a + b) n.
Proof.
  intros a b n. revert b. induction n; intros; simpl; auto.
  rewrite IHn. f_equal. f_equal. lia.
Qed.

Lemma ravel_indices : forall s, map (fun it => ravel it s) (indices s) = seq 0 (prod s).
Proof.
  induction s as [|n s IH]; simpl; auto.
  assert (forall m, map (fun it => ravel it (n :: s))
             (flat_map (fun i => map (cons i) (indices s)) (seq 0 m))
           = seq 0 (m * prod s)) as E.
  { induction m; auto.
    rewrite seq_S, flat_map_app, map_app, IHm. simpl. rewrite app_nil_r, map_map.
    simpl. rewrite <- (map_map (fun it => ravel it s) (fun r => m * prod s + r)), IH.
    rewrite map_add_seq, Nat.add_0_r.
    replace (prod s + m * prod s) with (m * prod s + prod s) by lia.
    rewrite seq_app. auto. }
  apply E.
Qed.

Lemma in_indices : forall s it,
  In it (indices s) <-> Forall2 lt it s.
Proof.
  induction s as [|n s IH]; intros it; simpl.
  - split; intros. + destruct H as [<-|[]]; constructor. + inversion H; auto.
  - rewrite in_flat_map. split.
    + intros (i & Hi & H). apply in_seq in Hi. apply in_map_iff in H.
      destruct H as (t & <- & Ht). constructor; [lia|]. apply IH; auto.
    + intros H. inversion H; subst. exists x. split; [apply in_seq; lia|].
      apply in_map. apply IH; auto.
Qed.

Lemma ravel_lt : forall s it, In it (indices s) -> ravel it s < prod s.
Proof.
  intros s it H.
  assert (In (ravel it s) (map (fun it => ravel it s) (indices s))) as H'
    by (apply in_map_iff; eauto).
  rewrite ravel_indices in H'. apply in_seq in H'. lia.
Qed.

Lemma nth_ravel : forall s it d, In it (indices s) -> nth (ravel it s) (indices s) d = it.
Proof.
  induction s as [|n s IH]; intros it d H.
  - simpl in *. destruct H as [<-|[]]. auto.
  - simpl in H. apply in_flat_map in H. destruct H as (i & Hi & H). apply in_seq in Hi.
    apply in_map_iff in H. destruct H as (t & <- & Ht).
    pose proof (ravel_lt _ _ Ht) as Hlt.
    simpl.
    assert (forall m, i < m ->
       nth (i * prod s + ravel t s)
          (flat_map (fun i => map (cons i) (indices s)) (seq 0 m)) d = i :: t) as E.
    { induction m; intros Hm; [lia|].
      assert (length (flat_map (fun i => map (cons i) (indices s)) (seq 0 m)) = m * prod s) as L.
      { pose proof (indices_length (m :: s)) as L. simpl in L. auto. }
      rewrite seq_S, flat_map_app. simpl.
      destruct (Nat.eq_dec i m) as [->|Hne].
      - rewrite app_nth2 by lia. rewrite L.
        replace (m * prod s + ravel t s - m * prod s) with (ravel t s) by lia.
        rewrite app_nil_r.
        rewrite nth_indep with (d' := m :: []) by (rewrite map_length, indices_length; auto).
        rewrite map_nth. f_equal. apply IH. auto.
      - rewrite app_nth1.
        + apply IHm. lia.
        + rewrite L. assert (i < m) by lia. nia. }
    apply E. lia.
Qed.

Lemma nth_indices_in : forall s i d, i < prod s -> In (nth i (indices s) d) (indices s).
Proof. intros. apply nth_In. rewrite indices_length. auto. Qed.

Lemma ravel_nth : forall s i d, i < prod s -> ravel (nth i (indices s) d) s = i.
Proof.
  intros s i d H.
  rewrite nth_indep with (d' := []) by (rewrite indices_length; auto).
  transitivity (nth i (map (fun it => ravel it s) (indices s)) (ravel [] s)).
  - symmetry. apply (map_nth (fun it => ravel it s)).
  - rewrite ravel_indices, seq_nth; auto.
Qed.

(** A loop over the multi-indices that only uses the linear index. *)
Lemma mapM_indices : forall B (F : nat -> res B) s,
  mapM (fun it => F (ravel it s)) (indices s) = mapM F (seq 0 (prod s)).
Proof. intros. rewrite <- ravel_indices, mapM_map. auto. Qed.

Lemma subarr_chunk : forall A (a : nd A) it s bs,
  shp a = s ++ bs ->
  subarr a it (length s) = mkNd bs (chunk (prod bs) (dat a) (ravel it s)).
Proof.
  intros. unfold subarr. rewrite H.
  rewrite firstn_app, firstn_all, Nat.sub_diag, firstn_O, app_nil_r.
  rewrite skipn_app, skipn_all, Nat.sub_diag. simpl. auto.
Qed.

Lemma shape_eqb_true : forall s t, shape_eqb s t = true <-> s = t.
Proof. intros. unfold shape_eqb. destruct (list_eq_dec _ s t); split; auto; discriminate. Qed.
Lemma shape_eqb_refl : forall s, shape_eqb s s = true.
Proof. intros. apply shape_eqb_true. auto. Qed.
Lemma shape_eqb_false : forall s t, shape_eqb s t = false <-> s <> t.
Proof.
  intros. unfold shape_eqb. destruct (list_eq_dec _ s t); split; auto; try discriminate.
  intros; contradiction.
Qed.

(** ** select *)
Lemma select_length_le : forall A (l : list A) m, length (select l m) <= length l.
Proof.
  induction l; intros [|b m]; simpl; auto; try lia.
  destruct b; simpl; specialize (IHl m); lia.
Qed.

Lemma select_app : forall A (l l' : list A) m m',
  length l = length m -> select (l ++ l') (m ++ m') = select l m ++ select l' m'.
Proof.
  induction l; intros l' [|b m] m' H; simpl in *; try discriminate; auto.
  rewrite IHl by lia. destruct b; auto.
Qed.

Lemma select_map : forall A B (f : A -> B) l m, select (map f l) m = map f (select l m).
Proof. induction l; intros [|b m]; simpl; auto. destruct b; simpl; rewrite IHl; auto. Qed.

Lemma in_select_seq : forall m o i,
  In i (select (seq o (length m)) m) <-> (o <= i /\ nth (i - o) m false = true).
Proof.
  induction m as [|b m IH]; intros o i; simpl.
  - split; [tauto|]. intros [_ H]. destruct (i - o); discriminate.
  - assert (In i (select (seq (S o) (length m)) m) <->
            (S o <= i /\ nth (i - S o) m false = true)) as E by apply IH.
    destruct b; simpl; rewrite E; split.
    + intros [->|[H1 H2]].
      * rewrite Nat.sub_diag. auto.
      * split; [lia|]. replace (i - o) with (S (i - S o)) by lia. auto.
    + intros [H1 H2]. destruct (Nat.eq_dec o i); auto. right. split; [lia|].
      replace (i - o) with (S (i - S o)) in H2 by lia. auto.
    + intros [H1 H2]. split; [lia|]. replace (i - o) with (S (i - S o)) by lia. auto.
    + intros [H1 H2]. destruct (Nat.eq_dec o i) as [->|].
      * rewrite Nat.sub_diag in H2. discriminate.
      * split; [lia|]. replace (i - o) with (S (i - S o)) in H2 by lia. auto.
Qed.

Lemma anyb_false_iff : forall l, anyb l = false <-> forall b, In b l -> b = false.
Proof.
  induction l as [|a l IH]; simpl; split; intros; try tauto.
  - apply orb_false_iff in H. destruct H as [-> H]. destruct H0 as [<-|H0]; auto.
    rewrite IH in H; auto.
  - apply orb_false_iff. split; auto. apply IH. intros; auto.
Qed.

Lemma select_none : forall A (l : list A) m, anyb m = false -> select l m = [].
Proof.
  induction l; intros [|b m] H; simpl in *; auto.
  apply orb_false_iff in H. destruct H as [-> H]. apply IHl. auto.
Qed.

Lemma existsb_false_iff : forall A (f : A -> bool) l,
  existsb f l = false <-> forall x, In x l -> f x = false.
Proof.
  induction l as [|a l IH]; simpl; split; intros; try tauto.
  - apply orb_false_iff in H. destruct H. destruct H0 as [<-|H0]; auto. rewrite IH in H1; auto.
  - apply orb_false_iff. split; auto. apply IH; auto.
Qed.

Lemma existsb_map : forall A B (f : B -> bool) (g : A -> B) l,
  existsb f (map g l) = existsb (fun a => f (g a)) l.
Proof. induction l; simpl; auto. rewrite IHl; auto. Qed.

Lemma nth_map_gen : forall A B (f : A -> B) l i d d',
  i < length l -> nth i (map f l) d = f (nth i l d').
Proof.
  intros. rewrite nth_indep with (d' := f d') by (rewrite map_length; auto). apply map_nth.
Qed.

Lemma list_eq_nth : forall A (l m : list A) d,
  length l = length m -> (forall i, i < length l -> nth i l d = nth i m d) -> l = m.
Proof. intros. eapply nth_ext; eauto. Qed.

Lemma lsum_app : forall a b, lsum (a ++ b) = lsum a + lsum b.
Proof. induction a; intros; simpl; auto. rewrite IHa. lia. Qed.
