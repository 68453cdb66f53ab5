(** * Determinants: linearity in each row, alternation, products, inverses, derivatives. *)
From Coq Require Import Reals Lra Lia Arith List ListDec.
From Verif Require Import Base Num Nd Spec ListFacts CholFacts SpecJac JacMore SpecOptim LinAlg.
Import ListNotations.
Local Open Scope nat_scope.

Notation mat := (nat -> nat -> R).
Definition setrow (m : mat) (k : nat) (r : nat -> R) : mat := fun i j => if i =? k then r j else m i j.
Definition skip (j k : nat) : nat := if k <? j then k else S k.
Definition minor (m : mat) (j : nat) : mat := fun i k => m (S i) (skip j k).
Lemma det_S : forall n m, det (S n) m = Rsum (S n) (fun j => (-1) ^ j * m 0%nat j * det n (minor m j))%R.
Proof. reflexivity. Qed.
Lemma skip_lt : forall n j k, k < n -> skip j k < S n.
Proof. intros. unfold skip. destruct (k <? j); lia. Qed.

Lemma setrow_0 : forall m k r j, setrow m (S k) r 0 j = m 0%nat j.
Proof. reflexivity. Qed.
Lemma det_lin : forall n m k a r s, k < n ->
  (det n (setrow m k (fun j => a * r j + s j)) = a * det n (setrow m k r) + det n (setrow m k s))%R.
Proof.
  induction n; intros m k a r s Hk; [lia|]. rewrite !det_S, <- Rsum_scal, <- Rsum_plus. apply Rsum_ext. intros j Hj.
  destruct k as [|k].
  - change (minor (setrow m 0 (fun j => a * r j + s j)%R) j) with (minor m j).
    change (minor (setrow m 0 r) j) with (minor m j). change (minor (setrow m 0 s) j) with (minor m j).
    unfold setrow. cbn [Nat.eqb]. ring.
  - change (minor (setrow m (S k) (fun j => a * r j + s j)%R) j)
      with (setrow (minor m j) k (fun c => a * r (skip j c) + s (skip j c))%R).
    change (minor (setrow m (S k) r) j) with (setrow (minor m j) k (fun c => r (skip j c))).
    change (minor (setrow m (S k) s) j) with (setrow (minor m j) k (fun c => s (skip j c))).
    rewrite (IHn (minor m j) k a (fun c => r (skip j c)) (fun c => s (skip j c))) by lia.
    rewrite !setrow_0. ring.
Qed.

Lemma pair_cancel : forall n (F : nat -> nat -> R),
  (forall j l, j <= l -> l < n -> F (S l) j = (- F j l)%R) -> Rsum (S n) (fun j => Rsum n (fun l => F j l)) = 0%R.
Proof.
  induction n; intros F H; [simpl; ring|].
  change (Rsum (S (S n)) (fun j => Rsum (S n) (fun l => F j l)))
    with (Rsum (S n) (fun j => Rsum n (fun l => F j l) + F j n) + Rsum (S n) (fun l => F (S n) l))%R.
  rewrite Rsum_plus, IHn by (intros; apply H; lia).
  rewrite (Rsum_ext (S n) (fun l => F (S n) l) (fun l => (-1) * F l n)%R).
  - rewrite Rsum_scal. ring.
  - intros l Hl. rewrite (H l n) by lia. ring.
Qed.
Lemma det_first_equal : forall n m, (forall j, m 0%nat j = m 1%nat j) -> det (S (S n)) m = 0%R.
Proof.
  intros n m E. rewrite det_S.
  rewrite (Rsum_ext _ _ (fun j => Rsum (S n) (fun l =>
    (-1) ^ j * m 0%nat j * ((-1) ^ l * m 1%nat (skip j l) * det n (minor (minor m j) l))))%R).
  2: { intros j Hj. rewrite det_S, <- Rsum_scal. apply Rsum_ext. intros l Hl. unfold minor at 1. ring. }
  apply pair_cancel. intros j l Hjl Hl.
  assert (skip (S l) j = j) as E1 by (unfold skip; destruct (Nat.ltb_spec j (S l)); lia).
  assert (skip j l = S l) as E2 by (unfold skip; destruct (Nat.ltb_spec l j); lia).
  rewrite E1, E2, <- !E.
  replace (det n (minor (minor m (S l)) j)) with (det n (minor (minor m j) l)).
  - simpl pow. ring.
  - apply det_ext. intros i k Hi Hk. unfold minor. f_equal. unfold skip.
    repeat match goal with |- context [?a <? ?b] => destruct (Nat.ltb_spec a b) end; lia.
Qed.
Lemma det_adjacent : forall n m k, S k < n -> (forall j, m k j = m (S k) j) -> det n m = 0%R.
Proof.
  induction n; intros m k Hk E; [lia|]. destruct k as [|k].
  - destruct n; [lia|]. apply det_first_equal. auto.
  - rewrite det_S. apply Rsum_zero. intros j Hj. rewrite (IHn (minor m j) k); [ring|lia|].
    intros c. unfold minor. apply E.
Qed.

(** ** Forms that are linear in each row and vanish when rows repeat *)
Record form (n : nat) (f : mat -> R) : Prop := {
  form_ext : forall m m', (forall i j, i < n -> j < n -> m i j = m' i j) -> f m = f m';
  form_lin : forall m k a r s, k < n ->
    (f (setrow m k (fun j => a * r j + s j)) = a * f (setrow m k r) + f (setrow m k s))%R }.
Definition vanishes (f : mat -> R) (p q : nat) : Prop := forall m, (forall j, m p j = m q j) -> f m = 0%R.

Lemma setrow_same : forall m k i j, setrow m k (m k) i j = m i j.
Proof. intros. unfold setrow. destruct (Nat.eqb_spec i k); subst; auto. Qed.
Lemma form_plus : forall n f m k r s, form n f -> k < n ->
  (f (setrow m k (fun j => r j + s j)) = f (setrow m k r) + f (setrow m k s))%R.
Proof.
  intros n f m k r s H Hk. rewrite <- (Rmult_1_l (f (setrow m k r))), <- (form_lin n f H) by auto.
  apply (form_ext n f H). intros i j _ _. unfold setrow. destruct (i =? k); ring.
Qed.
Lemma form_zero : forall n f m k, form n f -> k < n -> (forall j, j < n -> m k j = 0%R) -> f m = 0%R.
Proof.
  intros n f m k H Hk E.
  assert (f m = f (setrow m k (fun j => 1 * 0 + 0)%R)) as E1.
  { apply (form_ext n f H). intros i j Hi Hj. unfold setrow. destruct (Nat.eqb_spec i k); subst; auto. rewrite E; auto. ring. }
  assert (f m = f (setrow m k (fun j => 0)%R)) as E2.
  { apply (form_ext n f H). intros i j Hi Hj. unfold setrow. destruct (Nat.eqb_spec i k); subst; auto. }
  rewrite (form_lin n f H) in E1 by auto. rewrite <- E2 in E1. lra.
Qed.
Lemma form_sum : forall n f m k N (c : nat -> R) (r : nat -> nat -> R), form n f -> k < n ->
  f (setrow m k (fun j => Rsum N (fun l => c l * r l j)%R)) = Rsum N (fun l => c l * f (setrow m k (r l)))%R.
Proof.
  intros n f m k N c r H Hk. induction N.
  - simpl. apply (form_zero n f _ k H Hk). intros j _. unfold setrow. rewrite Nat.eqb_refl. auto.
  - simpl Rsum. rewrite <- IHN, Rplus_comm, <- (form_lin n f H) by auto. apply (form_ext n f H). intros i j _ _.
    unfold setrow. destruct (i =? k); ring.
Qed.
Lemma form_swap : forall n f p q m u v, form n f -> p < n -> q < n -> p <> q -> vanishes f p q ->
  f (setrow (setrow m p v) q u) = (- f (setrow (setrow m p u) q v))%R.
Proof.
  intros n f p q m u v H Hp Hq Hne Hv.
  assert (forall w, f (setrow (setrow m p w) q w) = 0%R) as H0.
  { intros w. apply Hv. intros j. unfold setrow. rewrite Nat.eqb_refl.
    rewrite (proj2 (Nat.eqb_neq p q)), Nat.eqb_refl by auto. auto. }
  assert (forall w a b, f (setrow (setrow m p (fun j => a j + b j)%R) q w) =
    f (setrow (setrow m p a) q w) + f (setrow (setrow m p b) q w))%R as Hl.
  { intros w a b.
    assert (forall x, f (setrow (setrow m p x) q w) = f (setrow (setrow m q w) p x)) as Ec.
    { intros x. apply (form_ext n f H). intros i j _ _. unfold setrow.
      destruct (Nat.eqb_spec i q), (Nat.eqb_spec i p); subst; auto. exfalso; auto. }
    rewrite !Ec. apply (form_plus n f); auto. }
  pose proof (H0 (fun j => u j + v j)%R) as E. rewrite (form_plus n f) in E by auto. rewrite !Hl, !H0 in E. lra.
Qed.
Lemma vanishes_sym : forall f p q, vanishes f p q -> vanishes f q p.
Proof. intros f p q H m E. apply H. auto. Qed.
Lemma det_form : forall n, form n (det n).
Proof. intros n. split; [intros; apply det_ext; auto|intros; apply det_lin; auto]. Qed.
Lemma det_vanishes : forall n d p, p + S d < n -> vanishes (det n) p (p + S d).
Proof.
  intros n d. induction d; intros p Hp.
  - rewrite Nat.add_1_r in *. intros m E. apply (det_adjacent n m p); auto.
  - intros m E. set (q := p + S d).
    assert (p + S (S d) = S q) as Eq by (unfold q; lia). rewrite Eq in *.
    assert (vanishes (det n) q (S q)) as Hadj by (intros m' E'; apply (det_adjacent n m' q); auto).
    rewrite (det_ext n m (setrow (setrow m q (m q)) (S q) (m (S q)))).
    2: { intros i j _ _. unfold setrow. destruct (Nat.eqb_spec i (S q)), (Nat.eqb_spec i q); subst; auto. }
    rewrite (form_swap n (det n) q (S q)) by (auto using det_form; lia).
    rewrite (IHd p); [ring|unfold q in *; lia|]. intros j. fold q. unfold setrow.
    rewrite (proj2 (Nat.eqb_neq p (S q))), (proj2 (Nat.eqb_neq p q)) by (unfold q; lia).
    rewrite (proj2 (Nat.eqb_neq q (S q))), Nat.eqb_refl by lia. auto.
Qed.
Lemma det_alternates : forall n p q, p < n -> q < n -> p <> q -> vanishes (det n) p q.
Proof.
  intros n p q Hp Hq Hne. destruct (lt_eq_lt_dec p q) as [[H|H]|H]; [|contradiction|].
  - replace q with (p + S (q - S p)) by lia. apply det_vanishes. lia.
  - apply vanishes_sym. replace p with (q + S (p - S q)) by lia. apply det_vanishes. lia.
Qed.

Lemma det_id : forall n, det n Rid = 1%R.
Proof.
  induction n; auto. rewrite det_S, (Rsum_single (S n) _ 0 ltac:(lia)).
  - rewrite (det_ext n (minor Rid 0) Rid); [rewrite IHn; unfold Rid; simpl; ring|].
    intros i j _ _. unfold minor, Rid, skip. cbn [Nat.ltb Nat.leb]. auto.
  - intros j Hj Hne. unfold Rid at 1. destruct j; [lia|]. cbn [Nat.eqb]. ring.
Qed.

(** ** Such forms are multiples of the determinant *)
Definition unit_rows (s : nat -> nat) : mat := fun i j => Rid (s i) j.
Lemma forms_on_units : forall n f, form n f -> (forall p q, p < n -> q < n -> p <> q -> vanishes f p q) ->
  forall d k s, k + d = n -> (forall i, i < k -> s i = i) -> (forall i, i < n -> s i < n) ->
  f (unit_rows s) = (f Rid * det n (unit_rows s))%R.
Proof.
  intros n f H Hv. induction d; intros k s Hk Hs Hlt.
  - rewrite (form_ext n f H (unit_rows s) Rid), (det_ext n (unit_rows s) Rid), det_id; [ring| |];
      intros i j Hi Hj; unfold unit_rows; rewrite Hs; auto; lia.
  - assert ((exists p, k <= p < n /\ s p = k) \/ (exists p q, p < n /\ q < n /\ p <> q /\ s p = s q)) as [(p & Hp & Ep)|(p & q & Hp & Hq & Hne & E)].
    { destruct (in_dec Nat.eq_dec k (map s (seq 0 n))) as [Hin|Hin].
      - apply in_map_iff in Hin. destruct Hin as (p & Ep & Hp). apply in_seq in Hp. left. exists p. split; auto.
        destruct (Nat.lt_ge_cases p k) as [Hlt'|]; [|lia]. rewrite Hs in Ep by auto. lia.
      - right. destruct (NoDup_dec Nat.eq_dec (map s (seq 0 n))) as [Hnd|Hnd].
        + exfalso. assert (NoDup (k :: map s (seq 0 n))) as Hnd' by (constructor; auto).
          apply (NoDup_incl_length (l' := seq 0 n)) in Hnd'.
          * simpl in Hnd'. rewrite map_length, seq_length in Hnd'. lia.
          * intros a [<-|Ha]; [apply in_seq; lia|]. apply in_map_iff in Ha. destruct Ha as (i & <- & Hi).
            apply in_seq in Hi. apply in_seq. split; [lia|]. simpl. apply Hlt. lia.
        + destruct (existsb (fun p => existsb (fun q => negb (p =? q) && (s p =? s q)) (seq 0 n)) (seq 0 n)) eqn:Ex.
          * apply existsb_exists in Ex. destruct Ex as (p & Hp & Ex). apply existsb_exists in Ex.
            destruct Ex as (q & Hq & Ex). apply andb_true_iff in Ex. destruct Ex as (E1 & E2).
            apply negb_true_iff, Nat.eqb_neq in E1. apply Nat.eqb_eq in E2. apply in_seq in Hp, Hq.
            exists p, q. repeat split; auto; lia.
          * exfalso. apply Hnd. apply (NoDup_nth _ 0). intros i j Hi Hj Hij. rewrite map_length, seq_length in Hi, Hj.
            rewrite !(nth_map_gen _ _ s _ _ 0 0) in Hij by (rewrite seq_length; auto). rewrite !seq_nth in Hij by auto.
            cbn [Nat.add] in Hij. destruct (Nat.eq_dec i j) as [|Hne]; auto. exfalso.
            apply not_true_iff_false in Ex. apply Ex. apply existsb_exists. exists i. split; [apply in_seq; lia|].
            apply existsb_exists. exists j. split; [apply in_seq; lia|].
            rewrite (proj2 (Nat.eqb_neq i j)), Hij, Nat.eqb_refl by auto. auto. }
    + destruct (Nat.eq_dec p k) as [->|Hpk].
      * apply (IHd (S k)); auto; [lia|]. intros i Hi. destruct (Nat.eq_dec i k) as [->|]; auto. apply Hs. lia.
      * set (s' := fun i => if i =? k then k else if i =? p then s k else s i).
        assert (forall g, form n g -> (forall p q, p < n -> q < n -> p <> q -> vanishes g p q) ->
          g (unit_rows s) = (- g (unit_rows s'))%R) as Hsw.
        { intros g Hg Hgv.
          rewrite (form_ext n g Hg (unit_rows s) (setrow (setrow (unit_rows s) k (Rid (s k))) p (Rid k))).
          2: { intros i j _ _. unfold setrow, unit_rows. destruct (Nat.eqb_spec i p) as [->|]; [rewrite Ep; auto|].
               destruct (Nat.eqb_spec i k) as [->|]; auto. }
          rewrite (form_swap n g k p) by (auto; try lia; apply Hgv; lia). f_equal. apply (form_ext n g Hg).
          intros i j _ _. unfold setrow, unit_rows, s'. destruct (Nat.eqb_spec i p) as [->|].
          - rewrite (proj2 (Nat.eqb_neq p k)) by auto. auto.
          - destruct (Nat.eqb_spec i k); auto. }
        rewrite (Hsw f H Hv), (Hsw (det n) (det_form n) (det_alternates n)).
        rewrite (IHd (S k) s'); [ring|lia| |].
        -- intros i Hi. unfold s'. destruct (Nat.eqb_spec i k); auto. rewrite (proj2 (Nat.eqb_neq i p)) by lia. apply Hs. lia.
        -- intros i Hi. unfold s'. destruct (i =? k); [lia|]. destruct (i =? p); apply Hlt; lia.
    + rewrite (Hv p q), (det_alternates n p q); auto; [ring| |]; intros j; unfold unit_rows; rewrite E; auto.
Qed.
Lemma forms_multiple : forall n f, form n f -> (forall p q, p < n -> q < n -> p <> q -> vanishes f p q) ->
  forall m, f m = (f Rid * det n m)%R.
Proof.
  intros n f H Hv m.
  assert (forall d k s, k + d = n -> (forall i, i < n -> s i < n) ->
    f (fun i => if i <? k then Rid (s i) else m i) = (f Rid * det n (fun i => if i <? k then Rid (s i) else m i))%R) as HG.
  { induction d; intros k s Hk Hlt.
    - rewrite (form_ext n f H _ (unit_rows s)), (det_ext n _ (unit_rows s)).
      + apply (forms_on_units n f H Hv n 0); auto. intros i Hi. lia.
      + intros i j Hi Hj. unfold unit_rows. rewrite (proj2 (Nat.ltb_lt i k)) by lia. auto.
      + intros i j Hi Hj. unfold unit_rows. rewrite (proj2 (Nat.ltb_lt i k)) by lia. auto.
    - set (m0 := fun i => if i <? k then Rid (s i) else m i : nat -> R).
      assert (forall g, form n g -> g m0 = Rsum n (fun l => m k l * g (setrow m0 k (Rid l)))%R) as HE.
      { intros g Hg. rewrite <- (form_sum n g) by (auto; lia). apply (form_ext n g Hg). intros i j Hi Hj.
        unfold setrow. destruct (Nat.eqb_spec i k) as [->|]; auto. unfold m0.
        rewrite (proj2 (Nat.ltb_ge k k)) by lia. symmetry. rewrite (Rsum_single n _ j Hj).
        - unfold Rid. rewrite Nat.eqb_refl. ring.
        - intros l Hl Hne. unfold Rid. rewrite (proj2 (Nat.eqb_neq l j)) by auto. ring. }
      rewrite (HE f H), (HE (det n) (det_form n)), <- Rsum_scal. apply Rsum_ext. intros l Hl.
      specialize (IHd (S k) (fun i => if i =? k then l else s i) ltac:(lia)).
      assert (forall g, form n g -> g (setrow m0 k (Rid l)) =
        g (fun i => if i <? S k then Rid (if i =? k then l else s i) else m i)) as HE2.
      { intros g Hg. apply (form_ext n g Hg). intros i j _ _. unfold setrow, m0.
        destruct (Nat.eqb_spec i k) as [->|].
        - rewrite (proj2 (Nat.ltb_lt k (S k))) by lia. auto.
        - destruct (Nat.ltb_spec i k), (Nat.ltb_spec i (S k)); auto; lia. }
      rewrite (HE2 f H), (HE2 (det n) (det_form n)), IHd; [ring|].
      intros i Hi. destruct (i =? k); auto. }
  specialize (HG n 0 (fun i => i) ltac:(lia) ltac:(auto)). exact HG.
Qed.
Lemma det_product : forall n a b, det n (Rmatmul n a b) = (det n a * det n b)%R.
Proof.
  intros n a b. rewrite (forms_multiple n (fun m => det n (Rmatmul n m b))).
  - rewrite (det_ext n (Rmatmul n Rid b) b); [ring|]. intros i j Hi Hj. apply mm_id_l; auto.
  - split.
    + intros m m' E. apply det_ext. intros i j Hi Hj. unfold Rmatmul. apply Rsum_ext. intros k Hk. rewrite E; auto.
    + intros m k c r s Hk.
      assert (forall x, det n (Rmatmul n (setrow m k x) b) =
        det n (setrow (Rmatmul n m b) k (fun j => Rsum n (fun l => x l * b l j)%R))) as E.
      { intros x. apply det_ext. intros i j _ _. unfold Rmatmul, setrow. destruct (i =? k); auto. }
      rewrite !E, <- det_lin by auto. apply det_ext. intros i j _ _. unfold setrow. destruct (i =? k); auto.
      rewrite <- Rsum_scal, <- Rsum_plus. apply Rsum_ext. intros; ring.
  - intros p q Hp Hq Hne m E. apply (det_alternates n p q Hp Hq Hne). intros j. unfold Rmatmul. apply Rsum_ext.
    intros k _. rewrite E. auto.
Qed.
Lemma det_invertible : forall n a b, inverse_matrices n a b -> (det n a * det n b = 1)%R /\ det n a <> 0%R.
Proof.
  intros n a b (H & _). assert (det n a * det n b = 1)%R as E.
  { rewrite <- det_product, <- (det_id n). apply det_ext. auto. }
  split; auto. intro E0. rewrite E0 in E. lra.
Qed.
(** The inverse by determinants. *)
Definition det_inverse (n : nat) (a : mat) : mat := fun i j => (det n (setrow a j (Rid i)) / det n a)%R.
Lemma det_inverse_ok : forall n a b, inverse_matrices n a b -> Rmat_eq n (det_inverse n a) b.
Proof.
  intros n a b H i j Hi Hj. destruct (det_invertible _ _ _ H) as (_ & Hne). destruct H as (H1 & H2). unfold det_inverse.
  assert (det n (setrow a j (Rid i)) = (b i j * det n a)%R) as ->.
  - rewrite (det_ext n _ (setrow a j (fun c => Rsum n (fun l => b i l * a l c)%R))).
    + rewrite (form_sum n _ _ _ _ (b i) a (det_form n) Hj). rewrite (Rsum_single n _ j Hj).
      * f_equal. apply det_ext. intros; apply setrow_same.
      * intros l Hl Hne'. rewrite (det_alternates n l j); [ring|auto|auto|auto|].
        intros c. unfold setrow. rewrite Nat.eqb_refl, (proj2 (Nat.eqb_neq l j)) by auto. auto.
    + intros p c Hp Hc. unfold setrow. destruct (p =? j); auto. symmetry. apply (H2 i c Hi Hc).
  - field. auto.
Qed.

(** ** Derivatives along lines *)
Definition line (a g : mat) (t : R) : mat := fun i j => (a i j + t * g i j)%R.
Lemma derivable_Rsum : forall N (f : nat -> R -> R) (d : nat -> R) x,
  (forall k, k < N -> derivable_pt_lim (f k) x (d k)) ->
  derivable_pt_lim (fun t => Rsum N (fun k => f k t)) x (Rsum N d).
Proof.
  induction N; intros f d x H; simpl.
  - apply derivable_pt_lim_const.
  - apply (derivable_pt_lim_plus (fun t => Rsum N (fun k => f k t)) (f N)); auto.
Qed.
Lemma derivable_ext : forall f g x l, (forall t, f t = g t) -> derivable_pt_lim f x l -> derivable_pt_lim g x l.
Proof.
  intros f g x l E H eps Heps. destruct (H eps Heps) as (d & Hd). exists d. intros h Hh Hl. rewrite <- !E. auto.
Qed.
Lemma derivable_line : forall p q t, derivable_pt_lim (fun t => p + t * q)%R t q.
Proof.
  intros p q t. assert (q = 0 + (1 * q + t * 0))%R as E by ring.
  enough (derivable_pt_lim (fun t => p + t * q)%R t (0 + (1 * q + t * 0))%R) as H by (rewrite <- E in H; exact H).
  apply (derivable_pt_lim_plus (fun _ => p) (fun t => t * q)%R); [apply derivable_pt_lim_const|].
  apply (derivable_pt_lim_mult (fun t => t) (fun _ => q)); [apply derivable_pt_lim_id|apply derivable_pt_lim_const].
Qed.
Lemma det_derivative : forall n a g t,
  derivable_pt_lim (fun t => det n (line a g t)) t (Rsum n (fun k => det n (setrow (line a g t) k (g k)))).
Proof.
  induction n; intros a g t; [simpl; apply derivable_pt_lim_const|].
  assert (Rsum (S n) (fun k => det (S n) (setrow (line a g t) k (g k))) =
    Rsum (S n) (fun j => (-1) ^ j * (g 0%nat j * det n (line (minor a j) (minor g j) t) +
      line a g t 0%nat j * Rsum n (fun k => det n (setrow (line (minor a j) (minor g j) t) k (minor g j k)))))%R) as ->.
  { transitivity (det (S n) (setrow (line a g t) 0 (g 0%nat)) +
      Rsum n (fun k => det (S n) (setrow (line a g t) (S k) (g (S k)))))%R.
    { assert (forall N (F : nat -> R), Rsum (S N) F = F 0%nat + Rsum N (fun k => F (S k)))%R as Hshift.
      { clear. induction N; intros F; [simpl; ring|]. change (Rsum (S (S N)) F) with (Rsum (S N) F + F (S N))%R.
        rewrite IHN. simpl. ring. }
      apply Hshift. }
    rewrite det_S.
    transitivity (Rsum (S n) (fun j => (-1) ^ j * g 0%nat j * det n (line (minor a j) (minor g j) t))%R +
      Rsum (S n) (fun j => (-1) ^ j * (line a g t 0%nat j *
         Rsum n (fun k => det n (setrow (line (minor a j) (minor g j) t) k (minor g j k))))))%R.
    - f_equal.
      rewrite (Rsum_ext n _ (fun k => Rsum (S n) (fun j =>
        (-1) ^ j * (line a g t 0%nat j * det n (setrow (line (minor a j) (minor g j) t) k (minor g j k))))))%R.
      + rewrite Rsum_swap. apply Rsum_ext. intros j Hj. rewrite <- !Rsum_scal. apply Rsum_ext. intros; ring.
      + intros k Hk. rewrite det_S. apply Rsum_ext. intros j Hj. rewrite Rmult_assoc. reflexivity.
    - rewrite <- Rsum_plus. apply Rsum_ext. intros j Hj. ring. }
  apply (derivable_ext (fun t => Rsum (S n) (fun j => (-1) ^ j * (line a g t 0%nat j * det n (line (minor a j) (minor g j) t)))%R)).
  { intros s. rewrite det_S. apply Rsum_ext. intros j Hj. rewrite Rmult_assoc. reflexivity. }
  apply (derivable_Rsum (S n) (fun j t => (-1) ^ j * (line a g t 0%nat j * det n (line (minor a j) (minor g j) t)))%R).
  intros j Hj. apply (derivable_pt_lim_scal (fun t => line a g t 0%nat j * det n (line (minor a j) (minor g j) t))%R).
  apply (derivable_pt_lim_mult (fun t => line a g t 0%nat j) (fun t => det n (line (minor a j) (minor g j) t))).
  - apply derivable_line.
  - apply IHn.
Qed.
(** Jacobi's formula at an invertible matrix. *)
Lemma det_trace : forall n a b g, inverse_matrices n a b ->
  derivable_pt_lim (fun t => det n (line a g t)) 0 (Rsum n (fun k => Rmatmul n g b k k) * det n a)%R.
Proof.
  intros n a b g (H1 & H2). pose proof (det_derivative n a g 0) as HD.
  replace (Rsum n (fun k => Rmatmul n g b k k) * det n a)%R
    with (Rsum n (fun k => det n (setrow (line a g 0) k (g k)))); auto.
  rewrite <- Rsum_scal_r. apply Rsum_ext. intros k Hk.
  rewrite (det_ext n _ (setrow a k (fun c => Rsum n (fun l => Rmatmul n g b k l * a l c)%R))).
  - rewrite (form_sum n _ _ _ _ (Rmatmul n g b k) a (det_form n) Hk). rewrite (Rsum_single n _ k Hk).
    + f_equal. apply det_ext. intros; apply setrow_same.
    + intros l Hl Hne. rewrite (det_alternates n l k); [ring|auto|auto|auto|].
      intros c. unfold setrow. rewrite Nat.eqb_refl, (proj2 (Nat.eqb_neq l k)) by auto. auto.
  - intros i c Hi Hc. unfold setrow. destruct (Nat.eqb_spec i k) as [->|].
    + change (g k c = Rmatmul n (Rmatmul n g b) a k c). rewrite mm_assoc.
      rewrite (mm_ext n g g (Rmatmul n b a) Rid (meq_refl n g) H2 k c Hk Hc). symmetry. apply mm_id_r; auto.
    + unfold line. ring.
Qed.
