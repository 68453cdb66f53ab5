(** * What the constructors build. *)
From Coq Require Import Reals Lra.
From Verif Require Import Base Num Nd Numeric Simplex Psd Pattern Spec ListFacts PatFacts
  NonFree NumFacts CholFacts Free Contract.

(** Dictionary invariants that hold with or without empty members: distinct
    keys, cached lengths recomputed from the members. *)
Fixpoint wf (p : pat) : Prop :=
  match p with
  | PNum _ s lb ub _ _ => s <> [] /\ nlt (pyval lb) (pyval ub)
  | PSimplex n _ _ _ => 2 <= n
  | PPsd sz flen d _ _ => flen = sz * (sz + 1) / 2 /\ exists r, pyval d = Fin r /\ (0 <= r)%R
  | PArr _ b _ => is_dict b = false /\ wf b
  | PDict items l fl _ _ =>
      NoDup (map fst items) /\
      (items <> [] -> l = items_len items false /\ fl = items_len items true) /\
      all_items (fun _ q => wf q) items
  end.

Lemma new_numeric_ok : forall k s lb ub dv fd p,
  new_numeric_kind k s lb ub dv fd = Ok p <->
  p = PNum k s lb ub dv fd /\ s <> [] /\ nlt (pyval lb) (pyval ub).
Proof.
  intros. unfold new_numeric_kind. split.
  - intros H.
    destruct (negb (ngeb (pyval lb) NInf)) eqn:E1; [discriminate|].
    destruct (negb (nleb (pyval ub) PInf)) eqn:E2; [discriminate|].
    destruct (ngeb (pyval lb) (pyval ub)) eqn:E3; [discriminate|].
    apply bind_ok in H. destruct H as (v & Hv & H). inversion H; subst. split; auto. split.
    + intros ->. cbn [fold_ prod fold_right seq] in Hv. rewrite atleast_vec, ndim_vec, size_vec in Hv. simpl in Hv.
      discriminate.
    + apply negb_false_iff in E1, E2. unfold ngeb, nleb in *.
      destruct (pyval lb) as [x| | |], (pyval ub) as [y| | |]; simpl in *; auto; try discriminate.
      destruct (Rltb y x) eqn:A; [discriminate|]. destruct (Reqb y x) eqn:B; [discriminate|].
      apply Rltb_false in A. apply Reqb_false in B. lra.
  - intros (-> & Hs & Hlt).
    assert (ngeb (pyval lb) NInf = true) as ->.
    { unfold ngeb, nleb. destruct (pyval lb), (pyval ub); simpl in *; auto; tauto. }
    assert (nleb (pyval ub) PInf = true) as ->.
    { unfold ngeb, nleb. destruct (pyval lb), (pyval ub); simpl in *; auto; tauto. }
    assert (ngeb (pyval lb) (pyval ub) = false) as ->.
    { unfold ngeb, nleb. destruct (pyval lb), (pyval ub); simpl in *; auto; try tauto.
      apply orb_false_iff. rewrite Rltb_false, Reqb_false. lra. }
    simpl negb. cbv iota. rewrite fold_nonfree.
    + rewrite (proj2 (require_valid_ok _ _ _ _ _ tt)); auto.
      apply validate_lenient; simpl; auto.
    + simpl; auto.
    + rewrite seq_length. auto.
Qed.

Lemma items_len_int : forall its f, its <> [] ->
  Forall (fun kq => pl_float (flat_len (snd kq) f) = false) its ->
  items_len its f = plint (total_len its f).
Proof.
  intros its f Hne H.
  assert (fold_right plen_add (plint 0) (map (fun kq => flat_len (snd kq) f) its)
          = plint (total_len its f)) as E.
  { clear Hne. induction H as [|kq its H1 H IH]; simpl; auto.
    rewrite IH. unfold plen_add. rewrite H1. auto. }
  rewrite <- E. destruct its; [contradiction|]. auto.
Qed.

Lemma assign_keys : forall V (d : list (key * V)) k v,
  map fst (assign d k v) = if in_dec key_eq_dec k (map fst d) then map fst d else map fst d ++ [k].
Proof.
  intros V d k v. induction d as [|[k' v'] d IH]; simpl; auto.
  destruct (key_eqb k k') eqn:E.
  - apply key_eqb_true in E. subst. destruct (key_eq_dec k' k'); [|contradiction]. simpl. auto.
  - apply key_eqb_false in E. destruct (key_eq_dec k' k); [congruence|]. simpl. rewrite IH.
    destruct (in_dec key_eq_dec k (map fst d)); auto.
Qed.

Lemma assign_nodup : forall V (d : list (key * V)) k v,
  NoDup (map fst d) -> NoDup (map fst (assign d k v)).
Proof.
  intros. rewrite assign_keys. destruct (in_dec _ _ _); auto.
  apply NoDup_rev in H. rewrite <- (rev_involutive (map fst d ++ [k])).
  apply NoDup_rev. rewrite rev_app_distr. simpl. constructor; auto. rewrite <- in_rev. auto.
Qed.

Lemma assign_forall : forall V (P : V -> Prop) (d : list (key * V)) k v,
  Forall (fun kv => P (snd kv)) d -> P v -> Forall (fun kv => P (snd kv)) (assign d k v).
Proof.
  induction d as [|[k' v'] d IH]; simpl; intros k v H Hv; [constructor; auto|].
  inversion H; subst. destruct (key_eqb k k'); constructor; auto.
Qed.

Lemma remove_forall : forall V (P : key * V -> Prop) (d : list (key * V)) k,
  Forall P d -> Forall P (remove_key d k).
Proof. intros. unfold remove_key. apply Forall_forall. intros x Hx. apply filter_In in Hx.
  rewrite Forall_forall in H. apply H. tauto. Qed.

Lemma remove_nodup : forall V (d : list (key * V)) k,
  NoDup (map fst d) -> NoDup (map fst (remove_key d k)).
Proof.
  intros V d k H. unfold remove_key. induction d as [|[k' v] d IH]; simpl; auto.
  inversion H; subst. destruct (negb (key_eqb k k')); simpl; auto. constructor; auto.
  intros Hin. apply H2. apply in_map_iff in Hin. destruct Hin as (x & <- & Hx). apply filter_In in Hx.
  apply in_map. tauto.
Qed.

Lemma wf_lock : forall p, wf p -> wf (lock_pat p).
Proof. destruct p; simpl; auto. Qed.

Lemma all_items_of : forall (P : pat -> Prop) its,
  all_items (fun _ q => P q) its <-> Forall (fun kq => P (snd kq)) its.
Proof. intros. rewrite all_items_Forall. tauto. Qed.

Theorem built_wf : forall p, built p -> wf p.
Proof.
  induction 1 as [k s lb ub dv fd p Hk H|n s dv fd p H|n d dv fd p H Hf|s b fd p Hb IH H|fd|
                  p k q p' Hp IHp Hq IHq H|p k p' Hp IHp H|p Hp IHp].
  - apply new_numeric_ok in H. destruct H as (-> & H). auto.
  - unfold new_simplex in H. destruct (n <=? 1)%Z eqn:E; [discriminate|]. inversion H. simpl.
    apply Z.leb_gt in E. lia.
  - unfold new_psd in H. destruct (nltb (pyval d) (Fin 0)) eqn:E; [discriminate|].
    assert (p = PPsd n (n * (n + 1) / 2) d dv fd) as ->.
    { rewrite <- (Nat.div_1_r n) at 1. injection H as <-. reflexivity. }
    destruct Hf as (r & Hr). rewrite Hr in E. cbn [nltb] in E. apply Rltb_false in E.
    cbn [wf]. split; auto. exists r. auto.
  - unfold new_pattern_array in H. destruct b; inversion H; subst; simpl; auto.
  - simpl. split; [constructor|]. split; auto. tauto.
  - unfold setitem in H. destruct p; try discriminate. destruct locked; [discriminate|].
    inversion H; subst. destruct IHp as (H1 & H2 & H3). cbn [wf]. split; [apply assign_nodup; auto|].
    split; auto. apply all_items_of. apply all_items_of in H3. apply assign_forall; auto.
    apply wf_lock. auto.
  - unfold delitem in H. destruct p; try discriminate. destruct locked; [discriminate|].
    destruct (dict_get items k); [|discriminate].
    inversion H; subst. destruct IHp as (H1 & H2 & H3). cbn [wf]. split; [apply remove_nodup; auto|].
    split; auto. apply all_items_of. apply all_items_of in H3. apply remove_forall; auto.
  - apply wf_lock; auto.
Qed.

Theorem usable_of_built : forall p, built p -> no_empty p -> usable p.
Proof.
  intros p H. apply built_wf in H. revert p H.
  apply (pat_ind' (fun p => wf p -> no_empty p -> usable p)).
  - auto.
  - auto.
  - auto.
  - intros s b fd IH (H1 & H2) (H3 & H4 & H5). simpl. auto.
  - intros items l fl fd lk IH (H1 & H2 & H3) (H4 & H5).
    assert (Forall (fun kq => usable (snd kq)) items) as Hu.
    { apply all_items_of in H3, H5. rewrite Forall_forall in *. auto. }
    destruct (H2 H4) as (-> & ->). simpl.
    rewrite !items_len_int; auto.
    + repeat split; auto. apply all_items_of. auto.
    + eapply Forall_impl; [|exact Hu]. intros; apply usable_int; auto.
    + eapply Forall_impl; [|exact Hu]. intros; apply usable_int; auto.
Qed.
