(** * Dictionaries of a JSON text, and descriptions written by hand. *)
From Coq Require Import Reals NArith Ascii String SpecFloat Lia.
From Verif Require Import Base Num Nd Numeric Simplex Psd Pattern Json PatJson SpecJson SpecGrammar GrammarFacts
  JsonFacts JsonFuel ListFacts PatFacts DictFacts JsonOdd.
Local Open Scope list_scope.

Lemma filter_filter_in : forall (ks : list key) k X, existsb (key_eqb k) ks = true ->
  filter (fun k' => negb (existsb (key_eqb k') ks)) (filter (fun k' => negb (key_eqb k k')) X) =
  filter (fun k' => negb (existsb (key_eqb k') ks)) X.
Proof.
  intros ks k X H. induction X as [|x X IH]; auto. cbn [filter]. destruct (key_eqb k x) eqn:E; cbn [negb].
  - apply key_eqb_true in E. subst x. rewrite H. cbn [negb]. auto.
  - cbn [filter]. rewrite IH. reflexivity.
Qed.
Lemma filter_filter_out : forall (ks : list key) k X,
  filter (fun k' => negb (existsb (key_eqb k') ks)) (filter (fun k' => negb (key_eqb k k')) X) =
  filter (fun k' => negb (existsb (key_eqb k') (ks ++ [k]))) X.
Proof.
  intros ks k X. induction X as [|x X IH]; auto. cbn [filter]. rewrite existsb_app. cbn [existsb].
  rewrite Bool.orb_false_r.
  assert (key_eqb x k = key_eqb k x) as ->.
  { unfold key_eqb. destruct (key_eq_dec x k), (key_eq_dec k x); congruence. }
  destruct (key_eqb k x) eqn:E; cbn [negb].
  - rewrite Bool.orb_true_r. cbn [negb]. auto.
  - rewrite Bool.orb_false_r. cbn [filter]. destruct (negb _); rewrite IH; reflexivity.
Qed.
Lemma assign_keys : forall V (d : list (key * V)) k v,
  map fst (assign d k v) = if existsb (key_eqb k) (map fst d) then map fst d else map fst d ++ [k].
Proof.
  induction d as [|[k0 v0] d IH]; intros k v; [reflexivity|]. cbn [assign map fst existsb].
  destruct (key_eqb k k0) eqn:E; cbn [orb map fst]; [reflexivity|]. rewrite IH. destruct (existsb _ _); reflexivity.
Qed.
Lemma dict_of_keys : forall V (l acc : list (key * V)),
  map fst (fold_left (fun a kv => assign a (fst kv) (snd kv)) l acc) =
  map fst acc ++ filter (fun k => negb (existsb (key_eqb k) (map fst acc))) (first_keys l).
Proof.
  induction l as [|[k v] l IH]; intros acc; [cbn; rewrite app_nil_r; reflexivity|].
  cbn [fold_left fst snd]. rewrite IH, assign_keys. cbn [first_keys filter].
  destruct (existsb (key_eqb k) (map fst acc)) eqn:E; cbn [negb].
  - rewrite filter_filter_in by auto. reflexivity.
  - rewrite <- app_assoc. cbn [app]. rewrite filter_filter_out. reflexivity.
Qed.
Lemma assign_in_nodup : forall V (d : list (key * V)) k v k' w, NoDup (map fst d) ->
  In (k', w) (assign d k v) -> (k' = k /\ w = v) \/ (k' <> k /\ In (k', w) d).
Proof.
  induction d as [|[k0 v0] d IH]; intros k v k' w Hn H.
  - destruct H as [H|[]]. injection H as <- <-. auto.
  - cbn [assign] in H. inversion Hn as [|? ? Hk0 Hn']; subst. destruct (key_eqb k k0) eqn:E.
    + apply key_eqb_true in E. subst k0. destruct H as [H|H].
      * injection H as <- <-. auto.
      * right. split; [|right; auto]. intros ->. apply Hk0. apply in_map_iff. exists (k, w). auto.
    + apply key_eqb_false in E. destruct H as [H|H].
      * injection H as <- <-. right. split; [congruence|left; auto].
      * apply IH in H; auto. destruct H as [H|[H1 H2]]; [auto|]. right. split; [auto|right; auto].
Qed.
Lemma assign_nodup : forall V (d : list (key * V)) k v, NoDup (map fst d) -> NoDup (map fst (assign d k v)).
Proof.
  intros V d k v H. rewrite assign_keys. destruct (existsb _ _) eqn:E; auto.
  assert (~ In k (map fst d)) as Hk.
  { intros Hin. assert (existsb (key_eqb k) (map fst d) = true); [|congruence].
    apply existsb_exists. exists k. split; auto. apply key_eqb_refl. }
  clear E. induction (map fst d) as [|x l IH]; cbn; [repeat constructor; auto|].
  inversion H; subst. constructor; [|apply IH; auto; intros ?; apply Hk; right; auto].
  intros Hin. apply in_app_or in Hin. destruct Hin as [Hin|[->|[]]]; [contradiction|]. apply Hk. left. auto.
Qed.
Lemma dict_of_values : forall V (l acc : list (key * V)) k y, NoDup (map fst acc) ->
  In (k, y) (fold_left (fun a kv => assign a (fst kv) (snd kv)) l acc) ->
  last_of k y l \/ ((forall y', ~ In (k, y') l) /\ In (k, y) acc).
Proof.
  induction l as [|[k0 v0] l IH]; intros acc k y Hn H; [right; split; auto|].
  cbn [fold_left fst snd] in H. apply IH in H; [|apply assign_nodup; auto].
  destruct H as [H|[H1 H2]]; [left; constructor; auto|].
  apply assign_in_nodup in H2; auto. destruct H2 as [[-> ->]|[H2 H3]].
  - left. constructor. auto.
  - right. split; auto. intros y' [H|H]; [|eapply H1; eauto]. injection H as -> ->. congruence.
Qed.
Lemma last_of_map : forall (f : pyobj -> pyobj) d k y,
  last_of k y (map (fun kv => (fst kv, f (snd kv))) d) -> exists x, last_of k x d /\ y = f x.
Proof.
  induction d as [|[k0 x0] d IH]; intros k y H; [inversion H|]. cbn [map fst snd] in H. inversion H; subst.
  - exists x0. split; [|auto]. constructor. intros y Hy. eapply H1. apply in_map_iff. exists (k0, y). split; [reflexivity|exact Hy].
  - destruct (IH _ _ H1) as (x & Hx & ->). exists x. split; [constructor; auto|auto].
Qed.
Lemma last_of_in : forall (d : list (key * pyobj)) k x, last_of k x d -> In (k, x) d.
Proof. induction 1; [left|right]; auto. Qed.
Lemma last_of_unique : forall (d : list (key * pyobj)) k x y, last_of k x d -> last_of k y d -> x = y.
Proof.
  intros d k x y H. induction H as [d H|k' z d H IH]; intros Hy; inversion Hy; subst; auto.
  - exfalso. eapply H. apply last_of_in. eauto.
  - exfalso. eapply H1. apply last_of_in. eauto.
Qed.
Lemma first_keys_map : forall (f : pyobj -> pyobj) d,
  first_keys (map (fun kv => (fst kv, f (snd kv))) d) = first_keys d.
Proof. induction d as [|[k x] d IH]; cbn; [auto|]. rewrite IH. auto. Qed.

Lemma to_dicts_spec : forall o, as_dicts o (to_dicts o).
Proof.
  apply pyobj_ind'.
  - constructor.
  - constructor.
  - constructor.
  - constructor.
  - intros l IH. cbn [to_dicts]. constructor. induction IH; cbn; constructor; auto.
  - intros d IH. cbn [to_dicts]. constructor.
    + rewrite dict_of_keys. cbn [map app]. rewrite first_keys_map.
      induction (first_keys d); cbn; [auto|]. f_equal. auto.
    + set (d0 := map _ d).
      assert (forall k y, In (k, y) (fold_left (fun a kv => assign a (fst kv) (snd kv)) d0 []) ->
        exists x, last_of k x d /\ as_dicts x y) as H.
      { intros k y H. apply dict_of_values in H; [|constructor]. destruct H as [H|[_ []]].
        apply last_of_map in H. destruct H as (x & Hx & ->). exists x. split; auto.
        rewrite Forall_forall in IH. apply (IH (k, x)). apply last_of_in. auto. }
      revert H. generalize (fold_left (fun a kv => assign a (fst kv) (snd kv)) d0 []). intros D.
      induction D as [|[k y] D IHD]; intros H; [constructor|].
      destruct (H k y (or_introl eq_refl)) as (x & Hx & Hy). econstructor; eauto.
      apply IHD. intros. apply H. right. auto.
Qed.
Lemma as_dicts_unique : forall o v v', as_dicts o v -> as_dicts o v' -> v = v'.
Proof.
  apply (pyobj_ind' (fun o => forall v v', as_dicts o v -> as_dicts o v' -> v = v')).
  - intros v v' H H'. inversion H; inversion H'; reflexivity.
  - intros b v v' H H'. inversion H; inversion H'; reflexivity.
  - intros b v v' H H'. inversion H; inversion H'; reflexivity.
  - intros b v v' H H'. inversion H; inversion H'; reflexivity.
  - intros l IH v v' H H'. inversion H as [| | | |? l1 P1|]; inversion H' as [| | | |? l2 P2|]; subst. f_equal.
    rename P1 into Q1, P2 into Q2.
    clear H H'. revert l1 l2 Q1 Q2. induction IH as [|x l Hx _ IHl]; intros l1 l2 Q1 Q2.
    + inversion Q1; inversion Q2; subst; auto.
    + inversion Q1; inversion Q2; subst. f_equal; auto.
  - intros d IH v v' H H'. inversion H as [| | | | |? d1 K1 Q1]; inversion H' as [| | | | |? d2 K2 Q2]; subst. f_equal.
    assert (map fst d1 = map fst d2) as E by congruence. clear K1 K2 H H'. rewrite Forall_forall in IH.
    revert d2 Q2 E. induction Q1 as [|d k x y d1 L A P IHd]; intros d2 Q2 E.
    + destruct d2; [auto|discriminate].
    + inversion Q2 as [|? k' x' y' d2' L' A' P']; subst; [discriminate|]. injection E as <- E.
      assert (x = x') as <- by (eapply last_of_unique; eauto).
      f_equal; [f_equal|]; [|apply IHd; auto].
      apply (IH (k, x)); [apply last_of_in; auto|auto|auto].
Qed.

Theorem loads_grammar : forall io s v,
  loads io s = Ok v <-> exists o, json_text io s o /\ as_dicts o v.
Proof.
  intros io s v. unfold loads. split.
  - destruct (parse io s) as [o|] eqn:E; [|discriminate]. intros H. injection H as <-. exists o.
    split; [apply parse_grammar; auto|apply to_dicts_spec].
  - intros (o & Ho & Hv). apply parse_grammar in Ho. rewrite Ho. f_equal.
    eapply as_dicts_unique; [apply to_dicts_spec|exact Hv].
Qed.
Theorem loads_refuses : forall io s,
  (exists o v, json_text io s o /\ loads io s = Ok v) \/
  ((forall o, ~ json_text io s o) /\ loads io s = Err ValueError).
Proof.
  intros io s. unfold loads. destruct (parse io s) as [o|] eqn:E.
  - left. exists o, (to_dicts o). split; auto. apply parse_grammar. auto.
  - right. split; auto. intros o H. apply parse_grammar in H. congruence.
Qed.
Theorem json_text_unique : forall io s o o', json_text io s o -> json_text io s o' -> o = o'.
Proof. intros io s o o' H H'. apply parse_grammar in H, H'. congruence. Qed.
