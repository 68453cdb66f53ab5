(** * What the texts say and what they leave out. *)
From Coq Require Import Reals NArith Ascii String SpecFloat Lia.
From Verif Require Import Base Num Nd Numeric Simplex Psd Pattern Json PatJson Names Text
  Spec SpecJson SpecNames SpecText ListFacts PatFacts Contract JsonFacts NamesFacts TextFacts.
Local Open Scope list_scope.
Local Open Scope nat_scope.

Lemma nat_text_split : forall n m (c : N) r r', ~ (48 <= c <= 57)%N ->
  nat_text n ++ c :: r = nat_text m ++ c :: r' -> n = m /\ r = r'.
Proof.
  intros n m c r r' Hc E.
  assert (forall k, ~ In c (nat_text k)) as Hn.
  { intros k Hi. destruct (nat_numeral k) as (_ & Hd & _). rewrite Forall_forall in Hd.
    apply Hd in Hi. contradiction. }
  destruct (first_split _ _ _ _ _ (Hn n) (Hn m) E) as [A B]. split; auto. apply nat_text_inj; auto.
Qed.

Lemma no_dict_keys : forall p, no_dict p -> string_keys p.
Proof. induction p; cbn; auto. contradiction. Qed.

Theorem text_determines : forall io p q, float_io_ok io -> no_dict p -> no_dict q ->
  python_bounds p -> python_bounds q ->
  (pat_text io p = pat_text io q <-> same_shown p q).
Proof.
  intros io p q Hio. revert p q.
  apply (pat_ind' (fun p => forall q, no_dict p -> no_dict q -> python_bounds p -> python_bounds q ->
    (pat_text io p = pat_text io q <-> same_shown p q))).
  - intros k s lb ub dv fd [k' s' lb' ub' dv' fd'|n' s' dv' fd'|n' fl' d' dv' fd'|s' b' fd'|] Hp Hq Bp Bq;
      try contradiction; cbn [same_shown].
    + rewrite !text_num. split.
      * intros E. injection E as E.
        apply tuple_text_split in E. destruct E as [-> E]. injection E as E.
        destruct Bp as [P1 P2], Bq as [Q1 Q2].
        destruct (plain_not _ (value_text_plain io lb Hio P1)) as [A _].
        destruct (plain_not _ (value_text_plain io lb' Hio Q1)) as [A' _].
        destruct (first_split _ _ _ _ _ A A' E) as [E1 E2]. injection E2 as E2.
        change (str ")") with [41%N] in E2. apply app_inj_tail in E2. destruct E2 as [E2 _].
        split; auto. split; eapply value_text_inj; eauto.
      * intros (-> & -> & ->). reflexivity.
    + rewrite text_num, text_simplex. split; [discriminate|contradiction].
    + rewrite text_num, text_psd. split; [discriminate|contradiction].
    + rewrite text_num, text_arr. split; [|contradiction]. destruct (pat_text io b'); discriminate.
  - intros n s dv fd [k' s' lb' ub' dv' fd'|n' s' dv' fd'|n' fl' d' dv' fd'|s' b' fd'|] Hp Hq Bp Bq;
      try contradiction; cbn [same_shown].
    + rewrite text_num, text_simplex. split; [discriminate|contradiction].
    + rewrite !text_simplex. split.
      * intros E. injection E as E. apply tuple_text_split in E. destruct E as [-> E].
        injection E as E. change (str "-d simplices") with (45%N :: str "d simplices") in E.
        apply nat_text_split in E; [|lia]. tauto.
      * intros (-> & ->). reflexivity.
    + rewrite text_simplex, text_psd. split; [discriminate|contradiction].
    + rewrite text_simplex, text_arr. split; [|contradiction]. destruct (pat_text io b'); discriminate.
  - intros n fl d dv fd [k' s' lb' ub' dv' fd'|n' s' dv' fd'|n' fl' d' dv' fd'|s' b' fd'|] Hp Hq Bp Bq;
      try contradiction; cbn [same_shown].
    + rewrite text_num, text_psd. split; [discriminate|contradiction].
    + rewrite text_simplex, text_psd. split; [discriminate|contradiction].
    + rewrite !text_psd. split.
      * intros E. injection E as E.
        apply nat_text_split in E; [|lia]. destruct E as [-> E]. apply app_inv_head in E.
        injection E as E. change (str ")") with [41%N] in E. apply app_inj_tail in E. destruct E as [E _].
        split; auto. eapply value_text_inj; eauto.
      * intros (-> & ->). reflexivity.
    + rewrite text_psd, text_arr. split; [|contradiction]. destruct (pat_text io b'); discriminate.
  - intros s b fd IH [k' s' lb' ub' dv' fd'|n' s' dv' fd'|n' fl' d' dv' fd'|s' b' fd'|] Hp Hq Bp Bq;
      try contradiction; cbn [same_shown].
    + rewrite text_num, text_arr. split; [|contradiction]. destruct (pat_text io b); discriminate.
    + rewrite text_simplex, text_arr. split; [|contradiction]. destruct (pat_text io b); discriminate.
    + rewrite text_psd, text_arr. split; [|contradiction]. destruct (pat_text io b); discriminate.
    + rewrite !text_arr. specialize (IH b' Hp Hq Bp Bq). split.
      * intros E. destruct (pat_text io b) as [t|e] eqn:E1.
        -- destruct (pat_text io b') as [t'|]; [|discriminate]. cbn [bind] in E. injection E as E.
           apply tuple_text_split in E. destruct E as [-> E]. injection E as E. subst t'.
           split; auto. apply IH. auto.
        -- destruct (pat_text io b') as [t'|]; [discriminate|]. cbn [bind] in E.
           destruct (text_succeeds io b) as [A _]. destruct (A (no_dict_keys b Hp)) as (t & Ht). congruence.
      * intros (-> & H). apply IH in H. rewrite H. reflexivity.
  - intros. contradiction.
Qed.

(** The text of a dictionary does not show where a nested dictionary ends. *)
Theorem nesting_not_shown : forall io a b c x y l1 fl1 fd1 lk1 l2 fl2 fd2 lk2 l3 fl3 fd3 lk3 l4 fl4 fd4 lk4,
  let p := PDict [(KStr a, PDict [(KStr b, x)] l1 fl1 fd1 lk1); (KStr c, y)] l2 fl2 fd2 lk2 in
  let q := PDict [(KStr a, PDict [(KStr b, x); (KStr c, y)] l3 fl3 fd3 lk3)] l4 fl4 fd4 lk4 in
  pat_text io p = pat_text io q /\ pat_eqb io p q = false.
Proof.
  intros. split.
  - subst p q. cbn [pat_text mapM fst snd].
    destruct (pat_text io x) as [tx|]; [|reflexivity]. cbn [bind mapM].
    destruct (pat_text io y) as [ty|]; [|reflexivity]. cbn [bind mapM join].
    f_equal. rewrite <- !app_assoc. reflexivity.
  - unfold pat_eqb. subst p q. cbn [class_of].
    destruct (cls_eq_dec CDict CDict); [|reflexivity]. cbn [as_dict map fst snd okey].
    cbn -[dumps str_eqb]. rewrite Bool.andb_false_r. cbn -[dumps str_eqb].
    repeat rewrite Bool.andb_false_r. reflexivity.
Qed.
