(** * What validation means (C07, C08, C10). *)
From Coq Require Import Reals Lra.
From Verif Require Import Base Num Nd Numeric Simplex Psd Pattern Spec SpecValid ListFacts PatFacts
  NonFree NumFacts CholFacts Free.
Local Open Scope list_scope.
Local Open Scope nat_scope.

Lemma nltb_false_nle : forall a b, nltb a b = false <-> (a = NaN \/ b = NaN \/ nle b a).
Proof.
  intros a b. unfold nle. destruct a as [x| | |], b as [y| | |]; simpl;
    try (intuition (try discriminate; try congruence); fail).
  rewrite Rltb_false. split.
  - intros [H|H]; [auto|]. right. right. right. subst. split; [auto|discriminate].
  - intros [H|[H|[H|[H _]]]]; try discriminate; try lra. inversion H. lra.
Qed.

Lemma nle_not_nan_l : forall a b, nle a b -> a <> NaN.
Proof. intros a b [H|[H H']]; [|auto]. destruct a; try discriminate. destruct b; simpl in H; tauto. Qed.
Lemma nle_not_nan_r : forall a b, nle a b -> b <> NaN.
Proof. intros a b [H|[-> H']]; [|auto]. destruct b; try discriminate. destruct a; simpl in H; tauto. Qed.

Lemma neqb_true : forall a b, neqb a b = true <-> a = b /\ a <> NaN.
Proof.
  intros a b. destruct a as [x| | |], b as [y| | |]; simpl;
    try (intuition (try discriminate; try congruence); fail).
  rewrite Reqb_true. split; [intros ->; split; [auto|discriminate]|].
  intros (H & _). inversion H; auto.
Qed.

Lemma nlt_not_nan : forall a b, nlt a b -> a <> NaN /\ b <> NaN.
Proof. intros a b H; split; destruct a, b; simpl in H; try discriminate; tauto. Qed.

(** ** leaf: numeric *)
Lemma num_valid_iff : forall s lb ub dv a, nlt lb ub -> s <> [] -> nd_ok a ->
  num_validate snum s lb ub dv a (Some true) = Ok None <->
  fits s a /\ Forall (fun x => x = NaN \/ (nle lb x /\ nle x ub)) (dat a).
Proof.
  intros s lb ub dv a Hlt Hs Hok. destruct (nlt_not_nan _ _ Hlt) as (Nl & Nu).
  unfold num_validate. rewrite atleast_dat. cbn [vv_or to_num snum].
  assert (shape_eqb (shp (atleast_1d a)) s = true <-> fits s a) as Hsh.
  { rewrite shape_eqb_true. unfold fits, atleast_1d. destruct (shp a) eqn:E; simpl.
    - split; [intros <-; auto|]. intros (_ & [H|(_ & ->)]); congruence.
    - rewrite E. split; [intros <-; auto|]. intros (_ & [H|(H & _)]); congruence. }
  destruct (shape_eqb (shp (atleast_1d a)) s); cbn [negb].
  - assert (fits s a) as F by (apply Hsh; auto).
    destruct (existsb (fun x => nltb x lb) (dat a)) eqn:E1.
    + split; [discriminate|]. intros (_ & H). exfalso. apply existsb_exists in E1.
      destruct E1 as (x & Hx & Hl). rewrite Forall_forall in H.
      assert (nltb x lb = false) as E; [|congruence].
      apply nltb_false_nle. destruct (H _ Hx) as [->|[H1 _]]; auto.
    + destruct (existsb (fun x => ngtb x ub) (dat a)) eqn:E2.
      * split; [discriminate|]. intros (_ & H). exfalso. apply existsb_exists in E2.
        destruct E2 as (x & Hx & Hl). rewrite Forall_forall in H. unfold ngtb in Hl.
        assert (nltb ub x = false) as E; [|congruence].
        apply nltb_false_nle. destruct (H _ Hx) as [->|[_ H1]]; auto.
      * split; auto. intros _. split; auto. apply Forall_forall. intros x Hx.
        rewrite existsb_false_iff in E1, E2. specialize (E1 x Hx). specialize (E2 x Hx). unfold ngtb in E2.
        apply nltb_false_nle in E1, E2. destruct E1 as [->|[?|E1]]; auto; [contradiction|].
        destruct E2 as [?|[->|E2]]; auto; contradiction.
  - split; [discriminate|]. intros (F & _). apply Hsh in F. discriminate.
Qed.

(** ** leaf: simplex *)
Lemma nsum_nan : forall l, In NaN l -> nsum l = NaN.
Proof.
  induction l as [|x l IH]; simpl; [tauto|]. intros [->|H]; [auto|].
  rewrite (IH H). destruct x; auto.
Qed.
Lemma nsum_inf : forall l, ~ In NaN l -> Forall (fun x => x = NaN \/ nle (Fin 0) x) l -> In PInf l ->
  nsum l = PInf.
Proof.
  assert (forall x l, nsum (x :: l) = nadd x (nsum l)) as C by reflexivity.
  assert (forall x, nle (Fin 0) x -> x = PInf \/ exists r, x = Fin r) as P.
  { intros [x| | |] [H|[H _]]; eauto; try discriminate; simpl in H; tauto. }
  assert (forall l, ~ In NaN l -> Forall (fun x => x = NaN \/ nle (Fin 0) x) l ->
     nsum l = PInf \/ exists r, nsum l = Fin r) as H0.
  { induction l as [|x l IH]; intros Hn HF; [right; eexists; reflexivity|].
    inversion HF; subst. simpl in Hn. rewrite C.
    destruct H1 as [H1|H1]; [subst; tauto|].
    destruct (P _ H1) as [->|(r & ->)], IH as [E|(r' & E)]; auto; rewrite E; simpl; eauto. }
  induction l as [|x l IH]; intros Hn HF Hi; [inversion Hi|].
  simpl in Hn. inversion HF; subst. rewrite C. destruct Hi as [->|Hi].
  - destruct (H0 l) as [E|(r & E)]; auto; rewrite E; auto.
  - rewrite IH by auto. match goal with H : x = NaN \/ _ |- _ => destruct H as [H1|H1] end; [subst; tauto|].
    destruct (P _ H1) as [->|(r & ->)]; auto.
Qed.

Lemma row_sum_iff : forall row, Forall (fun x => x = NaN \/ nle (Fin 0) x) row ->
  row_sum_bad row = false <->
  (In NaN row \/ exists r, row = map Fin r /\ (Rabs (Rlsum r - 1) <= / 10 ^ 12)%R).
Proof.
  intros row HF. unfold row_sum_bad, ngtb, simplex_tol.
  assert ({In NaN row} + {~ In NaN row}) as [Hn|Hn].
  { clear. induction row as [|x row [IH|IH]]; simpl; [right; tauto|left; auto|].
    destruct x; try (right; intros [E|E]; [discriminate|auto]; fail). left; auto. }
  - rewrite nsum_nan by auto. split; auto.
  - assert ({In PInf row} + {~ In PInf row}) as [Hp|Hp].
    { clear. induction row as [|x row [IH|IH]]; simpl; [right; tauto|left; auto|].
      destruct x; try (right; intros [E|E]; [discriminate|auto]; fail). left; auto. }
    + rewrite nsum_inf by auto. split.
      * simpl. discriminate.
      * intros [?|(r & E & _)]; [contradiction|]. exfalso. subst row.
        apply in_map_iff in Hp. destruct Hp as (? & ? & _). discriminate.
    + assert (Forall finite row) as HFin.
      { rewrite Forall_forall in *. intros x Hx. specialize (HF x Hx). destruct x as [x| | |].
        - eexists; reflexivity.
        - contradiction.
        - destruct HF as [E|[E|[E _]]]; try discriminate. contradiction.
        - contradiction. }
      apply forall_fin_list in HFin. destruct HFin as (r & ->). rewrite nsum_fin.
      cbn [nsub nadd nneg nabs nltb]. 
      replace (Rlsum r + - (1))%R with (Rlsum r - 1)%R by lra.
      replace (/ 1000000000000)%R with (/ 10 ^ 12)%R by (f_equal; simpl; lra).
      rewrite Rltb_false. split; [intros H; right; eauto|].
      intros [?|(r' & E & H)]; [contradiction|].
      assert (r = r') as ->; auto. clear -E. revert r' E.
      induction r; intros [|y r'] E; inversion E; auto. f_equal; auto.
Qed.

Lemma simplex_valid_iff : forall n s dv a, nd_ok a ->
  simplex_validate snum n s dv a (Some true) = Ok None <->
  (shp a = s ++ [n] /\ nd_ok a /\
   Forall (fun x => x = NaN \/ nle (Fin 0) x) (dat a) /\
   forall i, i < prod s ->
     let row := slice (dat a) (i * n) n in
     In NaN row \/ exists r, row = map Fin r /\ (Rabs (Rlsum r - 1) <= / 10 ^ 12)%R).
Proof.
  intros n s dv a Hok. unfold simplex_validate. cbn [vv_or to_num snum]. rewrite map_id.
  destruct (shape_eqb (shp a) (s ++ [n])) eqn:Es; cbn [negb].
  2:{ apply shape_eqb_false in Es. split; [discriminate|]. intros (E & _). contradiction. }
  apply shape_eqb_true in Es.
  destruct (existsb (fun x => nltb x (Fin 0)) (dat a)) eqn:E1.
  - split; [discriminate|]. intros (_ & _ & HF & _). exfalso.
    apply existsb_exists in E1. destruct E1 as (x & Hx & Hl). rewrite Forall_forall in HF.
    assert (nltb x (Fin 0) = false) as E; [|congruence].
    apply nltb_false_nle. destruct (HF _ Hx); auto.
  - assert (Forall (fun x => x = NaN \/ nle (Fin 0) x) (dat a)) as HF.
    { apply Forall_forall. intros x Hx. rewrite existsb_false_iff in E1.
      specialize (E1 x Hx). apply nltb_false_nle in E1. destruct E1 as [?|[?|?]]; auto. discriminate. }
    assert (forall i, Forall (fun x => x = NaN \/ nle (Fin 0) x) (slice (dat a) (i * n) n)) as HFi.
    { intros i. rewrite Forall_forall in *. intros x Hx. apply HF. eapply in_slice; eauto. }
    destruct (existsb row_sum_bad (chunks n (prod s) (dat a))) eqn:E2.
    + split; [discriminate|]. intros (_ & _ & _ & H). exfalso.
      apply existsb_exists in E2. destruct E2 as (row & Hr & Hb). apply in_chunks in Hr.
      destruct Hr as (i & Hi & ->). specialize (H i Hi). unfold chunk in Hb. cbn zeta in H.
      apply row_sum_iff in H; auto. congruence.
    + split; auto. intros _. repeat (split; auto). intros i Hi. cbn zeta.
      apply row_sum_iff; auto. rewrite existsb_false_iff in E2. apply E2.
      unfold chunks. apply in_map_iff. exists i. split; auto. apply in_seq. lia.
Qed.

(** ** leaf: PSD *)
Lemma psd_valid_iff : forall sz dlb dv a, nd_ok a -> dlb <> NaN ->
  psd_validate snum sz dlb dv a (Some true) = Ok None <->
  (shp a = [sz; sz] /\ nd_ok a /\
   forall i j, i < sz -> j < sz ->
     let m := fun i j => nth (i * sz + j) (dat a) NaN in
     m i j <> NaN /\ m i j = m j i /\ nle dlb (m i i)).
Proof.
  intros sz dlb dv a Hok Hd. unfold psd_validate. cbn [vv_or to_num snum]. rewrite nd_map_id.
  destruct (shape_eqb (shp a) [sz; sz]) eqn:Es; cbn [negb].
  2:{ apply shape_eqb_false in Es. split; [discriminate|]. intros (E & _). contradiction. }
  apply shape_eqb_true in Es. set (m := mat_of sz a). cbv zeta.
  change (fun i j => nth (i * sz + j) (dat a) NaN) with m.
  destruct (existsb (fun i => nltb (m i i) dlb) (seq 0 sz)) eqn:E1.
  - split; [discriminate|]. intros (_ & _ & H). exfalso. apply existsb_exists in E1.
    destruct E1 as (i & Hi & Hl). apply in_seq in Hi.
    destruct (H i i) as (_ & _ & H3); try lia.
    assert (nltb (m i i) dlb = false) as E; [|congruence]. apply nltb_false_nle. auto.
  - rewrite existsb_false_iff in E1.
    destruct (forallb (fun i => forallb (fun j => neqb (m j i) (m i j)) (seq 0 sz)) (seq 0 sz)) eqn:E2; cbn [negb].
    + split; auto. intros _. split; auto. split; auto. intros i j Hi Hj. 
      rewrite forallb_forall in E2.
      assert (forall i j, i < sz -> j < sz -> m j i = m i j /\ m j i <> NaN) as Hs.
      { clear i j Hi Hj. intros i j Hi Hj. apply neqb_true.
        specialize (E2 i ltac:(apply in_seq; lia)). rewrite forallb_forall in E2.
        apply E2. apply in_seq; lia. }
      destruct (Hs j i Hj Hi) as (S1 & S2). split; auto. split; auto.
      specialize (E1 i ltac:(apply in_seq; lia)). apply nltb_false_nle in E1.
      destruct (Hs i i Hi Hi) as (_ & Hn).
      destruct E1 as [?|[?|?]]; auto; contradiction.
    + split; [discriminate|]. intros (_ & _ & H). exfalso.
      assert (forallb (fun i => forallb (fun j => neqb (m j i) (m i j)) (seq 0 sz)) (seq 0 sz) = true) as E; [|congruence].
      apply forallb_forall. intros i Hi. apply forallb_forall. intros j Hj. apply in_seq in Hi, Hj.
      apply neqb_true. destruct (H j i) as (H1 & H2 & _); try lia. auto.
Qed.

(** ** all patterns *)
Theorem validate_iff : forall p v, usable p -> fv_ok v ->
  (validate snum p v (Some true) = Ok None <-> valid p v).
Proof.
  apply (pat_ind' (fun p => forall v, usable p -> fv_ok v ->
     (validate snum p v (Some true) = Ok None <-> valid p v))).
  - intros k s lb ub dv fd [a|d] Hu Hok; [|split; [discriminate|contradiction]].
    destruct Hu. apply num_valid_iff; auto.
  - intros n s dv fd [a|d] Hu Hok; [|split; [discriminate|contradiction]].
    apply simplex_valid_iff; auto.
  - intros sz fl dl dv fd [a|d] Hu Hok; [|split; [discriminate|contradiction]].
    destruct Hu as (_ & r & Hr & _). apply psd_valid_iff; auto. congruence.
  - intros s b fd IH [a|d] Hu Hok; [|split; [discriminate|contradiction]].
    destruct Hu as (_ & _ & Hd & Hub). cbn [validate valid folded_shape]. unfold ndim.
    destruct (length (shp a) =? length (s ++ folded_shape b)) eqn:E1; cbn [negb].
    2:{ split; [discriminate|]. intros (E & _). rewrite E, Nat.eqb_refl in E1. discriminate. }
    destruct (shape_eqb (shp a) (s ++ folded_shape b)) eqn:E2; cbn [negb].
    2:{ split; [discriminate|]. intros (E & _). apply shape_eqb_false in E2. contradiction. }
    apply shape_eqb_true in E2.
    assert (forall i, i < prod s -> nd_ok (mkNd (folded_shape b) (chunk (prod (folded_shape b)) (dat a) i))) as Hc.
    { intros i Hi. unfold nd_ok. simpl. eapply chunk_length; eauto.
      simpl in Hok. unfold nd_ok in Hok. rewrite Hok, E2, prod_app. auto. }
    rewrite (validate_cells_seq' _ _ a s (folded_shape b) E2). split.
    + intros H. split; auto. split; auto. intros i Hi. apply IH; auto; [|apply H; auto].
      apply Hc; auto.
    + intros (_ & _ & H) i Hi. apply IH; auto; [|apply H; auto]. apply Hc; auto.
  - intros items l fl fd lk IH [a|d] Hu Hok; [split; [discriminate|contradiction]|].
    cbn [validate valid]. destruct Hu as (_ & _ & _ & _ & Hu).
    rewrite (validate_items_ok _ (fun q w => validate snum q w (Some true)) d items).
    apply all_items_Forall in Hu. rewrite !all_items_Forall. rewrite !Forall_forall in *.
    split; intros H kq Hkq; destruct (H kq Hkq) as (w & Hw & Hv); exists w; split; auto;
      apply (IH kq Hkq w); auto; eapply fv_ok_get; eauto.
Qed.

(** ** raising or answering on wrong shapes (C10) *)
Lemma cells_answer : forall A (vb : nd A -> res verdict) a k cells,
  (forall it, In it cells -> exists r, vb (subarr a it k) = Ok r) ->
  exists r, validate_cells vb a k cells = Ok r.
Proof.
  induction cells as [|it cells IH]; simpl; intros H; [eauto|].
  destruct (H it (or_introl eq_refl)) as ([m|] & E); rewrite E; simpl; eauto.
Qed.

Lemma validate_right_shape_answers : forall A (sc : scalar A) vv p a,
  is_dict p = false -> shp a = folded_shape p ->
  (match p with PArr _ b _ => usable b | _ => True end) -> usable p ->
  exists r, validate sc p (FArr a) vv = Ok r.
Proof.
  intros A sc vv. apply (pat_ind' (fun p => forall a, is_dict p = false -> shp a = folded_shape p ->
    (match p with PArr _ b _ => usable b | _ => True end) -> usable p ->
    exists r, validate sc p (FArr a) vv = Ok r)).
  - intros. simpl. unfold num_validate. repeat match goal with |- context [if ?b then _ else _] => destruct b end; eauto.
  - intros n s dv fd a _ H _ _. simpl in *. unfold simplex_validate. rewrite H, shape_eqb_refl. cbn [negb].
    repeat match goal with |- context [if ?b then _ else _] => destruct b end; eauto.
  - intros sz fl d dv fd a _ H _ _. simpl in *. unfold psd_validate. rewrite H, shape_eqb_refl. cbn [negb].
    repeat match goal with |- context [if ?b then _ else _] => destruct b end; eauto.
  - intros s b fd IH a _ H _ (Hs & Hp & Hd & Hu). cbn [validate]. unfold ndim. rewrite H, Nat.eqb_refl, shape_eqb_refl.
    cbn [negb]. apply cells_answer. intros it Hit. simpl in H. rewrite (subarr_chunk _ a it s (folded_shape b) H).
    apply IH; auto. destruct b; auto. destruct Hu as (_ & _ & _ & Hu); auto.
  - intros; discriminate.
Qed.

Theorem array_validation_answers : forall A (sc : scalar A) vv s b fd a,
  usable (PArr s b fd) ->
  (exists r, validate sc (PArr s b fd) (FArr a) vv = Ok r) /\
  (shp a <> s ++ folded_shape b -> exists m, validate sc (PArr s b fd) (FArr a) vv = Ok (Some m)).
Proof.
  intros A sc vv s b fd a Hu. destruct (list_eq_dec Nat.eq_dec (shp a) (s ++ folded_shape b)) as [E|E].
  - split; [|contradiction]. apply validate_right_shape_answers; auto. simpl. apply Hu.
  - assert (exists m, validate sc (PArr s b fd) (FArr a) vv = Ok (Some m)) as (m & Hm).
    { cbn [validate folded_shape]. destruct (_ =? _); cbn [negb]; [|eauto].
      rewrite (proj2 (shape_eqb_false _ _) E). cbn [negb]. eauto. }
    split; eauto.
Qed.

Theorem numeric_validation_answers : forall A (sc : scalar A) vv k s lb ub dv fd a,
  (exists r, validate sc (PNum k s lb ub dv fd) (FArr a) vv = Ok r) /\
  (shp (atleast_1d a) <> s ->
     validate sc (PNum k s lb ub dv fd) (FArr a) vv = Ok (Some MsgShape)).
Proof.
  intros. simpl. unfold num_validate. split.
  - repeat match goal with |- context [if ?b then _ else _] => destruct b end; eauto.
  - intros H. rewrite (proj2 (shape_eqb_false _ _) H). auto.
Qed.

Theorem simplex_psd_validation_raises : forall A (sc : scalar A) vv p a,
  (exists n s dv fd, p = PSimplex n s dv fd) \/ (exists sz fl d dv fd, p = PPsd sz fl d dv fd) ->
  shp a <> folded_shape p ->
  validate sc p (FArr a) vv = Err ValueError.
Proof.
  intros A sc vv p a [(n & s & dv & fd & ->)|(sz & fl & d & dv & fd & ->)] H; simpl in *.
  - unfold simplex_validate. rewrite (proj2 (shape_eqb_false _ _) H). auto.
  - unfold psd_validate. rewrite (proj2 (shape_eqb_false _ _) H). auto.
Qed.

(** The exception escapes from a dictionary when every earlier member is valid. *)
Theorem dict_validation_raises : forall A (sc : scalar A) vv before k q after l fl fd lk d w e,
  (forall k' q', In (k', q') before -> exists w', dict_get d k' = Some w' /\ validate sc q' w' vv = Ok None) ->
  dict_get d k = Some w -> validate sc q w vv = Err e ->
  validate sc (PDict (before ++ (k, q) :: after) l fl fd lk) (FDict d) vv = Err e /\
  (forall f, flatten_gen sc (PDict (before ++ (k, q) :: after) l fl fd lk) (FDict d) (Some f) vv = Err e).
Proof.
  intros A sc vv before k q after l fl fd lk d w e Hb Hk Hq.
  assert (validate sc (PDict (before ++ (k, q) :: after) l fl fd lk) (FDict d) vv = Err e) as E.
  { cbn [validate]. revert Hb. induction before as [|[k' q'] before IH]; intros Hb.
    - simpl. rewrite Hk, Hq. auto.
    - simpl. destruct (Hb k' q' (or_introl eq_refl)) as (w' & -> & ->). simpl. apply IH.
      intros. apply Hb. right; auto. }
  split; auto. intros f. unfold flatten_gen. cbn [free_with_default bind flatten_]. unfold require_valid.
  rewrite E. auto.
Qed.

(** ** values on the boundary (C08) *)
Lemma at_lower : forall lb ub l, lb = Fin l -> nlt lb ub ->
  unconstrain1 lb ub lb = NInf /\ constrain1 lb ub NInf = lb.
Proof.
  intros lb ub l -> H. unfold unconstrain1, constrain1.
  destruct ub as [u| | |]; simpl in H; try tauto; simpl.
  - unfold nsub. simpl. replace (l + - l)%R with 0%R by lra.
    rewrite (proj2 (Rltb_false 0 0)) by lra.
    rewrite (proj2 (Rltb_true 0 (u + - l))) by lra.
    split; auto. simpl.
    rewrite (proj2 (Reqb_false (1 + 0) 0)) by lra. simpl. f_equal. field.
  - replace (l + - l)%R with 0%R by lra. rewrite (proj2 (Rltb_false 0 0)) by lra.
    split; auto. f_equal. lra.
Qed.
Lemma at_upper_one_sided : forall u,
  unconstrain1 NInf (Fin u) (Fin u) = PInf /\ constrain1 NInf (Fin u) PInf = Fin u.
Proof.
  intros u. unfold unconstrain1, constrain1. simpl.
  replace (u + - u)%R with 0%R by lra. rewrite (proj2 (Rltb_false 0 0)) by lra. simpl.
  unfold inf_times. rewrite (proj2 (Rltb_false 0 (-1))) by lra. rewrite (proj2 (Rltb_true (-1) 0)) by lra.
  simpl. split; auto. f_equal. lra.
Qed.
Lemma at_upper_two_sided : forall l u, (l < u)%R ->
  unconstrain1 (Fin l) (Fin u) (Fin u) = PInf /\ constrain1 (Fin l) (Fin u) PInf = NaN.
Proof.
  intros l u H. unfold unconstrain1, constrain1. unfold nsub. simpl.
  replace (u + - u)%R with 0%R by lra. rewrite (proj2 (Rltb_false 0 0)) by lra.
  rewrite (proj2 (Rltb_true 0 (u + - l))) by lra. simpl. split; auto.
  unfold inf_times. rewrite (proj2 (Rltb_true 0 (u + - l))) by lra. auto.
Qed.

(** What free flattening then folding does to a numeric array entry by entry. *)
Lemma numeric_free_round : forall k s lb ub dv fd a vv,
  nd_ok a -> s <> [] -> validate snum (PNum k s lb ub dv fd) (FArr a) vv = Ok None ->
  exists x b, flatten (PNum k s lb ub dv fd) (FArr a) (Some true) vv = Ok x /\
    fold (PNum k s lb ub dv fd) (vec x) (Some true) vv = Ok (FArr b) /\
    length x = prod s /\ length (dat a) = prod s /\
    forall i, i < prod s ->
      nth i x NaN = unconstrain1 (pyval lb) (pyval ub) (nth i (dat a) NaN) /\
      nth i (dat b) NaN = constrain1 (pyval lb) (pyval ub) (nth i x NaN).
Proof.
  intros k s lb ub dv fd a vv Hok Hs Hv.
  assert (length (dat a) = prod s) as L.
  { simpl in Hv. apply num_validate_shape in Hv; auto. unfold nd_ok in Hok.
    destruct Hv as [<-|[E ->]]; auto. rewrite Hok, E. auto. }
  exists (map (unconstrain1 (pyval lb) (pyval ub)) (dat a)).
  exists (mkNd s (map (constrain1 (pyval lb) (pyval ub)) (map (unconstrain1 (pyval lb) (pyval ub)) (dat a)))).
  split; [|split; [|split; [|split]]].
  - unfold flatten, flatten_gen. cbn [free_with_default bind flatten_]. rewrite atleast_dat.
    assert (require_valid snum (PNum k s lb ub dv fd) (FArr (atleast_1d a)) vv = Ok tt) as ->; [|reflexivity].
    apply require_valid_ok. simpl in *. unfold num_validate in *. rewrite atleast_idem. auto.
  - unfold fold, fold_gen. cbn [free_with_default bind fold_]. rewrite atleast_vec, ndim_vec, size_vec, map_length, L.
    rewrite Nat.eqb_refl. cbn [Nat.eqb negb dat vec]. unfold num_fold_free, nd_map. cbn [to_num of_num snum dat shp].
    rewrite !map_id, ?Nat.eqb_refl. auto.
  - rewrite map_length. auto.
  - auto.
  - intros i Hi. split.
    + rewrite (nth_map_gen _ _ _ _ _ _ NaN) by lia. auto.
    + simpl. rewrite (nth_map_gen _ _ _ _ _ _ NaN); auto. rewrite map_length. lia.
Qed.

Theorem upper_bound_lost : forall k s lb ub dv fd a l u,
  usable (PNum k s lb ub dv fd) -> pyval lb = Fin l -> pyval ub = Fin u ->
  nd_ok a -> validate snum (PNum k s lb ub dv fd) (FArr a) (Some true) = Ok None ->
  exists x b, flatten (PNum k s lb ub dv fd) (FArr a) (Some true) (Some true) = Ok x /\
    fold (PNum k s lb ub dv fd) (vec x) (Some true) (Some true) = Ok (FArr b) /\
    forall i, i < prod s -> nth i (dat a) NaN = Fin u ->
      nth i x NaN = PInf /\ nth i (dat b) NaN = NaN.
Proof.
  intros k s lb ub dv fd a l u (Hs & Hlt) El Eu Hok Hv.
  destruct (numeric_free_round k s lb ub dv fd a (Some true) Hok Hs Hv) as (x & b & H1 & H2 & _ & _ & H3).
  exists x, b. split; auto. split; auto. intros i Hi Hu. destruct (H3 i Hi) as (E1 & E2).
  rewrite El, Eu in *. simpl in Hlt. destruct (at_upper_two_sided l u Hlt) as (A1 & A2).
  rewrite Hu, A1 in E1. rewrite E1, A2 in E2. auto.
Qed.

Theorem other_bounds_kept : forall k s lb ub dv fd a,
  usable (PNum k s lb ub dv fd) ->
  nd_ok a -> validate snum (PNum k s lb ub dv fd) (FArr a) (Some true) = Ok None ->
  exists x b, flatten (PNum k s lb ub dv fd) (FArr a) (Some true) (Some true) = Ok x /\
    fold (PNum k s lb ub dv fd) (vec x) (Some true) (Some true) = Ok (FArr b) /\
    (forall i r, i < prod s -> nth i (dat a) NaN = Fin r -> pyval lb = Fin r ->
      nth i x NaN = NInf /\ nth i (dat b) NaN = Fin r) /\
    (forall i r, i < prod s -> nth i (dat a) NaN = Fin r -> pyval ub = Fin r -> pyval lb = NInf ->
      nth i x NaN = PInf /\ nth i (dat b) NaN = Fin r).
Proof.
  intros k s lb ub dv fd a (Hs & Hlt) Hok Hv.
  destruct (numeric_free_round k s lb ub dv fd a (Some true) Hok Hs Hv) as (x & b & H1 & H2 & _ & _ & H3).
  exists x, b. split; auto. split; auto. split; intros i r Hi Ha Hb.
  - destruct (H3 i Hi) as (E1 & E2). destruct (at_lower (pyval lb) (pyval ub) r Hb Hlt) as (A1 & A2).
    rewrite Ha, <- Hb, A1 in E1. rewrite E1, A2 in E2. rewrite E2, Hb. auto.
  - intros Hl. destruct (H3 i Hi) as (E1 & E2). destruct (at_upper_one_sided r) as (A1 & A2).
    rewrite Hl, Hb in *. rewrite Ha, A1 in E1. rewrite E1, A2 in E2. auto.
Qed.

Theorem bound_validates : forall k s lb ub dv fd x,
  usable (PNum k s lb ub dv fd) -> x = pyval lb \/ x = pyval ub \/ x = NaN ->
  validate snum (PNum k s lb ub dv fd) (FArr (mkNd s (repeat x (prod s)))) (Some true) = Ok None.
Proof.
  intros k s lb ub dv fd x Hu Hx. apply validate_iff; auto.
  - simpl. unfold nd_ok. simpl. apply repeat_length.
  - simpl. split; [split; [apply repeat_length|auto]|]. apply Forall_forall. intros y Hy.
    apply repeat_spec in Hy. subst y. destruct Hu as (_ & Hlt).
    destruct (nlt_not_nan _ _ Hlt). destruct Hx as [-> | [-> | ->]]; auto; right; split;
      try (right; auto; fail); left; auto.
Qed.
