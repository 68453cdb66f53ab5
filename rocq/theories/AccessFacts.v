(** * Accessors agree with the constructors and with the folded values. *)
From Coq Require Import Reals Lia.
From Verif Require Import SpecText Base Num Nd Numeric Simplex Psd Pattern Access Spec ListFacts PatFacts
  NonFree NumFacts CholFacts Free Contract Valid Empty PsdProps.
Local Open Scope list_scope.
Local Open Scope nat_scope.

Theorem constructor_accessors :
  (forall s lb ub dv fd p, new_numeric_array s lb ub dv fd = Ok p ->
     shape_of p = Ok s /\ bounds p = Ok (lb, ub) /\ free_default p = fd /\
     flat_len p true = plint (prod s) /\ flat_len p false = plint (prod s)) /\
  (forall n lb ub dv fd p, new_numeric_vector n lb ub dv fd = Ok p ->
     shape_of p = Ok [n] /\ vector_length p = Ok n /\ bounds p = Ok (lb, ub) /\ free_default p = fd /\
     flat_len p true = plint n /\ flat_len p false = plint n) /\
  (forall lb ub dv fd p, new_numeric_scalar lb ub dv fd = Ok p ->
     shape_of p = Ok [1] /\ bounds p = Ok (lb, ub) /\ free_default p = fd /\
     vector_length p = Err AttributeError /\
     flat_len p true = plint 1 /\ flat_len p false = plint 1) /\
  (forall n s dv fd p, new_simplex (Z.of_nat n) s dv fd = Ok p ->
     shape_of p = Ok (s ++ [n]) /\ array_shape p = Ok s /\ simplex_size p = Ok n /\ free_default p = fd /\
     flat_len p true = plint (prod s * (n - 1)) /\ flat_len p false = plint (prod s * n)) /\
  (forall n lb dv fd p, new_psd n 1 lb dv fd = Ok p ->
     shape_of p = Ok [n; n] /\ psd_size p = Ok n /\ psd_diag_lb p = Ok lb /\ free_default p = fd /\
     flat_len p true = plint (n * (n + 1) / 2) /\ flat_len p false = plint (n * n)) /\
  (forall s b fd p sb, new_pattern_array s b fd = Ok p -> shape_of b = Ok sb ->
     shape_of p = Ok (s ++ sb) /\ array_shape p = Ok s /\ base_pattern p = Ok b /\ free_default p = fd) /\
  (forall fd, dict_keys (new_dict fd) = Ok [] /\ shape_of (new_dict fd) = Err AttributeError /\
     free_default (new_dict fd) = fd).
Proof.
  assert (forall k s lb ub dv fd p, new_numeric_kind k s lb ub dv fd = Ok p -> p = PNum k s lb ub dv fd) as Hn.
  { intros k s lb ub dv fd p H. apply numeric_constructor in H. tauto. }
  assert (forall s m, np_prod (s ++ [m]) = plint (prod s * m)) as Hp.
  { intros s m. unfold np_prod. destruct (s ++ [m]) eqn:E; [destruct s; discriminate|].
    rewrite <- E, prod_app. cbn. f_equal. lia. }
  repeat match goal with |- _ /\ _ => split end.
  - intros s lb ub dv fd p H. apply Hn in H. subst. repeat split; reflexivity.
  - intros n lb ub dv fd p H. apply Hn in H. subst. cbn. rewrite Nat.mul_1_r. repeat split; reflexivity.
  - intros lb ub dv fd p H. apply Hn in H. subst. repeat split; reflexivity.
  - intros n s dv fd p H. unfold new_simplex in H. destruct (_ <=? _)%Z; [discriminate|].
    rewrite Nat2Z.id in H. injection H as <-. cbn [shape_of array_shape simplex_size free_default flat_len].
    rewrite !Hp. repeat split; reflexivity.
  - intros n lb dv fd p H. unfold new_psd in H. destruct (nltb _ _); [discriminate|]. cbv zeta in H.
    change (Pos.to_nat 1) with 1 in H. rewrite Nat.div_1_r in H. injection H as <-.
    repeat split; reflexivity.
  - intros s b fd p sb H Hb. destruct b; try discriminate H; injection H as <-;
      injection Hb as <-; repeat split; reflexivity.
  - intros fd. repeat split; reflexivity.
Qed.

Lemma shape_of_folded : forall p, is_dict p = false -> shape_of p = Ok (folded_shape p).
Proof. intros [] H; try discriminate H; reflexivity. Qed.

Theorem shape_is_shape : forall p, usable p -> is_dict p = false ->
  exists s, shape_of p = Ok s /\ pl_n (flat_len p false) = prod s /\
    (forall A (sc : scalar A) x free vv v, length (dat x) = prod (shp x) ->
       fold_ sc p x free vv = Ok v -> exists a, v = FArr a /\ shp a = s) /\
    (exists a, empty_valid p = Ok (FArr a) /\ shp a = s).
Proof.
  intros p Hu Hd. exists (folded_shape p). split; [apply shape_of_folded; auto|]. split; [|split].
  - apply flat_len_arr; auto.
  - intros A sc x free vv v Hx H. destruct p as [k s lb ub dv fd|n s dv fd|n fl dlb dv fd|s b fd|]; [| | | |discriminate].
    + cbn [fold_] in H. cbv zeta in H. destruct (negb _); [discriminate|]. destruct (negb _); [discriminate|].
      destruct free; [injection H as <-; eexists; split; reflexivity|].
      unfold reshape in H. destruct (_ =? _); [|discriminate]. cbn [bind] in H.
      destruct (require_valid _ _ _ _); [|discriminate]. injection H as <-. eexists; split; reflexivity.
    + cbn [fold_] in H. destruct (pylen x); [|discriminate]. cbn [bind] in H. destruct (negb _); [discriminate|].
      destruct free.
      * destruct (reshape _ _); [|discriminate]. cbn [bind] in H. injection H as <-. eexists; split; reflexivity.
      * unfold reshape in H. destruct (_ =? _); [|discriminate]. cbn [bind] in H.
        destruct (require_valid _ _ _ _); [|discriminate]. injection H as <-. eexists; split; reflexivity.
    + destruct Hu as (Hfl & _). cbn [fold_] in H. cbv zeta in H. destruct (negb _); [discriminate|].
      destruct (size _ =? _) eqn:El; [|discriminate]. cbn [negb] in H. apply Nat.eqb_eq in El.
      destruct free.
      * unfold unpack_posdef in H. rewrite (unvectorize_T _ n) in H.
        -- cbn [bind fst] in H. injection H as <-. eexists; split; reflexivity.
        -- rewrite map_length. cbn [flat_len plint pl_n] in El. unfold size, atleast_1d in *.
           destruct (shp x) as [|d r] eqn:Es; cbn [shp dat] in *; rewrite Hx.
           ++ change (prod []) with (prod [1]). rewrite El. exact Hfl.
           ++ rewrite <- Es, El. exact Hfl.
      * unfold reshape in H. destruct (_ =? _); [|discriminate]. cbn [bind] in H.
        destruct (require_valid _ _ _ _); [|discriminate]. injection H as <-. eexists; split; reflexivity.
    + cbn [fold_] in H. cbv zeta in H. destruct (negb _); [discriminate|]. destruct (negb _); [discriminate|].
      destruct s as [|d0 s]; [discriminate|]. destruct (mapM _ _) as [parts|]; [|discriminate]. cbn [bind] in H.
      unfold stack_reshape in H. destruct (_ =? _); [|discriminate]. cbn [bind] in H.
      destruct free; [injection H as <-; eexists; split; reflexivity|].
      destruct (require_valid _ _ _ _); [|discriminate]. injection H as <-. eexists; split; reflexivity.
  - destruct (empty_interior p Hu) as (v & Hv & _ & _ & Hs). destruct (Hs Hd) as (d & ->). eexists. split; [exact Hv|reflexivity].
Qed.

Theorem valid_has_shape : forall A (sc : scalar A) p a vv, is_dict p = false ->
  validate sc p (FArr a) vv = Ok None ->
  shape_of p = Ok (shp a) \/ (exists k lb ub dv fd, p = PNum k [1] lb ub dv fd /\ shp a = []).
Proof.
  intros A sc [k s lb ub dv fd|n s dv fd|n fl dlb dv fd|s b fd|] a vv Hd H; [| | | |discriminate].
  - cbn [validate] in H. unfold num_validate in H. destruct (shape_eqb _ _) eqn:E; [|discriminate].
    apply shape_eqb_true in E. unfold atleast_1d in E. cbn [shape_of].
    destruct (shp a) as [|d r] eqn:Es.
    + right. cbn in E. subst s. repeat eexists.
    + left. rewrite Es in E. subst. auto.
  - left. cbn [validate] in H. unfold simplex_validate in H. destruct (shape_eqb _ _) eqn:E; [|discriminate].
    apply shape_eqb_true in E. cbn [shape_of]. rewrite E. auto.
  - left. cbn [validate] in H. unfold psd_validate in H. destruct (shape_eqb _ _) eqn:E; [|discriminate].
    apply shape_eqb_true in E. cbn [shape_of]. rewrite E. auto.
  - left. cbn [validate] in H. cbv zeta in H. destruct (negb _); [discriminate|].
    destruct (shape_eqb _ _) eqn:E; [|discriminate].
    apply shape_eqb_true in E. cbn [shape_of]. rewrite E. reflexivity.
Qed.

Theorem keys_are_keys : forall A (sc : scalar A) p x free vv d ks, usable p -> dict_keys p = Ok ks ->
  fold_ sc p x free vv = Ok (FDict d) -> map fst d = ks.
Proof.
  intros A sc [| | | |items l fl fd lk] x free vv d ks Hu Hk H; try discriminate. injection Hk as <-.
  cbn [fold_] in H. cbv zeta in H. destruct (negb _); [discriminate|].
  destruct (negb _); [destruct (str_ok _); discriminate|].
  match type of H with context [fold_items ?f ?b ?fl ?it ?o] => destruct (fold_items f b fl it o) as [d'|] eqn:E; [|discriminate] end.
  cbn [bind] in H.
  assert (d' = d) as ->.
  { destruct free; [congruence|]. destruct (require_valid _ _ _ _); [|discriminate]. cbn [bind] in H. congruence. }
  clear H Hu l fl fd lk. revert E. generalize (plint 0). revert d.
  induction items as [|[k q] items IH]; intros d o E; cbn [fold_items] in E.
  - injection E as <-. reflexivity.
  - destruct (as_index _); [|discriminate]. cbn [bind] in E. destruct (as_index _); [|discriminate]. cbn [bind] in E.
    destruct (fold_ _ _ _ _ _); [|discriminate]. cbn [bind] in E.
    match type of E with context [fold_items ?f ?b ?fl ?it ?o] => destruct (fold_items f b fl it o) as [r|] eqn:E'; [|discriminate] end.
    cbn [bind] in E. injection E as <-. cbn [map fst]. f_equal. eapply IH; eauto.
Qed.

(** [d[k] = q] appends a new key and keeps the place of an old one; [d[k]] is then
    [q], a dictionary being locked; [del d[k]] removes it. *)
Theorem keys_after_set : forall p k q p' ks, dict_keys p = Ok ks -> setitem p k q = Ok p' ->
  dict_keys p' = Ok (if existsb (key_eqb k) ks then ks else ks ++ [k]) /\
  dict_getitem p' k = Ok (lock_pat q) /\
  forall k', k' <> k -> dict_getitem p' k' = dict_getitem p k'.
Proof.
  intros p k q p' ks Hk H. destruct p as [| | | |items l fl fd lk]; try discriminate. injection Hk as <-.
  cbn [setitem] in H. destruct lk; [discriminate|]. injection H as <-.
  cbn [dict_keys dict_getitem]. generalize (lock_pat q). intros q'. clear q.
  assert (forall a, key_eqb a a = true) as Hr.
  { intros a. unfold key_eqb. destruct (key_eq_dec a a); congruence. }
  assert (forall a b, key_eqb a b = true -> a = b) as Ht.
  { intros a b. unfold key_eqb. destruct (key_eq_dec a b); congruence. }
  split; [f_equal|split].
  - induction items as [|[k0 q0] items IH]; [reflexivity|]. cbn [assign map fst existsb].
    destruct (key_eqb k k0) eqn:E; cbn [orb map fst]; [reflexivity|]. rewrite IH.
    destruct (existsb _ _); reflexivity.
  - induction items as [|[k0 q0] items IH]; cbn [assign dict_get].
    + rewrite Hr. reflexivity.
    + destruct (key_eqb k k0) eqn:E; cbn [dict_get]; rewrite E; auto.
  - intros k' Hk'. assert (key_eqb k' k = false) as Hf.
    { destruct (key_eqb k' k) eqn:E; auto. apply Ht in E. contradiction. }
    induction items as [|[k0 q0] items IH]; cbn [assign dict_get].
    + rewrite Hf. reflexivity.
    + destruct (key_eqb k k0) eqn:E; cbn [dict_get].
      * apply Ht in E. subst k0. rewrite Hf. reflexivity.
      * destruct (key_eqb k' k0); auto.
Qed.
Theorem keys_after_del : forall p k p', delitem p k = Ok p' ->
  exists ks, dict_keys p = Ok ks /\ In k ks /\
    dict_keys p' = Ok (filter (fun k' => negb (key_eqb k k')) ks) /\
    dict_getitem p' k = Err KeyError /\
    forall k', k' <> k -> dict_getitem p' k' = dict_getitem p k'.
Proof.
  intros p k p' H. destruct p as [| | | |items l fl fd lk]; try discriminate.
  cbn [delitem] in H. destruct lk; [discriminate|]. destruct (dict_get items k) as [q|] eqn:Eg; [|discriminate].
  injection H as <-. exists (map fst items).
  assert (forall a b, key_eqb a b = true <-> a = b) as Ht.
  { intros a b. unfold key_eqb. destruct (key_eq_dec a b); split; congruence. }
  split; [reflexivity|]. split; [|split; [|split]].
  - clear -Eg Ht. induction items as [|[k0 q0] items IH]; [discriminate|]. cbn [dict_get] in Eg.
    destruct (key_eqb k k0) eqn:E; [left; symmetry; apply Ht; auto|right; auto].
  - cbn [dict_keys]. f_equal. unfold remove_key. clear. induction items as [|[k0 q0] items IH]; [reflexivity|].
    cbn [filter map fst]. destruct (negb _); cbn [map fst]; rewrite IH; reflexivity.
  - cbn [dict_getitem]. replace (dict_get (remove_key items k) k) with (@None pat); [reflexivity|].
    unfold remove_key. clear -Ht. induction items as [|[k0 q0] items IH]; [reflexivity|].
    cbn [filter fst]. destruct (key_eqb k k0) eqn:E; cbn [negb dict_get]; auto. rewrite E. auto.
  - intros k' Hk'. cbn [dict_getitem]. replace (dict_get (remove_key items k) k') with (dict_get items k'); [reflexivity|].
    unfold remove_key. clear -Ht Hk'. induction items as [|[k0 q0] items IH]; [reflexivity|].
    cbn [filter fst dict_get]. destruct (key_eqb k k0) eqn:E; cbn [negb dict_get].
    + apply Ht in E. subst k0. destruct (key_eqb k' k) eqn:E'; auto. apply Ht in E'. contradiction.
    + destruct (key_eqb k' k0); auto.
Qed.

(** ** Which class has which accessor *)
Theorem accessor_classes : forall p,
  (lacks (shape_of p) <-> exists items l fl fd lk, p = PDict items l fl fd lk) /\
  (lacks (array_shape p) <-> ~ ((exists n s dv fd, p = PSimplex n s dv fd) \/ (exists s b fd, p = PArr s b fd))) /\
  (lacks (bounds p) <-> ~ exists k s lb ub dv fd, p = PNum k s lb ub dv fd) /\
  (lacks (vector_length p) <-> ~ exists s lb ub dv fd, p = PNum KVector s lb ub dv fd) /\
  (lacks (simplex_size p) <-> ~ exists n s dv fd, p = PSimplex n s dv fd) /\
  (lacks (psd_size p) <-> ~ exists sz fl lb dv fd, p = PPsd sz fl lb dv fd) /\
  (lacks (psd_diag_lb p) <-> ~ exists sz fl lb dv fd, p = PPsd sz fl lb dv fd) /\
  (lacks (base_pattern p) <-> ~ exists s b fd, p = PArr s b fd) /\
  (lacks (dict_keys p) <-> ~ exists items l fl fd lk, p = PDict items l fl fd lk) /\
  (forall k, dict_getitem p k = Err TypeError <-> ~ exists items l fl fd lk, p = PDict items l fl fd lk).
Proof.
  intros p. unfold lacks.
  destruct p as [k s lb ub dv fd|n s dv fd|sz fl lb dv fd|s b fd|items l fl fd lk]; try destruct k;
    cbn [shape_of array_shape bounds vector_length simplex_size psd_size psd_diag_lb base_pattern dict_keys dict_getitem];
    repeat split; intros;
    try discriminate; try reflexivity;
    repeat match goal with
    | H : _ \/ _ |- _ => destruct H
    | H : exists _, _ |- _ => destruct H
    end; try discriminate;
    try (intros X; repeat match goal with
      | H : _ \/ _ |- _ => destruct H
      | H : exists _, _ |- _ => destruct H
      end; discriminate);
    try (exfalso; match goal with H : ~ _ |- _ => apply H; eauto 12 end);
    try (destruct (dict_get items k); discriminate);
    eauto 12.
Qed.
