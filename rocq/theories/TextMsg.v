(** * The messages of [validate_folded] and of output wrappers. *)
From Coq Require Import Reals NArith Ascii String SpecFloat Lia.
From Verif Require Import Base Num Nd Numeric Simplex Psd Pattern Json PatJson Names Text
  Spec SpecJson SpecNames SpecText ListFacts PatFacts Contract JsonFacts NamesFacts TextFacts.
Local Open Scope list_scope.
Local Open Scope nat_scope.

Definition agree (r : res verdict) (t : res (bool * pystr)) : Prop :=
  match r with
  | Ok None => t = Ok (true, [])
  | Ok (Some _) => exists m, m <> [] /\ t = Ok (false, m)
  | Err e => t = Err e
  end.

Lemma format_bad_cell : forall a b, refuse_format "Bad value in location {}: {}" [a; b] =
  Ok (false, str "Bad value in location " ++ a ++ str ": " ++ b).
Proof. intros. unfold refuse_format. rewrite <- (app_nil_r b) at 2. reflexivity. Qed.
Lemma format_missing : forall a, refuse_format "{} not in folded_val dictionary." [a] =
  Ok (false, a ++ str " not in folded_val dictionary.").
Proof. reflexivity. Qed.
Lemma format_invalid : forall a, refuse_format "{} is not valid." [a] =
  Ok (false, a ++ str " is not valid.").
Proof. reflexivity. Qed.

Lemma text_agrees : forall A io (sc : scalar A) vv p v,
  agree (validate sc p v vv) (validate_text io sc p v vv).
Proof.
  intros A io sc vv.
  apply (pat_ind' (fun p => forall v, agree (validate sc p v vv) (validate_text io sc p v vv))).
  - intros k s lb ub dv fd [a|d]; [|reflexivity]. cbn [validate validate_text].
    unfold num_validate, num_validate_text. destruct (negb _); [eexists; split; [|reflexivity]; discriminate|].
    destruct (vv_or vv dv); [|reflexivity].
    destruct (existsb _ _); [eexists; split; [|reflexivity]; discriminate|].
    destruct (existsb _ _); [eexists; split; [|reflexivity]; discriminate|reflexivity].
  - intros n s dv fd [a|d]; [|reflexivity]. cbn [validate validate_text].
    unfold simplex_validate, simplex_validate_text. destruct (negb _); [reflexivity|].
    destruct (vv_or vv dv); [|reflexivity].
    destruct (existsb _ _); [eexists; split; [|reflexivity]; discriminate|].
    destruct (existsb _ _); [eexists; split; [|reflexivity]; discriminate|reflexivity].
  - intros n fl dlb dv fd [a|d]; [|reflexivity]. cbn [validate validate_text].
    unfold psd_validate, psd_validate_text. destruct (negb _); [reflexivity|]. cbv zeta.
    destruct (vv_or vv dv); [|reflexivity].
    destruct (existsb _ _); [eexists; split; [|reflexivity]; discriminate|].
    destruct (negb _); [eexists; split; [|reflexivity]; discriminate|reflexivity].
  - intros s b fd IH [a|d]; [|reflexivity]. cbn [validate validate_text]. cbv zeta.
    destruct (negb _); [eexists; split; [|reflexivity]; discriminate|].
    destruct (negb _); [eexists; split; [|reflexivity]; discriminate|].
    induction (indices s) as [|it its IHi]; [reflexivity|]. cbn [validate_cells cells_text].
    specialize (IH (FArr (subarr a it (length s)))). unfold agree in IH.
    destruct (validate sc b _ vv) as [[m|]|e].
    + destruct IH as (t & _ & ->). cbn [bind fst snd]. rewrite format_bad_cell.
      eexists; split; [|reflexivity]; discriminate.
    + rewrite IH. cbn [bind fst]. exact IHi.
    + rewrite IH. reflexivity.
  - intros items l fl fd lk IH [a|d]; [reflexivity|]. cbn [validate validate_text]. clear l fl fd lk.
    induction items as [|[k q] items IHi]; [reflexivity|]. inversion_clear IH as [|? ? Hq Hr].
    cbn [validate_items items_text]. destruct (dict_get d k) as [w|].
    + specialize (Hq w). cbn [snd] in Hq. unfold agree in Hq. destruct (validate sc q w vv) as [[m|]|e].
      * destruct Hq as (t & _ & ->). cbn [bind fst snd]. rewrite format_invalid.
        eexists; split; [|reflexivity]. destruct t; discriminate.
      * rewrite Hq. cbn [bind fst]. exact (IHi Hr).
      * rewrite Hq. reflexivity.
    + rewrite format_missing. eexists; split; [|reflexivity]. destruct (key_text k); discriminate.
Qed.

Theorem message_empty_iff_valid : forall A io (sc : scalar A) p v vv,
  (validate sc p v vv = Ok None <-> validate_text io sc p v vv = Ok (true, [])) /\
  ((exists m, validate sc p v vv = Ok (Some m)) <->
   (exists t, t <> [] /\ validate_text io sc p v vv = Ok (false, t))) /\
  (forall e, validate sc p v vv = Err e <-> validate_text io sc p v vv = Err e).
Proof.
  intros. pose proof (text_agrees A io sc vv p v) as H. unfold agree in H.
  destruct (validate sc p v vv) as [[m|]|e].
  - destruct H as (t & Ht & ->). split; [|split].
    + split; discriminate.
    + split; eauto.
    + split; discriminate.
  - rewrite H. split; [|split].
    + split; auto.
    + split; [intros (m & Hm); discriminate|intros (t & _ & Ht); discriminate].
    + split; discriminate.
  - rewrite H. split; [|split].
    + split; discriminate.
    + split; [intros (m & Hm); discriminate|intros (t & _ & Ht); discriminate].
    + intros e'. split; intros E; injection E as ->; auto.
Qed.

Theorem numeric_shape_message : forall A io (sc : scalar A) k s lb ub dv fd a vv,
  shp (atleast_1d a) <> s ->
  exists want got, tuple_of s want /\ tuple_of (shp (atleast_1d a)) got /\
    validate_text io sc (PNum k s lb ub dv fd) (FArr a) vv =
    Ok (false, str "Wrong size for array. Expected shape: " ++ want ++ str " Got shape: " ++ got).
Proof.
  intros A io sc k s lb ub dv fd a vv H. exists (tuple_text s), (tuple_text (shp (atleast_1d a))).
  split; [apply tuple_text_of|]. split; [apply tuple_text_of|].
  cbn [validate_text]. unfold num_validate_text. rewrite (proj2 (shape_eqb_false _ _)) by auto. reflexivity.
Qed.

(** A PatternArray calls the shape of the value the expected one. *)
Theorem array_message_swapped : forall A io (sc : scalar A) s b fd a vv,
  (ndim a <> length (folded_shape (PArr s b fd)) ->
   exists want got, numeral_of (length (folded_shape (PArr s b fd))) want /\ numeral_of (ndim a) got /\
     want <> got /\
     validate_text io sc (PArr s b fd) (FArr a) vv =
     Ok (false, str "Wrong number of dimensions.  Expected " ++ got ++ str ", got " ++ want ++ str ".")) /\
  (ndim a = length (folded_shape (PArr s b fd)) -> shp a <> folded_shape (PArr s b fd) ->
   exists want got, tuple_of (folded_shape (PArr s b fd)) want /\ tuple_of (shp a) got /\
     want <> got /\
     validate_text io sc (PArr s b fd) (FArr a) vv =
     Ok (false, str "Wrong shape.  Expected " ++ got ++ str ", got " ++ want ++ str ".")).
Proof.
  intros A io sc s b fd a vv. split.
  - intros H. exists (nat_text (length (folded_shape (PArr s b fd)))), (nat_text (ndim a)).
    split; [apply nat_numeral|]. split; [apply nat_numeral|]. split.
    + intros E. apply nat_text_inj in E. auto.
    + cbn [validate_text]. cbv zeta. apply Nat.eqb_neq in H. rewrite H. reflexivity.
  - intros H0 H. exists (tuple_text (folded_shape (PArr s b fd))), (tuple_text (shp a)).
    split; [apply tuple_text_of|]. split; [apply tuple_text_of|]. split.
    + intros E. apply H. apply (tuple_unique _ _ (tuple_text (shp a))); [apply tuple_text_of|].
      rewrite <- E. apply tuple_text_of.
    + cbn [validate_text]. cbv zeta. apply Nat.eqb_eq in H0. rewrite H0, (proj2 (shape_eqb_false _ _)) by auto. reflexivity.
Qed.

Lemma cells_first : forall A (vb : nd A -> res (bool * pystr)) a k cells t,
  (forall x m, vb x = Ok (true, m) -> m = []) ->
  cells_text vb a k cells = Ok (false, t) ->
  exists pre it post m, cells = pre ++ it :: post /\
    Forall (fun c => vb (subarr a c k) = Ok (true, [])) pre /\
    vb (subarr a it k) = Ok (false, m) /\
    t = str "Bad value in location " ++ tuple_text it ++ str ": " ++ m.
Proof.
  intros A vb a k cells t Hm. induction cells as [|c cells IH]; intros H; [discriminate|].
  cbn [cells_text] in H. destruct (vb (subarr a c k)) as [[[|] m]|] eqn:E; [| |discriminate].
  - cbn [bind fst] in H. destruct (IH H) as (pre & it & post & m' & -> & HF & Hit & ->).
    exists (c :: pre), it, post, m'. split; auto. split; auto. constructor; auto.
    rewrite E. f_equal. f_equal. eapply Hm; eauto.
  - cbn [bind fst snd] in H. rewrite format_bad_cell in H. injection H as <-.
    exists [], c, cells, m. auto.
Qed.
Lemma valid_no_message : forall A io (sc : scalar A) p v vv t,
  validate_text io sc p v vv = Ok (true, t) -> t = [].
Proof.
  intros A io sc p v vv t H. pose proof (text_agrees A io sc vv p v) as G. unfold agree in G.
  destruct (validate sc p v vv) as [[m|]|e]; [destruct G as (m' & _ & G)| |]; congruence.
Qed.

(** The message names the first invalid cell, in row-major order. *)
Theorem array_message_first : forall A io (sc : scalar A) s b fd a vv t,
  shp a = folded_shape (PArr s b fd) ->
  validate_text io sc (PArr s b fd) (FArr a) vv = Ok (false, t) ->
  exists it m st, In it (indices s) /\ tuple_of it st /\
    validate_text io sc b (FArr (subarr a it (length s))) vv = Ok (false, m) /\
    t = str "Bad value in location " ++ st ++ str ": " ++ m /\
    forall it', In it' (indices s) -> row_major it' s < row_major it s ->
      validate_text io sc b (FArr (subarr a it' (length s))) vv = Ok (true, []).
Proof.
  intros A io sc s b fd a vv t Hs H. cbn [validate_text] in H. cbv zeta in H.
  unfold ndim in H. rewrite Hs, Nat.eqb_refl, shape_eqb_refl in H. cbn [negb] in H.
  apply cells_first in H; [|intros; eapply valid_no_message; eauto].
  destruct H as (pre & it & post & m & Hi & HF & Hit & ->).
  exists it, m, (tuple_text it). split; [rewrite Hi; apply in_or_app; right; left; auto|].
  split; [apply tuple_text_of|]. split; [auto|]. split; [auto|].
  intros it' Hin Hlt. rewrite Forall_forall in HF. apply HF.
  assert (forall x, In x (indices s) -> row_major x s = ravel x s) as Hr.
  { intros x Hx. apply row_major_ravel. apply in_indices in Hx. clear - Hx. induction Hx; cbn; auto. }
  assert (In it (indices s)) as Hit' by (rewrite Hi; apply in_or_app; right; left; auto).
  rewrite !Hr in Hlt by auto.
  assert (ravel it s = length pre) as Hp.
  { pose proof (ravel_indices s) as Hs'. rewrite Hi, map_app in Hs'. cbn [map] in Hs'.
    assert (nth (length pre) (map (fun x => ravel x s) pre ++ ravel it s :: map (fun x => ravel x s) post) 0 = length pre) as E.
    { rewrite Hs'. apply seq_nth. rewrite <- indices_length, Hi, app_length. cbn. lia. }
    rewrite app_nth2 in E by (rewrite map_length; lia). rewrite map_length, Nat.sub_diag in E. exact E. }
  rewrite <- (nth_ravel s it' [] Hin), Hi, app_nth1 by lia. apply nth_In. lia.
Qed.

(** The message of a dictionary: the first member that is missing or invalid.  A
    missing key is named, an invalid member is not. *)
Theorem dict_message : forall A io (sc : scalar A) items l fl fd lk d vv t,
  validate_text io sc (PDict items l fl fd lk) (FDict d) vv = Ok (false, t) ->
  exists pre k q post, items = pre ++ (k, q) :: post /\
    Forall (fun kq => exists w, dict_get d (fst kq) = Some w /\
                      validate_text io sc (snd kq) w vv = Ok (true, [])) pre /\
    match dict_get d k with
    | None => exists kt, (forall s, k = KStr s -> kt = s) /\
        t = kt ++ str " not in folded_val dictionary."
    | Some w => exists m, validate_text io sc q w vv = Ok (false, m) /\ t = m ++ str " is not valid."
    end.
Proof.
  intros A io sc items l fl fd lk d vv t H. cbn [validate_text] in H. clear l fl fd lk.
  induction items as [|[k q] items IH]; [discriminate|]. cbn [items_text] in H.
  destruct (dict_get d k) as [w|] eqn:Ek.
  - destruct (validate_text io sc q w vv) as [[[|] m]|] eqn:Ev; [| |discriminate].
    + cbn [bind fst] in H. destruct (IH H) as (pre & k' & q' & post & -> & HF & Hm).
      exists ((k, q) :: pre), k', q', post. split; auto. split; auto. constructor; auto.
      exists w. split; auto. cbn [snd]. rewrite Ev. apply valid_no_message in Ev. subst. auto.
    + cbn [bind fst snd] in H. rewrite format_invalid in H. injection H as <-.
      exists [], k, q, items. rewrite Ek. eauto.
  - rewrite format_missing in H. injection H as <-. exists [], k, q, items. rewrite Ek.
    split; auto. split; auto. exists (key_text k). split; auto. intros s ->. reflexivity.
Qed.

Theorem invalid_member_not_named : forall A io (sc : scalar A) q good bad vv a b l fl fd lk m,
  a <> b -> validate_text io sc q good vv = Ok (true, []) -> validate_text io sc q bad vv = Ok (false, m) ->
  validate_text io sc (PDict [(a, q); (b, q)] l fl fd lk) (FDict [(a, bad); (b, good)]) vv =
    Ok (false, m ++ str " is not valid.") /\
  validate_text io sc (PDict [(a, q); (b, q)] l fl fd lk) (FDict [(a, good); (b, bad)]) vv =
    Ok (false, m ++ str " is not valid.").
Proof.
  intros A io sc q good bad vv a b l fl fd lk m Hab Hg Hb.
  assert (key_eqb b a = false) as E1.
  { unfold key_eqb. destruct (key_eq_dec b a); congruence. }
  assert (forall k, key_eqb k k = true) as E2.
  { intros k. unfold key_eqb. destruct (key_eq_dec k k); congruence. }
  cbn [validate_text items_text dict_get]. rewrite !E1, !E2, Hg, Hb. cbn [bind fst snd].
  rewrite format_invalid. auto.
Qed.

(** The messages of output wrappers do not contain the positions or the number of
    results; the name of the function stands where the positions should. *)
Theorem wrapper_messages : forall name retnums n,
  one_result_text name retnums =
    Ok (str "{} returned only one value, but multipleretnums were specified: " ++ name) /\
  missing_result_text name retnums n =
    Ok (str "Not enough return values in {} ({}) forspecified retnums " ++ name ++ str ".").
Proof.
  intros. split; [|reflexivity]. unfold one_result_text.
  rewrite <- (app_nil_r name) at 2. reflexivity.
Qed.

(** Which text a leaf refuses a value of the right shape with. *)
Theorem leaf_messages : forall A io (sc : scalar A),
  (forall k s lb ub dv fd a vv t, shp (atleast_1d a) = s ->
     validate_text io sc (PNum k s lb ub dv fd) (FArr a) vv = Ok (false, t) ->
     ((exists x, In x (dat a) /\ nltb (to_num sc x) (pyval lb) = true) /\ t = str "Value beneath lower bound.") \/
     (~ (exists x, In x (dat a) /\ nltb (to_num sc x) (pyval lb) = true) /\
      (exists x, In x (dat a) /\ ngtb (to_num sc x) (pyval ub) = true) /\ t = str "Value above upper bound.")) /\
  (forall n s dv fd a vv t,
     validate_text io sc (PSimplex n s dv fd) (FArr a) vv = Ok (false, t) ->
     shp a = s ++ [n] /\
     (((exists x, In x (dat a) /\ nltb (to_num sc x) (Fin 0) = true) /\ t = str "Some values are negative.") \/
      (~ (exists x, In x (dat a) /\ nltb (to_num sc x) (Fin 0) = true) /\
       t = str "The simplexes do not sum to one."))) /\
  (forall n fl d dv fd a vv t,
     validate_text io sc (PPsd n fl d dv fd) (FArr a) vv = Ok (false, t) ->
     shp a = [n; n] /\
     let low := exists i, i < n /\ nltb (mat_of n (nd_map (to_num sc) a) i i) (pyval d) = true in
     ((low /\ t = str "Diagonal is less than the lower bound " ++ value_text io d ++ str ".") \/
      (~ low /\ (exists i j, i < n /\ j < n /\
         neqb (mat_of n (nd_map (to_num sc) a) j i) (mat_of n (nd_map (to_num sc) a) i j) = false) /\
       t = str "Matrix is not symmetric."))).
Proof.
  intros A io sc.
  assert (forall B (f : B -> bool) l, existsb f l = false -> ~ exists x, In x l /\ f x = true) as Hno.
  { intros B f l H E. apply existsb_exists in E. congruence. }
  split; [|split].
  - intros k s lb ub dv fd a vv t Hs H. cbn [validate_text] in H. unfold num_validate_text in H.
    rewrite Hs, shape_eqb_refl in H. cbn [negb] in H.
    assert (dat (atleast_1d a) = dat a) as Hd by (unfold atleast_1d; destruct (shp a); auto). rewrite Hd in H.
    destruct (vv_or _ _); [|discriminate].
    destruct (existsb (fun x => nltb _ _) _) eqn:E1.
    + left. apply existsb_exists in E1. injection H as <-. auto.
    + destruct (existsb (fun x => ngtb _ _) _) eqn:E2; [|discriminate]. right.
      apply Hno in E1. apply existsb_exists in E2. injection H as <-. auto.
  - intros n s dv fd a vv t H. cbn [validate_text] in H. unfold simplex_validate_text in H.
    destruct (shape_eqb _ _) eqn:Es; [|discriminate]. apply shape_eqb_true in Es. split; [exact Es|]. cbn [negb] in H.
    destruct (vv_or _ _); [|discriminate].
    destruct (existsb (fun x => nltb _ _) _) eqn:E1.
    + left. apply existsb_exists in E1. injection H as <-. auto.
    + destruct (existsb row_sum_bad _) eqn:E2; [|discriminate]. right.
      apply Hno in E1. injection H as <-. auto.
  - intros n fl d dv fd a vv t H. cbn [validate_text] in H. unfold psd_validate_text in H.
    destruct (shape_eqb _ _) eqn:Es; [|discriminate]. apply shape_eqb_true in Es. split; [exact Es|]. cbn [negb] in H.
    cbv zeta in *. destruct (vv_or _ _); [|discriminate].
    destruct (existsb (fun i => nltb _ _) _) eqn:E1.
    + left. apply existsb_exists in E1. destruct E1 as (i & Hi & Hlt). apply in_seq in Hi. split; [exists i; split; [lia|exact Hlt]|].
      unfold refuse_format in H. destruct (format _ _) as [t'|] eqn:Ef; [|discriminate].
      injection H as <-. injection Ef as <-. reflexivity.
    + destruct (forallb _ _) eqn:E2; [discriminate|]. right. injection H as <-. apply Hno in E1.
      split; [intros (i & Hi & Hl); apply E1; exists i; split; [apply in_seq; lia|exact Hl]|]. split; [|reflexivity].
      clear E1. assert (forall B (f : B -> bool) l, forallb f l = false -> exists x, In x l /\ f x = false) as Hf.
      { intros B f l. induction l as [|x l IH]; [discriminate|]. cbn [forallb]. destruct (f x) eqn:E; cbn [andb].
        - intros Hl. destruct (IH Hl) as (y & Hy & Hfy). exists y. split; [right|]; auto.
        - intros _. exists x. split; [left|]; auto. }
      apply Hf in E2. destruct E2 as (i & Hi & E2). apply Hf in E2. destruct E2 as (j & Hj & E2).
      apply in_seq in Hi, Hj. exists i, j. split; [lia|]. split; [lia|exact E2].
Qed.
