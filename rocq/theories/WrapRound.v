(** * Folding and flattening wrappers undo each other. *)
From Coq Require Import Reals NArith Ascii String Permutation Sorted.
From Verif Require Import Base Num Nd Numeric Simplex Psd Pattern Spec Api FunWrap SpecWrap
  WrapFacts WrapProps.
Local Open Scope list_scope.
Local Open Scope nat_scope.

Lemma fold_default : forall q a fr b vv, free_with_default q fr = Ok b ->
  fold q a fr vv = fold q a (Some b) vv.
Proof. intros q a fr b vv H. unfold fold, fold_gen. rewrite H. reflexivity. Qed.

Lemma flatten_default : forall q v fr b vv, free_with_default q fr = Ok b ->
  flatten q v fr vv = flatten q v (Some b) vv.
Proof. intros q v fr b vv H. unfold flatten, flatten_gen. rewrite H. reflexivity. Qed.

(** One value: flattened and folded again. *)
Lemma there_and_back : forall X q v fr b, free_with_default q fr = Ok b -> usable q ->
  (if b then interior q v else fv_ok v /\ exists x, flatten q v (Some false) None = Ok x) ->
  exists x, p_flatten (@pat_obj X q) fr (OVal v) = Ok (OVal (FArr (vec x))) /\
            p_fold (@pat_obj X q) fr (OVal (FArr (vec x))) = Ok (OVal (canon q v)).
Proof.
  intros X q v fr b Hb Hu H. cbn [pat_obj p_flatten p_fold].
  rewrite (flatten_default q v fr b None Hb).
  destruct b.
  - destruct (api_free_fold_of_flatten q v None None Hu H) as (x & E1 & _ & E2).
    exists (map Fin x). rewrite E1, (fold_default q _ fr true None Hb), E2. split; reflexivity.
  - destruct H as (Hv & x & E1).
    destruct (api_nonfree_fold_of_flatten num snum q v x None Hu Hv E1) as (_ & E2).
    exists x. rewrite E1, (fold_default q _ fr false None Hb). unfold fold. rewrite E2.
    split; reflexivity.
Qed.

(** One vector: folded and flattened again. *)
Lemma back_and_there : forall X q x fr b, free_with_default q fr = Ok b -> usable q ->
  (if b then exists r, x = map Fin r /\ flat_length q (Some true) = Ok (plint (length r))
   else exists v, fold q (vec x) (Some false) None = Ok v) ->
  exists v, p_fold (@pat_obj X q) fr (OVal (FArr (vec x))) = Ok (OVal v) /\
            p_flatten (@pat_obj X q) fr (OVal v) = Ok (OVal (FArr (vec x))).
Proof.
  intros X q x fr b Hb Hu H. cbn [pat_obj p_flatten p_fold].
  rewrite (fold_default q _ fr b None Hb).
  destruct b.
  - destruct H as (r & -> & HL).
    destruct (api_free_flatten_of_fold q r None None Hu HL) as (v & E1 & E2).
    exists v. rewrite E1, (flatten_default q _ fr true None Hb), E2. split; reflexivity.
  - destruct H as (v & E1).
    pose proof (api_nonfree_flatten_of_fold num snum q x v None Hu E1) as E2.
    exists v. rewrite E1, (flatten_default q _ fr false None Hb). unfold flatten. rewrite E2.
    split; reflexivity.
Qed.

Section Compose.
Context {V : Type} (m1 m2 : patobj V -> option bool -> V -> res V)
        (ps : list (patobj V)) (ns : list Z) (fs : list (option bool)).

(** Conversions one after the other, position by position. *)
Lemma placed_compose : forall vals vals', Forall (fun z => (0 <= z)%Z) ns ->
  Forall (fun z => (z < Z.of_nat (length vals))%Z) ns -> length vals' = length vals ->
  (forall j o, nth_error vals j = Some o -> exists o', nth_error vals' j = Some o' /\
     ((exists p fr o1, carries ps ns fs (Z.of_nat j) p fr /\ m1 p fr o = Ok o1 /\ m2 p fr o1 = Ok o') \/
      (~ In (Z.of_nat j) ns /\ o' = o))) ->
  exists mid, placed m1 ps ns fs vals mid /\ placed m2 ps ns fs mid vals'.
Proof.
  intros vals vals' NN NL HL HJ.
  destruct (list_of_choice V (length vals) (fun j o1 => forall o o', nth_error vals j = Some o ->
     nth_error vals' j = Some o' ->
     (exists p fr, carries ps ns fs (Z.of_nat j) p fr /\ m1 p fr o = Ok o1 /\ m2 p fr o1 = Ok o') \/
     (~ In (Z.of_nat j) ns /\ o1 = o /\ o' = o))) as (mid & Lm & Hm).
  { intros j Hj.
    destruct (nth_error vals j) as [o|] eqn:Eo; [|apply nth_error_None in Eo; lia].
    destruct (HJ j o Eo) as (o' & Eo' & [(p & fr & o1 & Hc & H1 & H2) | (N & ->)]).
    - exists o1. intros a a' Ea Ea'. injection Ea as <-. rewrite Eo' in Ea'. injection Ea' as <-.
      left. exists p, fr. auto.
    - exists o. intros a a' Ea Ea'. injection Ea as <-. rewrite Eo' in Ea'. injection Ea' as <-.
      right. auto. }
  assert (HB : forall j o, nth_error vals j = Some o -> exists o1 o',
     nth_error mid j = Some o1 /\ nth_error vals' j = Some o').
  { intros j o Eo. assert (Hj : j < length vals) by (apply nth_error_Some; congruence).
    destruct (nth_error mid j) as [o1|] eqn:E1; [|apply nth_error_None in E1; lia].
    destruct (nth_error vals' j) as [o'|] eqn:E2; [|apply nth_error_None in E2; lia].
    eauto. }
  exists mid. split; (split; [congruence|]; split; [try rewrite Lm; exact NL|]).
  - intros j o Eo. destruct (HB j o Eo) as (o1 & o' & E1 & E2).
    exists o1. split; [exact E1|].
    destruct (Hm j o1 E1 o o' Eo E2) as [(p & fr & Hc & H1 & H2) | (N & -> & _)]; [left | right]; eauto.
  - intros j o1 E1.
    assert (Hj : j < length vals) by (rewrite <- Lm; apply nth_error_Some; congruence).
    destruct (nth_error vals j) as [o|] eqn:Eo; [|apply nth_error_None in Eo; lia].
    destruct (HB j o Eo) as (o1' & o' & E1' & E2). rewrite E1 in E1'; injection E1' as <-.
    exists o'. split; [exact E2|].
    destruct (Hm j o1 E1 o o' Eo E2) as [(p & fr & Hc & H1 & H2) | (N & -> & ->)]; [left | right]; eauto.
Qed.
End Compose.

Lemma carries_pat : forall X qs ns fs z (p : patobj (obj X)) fr,
  carries (map pat_obj qs) ns fs z p fr <->
  exists i q, nth_error ns i = Some z /\ nth_error qs i = Some q /\ nth_error fs i = Some fr /\ p = pat_obj q.
Proof.
  intros X qs ns fs z p fr. unfold carries. split.
  - intros (i & H1 & H2 & H3). rewrite nth_error_map in H2.
    destruct (nth_error qs i) as [q|] eqn:E; cbn in H2; [|discriminate].
    injection H2 as <-. exists i, q. auto.
  - intros (i & q & H1 & H2 & H3 & ->). exists i. rewrite nth_error_map, H2. auto.
Qed.

Lemma convertible_mid : forall X qs ns fs (vals vals' : list (obj X)),
  NoDup ns -> length qs = length ns -> length fs = length ns -> Forall (fun z => (0 <= z)%Z) ns ->
  convertible qs ns fs vals -> canonical_at qs ns vals vals' ->
  exists mid, placed p_flatten (map pat_obj qs) ns fs vals mid /\
              placed p_fold (map pat_obj qs) ns fs mid vals'.
Proof.
  intros X qs ns fs vals vals' ND Lq Lf NN HC (HL & HJ).
  assert (HI : forall z, In z ns -> exists i q fr, nth_error ns i = Some z /\
     nth_error qs i = Some q /\ nth_error fs i = Some fr).
  { intros z Hz. destruct (In_nth_error _ _ Hz) as (i & Hi).
    assert (Hi' : i < length ns) by (apply nth_error_Some; congruence).
    destruct (nth_error qs i) as [q|] eqn:Eq; [|apply nth_error_None in Eq; lia].
    destruct (nth_error fs i) as [fr|] eqn:Ef; [|apply nth_error_None in Ef; lia].
    exists i, q, fr. auto. }
  apply placed_compose; auto.
  - apply Forall_forall. intros z Hz. destruct (HI z Hz) as (i & q & fr & Ei & Eq & Ef).
    destruct (HC i q z fr Eq Ei Ef) as (v & b & Ev & _).
    assert (Z.to_nat z < length vals) by (apply nth_error_Some; congruence).
    rewrite Forall_forall in NN. pose proof (NN z Hz). cbv beta in *. lia.
  - intros j o Eo. destruct (HJ j o Eo) as (o' & Eo' & [(i & q & v & Ei & Eq & -> & ->) | N]).
    + exists (OVal (canon q v)). split; [exact Eo'|]. left.
      assert (Hi' : i < length ns) by (apply nth_error_Some; congruence).
      destruct (nth_error fs i) as [fr|] eqn:Ef; [|apply nth_error_None in Ef; lia].
      destruct (HC i q _ fr Eq Ei Ef) as (v' & b & Ev & Hb & Hu & Hv).
      rewrite Nat2Z.id, Eo in Ev. injection Ev as <-.
      destruct (there_and_back X q v fr b Hb Hu Hv) as (x & E1 & E2).
      exists (pat_obj q), fr, (OVal (FArr (vec x))). split; [|split; assumption].
      apply carries_pat. exists i, q. auto.
    + exists o'. split; [exact Eo'|]. right. exact N.
Qed.

Lemma flat_mid : forall X qs ns fs (vals : list (obj X)),
  NoDup ns -> length qs = length ns -> length fs = length ns -> Forall (fun z => (0 <= z)%Z) ns ->
  flat_at qs ns fs vals ->
  exists mid, placed p_fold (map pat_obj qs) ns fs vals mid /\
              placed p_flatten (map pat_obj qs) ns fs mid vals.
Proof.
  intros X qs ns fs vals ND Lq Lf NN HC.
  assert (HI : forall z, In z ns -> exists i q fr, nth_error ns i = Some z /\
     nth_error qs i = Some q /\ nth_error fs i = Some fr).
  { intros z Hz. destruct (In_nth_error _ _ Hz) as (i & Hi).
    assert (Hi' : i < length ns) by (apply nth_error_Some; congruence).
    destruct (nth_error qs i) as [q|] eqn:Eq; [|apply nth_error_None in Eq; lia].
    destruct (nth_error fs i) as [fr|] eqn:Ef; [|apply nth_error_None in Ef; lia].
    exists i, q, fr. auto. }
  apply placed_compose; auto.
  - apply Forall_forall. intros z Hz. destruct (HI z Hz) as (i & q & fr & Ei & Eq & Ef).
    destruct (HC i q z fr Eq Ei Ef) as (v & b & Ev & _).
    assert (Z.to_nat z < length vals) by (apply nth_error_Some; congruence).
    rewrite Forall_forall in NN. pose proof (NN z Hz). cbv beta in *. lia.
  - intros j o Eo. exists o. split; [exact Eo|].
    destruct (in_dec Z.eq_dec (Z.of_nat j) ns) as [Hz|N]; [left | right; auto].
    destruct (HI _ Hz) as (i & q & fr & Ei & Eq & Ef).
    destruct (HC i q _ fr Eq Ei Ef) as (x & b & Ev & Hb & Hu & Hv).
    rewrite Nat2Z.id, Eo in Ev. injection Ev as ->.
    destruct (back_and_there X q x fr b Hb Hu Hv) as (v & E1 & E2).
    exists (pat_obj q), fr, (OVal v). split; [|split; assumption].
    apply carries_pat. exists i, q. auto.
Qed.

(** ** Inputs *)

Lemma inputs_round : forall X S (f : callable (obj X) S) patterns nums free qs ns fs,
  arrays_ok patterns nums free -> given patterns nums free (map pat_obj qs) ns fs ->
  NoDup ns -> length ns = length qs -> Forall (fun z => (0 <= z)%Z) ns ->
  exists g h, flatten_input f patterns free nums = Ok g /\ fold_input g patterns free nums = Ok h /\
    forall args args' kw s, no_self kw -> convertible qs ns fs args ->
      canonical_at qs ns args args' -> c_call h args kw s = c_call f args' kw s.
Proof.
  intros X S f patterns nums free qs ns fs OK G ND L NN.
  assert (Lp : length ns = length (map (@pat_obj X) qs)) by (rewrite map_length; exact L).
  destruct (input_calls _ _ f patterns nums free false _ ns fs OK G ND Lp NN) as (g & Eg & Hg).
  destruct (input_calls _ _ g patterns nums free true _ ns fs OK G ND Lp NN) as (h & Eh & Hh).
  exists g, h. split; [exact Eg|]. split; [exact Eh|].
  intros args args' kw s NS HC HK.
  assert (Lf : length fs = length ns).
  { destruct G as (_ & _ & G). rewrite (flags_length _ _ _ G). congruence. }
  destruct (convertible_mid X qs ns fs args args' ND (eq_sym L) Lf NN HC HK) as (mid & H1 & H2).
  destruct (Hh args kw s NS) as (_ & Hh1 & _). rewrite (Hh1 mid H1).
  destruct (Hg mid kw s NS) as (_ & Hg1 & _). apply (Hg1 args' H2).
Qed.

Lemma inputs_round_flat : forall X S (f : callable (obj X) S) patterns nums free qs ns fs,
  arrays_ok patterns nums free -> given patterns nums free (map pat_obj qs) ns fs ->
  NoDup ns -> length ns = length qs -> Forall (fun z => (0 <= z)%Z) ns ->
  exists g h, fold_input f patterns free nums = Ok g /\ flatten_input g patterns free nums = Ok h /\
    forall args kw s, no_self kw -> flat_at qs ns fs args ->
      c_call h args kw s = c_call f args kw s.
Proof.
  intros X S f patterns nums free qs ns fs OK G ND L NN.
  assert (Lp : length ns = length (map (@pat_obj X) qs)) by (rewrite map_length; exact L).
  destruct (input_calls _ _ f patterns nums free true _ ns fs OK G ND Lp NN) as (g & Eg & Hg).
  destruct (input_calls _ _ g patterns nums free false _ ns fs OK G ND Lp NN) as (h & Eh & Hh).
  exists g, h. split; [exact Eg|]. split; [exact Eh|].
  intros args kw s NS HC.
  assert (Lf : length fs = length ns).
  { destruct G as (_ & _ & G). rewrite (flags_length _ _ _ G). congruence. }
  destruct (flat_mid X qs ns fs args ND (eq_sym L) Lf NN HC) as (mid & H1 & H2).
  destruct (Hh args kw s NS) as (_ & Hh1 & _). rewrite (Hh1 mid H1).
  destruct (Hg mid kw s NS) as (_ & Hg1 & _). apply (Hg1 args H2).
Qed.

(** ** Outputs *)

Lemma no_first_failure : forall V meth (ps : list (patobj V)) ns fs vals vals' err e,
  NoDup ns -> Forall (fun z => (0 <= z)%Z) ns -> placed meth ps ns fs vals vals' ->
  ~ first_failure meth ps ns fs vals err e.
Proof.
  intros V meth ps ns fs vals vals' err e ND NN HP (z & (p & fr & (i & Ei & Ep & Ef) & HF) & _).
  assert (HI : In z ns) by (eapply nth_error_In; exact Ei).
  rewrite Forall_forall in NN. pose proof (NN z HI) as H0; cbv beta in H0.
  rewrite <- (Z2Nat.id z H0) in HI, Ei.
  destruct (placed_at meth ps ns fs vals vals' _ HP HI) as (x & y & p' & fr' & Hx & _ & (i' & Ei' & Ep' & Ef') & Hm).
  assert (i' = i).
  { rewrite NoDup_nth_error in ND. apply ND; [apply nth_error_Some; congruence | congruence]. }
  subst i'. destruct HF as [(HF & _) | (x' & Hx' & Hm')].
  - assert (Z.to_nat z < length vals) by (apply nth_error_Some; congruence). lia.
  - rewrite Hx in Hx'. injection Hx' as <-. congruence.
Qed.

Lemma converted_tuple : forall V meth (ps : list (patobj V)) ns fs err rets rets' r,
  NoDup ns -> Forall (fun z => (0 <= z)%Z) ns ->
  placed meth ps ns fs rets rets' -> converted meth ps ns fs err (Ok (RTuple rets)) r ->
  r = Ok (RTuple rets').
Proof.
  intros V meth ps ns fs err rets rets' r ND NN HP HC.
  inversion HC as [|a b HP' E1 E2|a e HF E1 E2| | | |]; subst.
  - rewrite (placed_unique V meth ps ns fs rets rets' b ND HP HP'). reflexivity.
  - exfalso. exact (no_first_failure V meth ps ns fs rets rets' err e ND NN HP HF).
Qed.

Lemma converted_one : forall V meth (p : patobj V) fr err v v' r,
  meth p fr v = Ok v' -> converted meth [p] [0%Z] [fr] err (Ok (ROne v)) r -> r = Ok (ROne v').
Proof.
  intros V meth p fr err v v' r Hm HC.
  inversion HC as [| | |a b p' fr' E1 E2 E3 E4|a e p' fr' E1 E2 E3 E4|a E1 E2|a E1]; subst.
  - injection E2 as <-. injection E3 as <-. congruence.
  - injection E2 as <-. injection E3 as <-. congruence.
  - exfalso; apply E1; reflexivity.
  - cbn in E1; lia.
Qed.

Lemma outputs_round : forall X S (f : callable (obj X) S) patterns nums free qs ns fs,
  arrays_ok patterns nums free -> given patterns nums free (map pat_obj qs) ns fs ->
  NoDup ns -> length ns = length qs -> Forall (fun z => (0 <= z)%Z) ns ->
  exists g h, flatten_output f patterns free nums = Ok g /\ fold_output g patterns free nums = Ok h /\
    (forall args kw s rets rets' s', no_self kw -> c_call f args kw s = (Ok (RTuple rets), s') ->
       convertible qs ns fs rets -> canonical_at qs ns rets rets' ->
       c_call h args kw s = (Ok (RTuple rets'), s')) /\
    (forall args kw s q v s', no_self kw -> c_call f args kw s = (Ok (ROne (OVal v)), s') ->
       ns = [0%Z] -> qs = [q] -> convertible qs ns fs [OVal v : obj X] ->
       c_call h args kw s = (Ok (ROne (OVal (canon q v))), s')).
Proof.
  intros X S f patterns nums free qs ns fs OK G ND L NN.
  assert (Lp : length ns = length (map (@pat_obj X) qs)) by (rewrite map_length; exact L).
  destruct (output_calls _ _ f patterns nums free false _ ns fs OK G ND Lp NN) as (g & Eg & Hg).
  destruct (output_calls _ _ g patterns nums free true _ ns fs OK G ND Lp NN) as (h & Eh & Hh).
  exists g, h. split; [exact Eg|]. split; [exact Eh|].
  assert (Lf : length fs = length ns).
  { destruct G as (_ & _ & G). rewrite (flags_length _ _ _ G). congruence. }
  split.
  - intros args kw s rets rets' s' NS Ef HC HK.
    destruct (convertible_mid X qs ns fs rets rets' ND (eq_sym L) Lf NN HC HK) as (mid & H1 & H2).
    destruct (Hg args kw s _ s' NS Ef) as (r1 & E1 & C1).
    apply (converted_tuple _ _ _ _ _ _ _ mid _ ND NN H1) in C1. subst r1.
    destruct (Hh args kw s _ s' NS E1) as (r2 & E2 & C2).
    apply (converted_tuple _ _ _ _ _ _ _ rets' _ ND NN H2) in C2. subst r2. exact E2.
  - intros args kw s q v s' NS Ef -> -> HC.
    destruct fs as [|fr [|]]; try discriminate.
    destruct (HC 0 q 0%Z fr eq_refl eq_refl eq_refl) as (v' & b & Ev & Hb & Hu & Hv).
    cbn in Ev. injection Ev as <-.
    destruct (there_and_back X q v fr b Hb Hu Hv) as (x & F1 & F2).
    destruct (Hg args kw s _ s' NS Ef) as (r1 & E1 & C1).
    apply (converted_one _ _ _ _ _ _ _ _ F1) in C1. subst r1.
    destruct (Hh args kw s _ s' NS E1) as (r2 & E2 & C2).
    apply (converted_one _ _ _ _ _ _ _ _ F2) in C2. subst r2. exact E2.
Qed.

Lemma outputs_round_flat : forall X S (f : callable (obj X) S) patterns nums free qs ns fs,
  arrays_ok patterns nums free -> given patterns nums free (map pat_obj qs) ns fs ->
  NoDup ns -> length ns = length qs -> Forall (fun z => (0 <= z)%Z) ns ->
  exists g h, fold_output f patterns free nums = Ok g /\ flatten_output g patterns free nums = Ok h /\
    (forall args kw s rets s', no_self kw -> c_call f args kw s = (Ok (RTuple rets), s') ->
       flat_at qs ns fs rets -> c_call h args kw s = (Ok (RTuple rets), s')) /\
    (forall args kw s v s', no_self kw -> c_call f args kw s = (Ok (ROne v), s') ->
       ns = [0%Z] -> flat_at qs ns fs [v] -> c_call h args kw s = (Ok (ROne v), s')).
Proof.
  intros X S f patterns nums free qs ns fs OK G ND L NN.
  assert (Lp : length ns = length (map (@pat_obj X) qs)) by (rewrite map_length; exact L).
  destruct (output_calls _ _ f patterns nums free true _ ns fs OK G ND Lp NN) as (g & Eg & Hg).
  destruct (output_calls _ _ g patterns nums free false _ ns fs OK G ND Lp NN) as (h & Eh & Hh).
  exists g, h. split; [exact Eg|]. split; [exact Eh|].
  assert (Lf : length fs = length ns).
  { destruct G as (_ & _ & G). rewrite (flags_length _ _ _ G). congruence. }
  split.
  - intros args kw s rets s' NS Ef HC.
    destruct (flat_mid X qs ns fs rets ND (eq_sym L) Lf NN HC) as (mid & H1 & H2).
    destruct (Hg args kw s _ s' NS Ef) as (r1 & E1 & C1).
    apply (converted_tuple _ _ _ _ _ _ _ mid _ ND NN H1) in C1. subst r1.
    destruct (Hh args kw s _ s' NS E1) as (r2 & E2 & C2).
    apply (converted_tuple _ _ _ _ _ _ _ rets _ ND NN H2) in C2. subst r2. exact E2.
  - intros args kw s v s' NS Ef -> HC.
    destruct qs as [|q [|]]; try discriminate.
    destruct fs as [|fr [|]]; try discriminate.
    destruct (HC 0 q 0%Z fr eq_refl eq_refl eq_refl) as (x & b & Ev & Hb & Hu & Hv).
    cbn in Ev. injection Ev as ->.
    destruct (back_and_there X q x fr b Hb Hu Hv) as (w & F1 & F2).
    destruct (Hg args kw s _ s' NS Ef) as (r1 & E1 & C1).
    apply (converted_one _ _ _ _ _ _ _ _ F1) in C1. subst r1.
    destruct (Hh args kw s _ s' NS E1) as (r2 & E2 & C2).
    apply (converted_one _ _ _ _ _ _ _ _ F2) in C2. subst r2. exact E2.
Qed.
