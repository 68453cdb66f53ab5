(** * The function wrappers meet their specification. *)
From Coq Require Import Reals NArith Ascii String Permutation Sorted.
From Verif Require Import Base Num Nd Numeric Simplex Psd Pattern Spec FunWrap SpecWrap WrapFacts.
Local Open Scope list_scope.
Local Open Scope nat_scope.

(** ** Construction *)

Lemma nodup_length : forall ns, NoDup ns <-> length ns = length (nodup Z.eq_dec ns).
Proof.
  intros ns. split.
  - intros H. rewrite nodup_fixed_point; [reflexivity | exact H].
  - intros H. apply (NoDup_incl_NoDup (NoDup_nodup Z.eq_dec ns)).
    + lia.
    + intros z. apply nodup_In.
Qed.

Lemma broadcast_flags : forall (a : nd (option bool)) n, nd_ok a ->
  (forall fs, flags a n fs -> broadcast_1d a n = Ok fs) /\
  (forall fs, broadcast_1d a n = Ok fs -> flags a n fs) /\
  (forall e, broadcast_1d a n = Err e -> e = ValueError).
Proof.
  intros (sh, d) n Hn. unfold nd_ok, flags, listlike, broadcast_1d in *. cbn [shp dat] in *.
  destruct sh as [|m [|m' sh]]; cbn [prod fold_right] in Hn.
  - destruct d as [|x [|]]; try discriminate. split; [|split].
    + intros fs (l & (_ & <-) & [(b & E & ->) | (E & ->)]).
      * injection E as <-. reflexivity.
      * cbn in E. subst n. reflexivity.
    + intros fs E; injection E as <-. exists [x]. split; [split; [cbn; lia|reflexivity]|].
      left. exists x. auto.
    + discriminate.
  - cbn [length]. unfold prod in Hn; cbn [fold_right] in Hn. rewrite Nat.mul_1_r in Hn.
    destruct d as [|x d]; cbn [length] in Hn; subst m.
    + destruct n as [|n]; cbn [Nat.eqb]; split; [|split| |split].
      * intros fs (l & (_ & <-) & [(b & E & _) | (_ & ->)]); [discriminate | reflexivity].
      * intros fs E; injection E as <-. exists []. split; [auto|]. right. auto.
      * discriminate.
      * intros fs (l & (_ & <-) & [(b & E & _) | (E & _)]); discriminate.
      * discriminate.
      * intros e E; injection E; auto.
    + destruct (S (length d) =? n) eqn:E.
      * apply Nat.eqb_eq in E. split; [|split].
        -- intros fs (l & (_ & <-) & [(b & F & ->) | (_ & ->)]); [|reflexivity].
           injection F as -> ->. cbn in E. subst n. reflexivity.
        -- intros fs F; injection F as <-. exists (x :: d). split; [auto|]. right. auto.
        -- discriminate.
      * apply Nat.eqb_neq in E. cbn [Nat.eqb]. destruct d as [|x' d]; cbn [length Nat.eqb].
        -- split; [|split].
           ++ intros fs (l & (_ & <-) & [(b & F & ->) | (F & _)]); [|cbn in *; lia].
              injection F as <-. reflexivity.
           ++ intros fs F; injection F as <-. exists [x]. split; [auto|]. left. exists x. auto.
           ++ discriminate.
        -- split; [|split].
           ++ intros fs (l & (_ & <-) & [(b & F & _) | (F & _)]); [discriminate | cbn in *; lia].
           ++ discriminate.
           ++ intros e F; injection F; auto.
  - split; [|split].
    + intros fs (l & (L & _) & _). cbn [length] in L. lia.
    + discriminate.
    + intros e E; injection E; auto.
Qed.

Lemma atleast_listlike : forall A (a : nd A) l, nd_ok a -> listlike a l ->
  shp (atleast_1d a) = [length l] /\ dat (atleast_1d a) = l.
Proof.
  intros A (sh, d) l Hn (HL & E). unfold nd_ok, atleast_1d in *. cbn [shp dat] in *. subst d.
  destruct sh as [|m [|]]; cbn [length] in HL; [| |lia]; cbn in *.
  - rewrite Hn. auto.
  - unfold prod in Hn; cbn [fold_right] in Hn. rewrite Nat.mul_1_r in Hn. rewrite Hn. auto.
Qed.

Lemma atleast_shape : forall A (a : nd A), length (shp (atleast_1d a)) = 1 -> listlike a (dat (atleast_1d a)).
Proof.
  intros A (sh, d). unfold atleast_1d, listlike; cbn [shp dat].
  destruct sh as [|m [|]]; cbn; intros H; try discriminate; auto.
Qed.

Lemma new_wrap_given : forall V (patterns : nd (patobj V)) nums free flat ps ns fs,
  arrays_ok patterns nums free -> given patterns nums free ps ns fs ->
  NoDup ns -> length ns = length ps ->
  new_wrap patterns nums free flat = Ok (mkWrap ps ns (argsort ns) fs flat).
Proof.
  intros V patterns nums free flat ps ns fs (Hp & Hn & Hf) (Gp & Gn & Gf) ND HL.
  unfold new_wrap.
  destruct (atleast_listlike _ _ _ Hp Gp) as (-> & ->).
  rewrite (proj1 (broadcast_flags free (length ps) Hf) fs Gf); cbn [bind].
  assert (E : let a := match nums with
               | None => mkNd [length ps] (map Z.of_nat (seq 0 (length ps)))
               | Some a => atleast_1d a end in length (shp a) = 1 /\ dat a = ns).
  { cbv zeta. destruct nums as [a|].
    - destruct (atleast_listlike _ _ _ (Hn a eq_refl) Gn) as (-> & ->). auto.
    - subst ns. auto. }
  cbv zeta in E. destruct E as (-> & ->).
  cbn [Nat.eqb negb].
  rewrite <- (proj1 (nodup_length ns) ND), Nat.eqb_refl. cbn [negb].
  rewrite HL, Nat.eqb_refl. reflexivity.
Qed.

Lemma new_wrap_cases : forall V (patterns : nd (patobj V)) nums free flat,
  arrays_ok patterns nums free ->
  match new_wrap patterns nums free flat with
  | Ok w => accepted patterns nums free
  | Err e => e = ValueError
  end.
Proof.
  intros V patterns nums free flat (Hp & Hn & Hf).
  unfold new_wrap.
  destruct (shp (atleast_1d patterns)) as [|n [|]] eqn:Es; try reflexivity.
  assert (Gp : listlike patterns (dat (atleast_1d patterns))).
  { apply atleast_shape. rewrite Es. reflexivity. }
  assert (En : n = length (dat (atleast_1d patterns))).
  { destruct (atleast_listlike _ _ _ Hp Gp) as (E & _). rewrite E in Es. congruence. }
  destruct (broadcast_flags free n Hf) as (_ & B2 & B3).
  destruct (broadcast_1d free n) as [fs|e]; cbn [bind]; [|apply B3; reflexivity].
  set (a := match nums with None => _ | Some a => atleast_1d a end).
  destruct (length (shp a) =? 1) eqn:E1; cbn [negb]; [|reflexivity].
  destruct (length (dat a) =? length (nodup Z.eq_dec (dat a))) eqn:E2; cbn [negb]; [|reflexivity].
  destruct (length (dat a) =? n) eqn:E3; cbn [negb]; [|reflexivity].
  apply Nat.eqb_eq in E1, E2, E3.
  exists (dat (atleast_1d patterns)), (dat a), fs. split; [|split].
  - split; [exact Gp|]. split.
    + destruct nums as [b|]; subst a.
      * apply atleast_shape. exact E1.
      * cbn [dat]. rewrite En. reflexivity.
    + rewrite <- En. apply B2. reflexivity.
  - apply nodup_length. exact E2.
  - congruence.
Qed.

Lemma wrap_checks : forall V S (f : callable V S) patterns nums free flat,
  arrays_ok patterns nums free ->
  ((exists g, transform_input f patterns free flat nums = Ok g) <-> accepted patterns nums free) /\
  (~ accepted patterns nums free -> transform_input f patterns free flat nums = Err ValueError) /\
  ((exists g, transform_output f patterns free flat nums = Ok g) <-> accepted patterns nums free) /\
  (~ accepted patterns nums free -> transform_output f patterns free flat nums = Err ValueError).
Proof.
  intros V S f patterns nums free flat OK.
  unfold transform_input, transform_output.
  pose proof (new_wrap_cases V patterns nums free flat OK) as C.
  destruct (new_wrap patterns nums free flat) as [w|e] eqn:E; cbn [bind].
  - intuition (eauto; contradiction).
  - subst e.
    assert (N : ~ accepted patterns nums free).
    { intros (ps & ns & fs & G & ND & L).
      rewrite (new_wrap_given V patterns nums free flat ps ns fs OK G ND L) in E. discriminate. }
    split; [|split; [reflexivity | split; [|reflexivity]]];
      (split; [intros (g & G); discriminate | intros; contradiction]).
Qed.

(** ** Calls *)

Lemma self_clash_no : forall V (kw : list (pystr * V)), no_self kw -> self_clash kw = false.
Proof.
  intros V kw H. unfold self_clash. induction H as [|kv kw H _ IH]; cbn [existsb]; [reflexivity|].
  rewrite IH. match goal with |- context [list_eq_dec ?d ?a ?b] => destruct (list_eq_dec d a b) end; [contradiction | reflexivity].
Qed.

Lemma arg_loop_gloop : forall V (w : wrap V) vals idx last acc,
  arg_loop w vals idx last acc =
  gloop (arg_method w) IndexError (w_pats w) (w_nums w) (w_free w) vals idx last acc.
Proof.
  intros V w vals idx; induction idx as [|i idx IH]; intros last acc; cbn [arg_loop gloop]; [reflexivity|].
  destruct (nth_error (w_nums w) i) as [a|]; [|reflexivity].
  destruct (nth_error (w_pats w) i) as [p|]; [|reflexivity].
  destruct (nth_error (w_free w) i) as [fr|]; [|reflexivity].
  destruct (Z.of_nat (length vals) <=? a)%Z eqn:E.
  - apply Z.leb_le in E. unfold py_index.
    destruct (a <? 0)%Z eqn:E1; [apply Z.ltb_lt in E1; lia|]. rewrite E1.
    destruct (nth_error vals (Z.to_nat a)) as [x|] eqn:Ex; [|reflexivity].
    assert (Z.to_nat a < length vals) by (apply nth_error_Some; congruence). lia.
  - destruct (py_index vals a) as [x|e]; [|reflexivity]; cbn [bind].
    destruct (arg_method w p fr x) as [v|e]; [|reflexivity]; cbn [bind]. apply IH.
Qed.

Lemma ret_loop_gloop : forall V S (w : wrap V) (f : callable V S) vals idx last acc,
  ret_loop w f vals idx last acc =
  gloop (ret_method w) (named_error f) (w_pats w) (w_nums w) (w_free w) vals idx last acc.
Proof.
  intros V S w f vals idx; induction idx as [|i idx IH]; intros last acc; cbn [ret_loop gloop]; [reflexivity|].
  destruct (nth_error (w_nums w) i) as [a|]; [|reflexivity].
  destruct (nth_error (w_pats w) i) as [p|]; [|reflexivity].
  destruct (nth_error (w_free w) i) as [fr|]; [|reflexivity].
  destruct (Z.of_nat (length vals) <=? a)%Z; [reflexivity|].
  destruct (py_index vals a) as [x|e]; [|reflexivity]; cbn [bind].
  destruct (ret_method w p fr x) as [v|e]; [|reflexivity]; cbn [bind]. apply IH.
Qed.

Lemma flags_length : forall a n fs, flags a n fs -> length fs = n.
Proof.
  intros a n fs (l & _ & [(b & _ & ->) | (<- & ->)]); [apply repeat_length | reflexivity].
Qed.

Lemma input_calls : forall V S (f : callable V S) patterns nums free flat ps ns fs,
  arrays_ok patterns nums free -> given patterns nums free ps ns fs ->
  NoDup ns -> length ns = length ps -> Forall (fun z => (0 <= z)%Z) ns ->
  exists g, transform_input f patterns free flat nums = Ok g /\
    forall args kw s, no_self kw ->
      ((exists args', placed (arg_conv flat) ps ns fs args args') \/
       (exists e, first_failure (arg_conv flat) ps ns fs args IndexError e)) /\
      (forall args', placed (arg_conv flat) ps ns fs args args' ->
         c_call g args kw s = c_call f args' kw s) /\
      (forall e, first_failure (arg_conv flat) ps ns fs args IndexError e ->
         c_call g args kw s = (Err e, s)).
Proof.
  intros V S f patterns nums free flat ps ns fs OK G ND L NN.
  unfold transform_input.
  rewrite (new_wrap_given V patterns nums free flat ps ns fs OK G ND L); cbn [bind].
  eexists. split; [reflexivity|].
  intros args kw s NS. cbn [c_call].
  unfold call_in. rewrite (self_clash_no _ _ NS), arg_loop_gloop. cbn [w_pats w_nums w_free w_sort].
  replace (arg_method {| w_pats := ps; w_nums := ns; w_sort := argsort ns; w_free := fs; w_flat := flat |})
    with (@arg_conv V flat) by (unfold arg_method, arg_conv; destruct flat; reflexivity).
  rewrite Forall_forall in NN.
  assert (Lf : length fs = length ns).
  { destruct G as (_ & _ & G). rewrite (flags_length _ _ _ G). congruence. }
  split; [|split].
  - apply placed_or_fails; auto.
  - intros args' HP. rewrite (proj1 (gloop_all (arg_conv flat) IndexError ps ns fs args ND (eq_sym L) Lf NN) _ HP).
    reflexivity.
  - intros e HF. rewrite (proj2 (gloop_all (arg_conv flat) IndexError ps ns fs args ND (eq_sym L) Lf NN) _ HF).
    reflexivity.
Qed.

Lemma input_self : forall V S (f : callable V S) patterns nums free flat g args kw s,
  transform_input f patterns free flat nums = Ok g -> ~ no_self kw ->
  c_call g args kw s = (Err TypeError, s).
Proof.
  intros V S f patterns nums free flat g args kw s E NS.
  unfold transform_input in E. destruct (new_wrap patterns nums free flat) as [w|]; [|discriminate].
  cbn [bind] in E. injection E as <-. cbn [c_call]. unfold call_in.
  destruct (self_clash kw) eqn:C; [reflexivity|].
  exfalso. apply NS. apply Forall_forall. intros kv HI HE.
  assert (self_clash kw = true); [|congruence].
  apply existsb_exists. exists kv. split; [exact HI|].
  match goal with |- context [list_eq_dec ?d ?a ?b] => destruct (list_eq_dec d a b) end; [reflexivity | contradiction].
Qed.

Lemma output_converts : forall V S (w : wrap V) (f : callable V S) r,
  NoDup (w_nums w) -> length (w_pats w) = length (w_nums w) ->
  length (w_free w) = length (w_nums w) -> w_sort w = argsort (w_nums w) ->
  Forall (fun z => (0 <= z)%Z) (w_nums w) ->
  converted (ret_method w) (w_pats w) (w_nums w) (w_free w) (missing_result f) r
    (match r with
     | Err e => Err e
     | Ok (ROne v) => ret_one w f v
     | Ok (RTuple rets) => new_rets <- ret_loop w f rets (w_sort w) 0 [] ;; Ok (RTuple new_rets)
     end).
Proof.
  intros V S (ps, ns, so, fs, flat) f r ND Lp Lf Es NN. cbn [w_pats w_nums w_free w_sort] in *. subst so.
  set (w := mkWrap ps ns (argsort ns) fs flat).
  destruct r as [[rets|v]|e]; [| |constructor].
  - rewrite ret_loop_gloop. cbn [w_pats w_nums w_free w].
    rewrite Forall_forall in NN.
    destruct (placed_or_fails (ret_method w) (named_error f) ps ns fs rets ND Lp Lf NN)
      as [(rets' & HP) | (e & HF)].
    + rewrite (proj1 (gloop_all (ret_method w) (named_error f) ps ns fs rets ND Lp Lf NN) _ HP).
      cbn [bind]. constructor. exact HP.
    + rewrite (proj2 (gloop_all (ret_method w) (named_error f) ps ns fs rets ND Lp Lf NN) _ HF).
      cbn [bind]. constructor. exact HF.
  - unfold ret_one. cbn [w_pats w_nums w_free w].
    destruct ns as [|z [|z' ns]].
    + apply cv_one_refused; [discriminate | cbn; lia].
    + destruct ps as [|p [|]]; try discriminate. destruct fs as [|fr [|]]; try discriminate.
      destruct (z =? 0)%Z eqn:E; cbn [negb].
      * apply Z.eqb_eq in E. subst z. cbn [nth_error].
        destruct (ret_method w p fr v) as [v'|e] eqn:Em; cbn [bind].
        -- eapply cv_one; eauto.
        -- eapply cv_one_fails; eauto.
      * apply Z.eqb_neq in E. apply cv_one_refused; [congruence | cbn; lia].
    + apply cv_one_many. cbn; lia.
Qed.

Lemma output_calls : forall V S (f : callable V S) patterns nums free flat ps ns fs,
  arrays_ok patterns nums free -> given patterns nums free ps ns fs ->
  NoDup ns -> length ns = length ps -> Forall (fun z => (0 <= z)%Z) ns ->
  exists g, transform_output f patterns free flat nums = Ok g /\
    forall args kw s r s', no_self kw -> c_call f args kw s = (r, s') ->
      exists r', c_call g args kw s = (r', s') /\
        converted (ret_conv flat) ps ns fs (missing_result f) r r'.
Proof.
  intros V S f patterns nums free flat ps ns fs OK G ND L NN.
  unfold transform_output.
  rewrite (new_wrap_given V patterns nums free flat ps ns fs OK G ND L); cbn [bind].
  eexists. split; [reflexivity|].
  intros args kw s r s' NS Ef. cbn [c_call].
  unfold call_out. rewrite (self_clash_no _ _ NS), Ef.
  eexists. split; [reflexivity|].
  set (w := mkWrap ps ns (argsort ns) fs flat).
  replace (@ret_conv V flat) with (ret_method w)
    by (unfold ret_method, ret_conv, w; destruct flat; reflexivity).
  assert (Lf : length fs = length ns).
  { destruct G as (_ & _ & G). rewrite (flags_length _ _ _ G). congruence. }
  apply (output_converts V S w f r); cbn [w w_pats w_nums w_free w_sort]; auto.
Qed.

Lemma list_by_index : forall A (l m : list A),
  (forall j, nth_error l j = nth_error m j) -> l = m.
Proof.
  intros A l; induction l as [|a l IH]; intros [|b m] H; try reflexivity.
  - discriminate (H 0).
  - discriminate (H 0).
  - pose proof (H 0) as H0; cbn in H0; injection H0 as <-. f_equal. apply IH.
    intros j. apply (H (S j)).
Qed.

(** The placed list is unique, so the theorems above fix every result. *)
Lemma placed_unique : forall V meth (ps : list (patobj V)) ns fs vals v1 v2,
  NoDup ns -> placed meth ps ns fs vals v1 -> placed meth ps ns fs vals v2 -> v1 = v2.
Proof.
  intros V meth ps ns fs vals v1 v2 ND (L1 & _ & P1) (L2 & _ & P2).
  apply list_by_index. intros j.
  destruct (nth_error vals j) as [x|] eqn:Ex.
  - destruct (P1 j x Ex) as (y1 & -> & C1). destruct (P2 j x Ex) as (y2 & -> & C2). f_equal.
    destruct C1 as [(p1 & f1 & (i1 & A1 & B1 & D1) & M1) | (N1 & ->)];
    destruct C2 as [(p2 & f2 & (i2 & A2 & B2 & D2) & M2) | (N2 & ->)]; try reflexivity.
    + assert (i1 = i2).
      { rewrite NoDup_nth_error in ND. apply ND; [apply nth_error_Some; congruence | congruence]. }
      subst i2. congruence.
    + exfalso. apply N2. eapply nth_error_In; exact A1.
    + exfalso. apply N1. eapply nth_error_In; exact A2.
  - apply nth_error_None in Ex.
    rewrite (proj2 (nth_error_None v1 j)), (proj2 (nth_error_None v2 j)) by lia. reflexivity.
Qed.

(** ** Combined wrappers *)

Lemma combined_calls : forall V S (f : callable V S) ip inum ifr ips ins ifs op onum ofr ops ons ofs,
  arrays_ok ip inum ifr -> given ip inum ifr ips ins ifs ->
  NoDup ins -> length ins = length ips -> Forall (fun z => (0 <= z)%Z) ins ->
  arrays_ok op onum ofr -> given op onum ofr ops ons ofs ->
  NoDup ons -> length ons = length ops -> Forall (fun z => (0 <= z)%Z) ons ->
  (exists h, flatten_input_output f ip ifr inum op ofr onum = Ok h /\
    forall args kw s, no_self kw ->
      (forall args' r s', placed p_fold ips ins ifs args args' -> c_call f args' kw s = (r, s') ->
         exists r', c_call h args kw s = (r', s') /\
           converted p_flatten ops ons ofs (missing_result f) r r') /\
      (forall e, first_failure p_fold ips ins ifs args IndexError e ->
         c_call h args kw s = (Err e, s))) /\
  (exists h, fold_input_output f ip ifr inum op ofr onum = Ok h /\
    forall args kw s, no_self kw ->
      (forall args' r s', placed p_flatten ips ins ifs args args' -> c_call f args' kw s = (r, s') ->
         exists r', c_call h args kw s = (r', s') /\
           converted p_fold ops ons ofs (missing_result f) r r') /\
      (forall e, first_failure p_flatten ips ins ifs args IndexError e ->
         c_call h args kw s = (Err e, s))).
Proof.
  intros V S f ip inum ifr ips ins ifs op onum ofr ops ons ofs OKi Gi NDi Li NNi OKo Go NDo Lo NNo.
  split.
  - destruct (output_calls V S f op onum ofr false ops ons ofs OKo Go NDo Lo NNo) as (g & Eg & Hg).
    destruct (input_calls V S g ip inum ifr false ips ins ifs OKi Gi NDi Li NNi) as (h & Eh & Hh).
    unfold flatten_input_output, flatten_output, flatten_input.
    rewrite Eg; cbn [bind]. rewrite Eh; cbn [bind]. eexists. split; [reflexivity|].
    intros args kw s NS. cbn [c_call]. rewrite (self_clash_no _ _ NS).
    destruct (Hh args kw s NS) as (_ & H1 & H2). split.
    + intros args' r s' HP Ef. rewrite (H1 args' HP). apply (Hg args' kw s r s' NS Ef).
    + exact H2.
  - destruct (output_calls V S f op onum ofr true ops ons ofs OKo Go NDo Lo NNo) as (g & Eg & Hg).
    destruct (input_calls V S g ip inum ifr true ips ins ifs OKi Gi NDi Li NNi) as (h & Eh & Hh).
    unfold fold_input_output, fold_output, fold_input.
    rewrite Eg; cbn [bind]. rewrite Eh; cbn [bind]. eexists. split; [reflexivity|].
    intros args kw s NS. cbn [c_call]. rewrite (self_clash_no _ _ NS).
    destruct (Hh args kw s NS) as (_ & H1 & H2). split.
    + intros args' r s' HP Ef. rewrite (H1 args' HP). apply (Hg args' kw s r s' NS Ef).
    + exact H2.
Qed.
