(** * Negative positions. *)
From Coq Require Import Reals NArith Ascii String Permutation Sorted FinFun.
From Verif Require Import Base Num Nd Numeric Simplex Psd Pattern Spec FunWrap SpecWrap WrapFacts WrapProps.
Local Open Scope list_scope.
Local Open Scope nat_scope.

Section Neg.
Context {V : Type} (meth : patobj V -> option bool -> V -> res V) (missing : exn)
        (ps : list (patobj V)) (ns : list Z) (fs : list (option bool)) (vals : list V).
Let n := length vals.
Hypothesis nodup : NoDup ns.
Hypothesis lps : length ps = length ns.
Hypothesis lfs : length fs = length ns.

Lemma nodup_shift : NoDup (from_end n ns).
Proof.
  unfold from_end. apply FinFun.Injective_map_NoDup; [|exact nodup].
  intros a b H. lia.
Qed.

Lemma in_shift : forall z, In (z + Z.of_nat n)%Z (from_end n ns) <-> In z ns.
Proof.
  intros z. unfold from_end. rewrite in_map_iff. split.
  - intros (z' & E & H). replace z with z' by lia. exact H.
  - intros H. exists z. auto.
Qed.

Lemma carries_shift : forall z p fr, carries ps (from_end n ns) fs (z + Z.of_nat n)%Z p fr <->
  carries ps ns fs z p fr.
Proof.
  intros z p fr. unfold carries, from_end. split; intros (i & H1 & H2); exists i; split; auto.
  - rewrite nth_error_map in H1. destruct (nth_error ns i) as [z'|]; cbn in H1; [|discriminate].
    injection H1 as H1. f_equal. lia.
  - rewrite nth_error_map, H1. reflexivity.
Qed.

Lemma py_index_neg : forall A (l : list A) k x, k < length l -> nth_error l k = Some x ->
  py_index l (Z.of_nat k - Z.of_nat (length l)) = Ok x.
Proof.
  intros A l k x H E. unfold py_index.
  destruct (Z.of_nat k - Z.of_nat (length l) <? 0)%Z eqn:E1; [|apply Z.ltb_ge in E1; lia].
  replace (Z.of_nat k - Z.of_nat (length l) + Z.of_nat (length l))%Z with (Z.of_nat k) by lia.
  destruct (Z.of_nat k <? 0)%Z eqn:E2; [apply Z.ltb_lt in E2; lia|].
  rewrite Nat2Z.id, E. reflexivity.
Qed.

Lemma slice_neg : forall k, k < n -> slice_bound n (Z.of_nat k - Z.of_nat n) = k.
Proof.
  intros k H. replace (Z.of_nat k - Z.of_nat n)%Z with (- Z.of_nat (n - k))%Z by lia.
  rewrite slice_bound_neg by lia. lia.
Qed.

(** [vals[i:j]] when the bounds denote [a <= b]. *)
Lemma gap_bounds : forall vals' i j a b, placed meth ps (from_end n ns) fs vals vals' ->
  slice_bound n i = a -> slice_bound n j = b -> a <= b -> b <= n ->
  (forall k, a <= k < b -> ~ In (Z.of_nat k) (from_end n ns)) ->
  firstn a vals' ++ py_slice vals i j = firstn b vals'.
Proof.
  intros vals' i j a b HP Hi Hj Hab Hb HN.
  rewrite <- (placed_gap meth ps (from_end n ns) fs vals vals' a b HP Hab Hb HN).
  f_equal. unfold py_slice. fold n. rewrite Hi, Hj.
  rewrite !slice_bound_nonneg by lia. reflexivity.
Qed.

Lemma gloop_neg : forall vals', placed meth ps (from_end n ns) fs vals vals' ->
  (forall z, In z ns -> (- Z.of_nat n <= z < 0)%Z) ->
  forall L k last acc, StronglySorted before L ->
    (forall z i, In (z, i) L -> nth_error ns i = Some z /\ (Z.of_nat k <= z + Z.of_nat n)%Z) ->
    (forall z, In z ns -> (z + Z.of_nat n < Z.of_nat k)%Z \/ In z (map fst L)) ->
    k <= n -> acc = firstn k vals' ->
    (last = (Z.of_nat k - Z.of_nat n)%Z /\ In (Z.of_nat k - Z.of_nat n - 1)%Z ns \/ last = 0%Z /\ k = 0) ->
    gloop meth missing ps ns fs vals (map snd L) last acc =
    Ok (vals' ++ if in_dec Z.eq_dec (-1)%Z ns then vals else []).
Proof.
  intros vals' HP HN L; induction L as [|(z, i) L IH]; intros k last acc HS HL HC Hk -> Hlast;
    cbn [map snd gloop]; fold n.
  - assert (Eall : firstn n vals' = vals') by (pose proof (proj1 HP) as HL'; unfold n; rewrite <- HL'; apply firstn_all).
    destruct Hlast as [(-> & Hin) | (-> & ->)].
    + destruct (Nat.eq_dec k n) as [->|Nk].
      * replace (Z.of_nat n - Z.of_nat n - 1)%Z with (-1)%Z in Hin by lia.
        destruct (in_dec Z.eq_dec (-1)%Z ns) as [_|]; [|contradiction].
        f_equal. f_equal; [exact Eall|].
        unfold py_slice. fold n. rewrite Z.sub_diag.
        change 0%Z with (Z.of_nat 0).
        rewrite (slice_bound_nonneg n 0), (slice_bound_nonneg n n) by lia.
        rewrite Nat.sub_0_r. cbn [skipn]. apply firstn_all.
      * destruct (in_dec Z.eq_dec (-1)%Z ns) as [H1|_].
        -- destruct (HC _ H1) as [G | []]. lia.
        -- rewrite app_nil_r. f_equal. rewrite <- Eall at 2.
           apply gap_bounds; try assumption; try lia.
           ++ apply slice_neg. lia.
           ++ apply slice_bound_nonneg. lia.
           ++ intros j Hj HI.
              replace (Z.of_nat j) with ((Z.of_nat j - Z.of_nat n) + Z.of_nat n)%Z in HI by lia.
              apply (proj1 (in_shift _)) in HI. destruct (HC _ HI) as [G | []]. lia.
    + destruct (in_dec Z.eq_dec (-1)%Z ns) as [H1|_].
      * destruct (HC _ H1) as [G | []]. pose proof (HN _ H1). lia.
      * rewrite app_nil_r. f_equal. rewrite <- Eall at 2.
        apply gap_bounds; try assumption; try lia.
        -- apply (slice_bound_nonneg n 0). lia.
        -- apply slice_bound_nonneg. lia.
        -- intros j Hj HI.
           replace (Z.of_nat j) with ((Z.of_nat j - Z.of_nat n) + Z.of_nat n)%Z in HI by lia.
           apply (proj1 (in_shift _)) in HI. destruct (HC _ HI) as [G | []]. pose proof (HN _ HI). lia.
  - destruct (HL z i (or_introl eq_refl)) as (Hi & Hz).
    rewrite Hi.
    destruct (carries_at ps ns fs nodup lps lfs i z Hi) as (p & fr & -> & -> & Hc & Hu).
    assert (HI : In z ns) by (eapply nth_error_In; exact Hi).
    pose proof (HN z HI) as Hr.
    destruct (Z.of_nat n <=? z)%Z eqn:E; [apply Z.leb_le in E; lia|]. clear E.
    set (j := Z.to_nat (z + Z.of_nat n)).
    assert (Ej : z = (Z.of_nat j - Z.of_nat n)%Z) by (unfold j; lia).
    assert (Hj : j < n) by lia.
    destruct (placed_at meth ps (from_end n ns) fs vals vals' j HP) as (x & y & p' & fr' & Hx & Hy & Hc' & Hm).
    { replace (Z.of_nat j) with (z + Z.of_nat n)%Z by lia. apply in_shift. exact HI. }
    replace (Z.of_nat j) with (z + Z.of_nat n)%Z in Hc' by lia.
    apply (proj1 (carries_shift _ _ _)) in Hc'.
    destruct (Hu _ _ Hc') as (-> & ->).
    pose proof (py_index_neg V vals j x Hj Hx) as PI. fold n in PI. rewrite <- Ej in PI.
    rewrite PI; cbn [bind]. rewrite Hm; cbn [bind].
    apply StronglySorted_inv in HS; destruct HS as (HS1 & HS2). rewrite Forall_forall in HS2.
    apply (IH (S j)); try assumption.
    + intros z' i' H'. split; [apply HL; right; exact H'|].
      pose proof (HS2 _ H') as HB. unfold before in HB; cbn [fst] in HB. lia.
    + intros z' H'. destruct (HC z' H') as [G | [G | G]]; auto; try (left; lia).
      cbn [fst] in G. left; lia.
    + assert (Hgap : forall j', k <= j' < j -> ~ In (Z.of_nat j') (from_end n ns)).
      { intros j' Hj' HI'.
        replace (Z.of_nat j') with ((Z.of_nat j' - Z.of_nat n) + Z.of_nat n)%Z in HI' by lia.
        apply (proj1 (in_shift _)) in HI'.
        destruct (HC _ HI') as [G | [G | G]]; [lia | cbn [fst] in G; lia |].
        apply in_map_iff in G; destruct G as ((z', i') & G1 & G2); cbn [fst] in G1.
        pose proof (HS2 _ G2) as HB; unfold before in HB; cbn [fst] in HB; lia. }
      rewrite app_assoc, (gap_bounds vals' last _ k j HP); try lia; try assumption.
      * symmetry. apply firstn_S. exact Hy.
      * destruct Hlast as [(-> & _) | (-> & ->)]; [apply slice_neg; lia | apply (slice_bound_nonneg n 0); lia].
      * rewrite Ej. apply slice_neg. exact Hj.
    + left. split; [lia|]. replace (Z.of_nat (S j) - Z.of_nat n - 1)%Z with z by lia. exact HI.
Qed.

Lemma gloop_negative : forall vals', placed meth ps (from_end n ns) fs vals vals' ->
  (forall z, In z ns -> (- Z.of_nat n <= z < 0)%Z) ->
  gloop meth missing ps ns fs vals (argsort ns) 0 [] =
  Ok (vals' ++ if in_dec Z.eq_dec (-1)%Z ns then vals else []).
Proof.
  intros vals' HP HN. apply (gloop_neg vals' HP HN (pairs ns) 0).
  - apply pairs_sorted. exact nodup.
  - intros z i H. apply pairs_in in H. split; [exact H|].
    assert (HI : In z ns) by (eapply nth_error_In; exact H). pose proof (HN z HI). lia.
  - intros z H. right. apply pairs_fst. exact H.
  - lia.
  - reflexivity.
  - right. auto.
Qed.

(** A position before the first value. *)
Lemma gloop_below : (exists z, In z ns /\ (z < - Z.of_nat n)%Z) ->
  gloop meth missing ps ns fs vals (argsort ns) 0 [] = Err IndexError.
Proof.
  intros (z & HI & Hz).
  change (argsort ns) with (map snd (pairs ns)).
  pose proof (pairs_sorted ns nodup) as HS.
  pose proof (proj2 (pairs_fst ns z) HI) as HI'.
  destruct (pairs ns) as [|(z0, i) L] eqn:EL; [destruct HI'|].
  assert (Hi : nth_error ns i = Some z0) by (apply pairs_in; rewrite EL; left; reflexivity).
  cbn [map snd gloop]. rewrite Hi.
  destruct (carries_at ps ns fs nodup lps lfs i z0 Hi) as (p & fr & -> & -> & _ & _).
  assert (Hz0 : (z0 <= z)%Z).
  { inversion HS as [|? ? _ HS2]; subst. rewrite Forall_forall in HS2.
    destruct HI' as [<- | G]; [cbn; lia|].
    apply in_map_iff in G; destruct G as ((z', i') & <- & G2).
    pose proof (HS2 _ G2) as HB; unfold before in HB; cbn [fst] in *; lia. }
  fold n. destruct (Z.of_nat n <=? z0)%Z eqn:E; [apply Z.leb_le in E; lia|].
  unfold py_index. fold n.
  destruct (z0 <? 0)%Z eqn:E1; [|apply Z.ltb_ge in E1; lia].
  destruct (z0 + Z.of_nat n <? 0)%Z eqn:E2; [reflexivity | apply Z.ltb_ge in E2; lia].
Qed.
End Neg.

Lemma negative_inputs : forall V S (f : callable V S) patterns nums free flat ps ns fs,
  arrays_ok patterns nums free -> given patterns nums free ps ns fs ->
  NoDup ns -> length ns = length ps ->
  exists g, transform_input f patterns free flat nums = Ok g /\
    forall args kw s, no_self kw ->
      (forall args', Forall (fun z => (- Z.of_nat (length args) <= z < 0)%Z) ns ->
         placed (arg_conv flat) ps (from_end (length args) ns) fs args args' ->
         (~ In (-1)%Z ns -> c_call g args kw s = c_call f args' kw s) /\
         (In (-1)%Z ns -> c_call g args kw s = c_call f (args' ++ args) kw s /\
                          length (args' ++ args) = 2 * length args)) /\
      (Exists (fun z => (z < - Z.of_nat (length args))%Z) ns ->
         c_call g args kw s = (Err IndexError, s)).
Proof.
  intros V S f patterns nums free flat ps ns fs OK G ND L.
  unfold transform_input.
  rewrite (new_wrap_given V patterns nums free flat ps ns fs OK G ND L); cbn [bind].
  eexists. split; [reflexivity|].
  intros args kw s NS. cbn [c_call].
  unfold call_in. rewrite (self_clash_no _ _ NS), arg_loop_gloop. cbn [w_pats w_nums w_free w_sort].
  replace (arg_method {| w_pats := ps; w_nums := ns; w_sort := argsort ns; w_free := fs; w_flat := flat |})
    with (@arg_conv V flat) by (unfold arg_method, arg_conv; destruct flat; reflexivity).
  assert (Lf : length fs = length ns).
  { destruct G as (_ & _ & G). rewrite (flags_length _ _ _ G). congruence. }
  split.
  - intros args' NN HP. rewrite Forall_forall in NN.
    rewrite (gloop_negative (arg_conv flat) IndexError ps ns fs args ND (eq_sym L) Lf args' HP NN).
    destruct (in_dec Z.eq_dec (-1)%Z ns) as [HI|HN].
    + split; [contradiction|]. intros _. split; [reflexivity|].
      rewrite app_length. destruct HP as (-> & _). lia.
    + split; [|contradiction]. intros _. rewrite app_nil_r. reflexivity.
  - intros HE. rewrite Exists_exists in HE.
    rewrite (gloop_below (arg_conv flat) IndexError ps ns fs args ND (eq_sym L) Lf HE). reflexivity.
Qed.

Lemma negative_outputs : forall V S (f : callable V S) patterns nums free flat ps ns fs,
  arrays_ok patterns nums free -> given patterns nums free ps ns fs ->
  NoDup ns -> length ns = length ps ->
  exists g, transform_output f patterns free flat nums = Ok g /\
    forall args kw s rets s', no_self kw -> c_call f args kw s = (Ok (RTuple rets), s') ->
      (forall rets', Forall (fun z => (- Z.of_nat (length rets) <= z < 0)%Z) ns ->
         placed (ret_conv flat) ps (from_end (length rets) ns) fs rets rets' ->
         (~ In (-1)%Z ns -> c_call g args kw s = (Ok (RTuple rets'), s')) /\
         (In (-1)%Z ns -> c_call g args kw s = (Ok (RTuple (rets' ++ rets)), s') /\
                          length (rets' ++ rets) = 2 * length rets)) /\
      (Exists (fun z => (z < - Z.of_nat (length rets))%Z) ns ->
         c_call g args kw s = (Err IndexError, s')).
Proof.
  intros V S f patterns nums free flat ps ns fs OK G ND L.
  unfold transform_output.
  rewrite (new_wrap_given V patterns nums free flat ps ns fs OK G ND L); cbn [bind].
  eexists. split; [reflexivity|].
  intros args kw s rets s' NS Ef. cbn [c_call].
  unfold call_out. rewrite (self_clash_no _ _ NS), Ef, ret_loop_gloop. cbn [w_pats w_nums w_free w_sort].
  replace (ret_method {| w_pats := ps; w_nums := ns; w_sort := argsort ns; w_free := fs; w_flat := flat |})
    with (@ret_conv V flat) by (unfold ret_method, ret_conv; destruct flat; reflexivity).
  assert (Lf : length fs = length ns).
  { destruct G as (_ & _ & G). rewrite (flags_length _ _ _ G). congruence. }
  split.
  - intros rets' NN HP. rewrite Forall_forall in NN.
    rewrite (gloop_negative (ret_conv flat) (named_error f) ps ns fs rets ND (eq_sym L) Lf rets' HP NN).
    cbn [bind].
    destruct (in_dec Z.eq_dec (-1)%Z ns) as [HI|HN].
    + split; [contradiction|]. intros _. split; [reflexivity|].
      rewrite app_length. destruct HP as (-> & _). lia.
    + split; [|contradiction]. intros _. rewrite app_nil_r. reflexivity.
  - intros HE. rewrite Exists_exists in HE.
    rewrite (gloop_below (ret_conv flat) (named_error f) ps ns fs rets ND (eq_sym L) Lf HE). reflexivity.
Qed.
