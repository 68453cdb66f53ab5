(** * Negative and other positions mixed. *)
From Coq Require Import Reals NArith Ascii String Permutation Sorted FinFun.
From Verif Require Import Base Num Nd Numeric Simplex Psd Pattern Spec FunWrap SpecWrap WrapFacts WrapProps WrapOdd.
Local Open Scope list_scope.
Local Open Scope nat_scope.

Section Mix.
Context {V : Type} (meth : patobj V -> option bool -> V -> res V) (missing : exn)
        (ps : list (patobj V)) (ns : list Z) (fs : list (option bool)) (vals : list V).
Let n := length vals.
Hypothesis nodup : NoDup ns.
Hypothesis lps : length ps = length ns.
Hypothesis lfs : length fs = length ns.
Notation gl := (gloop meth missing ps ns fs vals).

Lemma gloop_acc : forall idx last acc, gl idx last acc = (t <- gl idx last [] ;; Ok (acc ++ t)).
Proof.
  induction idx as [|i idx IH]; intros last acc; cbn [gloop]; [reflexivity|].
  destruct (nth_error ns i) as [a|]; auto. destruct (nth_error ps i) as [p|]; auto.
  destruct (nth_error fs i) as [fr|]; auto. destruct (Z.of_nat (length vals) <=? a)%Z; auto.
  destruct (py_index vals a) as [x|]; auto. cbn [bind]. destruct (meth p fr x) as [v|]; auto. cbn [bind].
  rewrite IH. rewrite (IH _ ([] ++ _)). destruct (gl idx (a + 1)%Z []) as [t|]; auto. cbn [bind].
  cbn [app]. rewrite !app_assoc. reflexivity.
Qed.

Lemma replaced_at : forall ms vals' j, replaced meth ps ms fs vals vals' -> j < n -> In (Z.of_nat j) ms ->
  exists x y p fr, nth_error vals j = Some x /\ nth_error vals' j = Some y /\
    carries ps ms fs (Z.of_nat j) p fr /\ meth p fr x = Ok y.
Proof.
  intros ms vals' j (HL & HP) Hj HI.
  destruct (nth_error vals j) as [x|] eqn:E; [|apply nth_error_None in E; unfold n in *; lia].
  destruct (HP j x E) as (y & Hy & [(p & fr & Hc & Hm) | (N & _)]); [|contradiction].
  exists x, y, p, fr. auto.
Qed.
Lemma replaced_same : forall ms vals' j, replaced meth ps ms fs vals vals' -> ~ In (Z.of_nat j) ms ->
  nth_error vals' j = nth_error vals j.
Proof.
  intros ms vals' j (HL & HP) HN. destruct (nth_error vals j) as [x|] eqn:E.
  - destruct (HP j x E) as (y & -> & [(p & fr & (i & Hi & _) & _)|(_ & ->)]); auto.
    exfalso. apply HN. eapply nth_error_In. exact Hi.
  - apply nth_error_None. apply nth_error_None in E. lia.
Qed.
(** [vals[i:j]] when the bounds denote [a <= b]. *)
Lemma replaced_gap : forall ms vals' i j a b, replaced meth ps ms fs vals vals' ->
  slice_bound n i = a -> slice_bound n j = b -> a <= b -> b <= n ->
  (forall k, a <= k < b -> ~ In (Z.of_nat k) ms) ->
  firstn a vals' ++ py_slice vals i j = firstn b vals'.
Proof.
  intros ms vals' i j a b HP Hi Hj Hab Hb HN. unfold py_slice. fold n. rewrite Hi, Hj.
  apply firstn_mid; auto. apply HP.
  intros k Hk. symmetry. apply (replaced_same ms); auto.
Qed.

(** The positions counted from the end. *)
Lemma gloop_first : forall vals', replaced meth ps (from_end n ns) fs vals vals' ->
  forall L M k last, L <> [] -> StronglySorted before L ->
    (forall z i, In (z, i) L -> nth_error ns i = Some z /\ (Z.of_nat k <= z + Z.of_nat n)%Z /\ (z < 0)%Z) ->
    (forall z, In z ns -> (z < 0)%Z -> (z + Z.of_nat n < Z.of_nat k)%Z \/ In z (map fst L)) ->
    k <= n -> slice_bound n last = k ->
    exists j, j < n /\ In (Z.of_nat j - Z.of_nat n)%Z (map fst L) /\
      (forall z, In z (map fst L) -> (z <= Z.of_nat j - Z.of_nat n)%Z) /\
      gl (map snd (L ++ M)) last (firstn k vals') =
      gl (map snd M) (Z.of_nat (S j) - Z.of_nat n)%Z (firstn (S j) vals').
Proof.
  intros vals' HP L; induction L as [|(z, i) L IH]; intros M k last HNE HS HL HC Hk Hlast; [congruence|].
  cbn [map snd gloop app]. fold n.
  destruct (HL z i (or_introl eq_refl)) as (Hi & Hz & Hz0).
  rewrite Hi.
  destruct (carries_at ps ns fs nodup lps lfs i z Hi) as (p & fr & -> & -> & Hc & Hu).
  assert (HI : In z ns) by (eapply nth_error_In; exact Hi).
  destruct (Z.of_nat n <=? z)%Z eqn:E; [apply Z.leb_le in E; lia|]. clear E.
  set (j := Z.to_nat (z + Z.of_nat n)).
  assert (Ej : z = (Z.of_nat j - Z.of_nat n)%Z) by (unfold j; lia).
  assert (Hj : j < n) by lia.
  destruct (replaced_at (from_end n ns) vals' j HP Hj) as (x & y & p' & fr' & Hx & Hy & Hc' & Hm).
  { replace (Z.of_nat j) with (z + Z.of_nat n)%Z by lia. unfold n. apply (in_shift ps ns fs vals lps lfs). exact HI. }
  replace (Z.of_nat j) with (z + Z.of_nat n)%Z in Hc' by lia.
  unfold n in Hc'. apply (proj1 (carries_shift ps ns fs vals lps lfs _ _ _)) in Hc'.
  destruct (Hu _ _ Hc') as (-> & ->).
  pose proof (py_index_neg ps ns fs vals lps lfs V vals j x Hj Hx) as PI. fold n in PI. rewrite <- Ej in PI.
  rewrite PI; cbn [bind]. rewrite Hm; cbn [bind].
  apply StronglySorted_inv in HS; destruct HS as (HS1 & HS2). rewrite Forall_forall in HS2.
  assert (Hgap : forall j', k <= j' < j -> ~ In (Z.of_nat j') (from_end n ns)).
  { intros j' Hj' HI'.
    replace (Z.of_nat j') with ((Z.of_nat j' - Z.of_nat n) + Z.of_nat n)%Z in HI' by lia.
    unfold n in HI'. apply (proj1 (in_shift ps ns fs vals lps lfs _)) in HI'. fold n in HI'.
    destruct (HC _ HI') as [G | [G | G]]; [lia | lia | cbn [fst] in G; lia |].
    apply in_map_iff in G; destruct G as ((z', i') & G1 & G2); cbn [fst] in G1.
    pose proof (HS2 _ G2) as HB; unfold before in HB; cbn [fst] in HB; lia. }
  rewrite app_assoc, (replaced_gap (from_end n ns) vals' last z k j HP Hlast); auto; try lia.
  2:{ rewrite Ej. unfold n. apply (slice_neg ps ns fs vals lps lfs). exact Hj. }
  assert (firstn j vals' ++ [y] = firstn (S j) vals') as -> by (symmetry; apply firstn_S; exact Hy).
  destruct L as [|b L].
  - exists j. cbn [app map fst In]. split; auto. split; [left; lia|]. split; [intros z' [<-|[]]; lia|].
    f_equal. lia.
  - destruct (IH M (S j) (z + 1)%Z) as (j' & H1 & H2 & H3 & H4); try congruence.
    + intros z' i' H'. destruct (HL z' i' (or_intror H')) as (G1 & G2 & G3). split; auto. split; auto.
      pose proof (HS2 _ H') as HB. unfold before in HB; cbn [fst] in HB. lia.
    + intros z' H' H0. destruct (HC z' H' H0) as [G | [G | G]]; auto; try (left; lia).
      cbn [fst] in G. left; lia.
    + lia.
    + replace (z + 1)%Z with (Z.of_nat (S j) - Z.of_nat n)%Z by lia. unfold n. apply (slice_neg ps ns fs vals lps lfs). fold n.
      destruct b as (zb, ib). destruct (HL zb ib ltac:(right; left; auto)) as (_ & G2 & G3).
      pose proof (HS2 _ (or_introl eq_refl)) as HB. unfold before in HB. cbn [fst] in HB. lia.
    + exists j'. split; auto. split; [right; exact H2|]. split; [|exact H4].
      intros z' [<-|H']; auto. cbn [fst]. destruct b as (zb, ib).
      pose proof (HS2 _ (or_introl eq_refl)) as HB. unfold before in HB. cbn [fst] in HB.
      specialize (H3 zb (or_introl eq_refl)). lia.
Qed.

(** The others. *)
Lemma gloop_rest : forall vals', replaced meth ps ns fs vals vals' ->
  forall L k, StronglySorted before L ->
    (forall z i, In (z, i) L -> nth_error ns i = Some z /\ (Z.of_nat k <= z < Z.of_nat n)%Z) ->
    (forall z, In z ns -> (0 <= z)%Z -> (z < Z.of_nat k)%Z \/ In z (map fst L)) ->
    k <= n -> gl (map snd L) (Z.of_nat k) (firstn k vals') = Ok vals'.
Proof.
  intros vals' HP L; induction L as [|(z, i) L IH]; intros k HS HL HC Hk; cbn [map snd gloop]; fold n.
  - rewrite (replaced_gap ns vals' (Z.of_nat k) (Z.of_nat n) k n HP); auto.
    + f_equal. unfold n. rewrite <- (proj1 HP). apply firstn_all.
    + apply slice_bound_nonneg. lia.
    + apply slice_bound_nonneg. lia.
    + intros j Hj HI. destruct (HC _ HI ltac:(lia)) as [H|[]]. lia.
  - destruct (HL z i (or_introl eq_refl)) as (Hi & Hz).
    rewrite Hi.
    destruct (carries_at ps ns fs nodup lps lfs i z Hi) as (p & fr & -> & -> & Hc & Hu).
    assert (HI : In z ns) by (eapply nth_error_In; exact Hi).
    assert (z = Z.of_nat (Z.to_nat z)) as Ez by lia.
    remember (Z.to_nat z) as j eqn:Ej. rewrite Ez in *. clear Ej Ez z.
    destruct (replaced_at ns vals' j HP ltac:(lia) HI) as (x & y & p' & fr' & Hx & Hy & Hc' & Hm).
    destruct (Hu _ _ Hc') as (-> & ->).
    destruct (Z.of_nat n <=? Z.of_nat j)%Z eqn:E; [apply Z.leb_le in E; lia|].
    rewrite (py_index_nonneg _ _ _ _ Hx); cbn [bind]. rewrite Hm; cbn [bind].
    replace (Z.of_nat j + 1)%Z with (Z.of_nat (S j)) by lia.
    inversion HS as [|? ? HS1 HS2]; subst. rewrite Forall_forall in HS2.
    rewrite app_assoc, (replaced_gap ns vals' (Z.of_nat k) (Z.of_nat j) k j HP); try lia.
    + assert (firstn j vals' ++ [y] = firstn (S j) vals') as -> by (symmetry; apply firstn_S; exact Hy).
      apply IH; auto; try lia.
      * intros z' i' H'. split; [apply HL; right; exact H'|].
        pose proof (HS2 _ H') as HB. unfold before in HB; cbn [fst] in HB.
        destruct (HL z' i' (or_intror H')). lia.
      * intros z' H' H0. destruct (HC z' H' H0) as [G|[G|G]]; auto; try (left; lia). cbn [fst] in G. left; lia.
    + apply slice_bound_nonneg. lia.
    + apply slice_bound_nonneg. lia.
    + intros j' Hj' HI'. destruct (HC _ HI' ltac:(lia)) as [G | [G | G]]; [lia | cbn [fst] in G; lia |].
      apply in_map_iff in G; destruct G as ((z', i') & G1 & G2); cbn [fst] in G1.
      pose proof (HS2 _ G2) as HB; unfold before in HB; cbn [fst] in HB; lia.
Qed.

Lemma sorted_split : forall l, StronglySorted before l ->
  l = filter (fun x => (fst x <? 0)%Z) l ++ filter (fun x => negb (fst x <? 0)%Z) l /\
  StronglySorted before (filter (fun x => (fst x <? 0)%Z) l) /\
  StronglySorted before (filter (fun x => negb (fst x <? 0)%Z) l).
Proof.
  clear. induction l as [|(z, i) l IH]; intros H; [cbn; auto|].
  apply StronglySorted_inv in H. destruct H as (H1 & H2). destruct (IH H1) as (E & S1 & S2).
  rewrite Forall_forall in H2. cbn [filter fst]. destruct (z <? 0)%Z eqn:Ez; cbn [negb].
  - split; [cbn; congruence|]. split; auto. constructor; auto. apply Forall_forall. intros x Hx.
    apply filter_In in Hx. apply H2. tauto.
  - assert (filter (fun x : Z * nat => (fst x <? 0)%Z) l = []) as E0.
    { destruct (filter (fun x : Z * nat => (fst x <? 0)%Z) l) as [|b r] eqn:Ef; auto. exfalso.
      assert (In b (filter (fun x : Z * nat => (fst x <? 0)%Z) l)) as Hb by (rewrite Ef; left; auto).
      apply filter_In in Hb. destruct Hb as (Hb & Hn). pose proof (H2 _ Hb) as HB. unfold before in HB. cbn [fst] in HB.
      apply Z.ltb_lt in Hn. apply Z.ltb_ge in Ez. lia. }
    rewrite E0 in *. cbn [app] in *. split; [congruence|]. split; auto. constructor; auto.
    apply Forall_forall. intros x Hx. apply filter_In in Hx. apply H2. tauto.
Qed.

Lemma skipn_at : forall A (l : list A) j x, nth_error l j = Some x -> skipn j l = x :: skipn (S j) l.
Proof. induction l as [|a l IH]; intros [|j] x H; cbn in *; try discriminate; [congruence|]. rewrite (IH j x H). reflexivity. Qed.
Lemma skipn_gap : forall (l l' : list V) a b, a <= b -> b <= length l -> length l' = length l ->
  (forall k, k < b -> nth_error l' k = nth_error l k) -> firstn (b - a) (skipn a l) ++ skipn b l' = skipn a l'.
Proof.
  clear. induction l as [|x l IH]; intros [|x' l'] a b Hab Hb HL HE; cbn in Hb, HL; try lia.
  - assert (b = 0) by lia. assert (a = 0) by lia. subst. reflexivity.
  - destruct a as [|a], b as [|b]; try lia.
    + reflexivity.
    + cbn [skipn Nat.sub firstn app]. pose proof (HE 0 ltac:(lia)) as E0. cbn in E0. injection E0 as ->. f_equal.
      specialize (IH l' 0 b ltac:(lia) ltac:(lia) ltac:(lia)). rewrite Nat.sub_0_r in IH. apply IH.
      intros k Hk. apply (HE (S k)). lia.
    + cbn [skipn Nat.sub]. apply IH; try lia. intros k Hk. apply (HE (S k)). lia.
Qed.

Lemma gloop_mixed : forall k q at_end at_start, mixed_at ns n k q ->
  replaced meth ps (from_end n ns) fs vals at_end -> replaced meth ps ns fs vals at_start ->
  gl (argsort ns) 0 [] = Ok (mixed n k q at_end at_start).
Proof.
  intros k q e b (Hk & Hq & Ik & Iq & HF) HE HB. rewrite Forall_forall in HF.
  change (argsort ns) with (map snd (pairs ns)).
  destruct (sorted_split (pairs ns) (pairs_sorted ns nodup)) as (Esp & S1 & S2).
  set (L := filter (fun x : Z * nat => (fst x <? 0)%Z) (pairs ns)) in *.
  set (M := filter (fun x : Z * nat => negb (fst x <? 0)%Z) (pairs ns)) in *.
  assert (forall z, In z (map fst L) <-> In z ns /\ (z < 0)%Z) as HL.
  { intros z. rewrite <- (pairs_fst ns z). unfold L. rewrite !in_map_iff. split.
    - intros ((z', i') & <- & Hx). apply filter_In in Hx. destruct Hx as (Hx & Hl). apply Z.ltb_lt in Hl.
      split; auto. exists (z', i'). auto.
    - intros (((z', i') & <- & Hx) & Hl). exists (z', i'). split; auto. apply filter_In. split; auto. apply Z.ltb_lt. auto. }
  assert (forall z, In z (map fst M) <-> In z ns /\ (0 <= z)%Z) as HM.
  { intros z. rewrite <- (pairs_fst ns z). unfold M. rewrite !in_map_iff. split.
    - intros ((z', i') & <- & Hx). apply filter_In in Hx. destruct Hx as (Hx & Hl).
      apply Bool.negb_true_iff, Z.ltb_ge in Hl. split; auto. exists (z', i'). auto.
    - intros (((z', i') & <- & Hx) & Hl). exists (z', i'). split; auto. apply filter_In. split; auto.
      apply Bool.negb_true_iff, Z.ltb_ge. auto. }
  assert (forall z i, In (z, i) L \/ In (z, i) M -> nth_error ns i = Some z) as HP.
  { intros z i H. apply pairs_in. rewrite Esp. apply in_or_app. auto. }
  rewrite Esp.
  destruct (gloop_first e HE L M 0 0%Z) as (j & Hj & Ij & Lj & G1).
  - intros E. assert (In (Z.of_nat k - Z.of_nat n)%Z (map fst L)) as H by (apply HL; split; auto; lia).
    rewrite E in H. destruct H.
  - exact S1.
  - intros z i H. split; auto. assert (In z (map fst L)) as H' by (apply in_map_iff; exists (z, i); auto).
    apply HL in H'. destruct H' as (H1 & H2). destruct (HF z H1); lia.
  - intros z H H0. right. apply HL. auto.
  - lia.
  - apply (slice_bound_nonneg n 0). lia.
  - assert (j = k) as ->.
    { apply HL in Ij. destruct Ij as (Ij & _). destruct (HF _ Ij) as [H|H]; [|lia].
      assert (In (Z.of_nat k - Z.of_nat n)%Z (map fst L)) as H' by (apply HL; split; auto; lia).
      specialize (Lj _ H'). lia. }
    change (@nil V) with (firstn 0 e). rewrite G1. clear G1 Lj Ij.
    assert (In (Z.of_nat q) (map fst M)) as HqM by (apply HM; split; auto; lia).
    destruct M as [|(z, i) M'] eqn:EM; [destruct HqM|].
    apply StronglySorted_inv in S2. destruct S2 as (S2 & S3). rewrite Forall_forall in S3.
    assert (z = Z.of_nat q) as ->.
    { assert (In z ns /\ (0 <= z)%Z) as (H1 & H2) by (apply HM; left; auto).
      destruct (HF z H1) as [H|H]; [lia|]. destruct HqM as [H'|H']; [auto|].
      apply in_map_iff in H'. destruct H' as ((z', i') & E1 & H'). specialize (S3 _ H'). unfold before in S3.
      cbn [fst] in *. lia. }
    pose proof (HP _ i (or_intror (or_introl eq_refl))) as Hi.
    cbn [map snd gloop]. fold n. rewrite Hi.
    destruct (carries_at ps ns fs nodup lps lfs i _ Hi) as (p & fr & -> & -> & Hc & Hu).
    destruct (replaced_at ns b q HB Hq Iq) as (x & y & p' & fr' & Hx & Hy & Hc' & Hm).
    destruct (Hu _ _ Hc') as (-> & ->).
    destruct (Z.of_nat n <=? Z.of_nat q)%Z eqn:E; [apply Z.leb_le in E; lia|].
    rewrite (py_index_nonneg _ _ _ _ Hx); cbn [bind]. rewrite Hm; cbn [bind].
    replace (Z.of_nat q + 1)%Z with (Z.of_nat (S q)) by lia.
    assert (gl (map snd M') (Z.of_nat (S q)) (firstn (S q) b) = Ok b) as G.
    { apply gloop_rest; auto.
      - intros z' i' H'. split; [apply HP; right; right; auto|]. pose proof (S3 _ H') as Hb. unfold before in Hb. cbn [fst] in Hb.
        assert (In z' ns /\ (0 <= z')%Z) as (H1 & H2) by (apply HM; right; apply in_map_iff; exists (z', i'); auto).
        destruct (HF z' H1); lia.
      - intros z' H' H0. assert (In z' (map fst ((Z.of_nat q, i) :: M'))) as [H|H] by (apply HM; auto); auto.
        cbn [fst] in H. left. lia. }
    rewrite gloop_acc in G. rewrite gloop_acc.
    destruct (gl (map snd M') (Z.of_nat (S q)) []) as [t|]; [|discriminate]. cbn [bind] in G |- *.
    injection G as G. rewrite <- (firstn_skipn (S q) b) in G at 2. apply app_inv_head in G. subst t.
    f_equal. unfold mixed. rewrite <- !app_assoc. f_equal. cbn [app].
    rewrite <- (skipn_at V b q y Hy). unfold py_slice. fold n.
    rewrite (slice_bound_nonneg n q) by lia.
    assert (forall k0, k0 < q -> nth_error b k0 = nth_error vals k0) as Hlow.
    { intros k0 Hk0. apply (replaced_same ns); auto. intros H. destruct (HF _ H); lia. }
    destruct (Nat.eqb_spec (S k) n) as [En|En].
    + replace (Z.of_nat (S k) - Z.of_nat n)%Z with (Z.of_nat 0) by lia. rewrite (slice_bound_nonneg n 0) by lia.
      apply skipn_gap; auto; try (unfold n in *; lia). apply HB.
    + pose proof (slice_neg ps ns fs vals lps lfs (S k)) as Hs. fold n in Hs. rewrite Hs by lia.
      destruct (le_lt_dec (S k) q) as [Hle|Hlt].
      * rewrite Nat.min_l by auto. apply skipn_gap; auto; try (unfold n in *; lia). apply HB.
      * rewrite Nat.min_r by lia. replace (q - S k) with 0 by lia. reflexivity.
Qed.
End Mix.

Lemma mixed_length : forall V n k q (a b : list V), k < n -> q < n -> length a = n -> length b = n ->
  (S k = n -> length (mixed n k q a b) = 2 * n) /\
  (S k < n -> length (mixed n k q a b) = n + (S k - q)) /\
  (length (mixed n k q a b) = n <-> S k < n /\ k < q).
Proof.
  intros V n k q a b Hk Hq Ha Hb. unfold mixed. rewrite app_length, firstn_length, skipn_length.
  destruct (Nat.eqb_spec (S k) n); repeat split; lia.
Qed.
Theorem mixed_inputs : forall V S (f : callable V S) patterns nums free flat ps ns fs,
  arrays_ok patterns nums free -> given patterns nums free ps ns fs ->
  NoDup ns -> length ns = length ps ->
  exists g, transform_input f patterns free flat nums = Ok g /\
    forall args kw s k q at_end at_start, no_self kw -> mixed_at ns (length args) k q ->
      replaced (arg_conv flat) ps (from_end (length args) ns) fs args at_end ->
      replaced (arg_conv flat) ps ns fs args at_start ->
      c_call g args kw s = c_call f (mixed (length args) k q at_end at_start) kw s.
Proof.
  intros V S f patterns nums free flat ps ns fs OK G ND L.
  unfold transform_input.
  rewrite (new_wrap_given V patterns nums free flat ps ns fs OK G ND L); cbn [bind].
  eexists. split; [reflexivity|].
  intros args kw s k q e b NS HM HE HB. cbn [c_call].
  unfold call_in. rewrite (self_clash_no _ _ NS), arg_loop_gloop. cbn [w_pats w_nums w_free w_sort].
  replace (arg_method {| w_pats := ps; w_nums := ns; w_sort := argsort ns; w_free := fs; w_flat := flat |})
    with (@arg_conv V flat) by (unfold arg_method, arg_conv; destruct flat; reflexivity).
  assert (Lf : length fs = length ns).
  { destruct G as (_ & _ & G). rewrite (flags_length _ _ _ G). congruence. }
  rewrite (gloop_mixed (arg_conv flat) IndexError ps ns fs args ND (eq_sym L) Lf k q e b HM HE HB). reflexivity.
Qed.
Theorem mixed_outputs : forall V S (f : callable V S) patterns nums free flat ps ns fs,
  arrays_ok patterns nums free -> given patterns nums free ps ns fs ->
  NoDup ns -> length ns = length ps ->
  exists g, transform_output f patterns free flat nums = Ok g /\
    forall args kw s rets s' k q at_end at_start, no_self kw -> c_call f args kw s = (Ok (RTuple rets), s') ->
      mixed_at ns (length rets) k q ->
      replaced (ret_conv flat) ps (from_end (length rets) ns) fs rets at_end ->
      replaced (ret_conv flat) ps ns fs rets at_start ->
      c_call g args kw s = (Ok (RTuple (mixed (length rets) k q at_end at_start)), s').
Proof.
  intros V S f patterns nums free flat ps ns fs OK G ND L.
  unfold transform_output.
  rewrite (new_wrap_given V patterns nums free flat ps ns fs OK G ND L); cbn [bind].
  eexists. split; [reflexivity|].
  intros args kw s rets s' k q e b NS Ef HM HE HB. cbn [c_call].
  unfold call_out. rewrite (self_clash_no _ _ NS), Ef, ret_loop_gloop. cbn [w_pats w_nums w_free w_sort].
  replace (ret_method {| w_pats := ps; w_nums := ns; w_sort := argsort ns; w_free := fs; w_flat := flat |})
    with (@ret_conv V flat) by (unfold ret_method, ret_conv; destruct flat; reflexivity).
  assert (Lf : length fs = length ns).
  { destruct G as (_ & _ & G). rewrite (flags_length _ _ _ G). congruence. }
  rewrite (gloop_mixed (ret_conv flat) (named_error f) ps ns fs rets ND (eq_sym L) Lf k q e b HM HE HB). reflexivity.
Qed.
(** No wrapper has a [__name__], so a wrapper around a wrapper cannot name it. *)
Theorem wrappers_unnamed : forall V S (f g : callable V S) patterns free flat nums,
  transform_input f patterns free flat nums = Ok g \/ transform_output f patterns free flat nums = Ok g ->
  missing_result g = AttributeError.
Proof.
  intros V S f g patterns free flat nums H. unfold transform_input, transform_output in H.
  destruct (new_wrap patterns nums free flat); destruct H as [H|H]; try discriminate; injection H as <-; reflexivity.
Qed.
