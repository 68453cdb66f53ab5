(** * Facts about the function wrappers. *)
From Coq Require Import Reals NArith Ascii String Permutation Sorted.
From Verif Require Import Base Num Nd Numeric Simplex Psd Pattern Spec FunWrap SpecWrap.
Local Open Scope list_scope.
Local Open Scope nat_scope.

(** ** Sorting *)

Definition pairs (ns : list Z) : list (Z * nat) :=
  fold_right insert_num [] (combine ns (seq 0 (length ns))).

Lemma insert_perm : forall x l, Permutation (insert_num x l) (x :: l).
Proof.
  intros x l; induction l as [|y l IH]; cbn [insert_num]; [reflexivity|].
  destruct (fst y <? fst x)%Z; [|reflexivity].
  rewrite IH; apply perm_swap.
Qed.

Lemma pairs_perm : forall ns, Permutation (pairs ns) (combine ns (seq 0 (length ns))).
Proof.
  intros ns; unfold pairs.
  induction (combine ns (seq 0 (length ns))) as [|x l IH]; cbn [fold_right]; [reflexivity|].
  rewrite insert_perm; constructor; exact IH.
Qed.

Definition before (a b : Z * nat) : Prop := (fst a < fst b)%Z.

Lemma insert_sorted : forall x l, ~ In (fst x) (map fst l) ->
  StronglySorted before l -> StronglySorted before (insert_num x l).
Proof.
  intros x l; induction l as [|y l IH]; intros H S; cbn [insert_num].
  - constructor; [constructor | constructor].
  - inversion S as [|? ? S1 S2]; subst.
    cbn [map In] in H.
    destruct (fst y <? fst x)%Z eqn:E.
    + apply Z.ltb_lt in E.
      constructor; [apply IH; tauto|].
      eapply Permutation_Forall; [symmetry; apply insert_perm|].
      constructor; [exact E | exact S2].
    + apply Z.ltb_ge in E.
      assert (L : before x y) by (unfold before; lia).
      constructor; [exact S|].
      constructor; [exact L|].
      eapply Forall_impl; [|exact S2].
      intros a Ha; unfold before in *; lia.
Qed.

Lemma sorted_of_nodup : forall l : list (Z * nat), NoDup (map fst l) ->
  StronglySorted before (fold_right insert_num [] l).
Proof.
  induction l as [|x l IH]; intros H; cbn [fold_right]; [constructor|].
  cbn [map] in H; inversion H as [|? ? H1 H2]; subst.
  apply insert_sorted; [|apply IH; exact H2].
  intro HI; apply H1.
  assert (P : Permutation (fold_right insert_num [] l) l).
  { clear; induction l as [|y l IHl]; cbn [fold_right]; [reflexivity|].
    rewrite insert_perm; constructor; exact IHl. }
  eapply Permutation_in; [apply Permutation_map; exact P | exact HI].
Qed.

Lemma combine_fst : forall A B (l : list A) (m : list B), length l = length m ->
  map fst (combine l m) = l.
Proof.
  intros A B l; induction l as [|a l IH]; intros [|b m] H; cbn in *; try discriminate; auto.
  rewrite IH; [reflexivity | congruence].
Qed.

Lemma pairs_sorted : forall ns, NoDup ns -> StronglySorted before (pairs ns).
Proof.
  intros ns H; apply sorted_of_nodup.
  rewrite combine_fst; [exact H | rewrite seq_length; reflexivity].
Qed.

Lemma combine_seq_in : forall (ns : list Z) k z i,
  In (z, i) (combine ns (seq k (length ns))) <-> k <= i /\ nth_error ns (i - k) = Some z.
Proof.
  induction ns as [|n ns IH]; intros k z i; cbn [length seq combine In].
  - split; [tauto | intros (_ & H); destruct (i - k); discriminate].
  - rewrite IH. split.
    + intros [H | (H1 & H2)].
      * injection H as <- <-. split; [lia|]. rewrite Nat.sub_diag; reflexivity.
      * split; [lia|]. replace (i - k) with (S (i - S k)) by lia. exact H2.
    + intros (H1 & H2).
      destruct (Nat.eq_dec i k) as [->|N].
      * left. rewrite Nat.sub_diag in H2; cbn in H2. congruence.
      * right. split; [lia|]. replace (i - k) with (S (i - S k)) in H2 by lia. exact H2.
Qed.

Lemma pairs_in : forall ns z i, In (z, i) (pairs ns) <-> nth_error ns i = Some z.
Proof.
  intros ns z i. transitivity (In (z, i) (combine ns (seq 0 (length ns)))).
  - split; apply Permutation_in; [apply pairs_perm | symmetry; apply pairs_perm].
  - rewrite combine_seq_in, Nat.sub_0_r. intuition lia.
Qed.

Lemma pairs_fst : forall ns z, In z (map fst (pairs ns)) <-> In z ns.
Proof.
  intros ns z. rewrite in_map_iff. split.
  - intros ((z', i) & <- & H). apply pairs_in in H. eapply nth_error_In; exact H.
  - intros H. apply In_nth_error in H. destruct H as (i & H).
    exists (z, i). split; [reflexivity | apply pairs_in; exact H].
Qed.

(** ** Lists *)

Lemma firstn_S : forall A (l : list A) k x, nth_error l k = Some x ->
  firstn (S k) l = firstn k l ++ [x].
Proof.
  intros A l; induction l as [|a l IH]; intros [|k] x H; cbn in *; try discriminate.
  - congruence.
  - rewrite (IH k x H); reflexivity.
Qed.

Lemma firstn_mid : forall A (l l' : list A) a b, length l' = length l -> a <= b -> b <= length l ->
  (forall j, a <= j < b -> nth_error l j = nth_error l' j) ->
  firstn a l' ++ firstn (b - a) (skipn a l) = firstn b l'.
Proof.
  intros A l; induction l as [|x l IH]; intros [|x' l'] a b HL Hab Hb HJ; cbn [length] in *; try discriminate.
  - replace b with 0 by lia. replace a with 0 by lia. reflexivity.
  - destruct a as [|a].
    + destruct b as [|b]; [reflexivity|].
      pose proof (HJ 0 ltac:(lia)) as H0; cbn in H0; injection H0 as <-.
      cbn [firstn skipn app Nat.sub]. f_equal.
      pose proof (IH l' 0 b ltac:(lia) ltac:(lia) ltac:(lia)) as IH'.
      cbn [firstn skipn app] in IH'. rewrite Nat.sub_0_r in IH'. rewrite IH'; [reflexivity|].
      intros j Hj. apply (HJ (S j)). lia.
    + destruct b as [|b]; [lia|].
      cbn [firstn skipn app Nat.sub]. f_equal. apply IH; try lia.
      intros j Hj. apply (HJ (S j)). lia.
Qed.

Lemma slice_bound_nonneg : forall n k, k <= n -> slice_bound n (Z.of_nat k) = k.
Proof.
  intros n k H. unfold slice_bound.
  destruct (Z.of_nat k <? 0)%Z eqn:E; [apply Z.ltb_lt in E; lia|].
  rewrite Nat2Z.id. lia.
Qed.

Lemma slice_bound_neg : forall n k, 0 < k -> k <= n -> slice_bound n (- Z.of_nat k) = n - k.
Proof.
  intros n k H H'. unfold slice_bound.
  destruct (- Z.of_nat k <? 0)%Z eqn:E; [|apply Z.ltb_ge in E; lia]. lia.
Qed.

Lemma py_index_nonneg : forall A (l : list A) k x, nth_error l k = Some x ->
  py_index l (Z.of_nat k) = Ok x.
Proof.
  intros A l k x H. unfold py_index.
  destruct (Z.of_nat k <? 0)%Z eqn:E; [apply Z.ltb_lt in E; lia|].
  rewrite E, Nat2Z.id, H. reflexivity.
Qed.

Lemma list_of_choice : forall A n (Q : nat -> A -> Prop), (forall j, j < n -> exists y, Q j y) ->
  exists l, length l = n /\ forall j y, nth_error l j = Some y -> Q j y.
Proof.
  intros A n; induction n as [|n IH]; intros Q H.
  - exists []. split; [reflexivity|]. intros [|j] y E; discriminate.
  - destruct (H 0 ltac:(lia)) as (y0 & H0).
    destruct (IH (fun j => Q (S j))) as (l & HL & HQ); [intros j Hj; apply H; lia|].
    exists (y0 :: l). split; [cbn; congruence|].
    intros [|j] y E; cbn in E; [congruence | apply HQ; exact E].
Qed.

(** ** One loop for both wrappers *)

Section Loop.
Context {V : Type} (meth : patobj V -> option bool -> V -> res V) (missing : exn)
        (ps : list (patobj V)) (ns : list Z) (fs : list (option bool)) (vals : list V).

Fixpoint gloop (idx : list nat) (last : Z) (acc : list V) : res (list V) :=
  match idx with
  | [] => Ok (acc ++ py_slice vals last (Z.of_nat (length vals)))
  | i :: rest =>
      match nth_error ns i, nth_error ps i, nth_error fs i with
      | Some a, Some p, Some fr =>
          if (Z.of_nat (length vals) <=? a)%Z then Err missing
          else
            x <- py_index vals a ;;
            v <- meth p fr x ;;
            gloop rest (a + 1) (acc ++ py_slice vals last a ++ [v])
      | _, _, _ => Err IndexError
      end
  end.

Hypothesis nodup : NoDup ns.
Hypothesis lps : length ps = length ns.
Hypothesis lfs : length fs = length ns.

Lemma carries_at : forall i z, nth_error ns i = Some z ->
  exists p fr, nth_error ps i = Some p /\ nth_error fs i = Some fr /\
               carries ps ns fs z p fr /\
               forall p' fr', carries ps ns fs z p' fr' -> p' = p /\ fr' = fr.
Proof.
  intros i z H.
  assert (L : i < length ns) by (apply nth_error_Some; congruence).
  destruct (nth_error ps i) as [p|] eqn:Ep; [|apply nth_error_None in Ep; lia].
  destruct (nth_error fs i) as [fr|] eqn:Ef; [|apply nth_error_None in Ef; lia].
  exists p, fr. split; [reflexivity|]. split; [reflexivity|].
  split; [exists i; auto|].
  intros p' fr' (i' & H1 & H2 & H3).
  assert (i' = i).
  { rewrite NoDup_nth_error in nodup. symmetry. apply nodup; [exact L | congruence]. }
  subst i'. split; congruence.
Qed.

(** Unchanged values between two positions. *)
Lemma placed_gap : forall vals' a b, placed meth ps ns fs vals vals' -> a <= b -> b <= length vals ->
  (forall j, a <= j < b -> ~ In (Z.of_nat j) ns) ->
  firstn a vals' ++ py_slice vals (Z.of_nat a) (Z.of_nat b) = firstn b vals'.
Proof.
  clear nodup lps lfs.
  intros vals' a b (HL & _ & HP) Hab Hb HN.
  unfold py_slice. rewrite !slice_bound_nonneg by lia.
  apply firstn_mid; try assumption.
  intros j Hj.
  destruct (nth_error vals j) as [x|] eqn:E; [|apply nth_error_None in E; lia].
  destruct (HP j x E) as (y & -> & [(p & fr & (i & Hi & _) & _) | (_ & ->)]); [|reflexivity].
  exfalso. apply (HN j Hj). eapply nth_error_In; exact Hi.
Qed.

Lemma placed_at : forall vals' j, placed meth ps ns fs vals vals' -> In (Z.of_nat j) ns ->
  exists x y p fr, nth_error vals j = Some x /\ nth_error vals' j = Some y /\
    carries ps ns fs (Z.of_nat j) p fr /\ meth p fr x = Ok y.
Proof.
  clear nodup lps lfs.
  intros vals' j (HL & HF & HP) HI.
  rewrite Forall_forall in HF. pose proof (HF _ HI) as Hj; cbv beta in Hj.
  destruct (nth_error vals j) as [x|] eqn:E; [|apply nth_error_None in E; lia].
  destruct (HP j x E) as (y & Hy & [(p & fr & Hc & Hm) | (N & _)]); [|contradiction].
  exists x, y, p, fr. auto.
Qed.

Lemma gloop_placed : forall vals', placed meth ps ns fs vals vals' ->
  forall L k acc, StronglySorted before L ->
    (forall z i, In (z, i) L -> nth_error ns i = Some z /\ (Z.of_nat k <= z)%Z) ->
    (forall z, In z ns -> (0 <= z)%Z /\ ((z < Z.of_nat k)%Z \/ In z (map fst L))) ->
    k <= length vals -> acc = firstn k vals' ->
    gloop (map snd L) (Z.of_nat k) acc = Ok vals'.
Proof.
  intros vals' HP L; induction L as [|(z, i) L IH]; intros k acc HS HL HC Hk ->; cbn [map snd gloop].
  - rewrite (placed_gap vals' k (length vals) HP Hk (Nat.le_refl _)).
    + f_equal. destruct HP as (<- & _). apply firstn_all.
    + intros j Hj HI. destruct (HC _ HI) as (_ & [H | []]). lia.
  - destruct (HL z i (or_introl eq_refl)) as (Hi & Hz).
    rewrite Hi.
    destruct (carries_at i z Hi) as (p & fr & -> & -> & Hc & Hu).
    assert (HI : In z ns) by (eapply nth_error_In; exact Hi).
    destruct (HC z HI) as (H0 & _).
    pose proof (Z2Nat.id z H0) as Ez.
    remember (Z.to_nat z) as j eqn:Ej. rewrite <- Ez in *. clear Ej Ez z.
    destruct (placed_at vals' j HP HI) as (x & y & p' & fr' & Hx & Hy & Hc' & Hm).
    destruct (Hu _ _ Hc') as (-> & ->).
    assert (Hj : j < length vals) by (apply nth_error_Some; congruence).
    destruct (Z.of_nat (length vals) <=? Z.of_nat j)%Z eqn:E; [apply Z.leb_le in E; lia|].
    rewrite (py_index_nonneg _ _ _ _ Hx); cbn [bind]. rewrite Hm; cbn [bind].
    replace (Z.of_nat j + 1)%Z with (Z.of_nat (S j)) by lia.
    inversion HS as [|? ? HS1 HS2]; subst. rewrite Forall_forall in HS2.
    apply IH; try assumption.
    + intros z' i' H'. split; [apply HL; right; exact H'|].
      pose proof (HS2 _ H') as HB. unfold before in HB; cbn [fst] in HB. lia.
    + intros z' H'. destruct (HC z' H') as (G0 & [G | [G | G]]); split; auto; try (left; lia).
      cbn [fst] in G. left; lia.
    + assert (GN : forall j', k <= j' < j -> ~ In (Z.of_nat j') ns).
      { intros j' Hj' HI'. destruct (HC _ HI') as (_ & [G | [G | G]]);
          [lia | cbn [fst] in G; lia |].
        apply in_map_iff in G; destruct G as ((z', i') & G1 & G2); cbn [fst] in G1.
        pose proof (HS2 _ G2) as HB; unfold before in HB; cbn [fst] in HB; lia. }
      rewrite app_assoc, (placed_gap vals' k j HP ltac:(lia) ltac:(lia) GN).
      symmetry. apply firstn_S. exact Hy.
Qed.

Lemma gloop_fails : forall z e, fails meth ps ns fs vals missing z e ->
  (forall z' e', (z' < z)%Z -> ~ fails meth ps ns fs vals missing z' e') ->
  forall L last acc, StronglySorted before L ->
    (forall z' i, In (z', i) L -> nth_error ns i = Some z' /\ (0 <= z')%Z) ->
    In z (map fst L) ->
    gloop (map snd L) last acc = Err e.
Proof.
  intros z e HF HM L; induction L as [|(z0, i) L IH]; intros last acc HS HL HI; [destruct HI|].
  cbn [map snd gloop].
  destruct (HL z0 i (or_introl eq_refl)) as (Hi & Hz0). rewrite Hi.
  destruct (carries_at i z0 Hi) as (p & fr & -> & -> & Hc & Hu).
  pose proof (Z2Nat.id z0 Hz0) as Ez.
  inversion HS as [|? ? HS1 HS2]; subst. rewrite Forall_forall in HS2.
  destruct (Z.eq_dec z0 z) as [->|N].
  - destruct HF as (p' & fr' & Hc' & HF).
    destruct (Hu _ _ Hc') as (-> & ->).
    destruct HF as [(H1 & ->) | (x & Hx & Hm)].
    + destruct (Z.of_nat (length vals) <=? z)%Z eqn:E; [reflexivity|].
      apply Z.leb_gt in E; lia.
    + assert (Hj : Z.to_nat z < length vals) by (apply nth_error_Some; congruence).
      destruct (Z.of_nat (length vals) <=? z)%Z eqn:E; [apply Z.leb_le in E; lia|].
      rewrite <- Ez, (py_index_nonneg _ _ _ _ Hx); cbn [bind]. rewrite Hm. reflexivity.
  - cbn [map fst In] in HI. destruct HI as [|HI]; [contradiction|].
    assert (Hlt : (z0 < z)%Z).
    { apply in_map_iff in HI. destruct HI as ((z', i') & G1 & G2). cbn [fst] in G1; subst z'.
      exact (HS2 _ G2). }
    destruct (Z.of_nat (length vals) <=? z0)%Z eqn:E.
    + exfalso. apply (HM z0 missing Hlt). exists p, fr. split; [exact Hc|].
      left. apply Z.leb_le in E. auto.
    + apply Z.leb_gt in E.
      destruct (nth_error vals (Z.to_nat z0)) as [x|] eqn:Hx; [|apply nth_error_None in Hx; lia].
      pose proof (py_index_nonneg _ _ _ _ Hx) as PI. rewrite Ez in PI.
      rewrite PI; cbn [bind].
      destruct (meth p fr x) as [y|e'] eqn:Hm; cbn [bind].
      * apply IH; try assumption. intros z' i' H'. apply HL. right; exact H'.
      * exfalso. apply (HM z0 e' Hlt). exists p, fr. split; [exact Hc|].
        right. exists x. auto.
Qed.

Lemma scan_failures : (forall z, In z ns -> (0 <= z)%Z) -> forall L, StronglySorted before L ->
  (forall z i, In (z, i) L -> nth_error ns i = Some z) ->
  (forall z, In z (map fst L) -> forall e, ~ fails meth ps ns fs vals missing z e) \/
  (exists z e, In z (map fst L) /\ fails meth ps ns fs vals missing z e /\
     forall z' e', In z' (map fst L) -> (z' < z)%Z -> ~ fails meth ps ns fs vals missing z' e').
Proof.
  intros H0 L; induction L as [|(z, i) L IH]; intros HS HL; [left; intros z []|].
  inversion HS as [|? ? HS1 HS2]; subst. rewrite Forall_forall in HS2.
  assert (HG : forall z', In z' (map fst L) -> (z < z')%Z).
  { intros z' HI. apply in_map_iff in HI. destruct HI as ((z1, i1) & G1 & G2).
    cbn [fst] in G1; subst z1. exact (HS2 _ G2). }
  pose proof (HL z i (or_introl eq_refl)) as Hi.
  assert (D : (forall e, ~ fails meth ps ns fs vals missing z e) \/
              (exists e, fails meth ps ns fs vals missing z e)).
  { destruct (carries_at i z Hi) as (p & fr & Hp & Hf & Hc & Hu).
    assert (Hz : (0 <= z)%Z) by (apply H0; eapply nth_error_In; exact Hi).
    destruct (Z_lt_le_dec z (Z.of_nat (length vals))) as [HLt|HGe].
    - destruct (nth_error vals (Z.to_nat z)) as [x|] eqn:Hx; [|apply nth_error_None in Hx; lia].
      destruct (meth p fr x) as [y|e] eqn:Hm.
      + left. intros e (p' & fr' & Hc' & [(G & _) | (x' & G1 & G2)]); [lia|].
        destruct (Hu _ _ Hc') as (-> & ->). congruence.
      + right. exists e, p, fr. split; [exact Hc|]. right. exists x. auto.
    - right. exists missing, p, fr. split; [exact Hc|]. left. auto. }
  destruct D as [D | (e & D)].
  - destruct (IH HS1) as [A | (z1 & e1 & A1 & A2 & A3)].
    + intros z' i' H'. apply HL. right; exact H'.
    + left. intros z' [<- | HI]; [exact D | apply A; exact HI].
    + right. exists z1, e1. split; [right; exact A1|]. split; [exact A2|].
      intros z' e' [<- | HI] Hlt; [apply D | apply A3; assumption].
  - right. exists z, e. split; [left; reflexivity|]. split; [exact D|].
    intros z' e' [<- | HI] Hlt; cbn [fst] in *; [lia|]. pose proof (HG _ HI). lia.
Qed.

Lemma placed_or_fails : (forall z, In z ns -> (0 <= z)%Z) ->
  (exists vals', placed meth ps ns fs vals vals') \/
  (exists e, first_failure meth ps ns fs vals missing e).
Proof.
  intros H0.
  destruct (scan_failures H0 (pairs ns) (pairs_sorted ns nodup)) as [A | (z & e & A1 & A2 & A3)].
  - intros z i H. apply pairs_in. exact H.
  - left.
    destruct (list_of_choice V (length vals) (fun j y => forall x, nth_error vals j = Some x ->
       (exists p fr, carries ps ns fs (Z.of_nat j) p fr /\ meth p fr x = Ok y) \/
       (~ In (Z.of_nat j) ns /\ y = x))) as (l & HL & HQ).
    + intros j Hj.
      destruct (nth_error vals j) as [x|] eqn:Hx; [|apply nth_error_None in Hx; lia].
      destruct (in_dec Z.eq_dec (Z.of_nat j) ns) as [HI | HN].
      * destruct (In_nth_error _ _ HI) as (i & Hi).
        destruct (carries_at i _ Hi) as (p & fr & Hp & Hf & Hc & Hu).
        destruct (meth p fr x) as [y|e] eqn:Hm.
        -- exists y. intros x' E. injection E as <-. left. exists p, fr. auto.
        -- exfalso. apply (A (Z.of_nat j)) with (e := e).
           ++ apply pairs_fst. exact HI.
           ++ exists p, fr. split; [exact Hc|]. right. exists x. rewrite Nat2Z.id. auto.
      * exists x. intros x' E. injection E as <-. right. auto.
    + exists l. split; [exact HL|]. split.
      * apply Forall_forall. intros z HI.
        destruct (Z_lt_le_dec z (Z.of_nat (length vals))) as [|G]; [assumption|].
        destruct (In_nth_error _ _ HI) as (i & Hi).
        destruct (carries_at i _ Hi) as (p & fr & Hp & Hf & Hc & Hu).
        exfalso. apply (A z) with (e := missing); [apply pairs_fst; exact HI|].
        exists p, fr. split; [exact Hc|]. left. auto.
      * intros j x Hx.
        assert (Hj : j < length l) by (rewrite HL; apply nth_error_Some; congruence).
        destruct (nth_error l j) as [y|] eqn:Hy; [|apply nth_error_None in Hy; lia].
        exists y. split; [reflexivity|]. apply (HQ j y Hy x Hx).
  - right. exists e, z. split; [exact A2|].
    intros z' e' Hlt HF. apply (A3 z' e'); try assumption.
    apply pairs_fst. destruct HF as (p & fr & (i & Hi & _) & _). eapply nth_error_In; exact Hi.
Qed.

Lemma gloop_all : (forall z, In z ns -> (0 <= z)%Z) ->
  (forall vals', placed meth ps ns fs vals vals' -> gloop (argsort ns) 0 [] = Ok vals') /\
  (forall e, first_failure meth ps ns fs vals missing e -> gloop (argsort ns) 0 [] = Err e).
Proof.
  intros H0. split.
  - intros vals' HP. apply (gloop_placed vals' HP (pairs ns) 0 []).
    + apply pairs_sorted; exact nodup.
    + intros z i H. apply pairs_in in H. split; [exact H|].
      apply H0. eapply nth_error_In; exact H.
    + intros z H. split; [apply H0; exact H|]. right. apply pairs_fst; exact H.
    + lia.
    + reflexivity.
  - intros e (z & HF & HM). apply (gloop_fails z e HF HM (pairs ns)).
    + apply pairs_sorted; exact nodup.
    + intros z' i H. apply pairs_in in H. split; [exact H|].
      apply H0. eapply nth_error_In; exact H.
    + apply pairs_fst. destruct HF as (p & fr & (i & Hi & _) & _). eapply nth_error_In; exact Hi.
Qed.
End Loop.
