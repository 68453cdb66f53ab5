(** * The recursion bounds of the JSON reader never matter. *)
From Coq Require Import Reals NArith Ascii String SpecFloat.
From Verif Require Import Base Num Nd Numeric Simplex Psd Pattern Json PatJson Spec SpecJson
  ListFacts PatFacts JsonFacts PatJsonFacts.
Local Open Scope list_scope.
Local Open Scope nat_scope.

Lemma skip_ws_length : forall s, length (skip_ws s) <= length s.
Proof. induction s as [|c s IH]; auto. cbn. destruct (is_ws c); cbn; lia. Qed.

Lemma push_some : forall c x s r, push c x = Some (s, r) -> exists s', x = Some (s', r) /\ s = c :: s'.
Proof. intros c [[s' r']|] s r H; cbn in H; [|discriminate]. injection H as <- <-. eauto. Qed.

Lemma scan_str_length : forall n s t r, length s <= n -> scan_str s = Some (t, r) ->
  length t + length r < length s.
Proof.
  induction n as [|n IH]; intros s t r Hn H.
  - destruct s; [discriminate|cbn in Hn; lia].
  - destruct s as [|c s]; [discriminate|]. cbn [scan_str] in H. cbn [length] in *.
    destruct (N.eqb c 34). { injection H as <- <-. cbn. lia. }
    destruct (N.eqb c 92).
    + destruct s as [|e r1]; [discriminate|]. cbn [length] in *. destruct (N.eqb e 117).
      * destruct r1 as [|h1 [|h2 [|h3 [|h4 r2]]]]; try discriminate. cbn [length] in *.
        destruct (hex4val h1 h2 h3 h4) as [u|]; [|discriminate].
        assert (R: push u (scan_str r2) = Some (t, r) -> length t + length r < S (S (S (S (S (S (length r2))))))).
        { intros X. apply push_some in X. destruct X as (t' & X & ->). apply IH in X; [|lia]. cbn [length]. lia. }
        destruct (is_high u); [|apply R in H; lia].
        destruct r2 as [|x [|y r3]]; try (apply R in H; cbn [length] in *; lia).
        destruct (N.eqb x 92 && N.eqb y 117)%bool; [|apply R in H; cbn [length] in *; lia].
        destruct r3 as [|k1 [|k2 [|k3 [|k4 r4]]]]; try discriminate. cbn [length] in *.
        destruct (hex4val k1 k2 k3 k4) as [u2|]; [|discriminate].
        destruct (is_low u2); [|apply R in H; cbn [length] in *; lia].
        apply push_some in H. destruct H as (t' & X & ->). apply IH in X; [|lia]. cbn [length]. lia.
      * destruct (short_esc e); [|discriminate].
        apply push_some in H. destruct H as (t' & X & ->). apply IH in X; [|lia]. cbn [length]. lia.
    + destruct (N.ltb c 32); [discriminate|].
      apply push_some in H. destruct H as (t' & X & ->). apply IH in X; [|lia]. cbn [length]. lia.
Qed.

Lemma span_digits_length : forall s, length (snd (span_digits s)) <= length s.
Proof.
  induction s as [|c s IH]; auto. cbn. destruct (is_digit c); cbn; auto.
  destruct (span_digits s). cbn in *. lia.
Qed.
Lemma scan_frac_length : forall s, length (snd (scan_frac s)) <= length s.
Proof.
  destruct s as [|c s]; auto. cbn. destruct (N.eqb c 46); cbn; auto.
  pose proof (span_digits_length s) as H. destruct (span_digits s) as [[|x d] r]; cbn in *; lia.
Qed.
Lemma scan_exp_length : forall s, length (snd (scan_exp s)) <= length s.
Proof.
  destruct s as [|c s]; auto. cbn. destruct (N.eqb c 101 || N.eqb c 69)%bool; cbn; auto.
  match goal with |- context [span_digits (skipn ?k s)] =>
    pose proof (span_digits_length (skipn k s)) as H; pose proof (skipn_length k s) as H2;
    destruct (span_digits (skipn k s)) as [[|x d] r] end; cbn in *; lia.
Qed.
Lemma scan_int_length : forall s d r, scan_int s = Some (d, r) -> length r < length s.
Proof.
  destruct s as [|c s]; intros d r H; cbn in H; [discriminate|].
  destruct (N.eqb c 48). { injection H as <- <-. cbn. lia. }
  destruct (is_digit c); [|discriminate]. pose proof (span_digits_length s) as L.
  destruct (span_digits s). injection H as <- <-. cbn in *. lia.
Qed.
Lemma scan_num_length : forall io s x r, scan_num io s = Some (x, r) -> length r < length s.
Proof.
  intros io s x r H. unfold scan_num in H.
  set (sg := match s with c :: _ => if N.eqb c 45 then [45%N] else [] | [] => [] end) in *.
  pose proof (skipn_length (length sg) s) as L0.
  destruct (scan_int (skipn (length sg) s)) as [[ip r1]|] eqn:E; [|discriminate].
  apply scan_int_length in E. pose proof (scan_frac_length r1) as L1.
  destruct (scan_frac r1) as [fp r2]. pose proof (scan_exp_length r2) as L2.
  destruct (scan_exp r2) as [ep r3]. cbn [snd] in *.
  assert (r = r3) by (destruct fp, ep; injection H; auto). subst. lia.
Qed.
Lemma strip_length : forall p s r, strip p s = Some r -> length s = length p + length r.
Proof.
  induction p as [|a p IH]; intros s r H.
  - injection H as ->. auto.
  - destruct s as [|c s]; [discriminate|]. cbn in H. destruct (N.eqb a c); [|discriminate].
    apply IH in H. cbn. lia.
Qed.

(** Every string inside the value has at most [n] characters. *)
Fixpoint strs_le (n : nat) (o : pyobj) : Prop :=
  match o with
  | OStr t => length t <= n
  | OSeq l => (fix go l := match l with [] => True | x :: r => strs_le n x /\ go r end) l
  | ODict d => (fix go d := match d with [] => True | (k, x) :: r => strs_le n x /\ go r end) d
  | _ => True
  end.
Lemma strs_le_seq : forall n l, strs_le n (OSeq l) <-> Forall (strs_le n) l.
Proof.
  induction l as [|x l IH]; cbn. split; auto. cbn in IH. rewrite IH. split.
  intros []; constructor; auto. inversion 1; auto.
Qed.
Lemma strs_le_dict : forall n d, strs_le n (ODict d) <-> Forall (fun kv => strs_le n (snd kv)) d.
Proof.
  induction d as [|[k x] l IH]; cbn. split; auto. cbn in IH. rewrite IH. split.
  intros []; constructor; auto. inversion 1; subst; simpl in *; tauto.
Qed.
Lemma strs_le_mono : forall n m o, n <= m -> strs_le n o -> strs_le m o.
Proof.
  intros n m o Hnm. revert o. apply (pyobj_ind' (fun o => strs_le n o -> strs_le m o)); auto.
  - intros s H. cbn in *. lia.
  - intros l IH H. apply strs_le_seq. apply strs_le_seq in H. rewrite Forall_forall in *. auto.
  - intros l IH H. apply strs_le_dict. apply strs_le_dict in H. rewrite Forall_forall in *. auto.
Qed.

Lemma scan_atom_length : forall io s o r, scan_atom io s = Some (o, r) ->
  length r < length s /\ forall n, strs_le n o.
Proof.
  intros io s o r H. unfold scan_atom in H.
  repeat match type of H with
  | match strip ?p s with _ => _ end = _ => let E := fresh in destruct (strip p s) eqn:E; [injection H as <- <-; apply strip_length in E; cbn in E; split; [lia|intros; exact I]|clear E]
  end.
  destruct (scan_num io s) as [[x r']|] eqn:E2.
  - injection H as <- <-. apply scan_num_length in E2. split; [auto|intros; exact I].
  - repeat match type of H with
    | match strip ?p s with _ => _ end = _ => let E := fresh in destruct (strip p s) eqn:E; [injection H as <- <-; apply strip_length in E; cbn in E; split; [lia|intros; exact I]|clear E]
    end. discriminate.
Qed.

Theorem scan_fuel : forall io n,
  (forall s o r, scan io n s = Some (o, r) -> length r < length s /\
     strs_le (length s - length r - 2) o /\
     forall m, length s - length r <= m -> scan io m s = Some (o, r)) /\
  (forall s o r, scan_elems io n s = Some (o, r) -> length r < length s /\
     Forall (strs_le (length s - length r - 2)) o /\
     forall m, length s - length r <= m -> scan_elems io m s = Some (o, r)) /\
  (forall s o r, scan_pairs io n s = Some (o, r) -> length r < length s /\
     Forall (fun kv => strs_le (length s - length r - 2) (snd kv)) o /\
     forall m, length s - length r <= m -> scan_pairs io m s = Some (o, r)).
Proof.
  intros io n. induction n as [|n [IHs [IHe IHp]]]; [repeat split; intros; discriminate|].
  split; [|split].
  - intros s o r H. destruct s as [|c s]; [discriminate|]. cbn [scan] in H. cbn [length].
    destruct (N.eqb c 34) eqn:E1.
    { destruct (scan_str s) as [[t r']|] eqn:Es; [|discriminate]. injection H as <- <-.
      pose proof (scan_str_length _ _ _ _ (le_n _) Es) as L. split; [lia|]. split; [cbn [strs_le]; lia|].
      intros [|m] Hm; [lia|]. cbn [scan]. rewrite E1, Es. auto. }
    destruct (N.eqb c 91) eqn:E2.
    { pose proof (skip_ws_length s) as Lw. destruct (skip_ws s) as [|c' r'] eqn:Ew; [discriminate|]. cbn [length] in Lw.
      destruct (N.eqb c' 93) eqn:E3.
      - injection H as <- <-. split; [lia|]. split; [exact I|]. intros [|m] Hm; [lia|].
        cbn [scan]. rewrite E1, E2, Ew, E3. auto.
      - destruct (scan_elems io n (c' :: r')) as [[l r'']|] eqn:Ee; [|discriminate]. injection H as <- <-.
        destruct (IHe _ _ _ Ee) as (L & S & F). cbn [length] in *. split; [lia|]. split.
        + apply strs_le_seq. eapply Forall_impl; [|exact S]. intros x. apply strs_le_mono. lia.
        + intros [|m] Hm; [lia|]. cbn [scan]. rewrite E1, E2, Ew, E3, F; auto. lia. }
    destruct (N.eqb c 123) eqn:E4.
    { pose proof (skip_ws_length s) as Lw. destruct (skip_ws s) as [|c' r'] eqn:Ew; [discriminate|]. cbn [length] in Lw.
      destruct (N.eqb c' 125) eqn:E3.
      - injection H as <- <-. split; [lia|]. split; [exact I|]. intros [|m] Hm; [lia|].
        cbn [scan]. rewrite E1, E2, E4, Ew, E3. auto.
      - destruct (scan_pairs io n (c' :: r')) as [[l r'']|] eqn:Ee; [|discriminate]. injection H as <- <-.
        destruct (IHp _ _ _ Ee) as (L & S & F). cbn [length] in *. split; [lia|]. split.
        + apply strs_le_dict. eapply Forall_impl; [|exact S]. intros x. apply strs_le_mono. lia.
        + intros [|m] Hm; [lia|]. cbn [scan]. rewrite E1, E2, E4, Ew, E3, F; auto. lia. }
    destruct (scan_atom_length _ _ _ _ H) as (L & S). cbn [length] in L. split; [lia|]. split; [auto|].
    intros [|m] Hm; [lia|]. cbn [scan]. rewrite E1, E2, E4. auto.
  - intros s o r H. cbn [scan_elems] in H.
    destruct (scan io n s) as [[x r1]|] eqn:Es; [|discriminate].
    destruct (IHs _ _ _ Es) as (L1 & S1 & F1).
    pose proof (skip_ws_length r1) as Lw. destruct (skip_ws r1) as [|c r2] eqn:Ew; [discriminate|]. cbn [length] in Lw.
    destruct (N.eqb c 93) eqn:E1.
    { injection H as <- <-. split; [lia|]. split.
      - repeat constructor. eapply strs_le_mono; [|exact S1]. lia.
      - intros [|m] Hm; [lia|]. cbn [scan_elems]. rewrite F1 by lia. rewrite Ew, E1. auto. }
    destruct (N.eqb c 44) eqn:E2; [|discriminate].
    pose proof (skip_ws_length r2) as Lw2.
    destruct (scan_elems io n (skip_ws r2)) as [[l r3]|] eqn:Ee; [|discriminate]. injection H as <- <-.
    destruct (IHe _ _ _ Ee) as (L2 & S2 & F2). split; [lia|]. split.
    + constructor. eapply strs_le_mono; [|exact S1]. lia.
      eapply Forall_impl; [|exact S2]. intros y. apply strs_le_mono. lia.
    + intros [|m] Hm; [lia|]. cbn [scan_elems]. rewrite F1 by lia. rewrite Ew, E1, E2, F2 by lia. auto.
  - intros s o r H. cbn [scan_pairs] in H. destruct s as [|q s]; [discriminate|]. cbn [length].
    destruct (negb (N.eqb q 34)) eqn:E0; [discriminate|].
    destruct (scan_str s) as [[k r0]|] eqn:Ek; [|discriminate].
    pose proof (scan_str_length _ _ _ _ (le_n _) Ek) as L0.
    pose proof (skip_ws_length r0) as Lw0. destruct (skip_ws r0) as [|c0 r0'] eqn:Ew0; [discriminate|]. cbn [length] in Lw0.
    destruct (negb (N.eqb c0 58)) eqn:E3; [discriminate|].
    pose proof (skip_ws_length r0') as Lw1.
    destruct (scan io n (skip_ws r0')) as [[x r1]|] eqn:Es; [|discriminate].
    destruct (IHs _ _ _ Es) as (L1 & S1 & F1).
    pose proof (skip_ws_length r1) as Lw. destruct (skip_ws r1) as [|c r2] eqn:Ew; [discriminate|]. cbn [length] in Lw.
    destruct (N.eqb c 125) eqn:E1.
    { injection H as <- <-. split; [lia|]. split.
      - repeat constructor. cbn [snd]. eapply strs_le_mono; [|exact S1]. lia.
      - intros [|m] Hm; [lia|]. cbn [scan_pairs]. rewrite E0, Ek, Ew0, E3, F1 by lia. rewrite Ew, E1. auto. }
    destruct (N.eqb c 44) eqn:E2; [|discriminate].
    pose proof (skip_ws_length r2) as Lw2.
    destruct (scan_pairs io n (skip_ws r2)) as [[l r3]|] eqn:Ee; [|discriminate]. injection H as <- <-.
    destruct (IHp _ _ _ Ee) as (L2 & S2 & F2). split; [lia|]. split.
    + constructor. cbn [snd]. eapply strs_le_mono; [|exact S1]. lia.
      eapply Forall_impl; [|exact S2]. intros y. apply strs_le_mono. lia.
    + intros [|m] Hm; [lia|]. cbn [scan_pairs]. rewrite E0, Ek, Ew0, E3, F1 by lia. rewrite Ew, E1, E2, F2 by lia. auto.
Qed.

(** Whatever bound lets the text be read, [loads] reads it, and no smaller or
    larger bound changes the result. *)
Theorem parse_any_bound : forall io s o,
  parse io s = Some o <->
  exists n r, scan io n (skip_ws s) = Some (o, r) /\ skip_ws r = [].
Proof.
  intros io s o. split.
  - unfold parse. destruct (scan io (S (length s)) (skip_ws s)) as [[o' r]|] eqn:E; [|discriminate].
    destruct (skip_ws r) eqn:Er; [|discriminate]. intros H. injection H as ->. eauto.
  - intros (n & r & H & Hr). destruct (proj1 (scan_fuel io n) _ _ _ H) as (_ & _ & F).
    unfold parse. rewrite F. rewrite Hr. auto. pose proof (skip_ws_length s). lia.
Qed.

Lemma strs_assign : forall n d k x, strs_le n (ODict d) -> strs_le n x -> strs_le n (ODict (assign d k x)).
Proof.
  intros n d k x Hd Hx. apply strs_le_dict. apply strs_le_dict in Hd.
  induction d as [|[k' x'] d IH]; cbn; [repeat constructor; auto|]. inversion Hd; subst.
  destruct (key_eqb k k'); constructor; auto.
Qed.
Lemma strs_to_dicts : forall n o, strs_le n o -> strs_le n (to_dicts o).
Proof.
  intros n. apply (pyobj_ind' (fun o => strs_le n o -> strs_le n (to_dicts o))); auto.
  - intros l IH H. cbn [to_dicts]. apply strs_le_seq. apply strs_le_seq in H. apply Forall_map.
    rewrite Forall_forall in *. auto.
  - intros d IH H. cbn [to_dicts]. apply strs_le_dict in H.
    assert (G: forall l acc, Forall (fun kv => strs_le n (snd kv)) l -> strs_le n (ODict acc) ->
      strs_le n (ODict (fold_left (fun acc kv => assign acc (fst kv) (snd kv)) l acc))).
    { induction l as [|[k x] l IHl]; intros acc Hl Ha; auto. cbn [fold_left fst snd]. inversion Hl; subst.
      apply IHl; auto. apply strs_assign; auto. }
    apply G; [|exact I]. apply Forall_map. cbn [snd]. rewrite Forall_forall in *. auto.
Qed.

Theorem loads_shorter : forall io s o, loads io s = Ok o -> strs_le (length s - 2) o.
Proof.
  intros io s o H. unfold loads in H. destruct (parse io s) as [o'|] eqn:E; [|discriminate]. injection H as <-.
  apply strs_to_dicts. apply parse_any_bound in E. destruct E as (n & r & E & _).
  destruct (proj1 (scan_fuel io n) _ _ _ E) as (_ & S & _).
  eapply strs_le_mono; [|exact S]. pose proof (skip_ws_length s). lia.
Qed.
Lemma loads_nonempty : forall io s o, loads io s = Ok o -> 0 < length s.
Proof.
  intros io s o H. destruct s; [|cbn; lia]. unfold loads, parse in H. cbn in H. discriminate.
Qed.

Lemma item_strs : forall n o name x, strs_le n o -> item o name = Ok x -> strs_le n x.
Proof.
  intros n o name x H E. destruct o; try discriminate. cbn [item] in E.
  destruct (dict_get d (fld name)) eqn:Eg; [|discriminate]. injection E as <-.
  apply strs_le_dict in H. rewrite Forall_forall in H. apply (H _ (dict_get_in _ _ _ _ Eg)).
Qed.

Lemma fold_left_ext_in : forall A B (f g : A -> B -> A) l a,
  (forall a b, In b l -> f a b = g a b) -> fold_left f l a = fold_left g l a.
Proof.
  induction l as [|b l IH]; intros a H; auto. cbn. rewrite H by (left; auto). apply IH. intros. apply H. right. auto.
Qed.

Theorem get_pattern_fuel : forall io reg n,
  (forall text m, 2 * length text + 2 <= n -> 2 * length text + 2 <= m ->
     get_pattern io reg n text = get_pattern io reg m text) /\
  (forall c text m, 2 * length text + 1 <= n -> 2 * length text + 1 <= m ->
     from_json_ io reg n c text = from_json_ io reg m c text).
Proof.
  intros io reg n. induction n as [|n [IHg IHf]]; [split; intros; lia|]. split.
  - intros text [|m] Hn Hm; [lia|]. cbn [get_pattern].
    destruct (loads io text) as [o|e]; auto. cbn [bind]. destruct (item o "pattern") as [name|e]; auto. cbn [bind].
    destruct name; auto. destruct (dict_get reg (KStr s)); auto. apply IHf; lia.
  - intros c text [|m] Hn Hm; [lia|]. cbn [from_json_].
    destruct (loads io text) as [o|e] eqn:El; auto. cbn [bind].
    pose proof (loads_shorter _ _ _ El) as Hs. pose proof (loads_nonempty _ _ _ El) as Hne.
    destruct (item o "pattern") as [name|e]; auto. cbn [bind].
    destruct (negb (obj_eqb name (OStr (typename c)))); auto.
    destruct c; auto.
    + destruct (item o "base_pattern") as [b|e] eqn:Eb; auto. cbn [bind]. destruct b; auto.
      pose proof (item_strs _ _ _ _ Hs Eb) as L. cbn in L. rewrite (IHg s m); auto; lia.
    + destruct (item o "keys") as [ks|e]; auto. cbn [bind]. destruct ks; auto.
      apply fold_left_ext_in. intros acc k _. destruct acc as [p|e]; auto. cbn [bind].
      destruct (item o "contents") as [cs|e] eqn:Ec; auto. cbn [bind].
      pose proof (item_strs _ _ _ _ Hs Ec) as L.
      match goal with |- bind ?x _ = _ => destruct x as [k'|e]; auto end. cbn [bind].
      destruct cs; auto. destruct (dict_get d k') as [t|] eqn:Et; auto. cbn [bind]. destruct t; auto.
      apply strs_le_dict in L. rewrite Forall_forall in L. apply dict_get_in in Et. apply L in Et. cbn in Et.
      rewrite (IHg s m); auto; lia.
Qed.

(** [get_pattern_from_json] and [from_json] are the limits. *)
Theorem reader_any_bound : forall io reg text n, 2 * length text + 2 <= n ->
  get_pattern io reg n text = get_pattern_from_json io reg text /\
  forall c, from_json_ io reg n c text = from_json io reg c text.
Proof.
  intros io reg text n H. unfold get_pattern_from_json, from_json. split; [|intros c].
  - apply get_pattern_fuel; lia.
  - apply get_pattern_fuel; lia.
Qed.
