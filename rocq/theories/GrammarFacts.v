(** * The reader accepts exactly the JSON grammar. *)
From Coq Require Import Reals NArith Ascii String SpecFloat Decimal Lia.
From Verif Require Import Base Num Pattern Json SpecJson SpecGrammar JsonFacts JsonFuel ListFacts PatFacts.
Local Open Scope list_scope.
Local Open Scope N_scope.

(** ** White space *)
Lemma is_ws_iff : forall c, is_ws c = true <-> In c [32; 9; 10; 13].
Proof.
  intros c. unfold is_ws. rewrite !Bool.orb_true_iff, !N.eqb_eq. cbn. intuition.
Qed.
Lemma blanks_skip : forall w r, blanks w -> skip_ws (w ++ r) = skip_ws r.
Proof.
  induction w as [|c w IH]; intros r H; auto. inversion H; subst. cbn [app skip_ws].
  rewrite (proj2 (is_ws_iff c)) by auto. auto.
Qed.
Lemma blanks_split : forall s, exists w, blanks w /\ s = w ++ skip_ws s.
Proof.
  induction s as [|c s (w & Hw & E)]; [exists []; split; [constructor|reflexivity]|].
  cbn [skip_ws]. destruct (is_ws c) eqn:Ec.
  - exists (c :: w). split; [constructor; auto; apply is_ws_iff; auto|]. cbn. f_equal. exact E.
  - exists []. split; [constructor|reflexivity].
Qed.
Lemma blanks_all : forall s, skip_ws s = [] -> blanks s.
Proof. intros s H. destruct (blanks_split s) as (w & Hw & E). rewrite H, app_nil_r in E. subst. auto. Qed.
Lemma blanks_stops : forall w c r, blanks w -> stops (c :: r) -> stops (w ++ c :: r).
Proof.
  intros [|b w] c r Hw H; auto. inversion Hw as [|? ? Hb]; subst. cbn in Hb |- *.
  destruct Hb as [<-|[<-|[<-|[<-|[]]]]]; repeat split; try reflexivity; discriminate.
Qed.

(** ** Strings *)
Lemma hexval_iff : forall c v, hexval c = Some v <-> hex_of c v.
Proof.
  intros c v. unfold hexval, hex_of.
  destruct (is_digit c) eqn:E1.
  { apply is_digit_iff in E1. split; [intros E; injection E as <-; left; auto|].
    intros [[_ ->]|[[H _]|[H _]]]; auto; lia. }
  assert (~ 48 <= c <= 57) as N1 by (intros H; apply is_digit_iff in H; congruence).
  destruct ((97 <=? c) && (c <=? 102))%bool eqn:E2.
  { apply Bool.andb_true_iff in E2. rewrite !N.leb_le in E2.
    split; [intros E; injection E as <-; right; left; split; lia|].
    intros [[H _]|[[H ->]|[H _]]]; try lia. f_equal. lia. }
  assert (~ 97 <= c <= 102) as N2.
  { intros H. apply Bool.andb_false_iff in E2. rewrite !N.leb_gt in E2. lia. }
  destruct ((65 <=? c) && (c <=? 70))%bool eqn:E3.
  { apply Bool.andb_true_iff in E3. rewrite !N.leb_le in E3.
    split; [intros E; injection E as <-; right; right; split; lia|].
    intros [[H _]|[[H _]|[H ->]]]; try lia. f_equal. lia. }
  assert (~ 65 <= c <= 70) as N3.
  { intros H. apply Bool.andb_false_iff in E3. rewrite !N.leb_gt in E3. lia. }
  split; [discriminate|]. intros [[H _]|[[H _]|[H _]]]; contradiction.
Qed.
Lemma hex4val_iff : forall a b c d u, hex4val a b c d = Some u <-> hex4_of [a; b; c; d] u.
Proof.
  intros a b c d u. unfold hex4val, hex4_of. split.
  - destruct (hexval a) as [x|] eqn:Ea; [|discriminate]. destruct (hexval b) as [y|] eqn:Eb; [|discriminate].
    destruct (hexval c) as [z|] eqn:Ec; [|discriminate]. destruct (hexval d) as [w|] eqn:Ed; [|discriminate].
    intros E. injection E as <-. apply hexval_iff in Ea, Eb, Ec, Ed.
    exists a, b, c, d, x, y, z, w. repeat (split; [first [reflexivity|assumption]|]). lia.
  - intros (a' & b' & c' & d' & x & y & z & w & E & Ha & Hb & Hc & Hd & ->). injection E as <- <- <- <-.
    apply hexval_iff in Ha, Hb, Hc, Hd. rewrite Ha, Hb, Hc, Hd. f_equal. lia.
Qed.
Lemma hex4_of_shape : forall h u, hex4_of h u -> exists a b c d, h = [a; b; c; d] /\ hex4val a b c d = Some u.
Proof.
  intros h u H. pose proof H as (a & b & c & d & _ & _ & _ & _ & -> & _). exists a, b, c, d. split; auto.
  apply hex4val_iff. auto.
Qed.
Lemma short_iff : forall e x, short_esc e = Some x <-> In (e, x) short_escapes.
Proof.
  intros e x. unfold short_esc, short_escapes. split.
  - repeat match goal with
    | |- (if ?e =? ?k then _ else _) = _ -> _ => destruct (N.eqb_spec e k) as [->|_]; [intros E; injection E as <-; cbn; tauto|]
    end. discriminate.
  - cbn. intros H. repeat (destruct H as [H|H]; [injection H as <- <-; reflexivity|]). contradiction.
Qed.
Lemma short_not_u : forall e x, In (e, x) short_escapes -> e <> 117.
Proof. intros e x H ->. apply short_iff in H. discriminate. Qed.

Lemma scan_str_sound : forall n s t r, (length s <= n)%nat -> scan_str s = Some (t, r) ->
  exists b, s = b ++ 34 :: r /\ chars b t.
Proof.
  induction n as [|n IH]; intros s t r Hn H; [destruct s; [discriminate|cbn in Hn; lia]|].
  destruct s as [|c s]; [discriminate|]. cbn [scan_str] in H. cbn [length] in Hn.
  destruct (N.eqb_spec c 34) as [->|N34].
  { injection H as <- <-. exists []. split; [reflexivity|constructor]. }
  destruct (N.eqb_spec c 92) as [->|N92].
  - destruct s as [|e s1]; [discriminate|]. cbn [length] in Hn. destruct (N.eqb_spec e 117) as [->|N117].
    + destruct s1 as [|h1 [|h2 [|h3 [|h4 s2]]]]; try discriminate. cbn [length] in Hn.
      destruct (hex4val h1 h2 h3 h4) as [u|] eqn:Eu; [|discriminate]. apply hex4val_iff in Eu.
      assert (forall (Hu : leading u -> forall h' u' s', s2 = 92 :: 117 :: h' ++ s' -> hex4_of h' u' -> ~ trailing u'),
        push u (scan_str s2) = Some (t, r) -> exists b, 92 :: 117 :: h1 :: h2 :: h3 :: h4 :: s2 = b ++ 34 :: r /\ chars b t) as Hplain.
      { intros Hu Hp. apply push_some in Hp. destruct Hp as (t' & Hp & ->).
        apply IH in Hp; [|lia]. destruct Hp as (b & Eb & Hb).
        exists (92 :: 117 :: [h1; h2; h3; h4] ++ b). split; [cbn; rewrite Eb; reflexivity|].
        apply chars_unit; auto. intros Hl h' u' s' Es Hh. eapply (Hu Hl h' u' (s' ++ 34 :: r)); [|exact Hh].
        rewrite Eb, Es. cbn. rewrite <- app_assoc. reflexivity. }
      destruct (is_high u) eqn:Eh.
      * apply is_high_iff in Eh.
        destruct s2 as [|x [|y s3]].
        -- apply Hplain; auto. intros _ h' u' s' E. discriminate.
        -- apply Hplain; auto. intros _ h' u' s' E. discriminate.
        -- destruct ((x =? 92) && (y =? 117))%bool eqn:Exy.
           ++ apply Bool.andb_true_iff in Exy. rewrite !N.eqb_eq in Exy. destruct Exy as [-> ->].
              destruct s3 as [|k1 [|k2 [|k3 [|k4 s4]]]]; try discriminate. cbn [length] in Hn.
              destruct (hex4val k1 k2 k3 k4) as [u2|] eqn:E2; [|discriminate].
              destruct (is_low u2) eqn:El.
              ** apply is_low_iff in El. apply hex4val_iff in E2.
                 apply push_some in H. destruct H as (t' & H & ->).
                 apply IH in H; [|lia]. destruct H as (b & Eb & Hb).
                 exists (92 :: 117 :: [h1; h2; h3; h4] ++ 92 :: 117 :: [k1; k2; k3; k4] ++ b).
                 split; [cbn; rewrite Eb; reflexivity|]. rewrite N.add_assoc. apply chars_pair; auto.
              ** apply Hplain; auto. intros _ h' u' s' E Hh Ht.
                 destruct (hex4_of_shape _ _ Hh) as (a & b & c & d & -> & Hv). cbn in E.
                 injection E as <- <- <- <- <-. rewrite E2 in Hv. injection Hv as <-.
                 apply is_low_iff in Ht. congruence.
           ++ apply Hplain; auto. intros _ h' u' s' E. injection E as -> -> _. discriminate.
      * apply Hplain; auto. intros Hl. apply is_high_iff in Hl. congruence.
    + destruct (short_esc e) as [x|] eqn:Ex; [|discriminate].
      apply push_some in H. destruct H as (t' & H & ->). apply IH in H; [|lia]. destruct H as (b & -> & Hb).
      exists (92 :: e :: b). split; [reflexivity|]. constructor; auto. apply short_iff; auto.
  - destruct (N.ltb_spec c 32); [discriminate|].
    apply push_some in H. destruct H as (t' & H & ->). apply IH in H; [|lia]. destruct H as (b & -> & Hb).
    exists (c :: b). split; [reflexivity|]. constructor; auto.
Qed.

Lemma scan_str_complete : forall b t, chars b t -> forall r, scan_str (b ++ 34 :: r) = Some (t, r).
Proof.
  intros b t H. induction H as [|c s t Hc N34 N92 H IH|e x s t He H IH|h u h' u' s t Hh Hu Hh' Hu' H IH|h u s t Hh Hu H IH]; intros r.
  - reflexivity.
  - cbn [app scan_str]. rewrite (proj2 (N.eqb_neq _ _) N34), (proj2 (N.eqb_neq _ _) N92).
    replace (c <? 32) with false by (symmetry; apply N.ltb_ge; auto). rewrite IH. reflexivity.
  - pose proof (short_not_u _ _ He) as N. apply short_iff in He. cbn [app scan_str].
    change (92 =? 34) with false. change (92 =? 92) with true. cbv iota.
    rewrite (proj2 (N.eqb_neq _ _) N), He, IH. reflexivity.
  - destruct (hex4_of_shape _ _ Hh) as (a & b & c & d & -> & E).
    destruct (hex4_of_shape _ _ Hh') as (a' & b' & c' & d' & -> & E').
    cbn [app scan_str]. change (92 =? 34) with false. change (92 =? 92) with true. change (117 =? 117) with true.
    cbv iota. rewrite E. rewrite (proj2 (is_high_iff _)) by exact Hu. cbn [andb]. rewrite E'.
    rewrite (proj2 (is_low_iff _)) by exact Hu'. rewrite IH. cbn [push]. rewrite N.add_assoc. reflexivity.
  - destruct (hex4_of_shape _ _ Hh) as (a & b & c & d & -> & E).
    cbn [app scan_str]. change (92 =? 34) with false. change (92 =? 92) with true. change (117 =? 117) with true.
    cbv iota. rewrite E.
    assert (push u (scan_str (s ++ 34 :: r)) = Some (u :: t, r)) as Hp by (rewrite IH; reflexivity).
    destruct (is_high u) eqn:Eh; [|exact Hp]. apply is_high_iff in Eh. specialize (Hu Eh).
    destruct H as [|c0 s t Hc N34 N92 H|e x s t He H|h0 u0 h' u' s t Hh0 Hu0 Hh' Hu' H|h0 u0 s t Hh0 Hu0 H].
    + cbn [app] in *. destruct r; exact Hp.
    + cbn [app] in *. destruct (s ++ 34 :: r); [exact Hp|]. rewrite (proj2 (N.eqb_neq _ _) N92). exact Hp.
    + cbn [app] in *. pose proof (short_not_u _ _ He) as N. rewrite (proj2 (N.eqb_neq _ _) N).
      rewrite Bool.andb_false_r. exact Hp.
    + destruct (hex4_of_shape _ _ Hh0) as (a0 & b0 & c0 & d0 & -> & E0). cbn [app] in *.
      change (92 =? 92) with true. change (117 =? 117) with true. cbn [andb]. rewrite E0.
      replace (is_low u0) with false; [exact Hp|]. symmetry. apply Bool.not_true_is_false.
      intros Hl. apply is_low_iff in Hl. unfold leading in Hu0. lia.
    + specialize (Hu h0 u0 s eq_refl Hh0).
      destruct (hex4_of_shape _ _ Hh0) as (a0 & b0 & c0 & d0 & -> & E0). cbn [app] in *.
      change (92 =? 92) with true. change (117 =? 117) with true. cbn [andb]. rewrite E0.
      replace (is_low u0) with false; [exact Hp|]. symmetry. apply Bool.not_true_is_false.
      intros Hl. apply is_low_iff in Hl. contradiction.
Qed.

(** ** Numbers *)
Lemma pos_of_uint_fold : forall s acc, digits s ->
  Zpos (Pos.of_uint_acc (text_uint s) acc) = fold_left (fun a c => 10 * a + (Z.of_N c - 48))%Z s (Zpos acc).
Proof.
  induction s as [|c s IH]; intros acc H; [reflexivity|]. inversion H as [|? ? Hc Hs]; subst.
  assert (c = 48 \/ c = 49 \/ c = 50 \/ c = 51 \/ c = 52 \/ c = 53 \/ c = 54 \/ c = 55 \/ c = 56 \/ c = 57) as D by lia.
  cbn [fold_left].
  repeat (destruct D as [->|D]; [cbn [text_uint N.eqb Pos.eqb Pos.of_uint_acc]; rewrite IH by auto; f_equal; lia|]).
  subst. cbn [text_uint N.eqb Pos.eqb Pos.of_uint_acc]; rewrite IH by auto; f_equal; lia.
Qed.
Lemma of_uint_value : forall s, digits s -> Z.of_uint (text_uint s) = dec_value s.
Proof.
  unfold Z.of_uint, dec_value. induction s as [|c s IH]; intros H; [reflexivity|]. inversion H as [|? ? Hc Hs]; subst.
  assert (c = 48 \/ c = 49 \/ c = 50 \/ c = 51 \/ c = 52 \/ c = 53 \/ c = 54 \/ c = 55 \/ c = 56 \/ c = 57) as D by lia.
  cbn [fold_left].
  destruct D as [->|D]; [cbn [text_uint N.eqb Pos.eqb Pos.of_uint]; rewrite IH by auto; reflexivity|].
  repeat (destruct D as [->|D]; [cbn [text_uint N.eqb Pos.eqb Pos.of_uint Z.of_N]; rewrite pos_of_uint_fold by auto; reflexivity|]).
  subst. cbn [text_uint N.eqb Pos.eqb Pos.of_uint Z.of_N]; rewrite pos_of_uint_fold by auto; reflexivity.
Qed.

Lemma scan_numeral : forall io neg s r, (neg = [] \/ neg = [45]) -> numeral s -> stops r ->
  scan_num io (neg ++ s ++ r) = Some (PyInt (match neg with [] => dec_value s | _ => - dec_value s end)%Z, r).
Proof.
  intros io neg s r Hneg Hs Hr. unfold scan_num.
  destruct (scan_sign neg s r Hneg Hs) as [E1 E2]. rewrite E1, E2.
  rewrite (scan_int_app s r Hs (stops_nondigit r Hr)), (scan_frac_none r Hr), (scan_exp_none r Hr).
  destruct Hs as (Hd & _). do 3 f_equal. destruct Hneg as [-> | ->]; cbn [Z.of_int]; rewrite of_uint_value by auto; reflexivity.
Qed.

Lemma span_digits_sound : forall s d r, span_digits s = (d, r) -> s = d ++ r /\ digits d.
Proof.
  induction s as [|c s IH]; intros d r H; cbn in H.
  - injection H as <- <-. split; [reflexivity|constructor].
  - destruct (is_digit c) eqn:E.
    + destruct (span_digits s) as [d' t]. injection H as <- <-. destruct (IH _ _ eq_refl) as [-> Hd].
      split; [reflexivity|]. constructor; auto. apply is_digit_iff; auto.
    + injection H as <- <-. split; [reflexivity|constructor].
Qed.
Lemma scan_int_sound : forall s d r, scan_int s = Some (d, r) -> s = d ++ r /\ numeral d.
Proof.
  intros [|c s] d r H; [discriminate|]. cbn [scan_int] in H. destruct (N.eqb_spec c 48) as [->|N48].
  - injection H as <- <-. split; [reflexivity|]. split; [repeat constructor; lia|]. split; [discriminate|auto].
  - destruct (is_digit c) eqn:E; [|discriminate]. injection H as H.
    pose proof (span_digits_sound (c :: s) _ _ H) as [E' Hd]. split; auto. split; auto.
    cbn in H. rewrite E in H. destruct (span_digits s). injection H as <- <-.
    split; [discriminate|]. cbn. intros. contradiction.
Qed.
Lemma scan_frac_sound : forall s f r, scan_frac s = (f, r) ->
  s = f ++ r /\ (f = [] \/ exists d, d <> [] /\ digits d /\ f = 46 :: d).
Proof.
  intros [|c s] f r H; cbn [scan_frac] in H; [injection H as <- <-; auto|].
  destruct (N.eqb_spec c 46) as [->|_]; [|injection H as <- <-; auto].
  destruct (span_digits s) as [[|x d] t] eqn:E; injection H as <- <-; [auto|].
  apply span_digits_sound in E. destruct E as [-> Hd]. split; [reflexivity|]. right. exists (x :: d).
  split; [discriminate|]. auto.
Qed.
Lemma scan_exp_sound : forall s f r, scan_exp s = (f, r) ->
  s = f ++ r /\ (f = [] \/ exists e sg d, (e = 101 \/ e = 69) /\
       (sg = [] \/ sg = [43] \/ sg = [45]) /\ d <> [] /\ digits d /\ f = e :: sg ++ d).
Proof.
  intros [|c s] f r H; cbn [scan_exp] in H; [injection H as <- <-; auto|].
  destruct ((c =? 101) || (c =? 69))%bool eqn:Ec; [|injection H as <- <-; auto].
  cbv zeta in H.
  set (sg := match s with x :: _ => if ((x =? 43) || (x =? 45))%bool then [x] else [] | [] => [] end) in *.
  assert (s = sg ++ skipn (length sg) s /\ (sg = [] \/ sg = [43] \/ sg = [45])) as [Es Hsg].
  { subst sg. destruct s as [|x s]; [auto|]. destruct (N.eqb_spec x 43) as [->|]; [auto|].
    destruct (N.eqb_spec x 45) as [->|]; auto. }
  destruct (span_digits (skipn (length sg) s)) as [[|x d] t] eqn:E; injection H as <- <-; [auto|].
  apply span_digits_sound in E. destruct E as [E Hd]. split.
  - cbn [app]. f_equal. rewrite <- app_assoc, <- E. exact Es.
  - right. exists c, sg, (x :: d). split.
    + apply Bool.orb_true_iff in Ec. rewrite !N.eqb_eq in Ec. exact Ec.
    + split; auto. split; [discriminate|]. auto.
Qed.
Lemma scan_num_sound : forall io s x r, scan_num io s = Some (x, r) ->
  exists t, s = t ++ r /\ json io t (ONum x).
Proof.
  intros io s x r H. unfold scan_num in H.
  set (sg := match s with c :: _ => if c =? 45 then [45] else [] | [] => [] end) in *.
  assert (s = sg ++ skipn (length sg) s /\ (sg = [] \/ sg = [45])) as [Es Hsg].
  { subst sg. destruct s as [|c s]; [auto|]. destruct (N.eqb_spec c 45) as [->|]; auto. }
  destruct (scan_int _) as [[ip r1]|] eqn:Ei; [|discriminate]. apply scan_int_sound in Ei. destruct Ei as [Ei Hi].
  destruct (scan_frac r1) as [fp r2] eqn:Ef. apply scan_frac_sound in Ef. destruct Ef as [-> Hf].
  destruct (scan_exp r2) as [ep r3] eqn:Ee. apply scan_exp_sound in Ee. destruct Ee as [-> He].
  rewrite Ei in Es.
  assert (fp <> [] \/ ep <> [] -> json io (sg ++ ip ++ fp ++ ep) (ONum (PyFloat (f_read io (sg ++ ip ++ fp ++ ep))))) as Hfl.
  { intros Hn. apply json_float. exists sg, ip, fp, ep. auto 8. }
  destruct fp as [|f0 fp].
  - destruct ep as [|e0 ep].
    + injection H as <- <-. exists (sg ++ ip). split; [rewrite Es, <- app_assoc; reflexivity|].
      destruct Hsg as [-> | ->]; cbn [app Z.of_int]; rewrite of_uint_value by apply Hi; constructor; auto.
    + injection H as <- <-. eexists. split; [|apply Hfl; right; discriminate].
      rewrite Es. cbn [app]. rewrite <- !app_assoc. reflexivity.
  - injection H as <- <-. eexists. split; [|apply Hfl; left; discriminate].
    rewrite Es. rewrite <- !app_assoc. reflexivity.
Qed.

(** ** Atoms *)
Lemma strip_sound : forall p s r, strip p s = Some r -> s = p ++ r.
Proof.
  induction p as [|a p IH]; intros s r H; [injection H as ->; reflexivity|].
  destruct s as [|c s]; [discriminate|]. cbn [strip] in H. destruct (N.eqb_spec a c) as [->|]; [|discriminate].
  cbn. f_equal. auto.
Qed.
Lemma scan_atom_sound : forall io s o r, scan_atom io s = Some (o, r) -> exists t, s = t ++ r /\ json io t o.
Proof.
  intros io s o r H. unfold scan_atom in H.
  destruct (strip (str "null") s) eqn:E1; [injection H as <- <-; apply strip_sound in E1; eexists; split; [exact E1|constructor]|].
  destruct (strip (str "true") s) eqn:E2; [injection H as <- <-; apply strip_sound in E2; eexists; split; [exact E2|constructor]|].
  destruct (strip (str "false") s) eqn:E3; [injection H as <- <-; apply strip_sound in E3; eexists; split; [exact E3|constructor]|].
  destruct (scan_num io s) as [[x r']|] eqn:E4; [injection H as <- <-; apply scan_num_sound in E4; exact E4|].
  destruct (strip (str "NaN") s) eqn:E5; [injection H as <- <-; apply strip_sound in E5; eexists; split; [exact E5|constructor]|].
  destruct (strip (str "Infinity") s) eqn:E6; [injection H as <- <-; apply strip_sound in E6; eexists; split; [exact E6|constructor]|].
  destruct (strip (str "-Infinity") s) eqn:E7; [injection H as <- <-; apply strip_sound in E7; eexists; split; [exact E7|constructor]|].
  discriminate.
Qed.

(** ** Values *)
Theorem scan_sound : forall io n,
  (forall s o r, scan io n s = Some (o, r) -> exists t, s = t ++ r /\ json io t o) /\
  (forall s l r, scan_elems io n s = Some (l, r) -> exists t, s = t ++ 93 :: r /\ elements io t l) /\
  (forall s d r, scan_pairs io n s = Some (d, r) -> exists t, s = t ++ 125 :: r /\ members io t d).
Proof.
  intros io n. induction n as [|n (IHs & IHe & IHp)]; [repeat split; intros; discriminate|].
  split; [|split].
  - intros s o r H. destruct s as [|c s]; [discriminate|]. cbn [scan] in H.
    destruct (N.eqb_spec c 34) as [->|_].
    { destruct (scan_str s) as [[t r']|] eqn:E; [|discriminate]. injection H as <- <-.
      apply (scan_str_sound _ _ _ _ (le_n _)) in E. destruct E as (b & -> & Hb).
      exists (34 :: b ++ [34]). split; [cbn; rewrite <- app_assoc; reflexivity|]. constructor; auto. }
    destruct (N.eqb_spec c 91) as [->|_].
    { destruct (blanks_split s) as (w & Hw & Es). destruct (skip_ws s) as [|c' s'] eqn:Ew; [discriminate|].
      destruct (N.eqb_spec c' 93) as [->|_].
      - injection H as <- <-. exists (91 :: w ++ [93]). split; [cbn; rewrite Es, <- app_assoc; reflexivity|constructor; auto].
      - destruct (scan_elems io n (c' :: s')) as [[l r']|] eqn:E; [|discriminate]. injection H as <- <-.
        apply IHe in E. destruct E as (t & Et & Ht). exists (91 :: w ++ t ++ [93]).
        split; [cbn; rewrite Es, Et, <- !app_assoc; reflexivity|constructor; auto]. }
    destruct (N.eqb_spec c 123) as [->|_].
    { destruct (blanks_split s) as (w & Hw & Es). destruct (skip_ws s) as [|c' s'] eqn:Ew; [discriminate|].
      destruct (N.eqb_spec c' 125) as [->|_].
      - injection H as <- <-. exists (123 :: w ++ [125]). split; [cbn; rewrite Es, <- app_assoc; reflexivity|constructor; auto].
      - destruct (scan_pairs io n (c' :: s')) as [[l r']|] eqn:E; [|discriminate]. injection H as <- <-.
        apply IHp in E. destruct E as (t & Et & Ht). exists (123 :: w ++ t ++ [125]).
        split; [cbn; rewrite Es, Et, <- !app_assoc; reflexivity|constructor; auto]. }
    apply scan_atom_sound in H. exact H.
  - intros s l r H. cbn [scan_elems] in H. destruct (scan io n s) as [[x r']|] eqn:E; [|discriminate].
    apply IHs in E. destruct E as (t & -> & Ht).
    destruct (blanks_split r') as (w & Hw & Er). destruct (skip_ws r') as [|c r2]; [discriminate|].
    destruct (N.eqb_spec c 93) as [->|_].
    + injection H as <- <-. exists (t ++ w). split; [rewrite Er, <- app_assoc; reflexivity|constructor; auto].
    + destruct (N.eqb_spec c 44) as [->|_]; [|discriminate].
      destruct (blanks_split r2) as (w' & Hw' & Er2).
      destruct (scan_elems io n (skip_ws r2)) as [[l' r3]|] eqn:E; [|discriminate]. injection H as <- <-.
      apply IHe in E. destruct E as (t' & Et & Ht'). exists (t ++ w ++ 44 :: w' ++ t').
      split; [|constructor; auto]. rewrite Er, Er2, Et. rewrite <- !app_assoc. cbn. rewrite <- !app_assoc. reflexivity.
  - intros s d r H. cbn [scan_pairs] in H. destruct s as [|q s]; [discriminate|].
    destruct (N.eqb_spec q 34) as [->|_]; [|discriminate]. cbn [negb] in H.
    destruct (scan_str s) as [[k r1]|] eqn:E; [|discriminate].
    apply (scan_str_sound _ _ _ _ (le_n _)) in E. destruct E as (b & -> & Hb).
    destruct (blanks_split r1) as (w & Hw & Er1). destruct (skip_ws r1) as [|c r2]; [discriminate|].
    destruct (N.eqb_spec c 58) as [->|_]; [|discriminate]. cbn [negb] in H.
    destruct (blanks_split r2) as (w' & Hw' & Er2).
    destruct (scan io n (skip_ws r2)) as [[x r3]|] eqn:E; [|discriminate].
    apply IHs in E. destruct E as (t & Et & Ht). rewrite Et in Er2.
    destruct (blanks_split r3) as (v & Hv & Er3). destruct (skip_ws r3) as [|c r4]; [discriminate|].
    destruct (N.eqb_spec c 125) as [->|_].
    + injection H as <- <-. exists (34 :: b ++ 34 :: w ++ 58 :: w' ++ t ++ v).
      split; [|constructor; auto]. rewrite Er1, Er2, Er3. cbn. rewrite <- !app_assoc. cbn. rewrite <- !app_assoc. cbn. rewrite <- !app_assoc. reflexivity.
    + destruct (N.eqb_spec c 44) as [->|_]; [|discriminate].
      destruct (blanks_split r4) as (v' & Hv' & Er4).
      destruct (scan_pairs io n (skip_ws r4)) as [[d' r5]|] eqn:E; [|discriminate]. injection H as <- <-.
      apply IHp in E. destruct E as (t' & Et' & Ht').
      exists (34 :: b ++ 34 :: w ++ 58 :: w' ++ t ++ v ++ 44 :: v' ++ t').
      split; [|constructor; auto]. rewrite Er1, Er2, Er3, Er4, Et'.
      cbn. rewrite <- !app_assoc. cbn. rewrite <- !app_assoc. cbn. rewrite <- !app_assoc. cbn. rewrite <- !app_assoc. reflexivity.
Qed.

Scheme json_mut := Induction for json Sort Prop
  with elements_mut := Induction for elements Sort Prop
  with members_mut := Induction for members Sort Prop.

(** First characters of values. *)
Lemma json_head : forall io s o, json io s o -> exists c r, s = c :: r /\ is_ws c = false /\ c <> 93 /\ c <> 125.
Proof.
  intros io s o H. destruct H as [ | | | | | |s [H1 H2]|s [H1 H2]|s H| | | | | ];
    try (do 2 eexists; split; [reflexivity|split; [reflexivity|split; discriminate]]).
  - destruct s as [|c s]; [destruct H2; contradiction|]. inversion H1; subst. exists c, s. split; auto.
    split; [|lia]. apply Bool.not_true_is_false. intros E. apply is_ws_iff in E. cbn in E. lia.
  - apply float_text_head in H. destruct H as (c & r & -> & Hc). exists c, r. split; auto. unfold number_start in Hc.
    split; [|lia]. apply Bool.not_true_is_false. intros E. apply is_ws_iff in E. cbn in E. lia.
Qed.
Lemma blanks_value : forall io s o w r, blanks w -> json io s o -> skip_ws (w ++ s ++ r) = s ++ r.
Proof.
  intros io s o w r Hw H. rewrite blanks_skip by auto. destruct (json_head _ _ _ H) as (c & t & -> & Hc & _).
  cbn [app]. apply skip_ws_head. auto.
Qed.
Lemma elements_head : forall io s l, elements io s l -> exists c r, s = c :: r /\ is_ws c = false /\ c <> 93.
Proof.
  intros io s l H. destruct H as [s x w H|s x w w' t l H]; destruct (json_head _ _ _ H) as (c & r & -> & ? & ? & ?);
    do 2 eexists; (split; [reflexivity|auto]).
Qed.
Lemma members_head : forall io s l, members io s l -> exists r, s = 34 :: r.
Proof. intros io s l H. destruct H; eexists; reflexivity. Qed.

Lemma fuel_up : forall io n m s o r, scan io n s = Some (o, r) -> (n <= m)%nat -> (length s <= m)%nat -> scan io m s = Some (o, r).
Proof. intros io n m s o r H _ Hm. destruct (scan_fuel io n) as (F & _). apply F in H. destruct H as (_ & _ & H). apply H. lia. Qed.

Theorem scan_complete : forall io s o, json io s o ->
  forall r, stops r -> exists n, scan io n (s ++ r) = Some (o, r).
Proof.
  intros io.
  assert (forall t o r, (exists c u, t = c :: u /\ c <> 34 /\ c <> 91 /\ c <> 123) ->
    scan_atom io (t ++ r) = Some (o, r) -> exists n, scan io n (t ++ r) = Some (o, r)) as Hatom.
  { intros t o r (c & u & -> & H1 & H2 & H3) H. exists 1%nat. cbn [app scan].
    rewrite (proj2 (N.eqb_neq _ _) H1), (proj2 (N.eqb_neq _ _) H2), (proj2 (N.eqb_neq _ _) H3). exact H. }
  assert (forall c, number_start c -> c <> 34 /\ c <> 91 /\ c <> 123) as Hns by (unfold number_start; intros; lia).
  apply (json_mut io
    (fun s o _ => forall r, stops r -> exists n, scan io n (s ++ r) = Some (o, r))
    (fun s l _ => forall r, exists n, scan_elems io n (s ++ 93 :: r) = Some (l, r))
    (fun s d _ => forall r, exists n, scan_pairs io n (s ++ 125 :: r) = Some (d, r))).
  - intros r Hr. apply Hatom; [do 2 eexists; split; [reflexivity|repeat split; discriminate]|reflexivity].
  - intros r Hr. apply Hatom; [do 2 eexists; split; [reflexivity|repeat split; discriminate]|reflexivity].
  - intros r Hr. apply Hatom; [do 2 eexists; split; [reflexivity|repeat split; discriminate]|reflexivity].
  - intros r Hr. apply Hatom; [do 2 eexists; split; [reflexivity|repeat split; discriminate]|reflexivity].
  - intros r Hr. apply Hatom; [do 2 eexists; split; [reflexivity|repeat split; discriminate]|reflexivity].
  - intros r Hr. apply Hatom; [do 2 eexists; split; [reflexivity|repeat split; discriminate]|reflexivity].
  - intros s Hs r Hr.
    assert (exists c u, s = c :: u /\ number_start c) as (c & u & Es & Hc).
    { destruct Hs as (Hd & Hn & _). destruct s as [|c s]; [congruence|]. inversion Hd; subst. do 2 eexists. split; [reflexivity|].
      unfold number_start. lia. }
    apply Hatom; [exists c, u; split; auto|]. apply scan_atom_num; [exists c, (u ++ r); rewrite Es; auto|].
    apply (scan_numeral io [] s r); auto.
  - intros s Hs r Hr. apply Hatom; [do 2 eexists; split; [reflexivity|repeat split; discriminate]|].
    apply scan_atom_num; [do 2 eexists; split; [reflexivity|unfold number_start; lia]|].
    apply (scan_numeral io [45] s r); auto.
  - intros s Hs r Hr. destruct (float_text_head s Hs) as (c & u & Es & Hc).
    apply Hatom; [exists c, u; split; auto|]. apply scan_atom_num; [exists c, (u ++ r); rewrite Es; auto|].
    apply scan_float; auto.
  - intros s t Ht r Hr. exists 1%nat. cbn [app scan]. change (34 =? 34) with true. cbv iota.
    rewrite <- app_assoc. cbn [app]. rewrite (scan_str_complete s t Ht). reflexivity.
  - intros w Hw r Hr. exists 1%nat. cbn [app scan]. change (91 =? 34) with false. change (91 =? 91) with true. cbv iota.
    rewrite <- app_assoc, blanks_skip by auto. reflexivity.
  - intros w s l Hw He IH r Hr. destruct (IH r) as (n & Hn). exists (S n). cbn [app scan].
    change (91 =? 34) with false. change (91 =? 91) with true. cbv iota.
    rewrite <- !app_assoc, blanks_skip by auto. cbn [app]. destruct (elements_head _ _ _ He) as (c & u & -> & Hc & H93).
    cbn [app] in *. rewrite (skip_ws_head c) by auto. rewrite (proj2 (N.eqb_neq _ _) H93), Hn. reflexivity.
  - intros w Hw r Hr. exists 1%nat. cbn [app scan]. change (123 =? 34) with false. change (123 =? 91) with false.
    change (123 =? 123) with true. cbv iota. rewrite <- app_assoc, blanks_skip by auto. reflexivity.
  - intros w s d Hw He IH r Hr. destruct (IH r) as (n & Hn). exists (S n). cbn [app scan].
    change (123 =? 34) with false. change (123 =? 91) with false. change (123 =? 123) with true. cbv iota.
    rewrite <- !app_assoc, blanks_skip by auto. cbn [app]. destruct (members_head _ _ _ He) as (u & ->).
    cbn [app] in *. rewrite (skip_ws_head 34) by reflexivity. change (34 =? 125) with false. cbv iota. rewrite Hn. reflexivity.
  - intros s x w Hj IH Hw r.
    destruct (IH (w ++ 93 :: r)) as (n & Hn); [apply blanks_stops; auto; repeat split; discriminate|].
    exists (S n). cbn [scan_elems]. rewrite <- app_assoc, Hn, blanks_skip by auto. reflexivity.
  - intros s x w w' t l Hj IH Hw Hw' He IHe r.
    destruct (IH (w ++ 44 :: w' ++ t ++ 93 :: r)) as (n1 & Hn1); [apply blanks_stops; auto; repeat split; discriminate|].
    destruct (IHe r) as (n2 & Hn2).
    destruct (elements_head _ _ _ He) as (c & u & Et & Hc & _).
    set (fu := Nat.add (length (s ++ w ++ 44 :: w' ++ t ++ 93 :: r)) (Nat.add n1 n2)).
    exists (S fu). cbn [scan_elems]. rewrite <- !app_assoc. cbn [app]. rewrite <- !app_assoc.
    rewrite (fuel_up io n1 fu _ _ _ Hn1) by (unfold fu; lia).
    rewrite blanks_skip by auto. cbn [skip_ws]. change (is_ws 44) with false. cbv iota.
    change (44 =? 93) with false. change (44 =? 44) with true. cbv iota.
    rewrite blanks_skip by auto.
    replace (skip_ws (t ++ 93 :: r)) with (t ++ 93 :: r) by (rewrite Et; cbn [app]; rewrite skip_ws_head; auto).
    destruct (scan_fuel io n2) as (_ & F & _). apply F in Hn2. destruct Hn2 as (_ & _ & Hn2).
    rewrite Hn2; [reflexivity|]. unfold fu. rewrite !app_length. cbn [length]. rewrite !app_length. cbn [length]. lia.
  - intros k kt w w' s x v Hk Hw Hw' Hj IH Hv r.
    destruct (IH (v ++ 125 :: r)) as (n & Hn); [apply blanks_stops; auto; repeat split; discriminate|].
    exists (S n). cbn [scan_pairs app]. change (34 =? 34) with true. cbn [negb].
    rewrite <- app_assoc. cbn [app]. rewrite (scan_str_complete k kt Hk).
    rewrite <- app_assoc, blanks_skip by auto. cbn [app skip_ws]. change (is_ws 58) with false. cbv iota.
    change (58 =? 58) with true. cbn [negb]. rewrite <- !app_assoc. rewrite (blanks_value io s x w' (v ++ 125 :: r)) by auto.
    rewrite Hn, blanks_skip by auto. reflexivity.
  - intros k kt w w' s x v v' t d Hk Hw Hw' Hj IH Hv Hv' Hm IHm r.
    destruct (IH (v ++ 44 :: v' ++ t ++ 125 :: r)) as (n1 & Hn1); [apply blanks_stops; auto; repeat split; discriminate|].
    destruct (IHm r) as (n2 & Hn2). destruct (members_head _ _ _ Hm) as (u & Et).
    set (fu := Nat.add (length (s ++ v ++ 44 :: v' ++ t ++ 125 :: r)) (Nat.add n1 n2)).
    exists (S fu). cbn [scan_pairs app]. change (34 =? 34) with true. cbn [negb].
    rewrite <- app_assoc. cbn [app]. rewrite (scan_str_complete k kt Hk).
    rewrite <- app_assoc, blanks_skip by auto. cbn [app skip_ws]. change (is_ws 58) with false. cbv iota.
    change (58 =? 58) with true. cbn [negb]. rewrite <- !app_assoc. cbn [app]. rewrite <- !app_assoc.
    rewrite (blanks_value io s x w' (v ++ 44 :: v' ++ t ++ 125 :: r)) by auto.
    rewrite (fuel_up io n1 fu _ _ _ Hn1) by (unfold fu; lia).
    rewrite blanks_skip by auto. cbn [skip_ws]. change (is_ws 44) with false. cbv iota.
    change (44 =? 125) with false. change (44 =? 44) with true. cbv iota.
    rewrite blanks_skip by auto.
    replace (skip_ws (t ++ 125 :: r)) with (t ++ 125 :: r) by (rewrite Et; cbn [app]; rewrite skip_ws_head; auto).
    destruct (scan_fuel io n2) as (_ & _ & F). apply F in Hn2. destruct Hn2 as (_ & _ & Hn2).
    rewrite Hn2; [reflexivity|]. unfold fu. rewrite !app_length. cbn [length]. rewrite !app_length. cbn [length]. lia.
Qed.

Theorem parse_grammar : forall io s o, parse io s = Some o <-> json_text io s o.
Proof.
  intros io s o. rewrite parse_any_bound. split.
  - intros (n & r & H & Hr). destruct (scan_sound io n) as (F & _). apply F in H. destruct H as (t & Et & Ht).
    destruct (blanks_split s) as (w & Hw & Es). exists w, t, r. rewrite Es, Et. split; auto. split; auto. split; auto.
    apply blanks_all; auto.
  - intros (w & t & w' & -> & Hw & Hw' & Ht). rewrite (blanks_value io t o w w') by auto.
    assert (stops w') as Hst.
    { destruct w' as [|c w']; [exact I|]. inversion Hw'; subst. apply (blanks_stops [c] 32 []); [constructor; auto|repeat split; discriminate]. }
    destruct (scan_complete io t o Ht w' Hst) as (n & Hn). exists n, w'. split; auto.
    rewrite <- (app_nil_r w'). rewrite blanks_skip by auto. reflexivity.
Qed.

(** ** What is written *)
Lemma hexdig_lower : forall n, n < 16 -> hex_of (hexdig n) n /\ (48 <= hexdig n <= 57 \/ 97 <= hexdig n <= 102).
Proof.
  intros n H. split; [apply hexval_iff; apply hexval_dig; auto|]. unfold hexdig.
  destruct (N.ltb_spec n 10); lia.
Qed.
Lemma hex4_lower : forall n, n < 65536 ->
  hex4_of (hex4 n) n /\ Forall (fun x => 48 <= x <= 57 \/ 97 <= x <= 102) (hex4 n).
Proof.
  intros n H. destruct (hex4_back n H) as (a & b & c & d & E & Hv). split.
  - rewrite E. apply hex4val_iff. auto.
  - unfold hex4. repeat (apply Forall_cons; [apply hexdig_lower; apply N.mod_lt; discriminate|]). apply Forall_nil.
Qed.
Theorem escapes_written : forall c, c < 1114112 ->
  (In c [34; 92; 10; 13; 9; 12; 8] -> exists e, In (e, c) short_escapes /\ esc_char c = [92; e]) /\
  (32 <= c <= 126 -> c <> 34 -> c <> 92 -> esc_char c = [c]) /\
  (~ In c [34; 92; 10; 13; 9; 12; 8] -> ~ 32 <= c <= 126 ->
   (c < 65536 -> exists h, esc_char c = 92 :: 117 :: h /\ hex4_of h c /\
      Forall (fun x => 48 <= x <= 57 \/ 97 <= x <= 102) h) /\
   (65536 <= c -> exists h u h' u', esc_char c = 92 :: 117 :: h ++ 92 :: 117 :: h' /\
      hex4_of h u /\ leading u /\ hex4_of h' u' /\ trailing u' /\
      c = 65536 + (u - 55296) * 1024 + (u' - 56320) /\
      Forall (fun x => 48 <= x <= 57 \/ 97 <= x <= 102) (h ++ h'))).
Proof.
  intros c Hc. unfold esc_char.
  destruct (N.eqb_spec c 34) as [->|N1]; [split; [|split; [intros; lia|intros H; exfalso; apply H; cbn; tauto]]; intros _; exists 34; split; [cbn; tauto|reflexivity]|].
  destruct (N.eqb_spec c 92) as [->|N2]; [split; [|split; [intros; lia|intros H; exfalso; apply H; cbn; tauto]]; intros _; exists 92; split; [cbn; tauto|reflexivity]|].
  destruct (N.eqb_spec c 10) as [->|N3]; [split; [|split; [intros; lia|intros H; exfalso; apply H; cbn; tauto]]; intros _; exists 110; split; [cbn; tauto|reflexivity]|].
  destruct (N.eqb_spec c 13) as [->|N4]; [split; [|split; [intros; lia|intros H; exfalso; apply H; cbn; tauto]]; intros _; exists 114; split; [cbn; tauto|reflexivity]|].
  destruct (N.eqb_spec c 9) as [->|N5]; [split; [|split; [intros; lia|intros H; exfalso; apply H; cbn; tauto]]; intros _; exists 116; split; [cbn; tauto|reflexivity]|].
  destruct (N.eqb_spec c 12) as [->|N6]; [split; [|split; [intros; lia|intros H; exfalso; apply H; cbn; tauto]]; intros _; exists 102; split; [cbn; tauto|reflexivity]|].
  destruct (N.eqb_spec c 8) as [->|N7]; [split; [|split; [intros; lia|intros H; exfalso; apply H; cbn; tauto]]; intros _; exists 98; split; [cbn; tauto|reflexivity]|].
  split; [cbn; intros H; lia|].
  destruct ((32 <=? c) && (c <=? 126))%bool eqn:E.
  { apply Bool.andb_true_iff in E. rewrite !N.leb_le in E. split; [auto|]. intros _ H. lia. }
  split; [intros H; apply Bool.andb_false_iff in E; rewrite !N.leb_gt in E; lia|]. intros _ _. split.
  - intros H. destruct (N.ltb_spec c 65536); [|lia]. exists (hex4 c). split; [reflexivity|]. apply hex4_lower; auto.
  - intros H. destruct (N.ltb_spec c 65536); [lia|]. cbv zeta.
    set (n := c - 65536). assert (n / 1024 < 1024) as A by (apply N.div_lt_upper_bound; unfold n; lia).
    assert (n mod 1024 < 1024) as B by (apply N.mod_lt; discriminate).
    pose proof (N.div_mod n 1024 ltac:(discriminate)) as D.
    destruct (hex4_lower (55296 + n / 1024) ltac:(lia)) as [H1 F1].
    destruct (hex4_lower (56320 + n mod 1024) ltac:(lia)) as [H2 F2].
    exists (hex4 (55296 + n / 1024)), (55296 + n / 1024), (hex4 (56320 + n mod 1024)), (56320 + n mod 1024).
    split; [reflexivity|]. split; auto. split; [unfold leading; lia|]. split; auto. split; [unfold trailing; lia|].
    split; [|apply Forall_app; auto].
    replace (55296 + n / 1024 - 55296) with (n / 1024) by lia.
    replace (56320 + n mod 1024 - 56320) with (n mod 1024) by lia.
    unfold n in *. lia.
Qed.
