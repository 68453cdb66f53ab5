(** * The JSON reader inverts the writer. *)
From Coq Require Import Reals NArith Ascii String Decimal DecimalFacts DecimalPos DecimalN DecimalZ SpecFloat.
From Verif Require Import Base Num Nd Numeric Simplex Psd Pattern Json PatJson Spec SpecJson.
Local Open Scope list_scope.
Local Open Scope N_scope.
Ltac Zify.zify_post_hook ::= Z.to_euclidean_division_equations.

Lemma hexval_dig : forall d, d < 16 -> hexval (hexdig d) = Some d.
Proof.
  intros d H.
  assert (E: d = 0 \/ d = 1 \/ d = 2 \/ d = 3 \/ d = 4 \/ d = 5 \/ d = 6 \/ d = 7 \/ d = 8 \/ d = 9
    \/ d = 10 \/ d = 11 \/ d = 12 \/ d = 13 \/ d = 14 \/ d = 15) by lia.
  repeat (destruct E as [-> | E]; [reflexivity|]). subst; reflexivity.
Qed.

Lemma hex4_back : forall n, n < 65536 ->
  exists a b c d, hex4 n = [a; b; c; d] /\ hex4val a b c d = Some n.
Proof.
  intros n H. unfold hex4. do 4 eexists. split; [reflexivity|].
  unfold hex4val. rewrite !hexval_dig by (apply N.mod_lt; lia).
  f_equal. lia.
Qed.

(** The escape of a code point starts with [\u] only when it is a 16-bit unit. *)
Lemma scan_unit : forall u r, u < 65536 -> is_high u = false ->
  scan_str (92 :: 117 :: hex4 u ++ r) = push u (scan_str r).
Proof.
  intros u r H Hh. destruct (hex4_back u H) as (a & b & c & d & -> & E).
  cbn [scan_str app]. change (92 =? 34) with false. change (92 =? 92) with true.
  change (117 =? 117) with true. cbv iota. rewrite E, Hh. reflexivity.
Qed.

Lemma scan_high_unit : forall u v r, u < 65536 -> is_high u = true -> v < 65536 -> is_low v = false ->
  scan_str (92 :: 117 :: hex4 u ++ 92 :: 117 :: hex4 v ++ r)
  = push u (scan_str (92 :: 117 :: hex4 v ++ r)).
Proof.
  intros u v r Hu Hh Hv Hl. destruct (hex4_back u Hu) as (a & b & c & d & -> & E).
  destruct (hex4_back v Hv) as (a' & b' & c' & d' & -> & E').
  cbn [app]. remember (92 :: 117 :: a' :: b' :: c' :: d' :: r) as T.
  cbn [scan_str]. change (92 =? 34) with false. change (92 =? 92) with true.
  change (117 =? 117) with true. cbv iota. rewrite E, Hh. subst T.
  change (92 =? 92) with true.
  change (117 =? 117) with true. cbv [andb]. cbv iota. rewrite E', Hl. reflexivity.
Qed.

Lemma scan_pair : forall u v r, u < 65536 -> is_high u = true -> v < 65536 -> is_low v = true ->
  scan_str (92 :: 117 :: hex4 u ++ 92 :: 117 :: hex4 v ++ r)
  = push (65536 + ((u - 55296) * 1024 + (v - 56320))) (scan_str r).
Proof.
  intros u v r Hu Hh Hv Hl. destruct (hex4_back u Hu) as (a & b & c & d & -> & E).
  destruct (hex4_back v Hv) as (a' & b' & c' & d' & -> & E').
  cbn [app scan_str]. change (92 =? 34) with false. change (92 =? 92) with true.
  change (117 =? 117) with true. cbv [andb]. cbv iota. rewrite E, Hh, E', Hl. reflexivity.
Qed.

(** A high unit not followed by [\u]. *)
Lemma scan_high_other : forall u r, u < 65536 -> is_high u = true ->
  (forall x y r', r = x :: y :: r' -> (x =? 92) && (y =? 117) = false) ->
  scan_str (92 :: 117 :: hex4 u ++ r) = push u (scan_str r).
Proof.
  intros u r Hu Hh Hn. destruct (hex4_back u Hu) as (a & b & c & d & -> & E).
  cbn [app]. remember r as T.
  cbn [scan_str]. change (92 =? 34) with false. change (92 =? 92) with true.
  change (117 =? 117) with true. cbv iota. rewrite E, Hh. subst T.
  destruct r as [|x [|y r']]; auto. rewrite (Hn x y r'); auto.
Qed.

Lemma esc_cases : forall c, c < 1114112 ->
  (exists e, esc_char c = [92; e] /\ e <> 117 /\ short_esc e = Some c /\ c < 128) \/
  (esc_char c = [c] /\ c <> 34 /\ c <> 92 /\ 32 <= c < 127) \/
  (esc_char c = 92 :: 117 :: hex4 c /\ c < 65536) \/
  (esc_char c = 92 :: 117 :: hex4 (55296 + (c - 65536) / 1024)
     ++ 92 :: 117 :: hex4 (56320 + (c - 65536) mod 1024) /\ 65536 <= c).
Proof.
  intros c Hc. unfold esc_char.
  destruct (c =? 34) eqn:E1; [apply N.eqb_eq in E1; subst; left; exists 34; repeat split; lia|].
  destruct (c =? 92) eqn:E2; [apply N.eqb_eq in E2; subst; left; exists 92; repeat split; lia|].
  destruct (c =? 10) eqn:E3; [apply N.eqb_eq in E3; subst; left; exists 110; repeat split; lia|].
  destruct (c =? 13) eqn:E4; [apply N.eqb_eq in E4; subst; left; exists 114; repeat split; lia|].
  destruct (c =? 9) eqn:E5; [apply N.eqb_eq in E5; subst; left; exists 116; repeat split; lia|].
  destruct (c =? 12) eqn:E6; [apply N.eqb_eq in E6; subst; left; exists 102; repeat split; lia|].
  destruct (c =? 8) eqn:E7; [apply N.eqb_eq in E7; subst; left; exists 98; repeat split; lia|].
  apply N.eqb_neq in E1, E2.
  destruct ((32 <=? c) && (c <=? 126))%bool eqn:E8.
  { apply andb_prop in E8. destruct E8 as [E8 E9]. apply N.leb_le in E8, E9.
    right; left. repeat split; auto; lia. }
  destruct (c <? 65536) eqn:E9.
  - apply N.ltb_lt in E9. right; right; left. split; auto.
  - apply N.ltb_ge in E9. right; right; right. split; auto.
Qed.

Lemma is_high_iff : forall u, is_high u = true <-> 55296 <= u <= 56319.
Proof. intros. unfold is_high. rewrite Bool.andb_true_iff, !N.leb_le. lia. Qed.
Lemma is_low_iff : forall u, is_low u = true <-> 56320 <= u <= 57343.
Proof. intros. unfold is_low. rewrite Bool.andb_true_iff, !N.leb_le. lia. Qed.

Lemma scan_str_back : forall s rest, proper_text s ->
  scan_str (flat_map esc_char s ++ 34 :: rest) = Some (s, rest).
Proof.
  induction s as [|c s IH]; intros rest H.
  - reflexivity.
  - cbn [proper_text] in H. destruct H as (Hc & Hn & Hs). specialize (IH rest Hs).
    cbn [flat_map]. rewrite <- app_assoc.
    destruct (esc_cases c Hc) as [(e & -> & He & Hsh & _) | [(-> & H1 & H2 & H3) | [(-> & Hlt) | (-> & Hge)]]].
    + cbn [app scan_str]. change (92 =? 34) with false. change (92 =? 92) with true.
      cbv iota. apply N.eqb_neq in He. rewrite He, Hsh, IH. reflexivity.
    + cbn [app scan_str]. apply N.eqb_neq in H1, H2. rewrite H1, H2.
      replace (c <? 32) with false by (symmetry; apply N.ltb_ge; lia). rewrite IH. reflexivity.
    + cbn [app]. destruct (is_high c) eqn:Eh.
      2:{ rewrite scan_unit by auto. rewrite IH. reflexivity. }
      destruct s as [|d s'].
      { cbn [flat_map app] in IH |- *. rewrite scan_high_other; [reflexivity|auto|auto|].
        intros x y r' E. injection E as <- _. reflexivity. }
      cbn [flat_map] in IH |- *. rewrite <- app_assoc in IH |- *.
      cbn [proper_text] in Hs. destruct Hs as (Hd & _).
      apply is_high_iff in Eh.
      assert (Eh' : is_high c = true) by (apply is_high_iff; auto).
      destruct (esc_cases d Hd) as [(e & E & He & Hsh & _) | [(E & H1 & H2 & H3) | [(E & Hltd) | (E & Hged)]]];
        rewrite E in IH |- *.
      * rewrite scan_high_other; auto. rewrite IH. reflexivity.
        intros x y r' Ex. cbn [app] in Ex. injection Ex as <- <- _.
        apply N.eqb_neq in He. rewrite He. reflexivity.
      * rewrite scan_high_other; auto. rewrite IH. reflexivity.
        intros x y r' Ex. cbn [app] in Ex. injection Ex as <- _.
        apply N.eqb_neq in H2. rewrite H2. reflexivity.
      * cbn [app] in IH |- *. rewrite scan_high_unit; auto. rewrite IH. reflexivity.
        destruct (is_low d) eqn:El; auto. apply is_low_iff in El. tauto.
      * cbn [app] in IH |- *. rewrite <- app_assoc in IH |- *. cbn [app] in IH |- *.
        rewrite scan_high_unit; auto; [rewrite IH; reflexivity| |].
        -- lia.
        -- destruct (is_low (55296 + (d - 65536) / 1024)) eqn:El; auto. apply is_low_iff in El. lia.
    + cbn [app]. rewrite <- app_assoc. cbn [app].
      rewrite scan_pair; [| lia | apply is_high_iff; lia | lia | apply is_low_iff; lia].
      rewrite IH. cbn [push]. do 2 f_equal. f_equal. lia.
Qed.

(** ** Numbers *)

(** What may follow a number in a JSON text. *)
Definition stops (r : pystr) : Prop :=
  match r with
  | [] => True
  | c :: _ => is_digit c = false /\ c <> 46 /\ c <> 101 /\ c <> 69
  end.

Lemma is_digit_iff : forall c, is_digit c = true <-> 48 <= c <= 57.
Proof. intros. unfold is_digit. rewrite Bool.andb_true_iff, !N.leb_le. lia. Qed.

Lemma span_digits_app : forall d r, digits d ->
  match r with [] => True | c :: _ => is_digit c = false end ->
  span_digits (d ++ r) = (d, r).
Proof.
  induction d as [|c d IH]; intros r Hd Hr.
  - destruct r as [|c r]; auto. cbn. rewrite Hr. reflexivity.
  - inversion Hd; subst. cbn. replace (is_digit c) with true by (symmetry; apply is_digit_iff; auto).
    rewrite IH; auto.
Qed.

Lemma scan_frac_none : forall r, stops r -> scan_frac r = ([], r).
Proof.
  destruct r as [|c r]; auto. intros (H1 & H2 & H3 & H4). cbn.
  apply N.eqb_neq in H2. rewrite H2. reflexivity.
Qed.
Lemma scan_exp_none : forall r, stops r -> scan_exp r = ([], r).
Proof.
  destruct r as [|c r]; auto. intros (H1 & H2 & H3 & H4). cbn.
  apply N.eqb_neq in H3, H4. rewrite H3, H4. reflexivity.
Qed.

Lemma scan_int_app : forall ip r, numeral ip ->
  match r with [] => True | c :: _ => is_digit c = false end ->
  scan_int (ip ++ r) = Some (ip, r).
Proof.
  intros ip r (Hd & Hn & Hz) Hr. destruct ip as [|c ip]; [congruence|].
  unfold scan_int. cbn [app].
  destruct (c =? 48) eqn:E.
  - apply N.eqb_eq in E. cbn in Hz. specialize (Hz E). injection Hz as -> ->. reflexivity.
  - inversion Hd; subst. replace (is_digit c) with true by (symmetry; apply is_digit_iff; auto).
    change (c :: ip ++ r) with ((c :: ip) ++ r). rewrite span_digits_app; auto.
Qed.

Lemma stops_nondigit : forall r, stops r -> match r with [] => True | c :: _ => is_digit c = false end.
Proof. destruct r; simpl; tauto. Qed.

Lemma scan_sign : forall neg ip r, (neg = [] \/ neg = [45]) -> numeral ip ->
  (match neg ++ ip ++ r with c :: _ => if c =? 45 then [45] else [] | [] => [] end) = neg /\
  skipn (length neg) (neg ++ ip ++ r) = ip ++ r.
Proof.
  intros neg ip r [-> | ->] (Hd & Hn & _).
  - split; auto. destruct ip as [|c ip]; [congruence|]. cbn. inversion Hd; subst.
    replace (c =? 45) with false by (symmetry; apply N.eqb_neq; lia). reflexivity.
  - split; reflexivity.
Qed.

Lemma scan_frac_app : forall fp r, (fp = [] \/ exists d, d <> [] /\ digits d /\ fp = 46 :: d) ->
  match r with [] => True | c :: _ => is_digit c = false /\ c <> 46 end ->
  scan_frac (fp ++ r) = (fp, r).
Proof.
  intros fp r [-> | (d & Hn & Hd & ->)] Hr.
  - cbn [app]. destruct r as [|c r]; auto. cbn. destruct Hr as [_ Hr]. apply N.eqb_neq in Hr. rewrite Hr. auto.
  - cbn [app scan_frac]. change (46 =? 46) with true. cbv iota.
    rewrite span_digits_app; auto. destruct d; [congruence|reflexivity].
    destruct r; tauto.
Qed.

Lemma scan_exp_app : forall ep r, (ep = [] \/ exists e sg d, (e = 101 \/ e = 69) /\
       (sg = [] \/ sg = [43] \/ sg = [45]) /\ d <> [] /\ digits d /\ ep = e :: sg ++ d) ->
  stops r -> scan_exp (ep ++ r) = (ep, r).
Proof.
  intros ep r [-> | (e & sg & d & He & Hsg & Hn & Hd & ->)] Hr.
  - cbn [app]. apply scan_exp_none; auto.
  - unfold scan_exp. cbn [app].
    replace ((e =? 101) || (e =? 69))%bool with true by (destruct He; subst; reflexivity).
    rewrite <- app_assoc.
    assert (E: match sg ++ d ++ r with x :: _ => if ((x =? 43) || (x =? 45))%bool then [x] else [] | [] => [] end = sg).
    { destruct Hsg as [-> | [-> | ->]]; auto.
      destruct d as [|c d]; [congruence|]. cbn. inversion Hd; subst.
      replace (c =? 43) with false by (symmetry; apply N.eqb_neq; lia).
      replace (c =? 45) with false by (symmetry; apply N.eqb_neq; lia). reflexivity. }
    cbv zeta. rewrite E.
    replace (skipn (length sg) (sg ++ d ++ r)) with (d ++ r) by (rewrite skipn_app, skipn_all, Nat.sub_diag; reflexivity).
    rewrite span_digits_app; [|auto|apply (stops_nondigit r Hr)].
    destruct d; [congruence|]. reflexivity.
Qed.

Lemma scan_float : forall io s r, float_text s -> stops r ->
  scan_num io (s ++ r) = Some (PyFloat (f_read io s), r).
Proof.
  intros io s r (neg & ip & fp & ep & -> & Hneg & Hip & Hfp & Hep & Hne) Hr.
  rewrite <- !app_assoc. unfold scan_num.
  destruct (scan_sign neg ip (fp ++ ep ++ r) Hneg Hip) as [E1 E2]. rewrite E1, E2.
  assert (S2: match ep ++ r with [] => True | c :: _ => is_digit c = false /\ c <> 46 end).
  { destruct Hep as [-> | (e & sg & d & He & _ & _ & _ & ->)].
    - cbn [app]. destruct r; simpl in *; tauto.
    - cbn. destruct He; subst; split; try reflexivity; lia. }
  assert (S1: match fp ++ ep ++ r with [] => True | c :: _ => is_digit c = false end).
  { destruct Hfp as [-> | (d & _ & _ & ->)]; [|reflexivity].
    cbn [app]. destruct (ep ++ r); tauto. }
  rewrite (scan_int_app ip _ Hip S1), (scan_frac_app fp _ Hfp S2), (scan_exp_app ep r Hep Hr).
  destruct fp; [destruct ep; [destruct Hne; congruence|]|]; reflexivity.
Qed.

Lemma text_uint_text : forall d, text_uint (uint_text d) = d.
Proof. induction d; cbn; auto; rewrite IHd; reflexivity. Qed.

Lemma uint_text_digits : forall d, digits (uint_text d).
Proof. unfold digits. induction d; cbn; constructor; auto; lia. Qed.

Lemma to_uint_norm : forall p, unorm (Pos.to_uint p) = Pos.to_uint p.
Proof.
  intros. pose proof (DecimalPos.Unsigned.of_to p) as H.
  pose proof (DecimalN.Unsigned.to_of (Pos.to_uint p)) as E.
  unfold N.of_uint in E. rewrite H in E. cbn in E. congruence.
Qed.

Lemma unorm_numeral : forall d, unorm d = d -> numeral (uint_text d).
Proof.
  intros d H. split; [apply uint_text_digits|].
  destruct d; cbn in *; try discriminate; split; try congruence; try (intros; lia).
  intros _. unfold unorm in H. cbn in H. destruct (nzhead d) as [|u|u|u|u|u|u|u|u|u|u] eqn:E; try discriminate H.
  - injection H as <-. reflexivity.
  - exfalso. apply (DecimalFacts.nzhead_nonzero d u). exact E.
Qed.

Lemma scan_int_text : forall io z r, stops r -> scan_num io (int_text z ++ r) = Some (PyInt z, r).
Proof.
  intros io z r Hr.
  assert (H: exists neg d, int_text z = neg ++ uint_text d /\ (neg = [] \/ neg = [45]) /\
     numeral (uint_text d) /\ Z.of_int (match neg with [] => Pos d | _ => Neg d end) = z).
  { unfold int_text. pose proof (DecimalZ.of_to z) as Hz.
    destruct z as [|p|p]; cbn [Z.to_int] in *.
    - exists [], (D0 Nil). repeat split; auto. repeat constructor; lia. discriminate.
    - exists [], (Pos.to_uint p). repeat split; auto; apply (unorm_numeral _ (to_uint_norm p)).
    - exists [45], (Pos.to_uint p). repeat split; auto; apply (unorm_numeral _ (to_uint_norm p)). }
  destruct H as (neg & d & -> & Hneg & Hd & Hz).
  rewrite <- app_assoc. unfold scan_num.
  destruct (scan_sign neg (uint_text d) r Hneg Hd) as [E1 E2]. rewrite E1, E2.
  rewrite (scan_int_app _ _ Hd (stops_nondigit r Hr)), (scan_frac_none r Hr), (scan_exp_none r Hr).
  cbv zeta. rewrite text_uint_text, Hz. reflexivity.
Qed.

(** ** Values *)

Section PyobjInd.
  Variable P : pyobj -> Prop.
  Hypothesis Hnone : P ONone.
  Hypothesis Hbool : forall b, P (OBool b).
  Hypothesis Hnum : forall x, P (ONum x).
  Hypothesis Hstr : forall s, P (OStr s).
  Hypothesis Hseq : forall l, Forall P l -> P (OSeq l).
  Hypothesis Hdict : forall d, Forall (fun kv => P (snd kv)) d -> P (ODict d).
  Fixpoint pyobj_ind' (o : pyobj) : P o :=
    match o with
    | ONone => Hnone
    | OBool b => Hbool b
    | ONum x => Hnum x
    | OStr s => Hstr s
    | OSeq l => Hseq l ((fix go l : Forall P l :=
        match l with [] => Forall_nil _ | x :: r => Forall_cons x (pyobj_ind' x) (go r) end) l)
    | ODict d => Hdict d ((fix go d : Forall (fun kv => P (snd kv)) d :=
        match d with [] => Forall_nil _ | x :: r => Forall_cons x (pyobj_ind' (snd x)) (go r) end) d)
    end.
End PyobjInd.

(** Values whose JSON text can be read back: proper strings, Python numbers. *)
Fixpoint readable (o : pyobj) : Prop :=
  match o with
  | ONum x => python_num x
  | OStr s => proper_text s
  | OSeq l => (fix go l := match l with [] => True | x :: r => readable x /\ go r end) l
  | ODict d => (fix go d := match d with [] => True
                 | (k, x) :: r => proper_text (key_text k) /\ readable x /\ go r end) d
  | _ => True
  end.

(** Keys become strings. *)
Fixpoint str_keys (o : pyobj) : pyobj :=
  match o with
  | OSeq l => OSeq (map str_keys l)
  | ODict d => ODict (map (fun kv => (KStr (key_text (fst kv)), str_keys (snd kv))) d)
  | _ => o
  end.

Lemma readable_seq : forall l, readable (OSeq l) <-> Forall readable l.
Proof.
  induction l as [|x l IH]; cbn. split; auto. cbn in IH. rewrite IH. split.
  intros []; constructor; auto. inversion 1; auto.
Qed.
Lemma readable_dict : forall d, readable (ODict d) <->
  Forall (fun kv => proper_text (key_text (fst kv)) /\ readable (snd kv)) d.
Proof.
  induction d as [|[k x] l IH]; cbn. split; auto. cbn in IH. rewrite IH. split.
  intros (? & ? & ?); constructor; auto. inversion 1; subst; simpl in *; tauto.
Qed.

Lemma strip_app : forall p r, strip p (p ++ r) = Some r.
Proof. induction p; intros; auto. cbn. rewrite N.eqb_refl. auto. Qed.

(** First characters. *)
Definition number_start (c : N) : Prop := c = 45 \/ 48 <= c <= 57.

Lemma int_text_head : forall z, exists c r, int_text z = c :: r /\ number_start c.
Proof.
  intros z. unfold int_text, number_start. destruct (Z.to_int z) as [d|d] eqn:E.
  - destruct d; cbn; try (do 2 eexists; split; [reflexivity|lia]).
    exfalso. destruct z; cbn in E; try discriminate. injection E as E.
    apply (DecimalPos.Unsigned.to_uint_nonnil p). auto.
  - do 2 eexists; split; [reflexivity|]; auto.
Qed.

Lemma float_text_head : forall s, float_text s -> exists c r, s = c :: r /\ number_start c.
Proof.
  intros s (neg & ip & fp & ep & -> & Hneg & (Hd & Hn & _) & _). unfold number_start.
  destruct Hneg as [-> | ->]; cbn [app].
  - destruct ip as [|c ip]; [congruence|]. inversion Hd; subst. do 2 eexists; split; [reflexivity|]; auto.
  - do 2 eexists; split; [reflexivity|]; auto.
Qed.

Lemma strip_head : forall a p c r, c <> a -> strip (a :: p) (c :: r) = None.
Proof. intros. cbn. replace (a =? c) with false; auto. symmetry; apply N.eqb_neq; congruence. Qed.

Lemma scan_atom_num : forall io s x r, (exists c t, s = c :: t /\ number_start c) ->
  scan_num io s = Some (x, r) -> scan_atom io s = Some (ONum x, r).
Proof.
  intros io s x r (c & t & -> & Hc) H. unfold scan_atom.
  change (str "null") with [110; 117; 108; 108]. change (str "true") with [116; 114; 117; 101].
  change (str "false") with [102; 97; 108; 115; 101].
  unfold number_start in Hc.
  rewrite !strip_head by lia. rewrite H. reflexivity.
Qed.

Lemma scan_atom_value : forall io x rest, float_io_ok io -> python_num x -> stops rest ->
  scan_atom io (num_text io x ++ rest) = Some (ONum x, rest) /\
  exists c r, num_text io x = c :: r /\ c <> 34 /\ c <> 91 /\ c <> 123.
Proof.
  intros io x rest Hio Hx Hr. unfold num_text. destruct x as [z|f].
  - destruct (int_text_head z) as (c & r & E & Hc). split.
    + apply scan_atom_num. rewrite E. exists c, (r ++ rest)%list. auto. apply scan_int_text; auto.
    + exists c, r. unfold number_start in Hc. repeat split; auto; lia.
  - assert (Hf: finite64 f -> scan_atom io (f_repr io f ++ rest) = Some (ONum (PyFloat f), rest) /\
       exists c r, f_repr io f = c :: r /\ c <> 34 /\ c <> 91 /\ c <> 123).
    { intros Hf. destruct (Hio f Hf) as [Ht Hb].
      destruct (float_text_head _ Ht) as (c & r & E & Hc). split.
      + apply scan_atom_num. rewrite E. exists c, (r ++ rest)%list. auto.
        rewrite scan_float; auto. rewrite Hb. auto.
      + exists c, r. unfold number_start in Hc. repeat split; auto; lia. }
    destruct f as [s|s| |s m e].
    + apply Hf. split; auto.
    + destruct s; (split; [reflexivity| do 2 eexists; split; [reflexivity| repeat split; discriminate]]).
    + split; [reflexivity| do 2 eexists; split; [reflexivity| repeat split; discriminate]].
    + apply Hf. split; auto.
Qed.

(** The text of a value is not empty and does not start with a blank. *)
Definition value_head (c : N) : Prop := is_ws c = false /\ c <> 93 /\ c <> 125.

Lemma dumps_head : forall io o, float_io_ok io -> readable o ->
  exists c r, dumps io o = c :: r /\ value_head c.
Proof.
  intros io o Hio Hr. unfold value_head.
  assert (W: forall c, number_start c -> is_ws c = false /\ c <> 93 /\ c <> 125).
  { unfold number_start, is_ws. intros c Hc. split; [|lia].
    repeat (apply Bool.orb_false_iff; split); apply N.eqb_neq; lia. }
  destruct o as [|[]|x|s|l|d]; try (do 2 eexists; split; [reflexivity|]; split; [reflexivity|split; discriminate]).
  cbn [dumps]. cbn in Hr. destruct x as [z|f].
  - destruct (int_text_head z) as (c & r & E & Hc). cbn. eauto.
  - destruct f as [s|s| |s m e]; cbn [num_text].
    + destruct (Hio (S754_zero s)) as [H _]. split; auto. apply float_text_head in H.
      destruct H as (c & r & -> & Hc). eauto.
    + destruct s; (do 2 eexists; split; [reflexivity|]; split; [reflexivity|split; discriminate]).
    + do 2 eexists; split; [reflexivity|]; split; [reflexivity|split; discriminate].
    + destruct (Hio (S754_finite s m e)) as [H _]. split; auto. apply float_text_head in H.
      destruct H as (c & r & -> & Hc). eauto.
Qed.

Lemma skip_ws_head : forall c r, is_ws c = false -> skip_ws (c :: r) = c :: r.
Proof. intros. cbn. rewrite H. auto. Qed.

Lemma scan_ge : forall n m : nat, (n <= m)%nat -> m = (n + (m - n))%nat.
Proof. intros; lia. Qed.

Theorem scan_dumps : forall io o n rest, float_io_ok io -> readable o -> stops rest ->
  (length (dumps io o) <= n)%nat ->
  scan io n (dumps io o ++ rest) = Some (str_keys o, rest).
Proof.
  intros io o n rest Hio. revert n rest.
  apply (pyobj_ind' (fun o => forall n rest, readable o -> stops rest ->
    (length (dumps io o) <= n)%nat -> scan io n (dumps io o ++ rest) = Some (str_keys o, rest))).
  - intros n rest _ _ Hn. destruct n; [cbn in Hn; lia|]. reflexivity.
  - intros [] n rest _ _ Hn; (destruct n; [cbn in Hn; lia|]); reflexivity.
  - intros x n rest Hx Hr Hn. cbn [dumps readable str_keys] in *.
    destruct (scan_atom_value io x rest Hio Hx Hr) as (Ha & c & r & E & H1 & H2 & H3).
    rewrite E in *. destruct n; [cbn in Hn; lia|]. cbn [app] in *.
    apply N.eqb_neq in H1, H2, H3. cbn [scan]. rewrite H1, H2, H3. exact Ha.
  - intros s n rest Hs _ Hn. cbn [dumps readable str_keys] in *.
    destruct n; [cbn in Hn; lia|]. unfold quote. cbn [app scan].
    change (34 =? 34) with true. cbv iota. rewrite <- app_assoc. cbn [app].
    rewrite scan_str_back; auto.
  - intros l IH n rest Hs _ Hn. rewrite readable_seq in Hs. cbn [dumps str_keys] in *.
    destruct n; [cbn in Hn; lia|].
    cbn [length] in Hn. rewrite app_length in Hn. cbn [length] in Hn.
    destruct l as [|x l]; [reflexivity|].
    assert (G: forall l x n, Forall (fun o => forall n rest, readable o -> stops rest ->
        (length (dumps io o) <= n)%nat -> scan io n (dumps io o ++ rest) = Some (str_keys o, rest)) (x :: l) ->
      Forall readable (x :: l) ->
      (length (join (str ", ") (map (dumps io) (x :: l))) < n)%nat ->
      scan_elems io n (join (str ", ") (map (dumps io) (x :: l)) ++ 93 :: rest)
      = Some (map str_keys (x :: l), rest)).
    { clear - Hio. induction l as [|y l IHl]; intros x n HP HR Hn.
      - inversion HP; subst. inversion HR; subst. destruct n; [lia|].
        cbn [map join] in *. cbn [scan_elems]. rewrite H1; [| assumption | cbn; repeat split; lia | lia].
        reflexivity.
      - inversion HP; subst. inversion HR; subst. destruct n; [lia|].
        change (map (dumps io) (x :: y :: l)) with (dumps io x :: map (dumps io) (y :: l)) in Hn |- *.
        set (T := map (dumps io) (y :: l)) in *.
        change (join (str ", ") (dumps io x :: T)) with (dumps io x ++ [44; 32] ++ join (str ", ") T)%list in *.
        rewrite !app_length in Hn. cbn [length] in Hn.
        rewrite <- !app_assoc. cbn [scan_elems].
        rewrite H1; [| assumption | cbn; repeat split; lia | lia].
        cbn [app]. rewrite skip_ws_head by reflexivity.
        change (44 =? 93) with false. change (44 =? 44) with true. cbv iota.
        assert (Hh: exists c r, join (str ", ") T = c :: r /\ value_head c).
        { destruct (dumps_head io y Hio) as (c & r & E & Hc); [inversion H4; auto|].
          unfold T. destruct l as [|z l]; cbn [map join]; rewrite E; do 2 eexists; split; try reflexivity; auto. }
        destruct Hh as (c & r & Eh & Hw & Hc).
        change (skip_ws (32 :: join (str ", ") T ++ 93 :: rest)) with (skip_ws (join (str ", ") T ++ 93 :: rest)).
        replace (skip_ws (join (str ", ") T ++ 93 :: rest)) with (join (str ", ") T ++ 93 :: rest)%list
          by (rewrite Eh; cbn [app]; rewrite skip_ws_head; auto).
        unfold T. rewrite IHl; auto. fold T. lia. }
    assert (Hh: exists c r, join (str ", ") (map (dumps io) (x :: l)) = c :: r /\ value_head c).
    { destruct (dumps_head io x Hio) as (c & r & E & Hc); [inversion Hs; auto|].
      destruct l as [|z l]; cbn [map join]; rewrite E; do 2 eexists; split; try reflexivity; auto. }
    destruct Hh as (c & r & Eh & Hw & Hc & _).
    cbn [app]. rewrite <- app_assoc. cbn [app].
    cbn [scan]. change (91 =? 34) with false. change (91 =? 91) with true. cbv iota.
    replace (skip_ws (join (str ", ") (map (dumps io) (x :: l)) ++ 93 :: rest))
      with (c :: r ++ 93 :: rest)%list by (rewrite Eh; cbn [app]; rewrite skip_ws_head; auto).
    apply N.eqb_neq in Hc. rewrite Hc.
    change (c :: r ++ 93 :: rest)%list with ((c :: r) ++ 93 :: rest)%list. rewrite <- Eh.
    rewrite (G l x n); auto. lia.
  - intros l IH n rest Hs _ Hn. rewrite readable_dict in Hs. cbn [dumps str_keys] in *.
    destruct n; [cbn in Hn; lia|].
    cbn [length] in Hn. rewrite app_length in Hn. cbn [length] in Hn.
    destruct l as [|x l]; [reflexivity|].
    set (wr := fun kv : key * pyobj => (quote (key_text (fst kv)) ++ str ": " ++ dumps io (snd kv))%list) in *.
    assert (Hwr: forall x, exists r, wr x = 34 :: r) by (intros; eexists; reflexivity).
    assert (Hj: forall x l, exists r, join (str ", ") (map wr (x :: l)) = 34 :: r).
    { intros y [|z l']; cbn [map join]; destruct (Hwr y) as [r E]; rewrite E; eexists; reflexivity. }
    assert (G: forall l x n, Forall (fun kv => forall n rest, readable (snd kv) -> stops rest ->
        (length (dumps io (snd kv)) <= n)%nat -> scan io n (dumps io (snd kv) ++ rest) = Some (str_keys (snd kv), rest)) (x :: l) ->
      Forall (fun kv => proper_text (key_text (fst kv)) /\ readable (snd kv)) (x :: l) ->
      (length (join (str ", ") (map wr (x :: l))) < n)%nat ->
      scan_pairs io n (join (str ", ") (map wr (x :: l)) ++ 125 :: rest)
      = Some (map (fun kv => (KStr (key_text (fst kv)), str_keys (snd kv))) (x :: l), rest)).
    { clear IH Hn Hs n x l. 
      assert (W: forall n x tl l',
        (forall n rest, readable (snd x) -> stops rest ->
          (length (dumps io (snd x)) <= n)%nat -> scan io n (dumps io (snd x) ++ rest) = Some (str_keys (snd x), rest)) ->
        proper_text (key_text (fst x)) -> readable (snd x) -> stops tl -> (length (wr x) < S n)%nat ->
        scan_pairs io (S n) (wr x ++ tl) = l' ->
        match skip_ws tl with
                      | [] => None
                      | c' :: r2 =>
                          if c' =? 125 then Some ([(KStr (key_text (fst x)), str_keys (snd x))], r2)
                          else if c' =? 44 then
                            match scan_pairs io n (skip_ws r2) with
                            | Some (l, r3) => Some ((KStr (key_text (fst x)), str_keys (snd x)) :: l, r3)
                            | None => None
                            end
                          else None
                      end = l').
      { intros n [k v] tl l' IHx Hk Hv Htl Hlen <-. unfold wr, quote in *. cbn [fst snd] in *.
        cbn [app] in *. cbn [scan_pairs]. change (negb (34 =? 34)) with false. cbv iota.
        rewrite <- !app_assoc. cbn [app]. rewrite scan_str_back; auto.
        change (str ": ") with [58; 32]. cbn [app].
        rewrite skip_ws_head by reflexivity.
        change (negb (58 =? 58)) with false. cbv iota.
        destruct (dumps_head io v Hio Hv) as (c & r & E & Hw & _).
        change (skip_ws (32 :: dumps io v ++ tl)) with (skip_ws (dumps io v ++ tl)).
        replace (skip_ws (dumps io v ++ tl)) with (dumps io v ++ tl)%list
          by (rewrite E; cbn [app]; rewrite skip_ws_head; auto).
        cbn [length] in Hlen. rewrite !app_length in Hlen. cbn [length] in Hlen.
        rewrite IHx; auto. lia. }
      induction l as [|y l IHl]; intros x n HP HR Hn.
      - inversion HP; subst. inversion HR; subst. destruct n; [lia|]. destruct H3 as [K1 K2].
        cbn [map join] in *.
        symmetry. eapply (W n x (125 :: rest)); auto. cbn; repeat split; lia.
      - inversion HP; subst. inversion HR; subst. destruct H3 as [K1 K2]. destruct n; [lia|].
        change (map wr (x :: y :: l)) with (wr x :: map wr (y :: l)) in Hn |- *.
        destruct (Hj y l) as [r Ej].
        set (T := map wr (y :: l)) in *.
        change (join (str ", ") (wr x :: T)) with (wr x ++ [44; 32] ++ join (str ", ") T)%list in *.
        rewrite !app_length in Hn. cbn [length] in Hn.
        rewrite <- !app_assoc. symmetry.
        eapply (W n x ([44; 32] ++ join (str ", ") T ++ 125 :: rest)%list _) in H1; [|auto|auto| | |reflexivity].
        2: cbn; repeat split; lia. 2: lia.
        rewrite <- H1. cbn [app]. rewrite skip_ws_head by reflexivity.
        change (44 =? 125) with false. change (44 =? 44) with true. cbv iota.
        change (skip_ws (32 :: join (str ", ") T ++ 125 :: rest)) with (skip_ws (join (str ", ") T ++ 125 :: rest)).
        replace (skip_ws (join (str ", ") T ++ 125 :: rest)) with (join (str ", ") T ++ 125 :: rest)%list
          by (rewrite Ej; reflexivity).
        unfold T. rewrite IHl; auto. fold T. lia. }
    destruct (Hj x l) as [r Ej].
    cbn [app]. rewrite <- app_assoc. cbn [app].
    cbn [scan]. change (123 =? 34) with false. change (123 =? 91) with false. change (123 =? 123) with true. cbv iota.
    replace (skip_ws (join (str ", ") (map wr (x :: l)) ++ 125 :: rest))
      with (34 :: r ++ 125 :: rest)%list by (rewrite Ej; reflexivity).
    change (34 =? 125) with false. cbv iota.
    change (34 :: r ++ 125 :: rest)%list with ((34 :: r) ++ 125 :: rest)%list. rewrite <- Ej.
    rewrite (G l x n); auto. lia.
Qed.

Theorem parse_dumps : forall io o, float_io_ok io -> readable o ->
  parse io (dumps io o) = Some (str_keys o).
Proof.
  intros io o Hio Hr. unfold parse.
  destruct (dumps_head io o Hio Hr) as (c & r & E & Hw & _).
  replace (skip_ws (dumps io o)) with (dumps io o ++ [])%list
    by (rewrite app_nil_r, E, skip_ws_head; auto).
  rewrite scan_dumps; auto. cbn; auto.
Qed.
