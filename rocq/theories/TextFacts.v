(** * Facts about [str(pattern)] and the messages of validation. *)
From Coq Require Import Reals NArith Ascii String SpecFloat Lia.
From Verif Require Import Base Num Nd Numeric Simplex Psd Pattern Json PatJson Names Text
  Spec SpecJson SpecNames SpecText ListFacts PatFacts Contract JsonFacts NamesFacts.
Local Open Scope list_scope.
Local Open Scope nat_scope.

(** ** Splitting at the first occurrence of a character *)
Lemma first_split : forall (c : N) a a' r r', ~ In c a -> ~ In c a' ->
  a ++ c :: r = a' ++ c :: r' -> a = a' /\ r = r'.
Proof.
  induction a as [|x a IH]; intros [|x' a'] r r' H H' E; cbn in E.
  - split; congruence.
  - exfalso. injection E as -> _. apply H'. left; auto.
  - exfalso. injection E as -> _. apply H. left; auto.
  - injection E as -> E. destruct (IH a' r r') as [-> ->]; auto.
    + intro; apply H; right; auto.
    + intro; apply H'; right; auto.
Qed.

(** ** Tuples *)
Lemma digits_not : forall (c : N) s, Forall (fun c => 48 <= c <= 57)%N s -> (c < 48)%N -> ~ In c s.
Proof. intros c s H Hc Hi. rewrite Forall_forall in H. specialize (H _ Hi). lia. Qed.

Lemma spaced_text : forall s, spaced s (join (str ", ") (map nat_text s)).
Proof.
  induction s as [|n [|m r] IH]; cbn [map join].
  - constructor.
  - apply spaced_one. apply nat_numeral.
  - change (str ", ") with [44%N; 32%N]. cbn [app]. apply spaced_more; [apply nat_numeral|]. exact IH.
Qed.
Lemma tuple_text_of : forall s, tuple_of s (tuple_text s).
Proof.
  intros s. exists (join (str ", ") (map nat_text s)). split; [apply spaced_text|].
  destruct s as [|n [|m r]]; reflexivity.
Qed.

Lemma spaced_unique : forall a s, spaced a s -> forall b, spaced b s -> a = b.
Proof.
  induction 1 as [|n s Hn|n s m r t Hn Hl IH]; intros b Hb.
  - inversion Hb as [|k u Hk|k u m' r' t' Hk Hl']; subst; auto.
    + destruct Hk as (Hk & _). congruence.
    + destruct u; discriminate.
  - inversion Hb as [|k u Hk|k u m' r' t' Hk Hl']; subst.
    + destruct Hn as (Hk & _). congruence.
    + f_equal. eapply numeral_value; eauto.
    + exfalso. destruct Hn as (_ & Hd & _). eapply digits_comma; eauto.
  - inversion Hb as [E|k u Hk|k u m' r' t' Hk Hl' E]; subst.
    + destruct s; discriminate.
    + exfalso. destruct Hk as (_ & Hd & _). eapply digits_comma; eauto.
    + match goal with H : _ ++ _ = _ ++ _ |- _ =>
        apply digits_split in H; [|apply Hk|apply Hn]; destruct H as [-> H]; injection H as -> end.
      f_equal; [eapply numeral_value; eauto|]. apply IH; auto.
Qed.
Lemma spaced_clear : forall s t, spaced s t -> ~ In 41%N t.
Proof.
  induction 1 as [|n s Hn|n s m r t Hn Hl IH].
  - intros [].
  - apply digits_not; [apply Hn|lia].
  - intros Hi. apply in_app_or in Hi. destruct Hi as [Hi|[Hi|[Hi|Hi]]]; try discriminate; auto.
    revert Hi. apply digits_not; [apply Hn|lia].
Qed.
Lemma spaced_last : forall s t, spaced s t -> s <> [] -> exists u c, t = u ++ [c] /\ (48 <= c <= 57)%N.
Proof.
  induction 1 as [|n s Hn|n s m r t Hn Hl IH]; intros Hne; [congruence| |].
  - destruct Hn as (H0 & Hd & _). destruct (exists_last H0) as (u & c & ->). exists u, c. split; auto.
    apply Forall_app in Hd. destruct Hd as [_ Hd]. inversion Hd; auto.
  - destruct IH as (u & c & -> & Hc); [discriminate|].
    exists (s ++ 44%N :: 32%N :: u), c. split; auto. rewrite <- app_assoc. reflexivity.
Qed.

Lemma tuple_unique : forall a b t, tuple_of a t -> tuple_of b t -> a = b.
Proof.
  intros a b t (u & Hu & ->) (w & Hw & E). injection E as E.
  assert (forall x : list nat, ((match x with [_] => [44%N] | _ => [] end) ++ [41%N] = [41%N] /\ length x <> 1) \/
    ((match x with [_] => [44%N] | _ => [] end) ++ [41%N] = [44%N; 41%N] /\ length x = 1)) as Hcase.
  { intros [|x [|y r]]; cbn; auto; left; split; auto; lia. }
  assert (u = w) as <-.
  { destruct (Hcase a) as [(Ea & La)|(Ea & La)], (Hcase b) as [(Eb & Lb)|(Eb & Lb)];
      rewrite Ea, Eb in E.
    - apply app_inj_tail in E. tauto.
    - change [44%N; 41%N] with ([44%N] ++ [41%N]) in E. rewrite app_assoc in E.
      apply app_inj_tail in E. destruct E as [-> _].
      destruct a as [|x a]; [inversion Hu; subst; destruct w; discriminate|].
      destruct (spaced_last _ _ Hu) as (y & c & Ey & Hc); [discriminate|].
      apply app_inj_tail in Ey. destruct Ey as [_ <-]. lia.
    - change [44%N; 41%N] with ([44%N] ++ [41%N]) in E. rewrite app_assoc in E.
      apply app_inj_tail in E. destruct E as [<- _].
      destruct b as [|x b]; [inversion Hw; subst; destruct u; discriminate|].
      destruct (spaced_last _ _ Hw) as (y & c & Ey & Hc); [discriminate|].
      apply app_inj_tail in Ey. destruct Ey as [_ <-]. lia.
    - change [44%N; 41%N] with ([44%N] ++ [41%N]) in E. rewrite !app_assoc in E.
      apply app_inj_tail in E. destruct E as [E _]. apply app_inj_tail in E. tauto. }
  eapply spaced_unique; eauto.
Qed.

Lemma tuple_shape : forall s, exists body, tuple_text s = body ++ [41%N] /\ ~ In 41%N body.
Proof.
  intros s. destruct (tuple_text_of s) as (b & Hb & E). rewrite E.
  exists (40%N :: b ++ match s with [_] => [44%N] | _ => [] end). split.
  - cbn [app]. rewrite <- app_assoc. reflexivity.
  - intros [Hi|Hi]; [discriminate|]. apply in_app_or in Hi. destruct Hi as [Hi|Hi].
    + apply (spaced_clear _ _ Hb Hi).
    + destruct s as [|x [|y r]]; cbn in Hi; try tauto. destruct Hi; [discriminate|tauto].
Qed.
Lemma tuple_text_split : forall s s' r r', tuple_text s ++ r = tuple_text s' ++ r' -> s = s' /\ r = r'.
Proof.
  intros s s' r r' E. destruct (tuple_shape s) as (b & Hb & Nb), (tuple_shape s') as (b' & Hb' & Nb').
  rewrite Hb, Hb', <- !app_assoc in E. cbn [app] in E.
  destruct (first_split _ _ _ _ _ Nb Nb' E) as [-> ->]. split; auto.
  apply (tuple_unique s s' (tuple_text s)); [apply tuple_text_of|].
  rewrite Hb, <- Hb'. apply tuple_text_of.
Qed.

(** ** Numbers *)
Lemma scan_value : forall io x, float_io_ok io -> python_num x ->
  match x with
  | PyFloat S754_nan => value_text io x = str "nan"
  | PyFloat (S754_infinity s) => value_text io x = (if s then str "-inf" else str "inf")
  | _ => scan_num io (value_text io x ++ []) = Some (x, [])
  end.
Proof.
  intros io [z|f] Hio Hx.
  - apply scan_int_text. exact I.
  - assert (finite64 f -> scan_num io (f_repr io f ++ []) = Some (PyFloat f, [])) as Hf.
    { intros Hf. destruct (Hio f Hf) as [Ht Hb]. rewrite scan_float; [|auto|exact I].
      rewrite Hb. auto. }
    destruct f as [s|s| |s m e]; try reflexivity; apply Hf; split; auto.
Qed.
Lemma value_text_inj : forall io x y, float_io_ok io -> python_num x -> python_num y ->
  value_text io x = value_text io y -> x = y.
Proof.
  intros io x y Hio Hx Hy E. pose proof (scan_value io x Hio Hx) as A. pose proof (scan_value io y Hio Hy) as B.
  destruct x as [z|[s|s| |s m e]], y as [z'|[s'|s'| |s' m' e']];
    try (rewrite E in A; congruence);
    try (rewrite <- E in B; rewrite A in B; destruct s; discriminate);
    try (rewrite E in A; rewrite B in A; destruct s'; discriminate);
    try (rewrite <- E in B; rewrite A in B; discriminate);
    try (rewrite E in A; rewrite B in A; discriminate).
  all: cbn [value_text] in E; repeat match goal with b : bool |- _ => destruct b end;
    try discriminate; reflexivity.
Qed.

Definition plain (c : N) : Prop := c <> 44%N /\ c <> 41%N.
Lemma digits_plain : forall s, digits s -> Forall plain s.
Proof. intros s H. eapply Forall_impl; [|exact H]. intros c Hc. cbn in Hc. unfold plain. lia. Qed.
Lemma int_text_plain : forall z, Forall plain (int_text z).
Proof.
  intros z. unfold int_text. destruct (Z.to_int z) as [d|d].
  - apply digits_plain, uint_text_digits.
  - constructor; [unfold plain; lia|]. apply digits_plain, uint_text_digits.
Qed.
Lemma float_text_plain : forall s, float_text s -> Forall plain s.
Proof.
  intros s (neg & ip & fp & ep & -> & Hneg & (Hip & _) & Hfp & Hep & _).
  apply Forall_app; split; [|apply Forall_app; split; [|apply Forall_app; split]].
  - destruct Hneg as [-> | ->]; repeat constructor; lia.
  - apply digits_plain; auto.
  - destruct Hfp as [-> | (d & _ & Hd & ->)]; constructor; [unfold plain; lia|apply digits_plain; auto].
  - destruct Hep as [-> | (e & sg & d & He & Hsg & _ & Hd & ->)]; [constructor|].
    constructor; [destruct He as [-> | ->]; unfold plain; lia|].
    apply Forall_app. split; [|apply digits_plain; auto].
    destruct Hsg as [-> | [-> | ->]]; repeat constructor; lia.
Qed.
Lemma value_text_plain : forall io x, float_io_ok io -> python_num x -> Forall plain (value_text io x).
Proof.
  intros io [z|f] Hio Hx; [apply int_text_plain|].
  assert (finite64 f -> Forall plain (f_repr io f)) as Hf.
  { intros Hf. apply float_text_plain. apply Hio; auto. }
  destruct f as [s|[|]| |s m e]; try (apply Hf; split; auto);
    cbn; repeat (apply Forall_cons; [unfold plain; lia|]); apply Forall_nil.
Qed.
Lemma plain_not : forall s, Forall plain s -> ~ In 44%N s /\ ~ In 41%N s.
Proof.
  intros s H. rewrite Forall_forall in H. split; intros Hi; destruct (H _ Hi); congruence.
Qed.

(** ** [str(pattern)] *)
Lemma text_num : forall io k s lb ub dv fd, pat_text io (PNum k s lb ub dv fd) =
  Ok (str "NumericArrayPattern " ++ tuple_text s ++ str " (lb=" ++ value_text io lb ++
      str ", ub=" ++ value_text io ub ++ str ")").
Proof. reflexivity. Qed.
Lemma text_simplex : forall io n s dv fd, pat_text io (PSimplex n s dv fd) =
  Ok (str "SimplexArrayPattern " ++ tuple_text s ++ str " of " ++ nat_text n ++ str "-d simplices").
Proof. reflexivity. Qed.
Lemma text_psd : forall io n fl d dv fd, pat_text io (PPsd n fl d dv fd) =
  Ok (str "PDMatrix " ++ nat_text n ++ str "x" ++ nat_text n ++ str " (diag_lb = " ++
      value_text io d ++ str ")").
Proof. reflexivity. Qed.
Lemma text_arr : forall io s b fd, pat_text io (PArr s b fd) =
  (t <- pat_text io b ;; Ok (str "PatternArray " ++ tuple_text s ++ str " of " ++ t)).
Proof.
  intros. cbn [pat_text]. destruct (pat_text io b) as [t|]; [|reflexivity].
  cbn [bind]. rewrite <- (app_nil_r t) at 2. reflexivity.
Qed.

Theorem leaf_texts : forall io,
  (forall k s lb ub dv fd, exists st, tuple_of s st /\
     pat_text io (PNum k s lb ub dv fd) =
     Ok (str "NumericArrayPattern " ++ st ++ str " (lb=" ++ value_text io lb ++
         str ", ub=" ++ value_text io ub ++ str ")")) /\
  (forall n s dv fd, exists st nt, tuple_of s st /\ numeral_of n nt /\
     pat_text io (PSimplex n s dv fd) =
     Ok (str "SimplexArrayPattern " ++ st ++ str " of " ++ nt ++ str "-d simplices")) /\
  (forall n fl d dv fd, exists nt, numeral_of n nt /\
     pat_text io (PPsd n fl d dv fd) =
     Ok (str "PDMatrix " ++ nt ++ str "x" ++ nt ++ str " (diag_lb = " ++ value_text io d ++ str ")")) /\
  (forall s b fd t, pat_text io b = Ok t -> exists st, tuple_of s st /\
     pat_text io (PArr s b fd) = Ok (str "PatternArray " ++ st ++ str " of " ++ t)).
Proof.
  intros io. split; [|split; [|split]].
  - intros. exists (tuple_text s). split; [apply tuple_text_of|apply text_num].
  - intros. exists (tuple_text s), (nat_text n). split; [apply tuple_text_of|].
    split; [apply nat_numeral|apply text_simplex].
  - intros. exists (nat_text n). split; [apply nat_numeral|apply text_psd].
  - intros s b fd t E. exists (tuple_text s). split; [apply tuple_text_of|].
    rewrite text_arr, E. reflexivity.
Qed.

Lemma lines_join : forall kts, member_lines kts
  (join newline (map (fun kt => tab ++ str "[" ++ fst kt ++ str "] = " ++ snd kt) kts)).
Proof.
  induction kts as [|[k t] [|[k' t'] r] IH].
  - constructor.
  - apply lines_one.
  - apply (lines_more k t) in IH. cbn [map] in IH |- *. cbn [fst snd] in IH |- *.
    match goal with |- member_lines _ (join newline (?a :: ?b)) =>
      replace (join newline (a :: b)) with (a ++ newline ++ join newline b) by reflexivity end.
    match goal with |- member_lines _ ?x => match type of IH with member_lines _ ?y =>
      replace x with y; [exact IH|] end end.
    unfold tab, newline at 1. cbn [app]. f_equal. rewrite <- !app_assoc. reflexivity.
Qed.
Theorem dict_text : forall io items l fl fd lk t,
  pat_text io (PDict items l fl fd lk) = Ok t ->
  exists kts lines, member_lines kts lines /\ t = str "OrderedDict:" ++ 10%N :: lines /\
    Forall2 (fun kq kt => fst kq = KStr (fst kt) /\ pat_text io (snd kq) = Ok (snd kt)) items kts.
Proof.
  intros io items l fl fd lk t H. cbn [pat_text] in H.
  destruct (mapM _ items) as [parts|] eqn:E; [|discriminate]. cbn [bind] in H. injection H as <-.
  assert (exists kts, parts = map (fun kt => tab ++ str "[" ++ fst kt ++ str "] = " ++ snd kt) kts /\
    Forall2 (fun kq kt => fst kq = KStr (fst kt) /\ pat_text io (snd kq) = Ok (snd kt)) items kts) as (kts & -> & HF).
  { clear l fl fd lk. revert parts E. induction items as [|[k q] items IH]; intros parts E.
    - injection E as <-. exists []. auto.
    - cbn [mapM fst snd] in E. destruct k as [s|z]; [|discriminate].
      destruct (pat_text io q) as [t|] eqn:Et; [|discriminate]. cbn [bind] in E.
      destruct (mapM _ items) as [ps|]; [|discriminate]. cbn [bind] in E. injection E as <-.
      destruct (IH _ eq_refl) as (kts & -> & HF). exists ((s, t) :: kts). split; [reflexivity|].
      constructor; auto. }
  exists kts. eexists. split; [apply lines_join|]. split; [reflexivity|exact HF].
Qed.

Theorem text_succeeds : forall io p,
  (string_keys p -> exists t, pat_text io p = Ok t) /\
  (~ string_keys p -> pat_text io p = Err TypeError).
Proof.
  intros io. apply (pat_ind' (fun p => (string_keys p -> exists t, pat_text io p = Ok t) /\
    (~ string_keys p -> pat_text io p = Err TypeError))).
  - intros. split; [eexists; apply text_num|intros H; exfalso; apply H; exact I].
  - intros. split; [eexists; apply text_simplex|intros H; exfalso; apply H; exact I].
  - intros. split; [eexists; apply text_psd|intros H; exfalso; apply H; exact I].
  - intros s b fd [H1 H2]. rewrite text_arr. split; intros H.
    + destruct (H1 H) as (t & ->). cbn [bind]. eauto.
    + rewrite (H2 H). reflexivity.
  - intros items l fl fd lk IH.
    assert ((all_items (fun k q => (exists s, k = KStr s) /\ string_keys q) items ->
        exists parts, mapM (fun kq => match fst kq with
          | KStr s => t <- pat_text io (snd kq) ;; Ok (tab ++ str "[" ++ s ++ str "] = " ++ t)
          | KInt _ => Err TypeError end) items = Ok parts) /\
      (~ all_items (fun k q => (exists s, k = KStr s) /\ string_keys q) items ->
        mapM (fun kq => match fst kq with
          | KStr s => t <- pat_text io (snd kq) ;; Ok (tab ++ str "[" ++ s ++ str "] = " ++ t)
          | KInt _ => Err TypeError end) items = Err TypeError)) as [A B].
    { clear l fl fd lk. induction items as [|[k q] items IHi].
      - split; [intros _; eexists; reflexivity|intros H; exfalso; apply H; exact I].
      - inversion_clear IH as [|? ? [C D] IH']. destruct (IHi IH') as [A B].
        cbn [fst snd] in C, D. cbn [mapM fst snd all_items]. split.
        + intros (((s & ->) & Hq) & Hr). apply C in Hq. destruct Hq as (t & ->). cbn [bind].
          destruct (A Hr) as (ps & ->). cbn [bind]. eauto.
        + intros H. destruct k as [s|z]; [|reflexivity].
          destruct (str_ok q) eqn:Hs; [assert (string_keys q) as Hq by (apply string_keys_ok; auto)|
            assert (~ string_keys q) as Hq by (rewrite <- string_keys_ok, Hs; discriminate)].
          * destruct (C Hq) as (t & ->). cbn [bind]. rewrite B; [reflexivity|].
            intros Hr. apply H. split; [split; eauto|exact Hr].
          * rewrite (D Hq). reflexivity. }
    split; intros H.
    + destruct (A H) as (ps & Hp). cbn [pat_text]. rewrite Hp. cbn [bind]. eauto.
    + cbn [pat_text]. rewrite (B H). reflexivity.
Qed.
