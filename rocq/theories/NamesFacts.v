(** * Proofs about names. *)
From Coq Require Import NArith Decimal Lia.
From Verif Require Import Base Num Nd Numeric Simplex Psd Pattern Spec ListFacts PatFacts Json JsonFacts
  Names SpecNames.
Local Open Scope list_scope.
Local Open Scope nat_scope.

(** ** Numerals *)

Lemma of_uint_acc_value : forall d acc,
  Pos.to_nat (Pos.of_uint_acc d acc)
  = Pos.to_nat acc * 10 ^ length (uint_text d) + digits_value (uint_text d).
Proof.
  induction d; intros acc;
    cbn [Pos.of_uint_acc uint_text length digits_value N.sub Pos.sub_mask N.to_nat Nat.pow];
    try (rewrite IHd; 
         try rewrite Pos2Nat.inj_add; try rewrite Pos2Nat.inj_mul;
         match goal with |- context [10 ^ ?k] => generalize (10 ^ k); intros b end;
         match goal with |- context [N.to_nat ?c] =>
           let v := eval compute in (N.to_nat c) in change (N.to_nat c) with v end;
         repeat match goal with |- context [Pos.to_nat ?c] =>
           match c with xO _ => idtac | xI _ => idtac | xH => idtac end;
           let v := eval compute in (Pos.to_nat c) in change (Pos.to_nat c) with v end;
         nia).
  lia.
Qed.

Lemma of_uint_value : forall d, N.to_nat (Pos.of_uint d) = digits_value (uint_text d).
Proof.
  induction d; cbn [Pos.of_uint uint_text digits_value]; auto;
    try (rewrite <- IHd; reflexivity);
    cbn [N.to_nat]; rewrite of_uint_acc_value;
    match goal with |- context [N.to_nat ?c] =>
       let v := eval compute in (N.to_nat c) in change (N.to_nat c) with v end;
    repeat match goal with |- context [Pos.to_nat ?c] =>
       let v := eval compute in (Pos.to_nat c) in change (Pos.to_nat c) with v end; lia.
Qed.

Lemma nat_numeral : forall n, numeral_of n (nat_text n).
Proof.
  intros n. unfold nat_text, int_text.
  assert (E: exists d, Z.to_int (Z.of_nat n) = Pos d /\ unorm d = d /\ N.to_nat (Pos.of_uint d) = n).
  { destruct n as [|n].
    - exists (D0 Nil). repeat split.
    - exists (Pos.to_uint (Pos.of_succ_nat n)). split; [reflexivity|].
      split; [apply to_uint_norm|].
      rewrite DecimalPos.Unsigned.of_to. cbn [N.to_nat]. apply SuccNat2Pos.id_succ. }
  destruct E as (d & -> & Hn & Hv).
  destruct (unorm_numeral d Hn) as (Hd & H1 & H2).
  unfold numeral_of. rewrite <- of_uint_value, Hv.
  split; [exact H1|]. split; [|split; [|reflexivity]].
  - eapply Forall_impl; [|exact Hd]. cbv beta. intros; lia.
  - intros r E. rewrite E in H2. assert (H3: 48%N :: r = [48%N]) by (apply H2; reflexivity).
    congruence.
Qed.

(** A numeral is determined by its value. *)
Lemma numeral_value_bound : forall s, Forall (fun c => 48 <= c <= 57)%N s ->
  digits_value s < 10 ^ length s.
Proof.
  induction 1 as [|c s Hc Hs IH]; cbn [digits_value length Nat.pow]; [lia|].
  assert (N.to_nat (c - 48) <= 9) by lia. nia.
Qed.

Lemma digits_value_inj : forall s t, length s = length t ->
  Forall (fun c => 48 <= c <= 57)%N s -> Forall (fun c => 48 <= c <= 57)%N t ->
  digits_value s = digits_value t -> s = t.
Proof.
  induction s as [|c s IH]; intros [|d t] HL Hs Ht E; cbn in HL; try discriminate; auto.
  inversion_clear Hs as [|? ? Hc Hs']. inversion_clear Ht as [|? ? Hd Ht'].
  cbn [digits_value] in E. injection HL as HL. rewrite <- HL in E.
  pose proof (numeral_value_bound s Hs'). pose proof (numeral_value_bound t Ht') as Bt.
  rewrite <- HL in Bt.
  assert (N.to_nat (c - 48) = N.to_nat (d - 48)).
  { set (b := 10 ^ length s) in *. clearbody b.
    destruct (lt_eq_lt_dec (N.to_nat (c - 48)) (N.to_nat (d - 48))) as [[L|L]|L]; auto; nia. }
  assert (c = d) by lia. subst d. f_equal. apply IH; auto. lia.
Qed.

Lemma numeral_lower : forall n s, numeral_of n s -> 2 <= length s -> 10 ^ (length s - 1) <= n.
Proof.
  intros n [|c s] (H0 & Hd & Hz & <-) HL; cbn in HL; [lia|].
  inversion_clear Hd as [|? ? Hc Hs]. cbn [digits_value length].
  replace (S (length s) - 1) with (length s) by lia.
  destruct (N.eq_dec c 48) as [->|Hne].
  - rewrite (Hz s eq_refl) in HL. cbn in HL. lia.
  - assert (1 <= N.to_nat (c - 48)) by lia. nia.
Qed.

Lemma numeral_unique : forall n s t, numeral_of n s -> numeral_of n t -> s = t.
Proof.
  intros n s t Hs Ht.
  assert (HL: length s = length t).
  { pose proof Hs as (Hs0 & Hsd & _ & Hsv). pose proof Ht as (Ht0 & Htd & _ & Htv).
    pose proof (numeral_value_bound s Hsd) as Bs. pose proof (numeral_value_bound t Htd) as Bt.
    rewrite Hsv in Bs. rewrite Htv in Bt.
    assert (0 < length s) by (destruct s; [congruence|cbn; lia]).
    assert (0 < length t) by (destruct t; [congruence|cbn; lia]).
    destruct (lt_eq_lt_dec (length s) (length t)) as [[L|L]|L]; auto; exfalso.
    - pose proof (numeral_lower n t Ht ltac:(lia)).
      pose proof (Nat.pow_le_mono_r 10 (length s) (length t - 1) ltac:(lia) ltac:(lia)). lia.
    - pose proof (numeral_lower n s Hs ltac:(lia)).
      pose proof (Nat.pow_le_mono_r 10 (length t) (length s - 1) ltac:(lia) ltac:(lia)). lia. }
  destruct Hs as (_ & Hs & _ & E1), Ht as (_ & Ht & _ & E2).
  apply digits_value_inj; auto. congruence.
Qed.

Lemma numeral_value : forall n m s, numeral_of n s -> numeral_of m s -> n = m.
Proof. intros n m s (_ & _ & _ & <-) (_ & _ & _ & <-). reflexivity. Qed.

Lemma nat_text_inj : forall n m, nat_text n = nat_text m -> n = m.
Proof.
  intros n m E. apply (numeral_value n m (nat_text n)); [apply nat_numeral|].
  rewrite E. apply nat_numeral.
Qed.

(** ** Bracketed lists *)

Lemma item_listed : forall item, listed item (join [44%N] (map nat_text item)).
Proof.
  induction item as [|n [|m r] IH]; cbn [map join].
  - constructor.
  - apply listed_one. apply nat_numeral.
  - cbn [app]. apply listed_more; [apply nat_numeral|]. exact IH.
Qed.

Lemma item_bracketed : forall item, bracketed item (item_text item).
Proof. intros item. exists (join [44%N] (map nat_text item)). split; [apply item_listed|reflexivity]. Qed.

(** Digits up to the first comma. *)
Lemma digits_split : forall s s' t t',
  Forall (fun c => 48 <= c <= 57)%N s -> Forall (fun c => 48 <= c <= 57)%N s' ->
  s ++ 44%N :: t = s' ++ 44%N :: t' -> s = s' /\ t = t'.
Proof.
  induction s as [|c s IH]; intros [|c' s'] t t' Hs Hs' E; cbn in E.
  - split; congruence.
  - exfalso. inversion_clear Hs'. injection E as E1 _. lia.
  - exfalso. inversion_clear Hs. injection E as E1 _. lia.
  - inversion_clear Hs; inversion_clear Hs'. injection E as <- E.
    destruct (IH _ _ _ H0 H2 E) as [<- <-]. auto.
Qed.
Lemma digits_comma : forall s t, Forall (fun c => 48 <= c <= 57)%N (s ++ 44%N :: t) -> False.
Proof.
  intros s t H. apply Forall_app in H. destruct H as [_ H]. inversion_clear H. lia.
Qed.

Lemma listed_unique : forall a s, listed a s -> forall b, listed b s -> a = b.
Proof.
  induction 1 as [|n s Hn|n s m r t Hn Hl IH]; intros b Hb.
  - inversion Hb as [|k u Hk|k u m' r' t' Hk Hl']; subst; auto.
    + destruct Hk as (Hk & _). congruence.
    + destruct u; discriminate.
  - inversion Hb as [|k u Hk|k u m' r' t' Hk Hl']; subst.
    + destruct Hn as (Hk & _). congruence.
    + f_equal. eapply numeral_value; eauto.
    + exfalso. destruct Hn as (_ & Hd & _). eapply digits_comma; eauto.
  - inversion Hb as [E|k u Hk|k u m' r' t' Hk Hl' E]; subst.
    + destruct s; discriminate.
    + exfalso. destruct Hk as (_ & Hd & _). eapply digits_comma; eauto.
    + match goal with H : _ ++ _ = _ ++ _ |- _ => 
        apply digits_split in H; [|apply Hk|apply Hn]; destruct H as [-> ->] end.
      f_equal; [eapply numeral_value; eauto|]. apply IH; auto.
Qed.

Lemma bracketed_unique : forall a b s, bracketed a s -> bracketed b s -> a = b.
Proof.
  intros a b s (u & Hu & ->) (v & Hv & E). injection E as E.
  apply app_inj_tail in E. destruct E as [<- _]. eapply listed_unique; eauto.
Qed.

Lemma item_text_inj : forall a b, item_text a = item_text b -> a = b.
Proof.
  intros a b E. apply (bracketed_unique a b (item_text a)); [apply item_bracketed|].
  rewrite E. apply item_bracketed.
Qed.

(** ** Multi-indices *)

Lemma row_major_acc : forall item shape acc, length item = length shape ->
  fold_left (fun acc p => acc * snd p + fst p) (combine item shape) acc
  = acc * prod shape + ravel item shape.
Proof.
  induction item as [|i item IH]; intros [|n shape] acc HL; cbn in HL; try discriminate.
  - cbn. lia.
  - cbn [combine fold_left fst snd ravel]. rewrite IH; [|lia].
    change (prod (n :: shape)) with (n * prod shape). nia.
Qed.
Lemma row_major_ravel : forall item shape, length item = length shape ->
  row_major item shape = ravel item shape.
Proof. intros. unfold row_major. rewrite row_major_acc; auto. Qed.

Lemma NoDup_map_inj : forall A B (f : A -> B) l,
  (forall x y, In x l -> In y l -> f x = f y -> x = y) -> NoDup l -> NoDup (map f l).
Proof.
  intros A B f l Hf Hn. induction Hn as [|x l Hx Hn IH]; cbn; constructor.
  - intros H. apply in_map_iff in H. destruct H as (y & E & Hy).
    apply Hf in E; [subst; auto|right; auto|left; auto].
  - apply IH. intros; apply Hf; auto; right; auto.
Qed.

Lemma indices_nodup : forall s, NoDup (indices s).
Proof.
  intros s. apply (NoDup_map_inv (fun it => ravel it s)). rewrite ravel_indices. apply seq_NoDup.
Qed.

(** ** Trailing NULs are never there *)

Definition tidy (s : pystr) : Prop := exists a c, s = a ++ [c] /\ c <> 0%N.

Lemma np_text_tidy : forall s, tidy s -> np_text s = s.
Proof.
  intros s (a & c & -> & Hc). unfold np_text. rewrite rev_app_distr. cbn [rev app drop_nul].
  destruct (N.eqb_spec c 0); [contradiction|]. cbn [rev]. rewrite rev_involutive. reflexivity.
Qed.
Lemma tidy_app : forall s t, tidy t -> tidy (s ++ t).
Proof. intros s t (a & c & -> & H). exists (s ++ a), c. rewrite app_assoc. auto. Qed.
Lemma nat_text_tidy : forall n, tidy (nat_text n).
Proof.
  intros n. destruct (nat_numeral n) as (H0 & Hd & _).
  destruct (exists_last H0) as (a & c & E). rewrite E in *. exists a, c. split; auto.
  apply Forall_app in Hd. destruct Hd as [_ Hd]. inversion_clear Hd. lia.
Qed.
Lemma item_text_tidy : forall it, tidy (item_text it).
Proof.
  intros. exists (91%N :: join [44%N] (map nat_text it)), 93%N. split; [reflexivity|lia].
Qed.

Lemma mapM_key_plus : forall s d l, mapM (key_plus (KStr s) d) l = Ok (map (fun t => s ++ d ++ t) l).
Proof. intros. apply mapM_ok_all. intros; reflexivity. Qed.

(** ** Members of a dictionary *)

Definition member_names (f : option bool) (d : pystr) (kq : key * pat) : res (list pystr) :=
  names <- flat_names_delim (snd kq) f underscore ;; mapM (key_plus (fst kq) d) names.

Lemma flat_names_dict : forall items l fl fd lk f d,
  flat_names_delim (PDict items l fl fd lk) f d
  = (parts <- mapM (member_names f d) items ;; l <- hstack parts ;; Ok (map np_text l)).
Proof. reflexivity. Qed.

Definition good_names (p : pat) (f : bool) (d : pystr) (names : list pystr) : Prop :=
  flat_names_delim p (Some f) d = Ok names /\ length names = pl_n (flat_len p f) /\
  Forall tidy names.

Lemma map_np_text : forall l, Forall tidy l -> map np_text l = l.
Proof. induction 1; cbn; f_equal; auto using np_text_tidy. Qed.

Lemma usable_dict_items : forall items l fl fd lk, usable (PDict items l fl fd lk) ->
  items <> [] /\ NoDup (map fst items) /\ Forall (fun kq => usable (snd kq)) items /\
  forall f, pl_n (flat_len (PDict items l fl fd lk) f)
            = lsum (map (fun kq => pl_n (flat_len (snd kq) f)) items).
Proof.
  intros items l fl fd lk (H1 & H2 & H3 & H4 & H5). split; auto. split; auto. split.
  - apply all_items_Forall in H5. exact H5.
  - intros [|]; cbn [flat_len]; subst; reflexivity.
Qed.

Lemma mapM_members : forall f d items,
  Forall (fun kq => (exists names, good_names (snd kq) f underscore names) \/
                    (flat_names_delim (snd kq) (Some f) underscore = Err TypeError /\
                     ~ string_keys (snd kq))) items ->
  (exists parts, mapM (member_names (Some f) d) items = Ok parts /\
     length (concat parts) = lsum (map (fun kq => pl_n (flat_len (snd kq) f)) items) /\
     Forall tidy (concat parts)) \/
  (mapM (member_names (Some f) d) items = Err TypeError /\
   ~ all_items (fun k q => (exists s, k = KStr s) /\ string_keys q) items).
Proof.
  intros f d items H. induction H as [|[k q] items H _ IH].
  - left. exists []. repeat split; auto. constructor.
  - cbn [fst snd] in *. destruct H as [(names & E & HL & HT)|(E & Hs)].
    + assert (Hm: (exists s, k = KStr s) \/ names = [] \/ ((exists z, k = KInt z) /\ names <> [])).
      { destruct k; eauto. destruct names; eauto. right; right. split; eauto. discriminate. }
      assert (Hp: (exists part, member_names (Some f) d (k, q) = Ok part /\
                     length part = length names /\ Forall tidy part) \/
                  (member_names (Some f) d (k, q) = Err TypeError /\ ~ exists s, k = KStr s)).
      { unfold member_names. cbn [fst snd]. rewrite E. cbn [bind].
        destruct Hm as [(s & ->)|[-> |((z & ->) & Hne)]].
        - left. rewrite mapM_key_plus. eexists. split; [reflexivity|].
          rewrite map_length. split; auto.
          apply Forall_map. eapply Forall_impl; [|exact HT]. cbv beta. intros.
          rewrite app_assoc. apply tidy_app; auto.
        - left. exists []. repeat split; auto.
        - right. destruct names; [congruence|]. split; [reflexivity|].
          intros (s & Hc). discriminate. }
      destruct Hp as [(part & Ep & HLp & HTp)|(Ep & Hns)].
      * destruct IH as [(parts & EP & HLP & HTP)|(EP & Hns)].
        -- left. exists (part :: parts). cbn [mapM]. rewrite Ep. cbn [bind]. rewrite EP. cbn [bind].
           split; [reflexivity|]. cbn [concat map snd]. rewrite app_length, HLP, HLp, HL.
           split; [reflexivity|]. apply Forall_app; auto.
        -- right. cbn [mapM]. rewrite Ep. cbn [bind]. rewrite EP. split; [reflexivity|].
           cbn [all_items]. tauto.
      * right. cbn [mapM]. rewrite Ep. split; [reflexivity|]. cbn [all_items]. tauto.
    + right. cbn [mapM]. unfold member_names at 1. cbn [fst snd]. rewrite E.
      split; [reflexivity|]. cbn [all_items]. tauto.
Qed.

Lemma hstack_ok : forall A (parts : list (list A)), parts <> [] -> hstack parts = Ok (concat parts).
Proof. intros A [|p r] H; [congruence|reflexivity]. Qed.

Lemma base_names : forall p f d, usable p ->
  flat_names_delim p (Some f) d = (l <- flat_length p (Some f) ;; n <- as_index l ;; Ok (map nat_text (seq 0 n))) ->
  good_names p f d (map nat_text (seq 0 (pl_n (flat_len p f)))).
Proof.
  intros p f d Hu E. unfold good_names. rewrite E. cbn [flat_length free_with_default bind].
  unfold as_index. rewrite (usable_int p f Hu). cbn [bind]. split; [reflexivity|].
  rewrite map_length, seq_length. split; [reflexivity|].
  apply Forall_map. apply Forall_forall. intros; apply nat_text_tidy.
Qed.

Lemma names_total : forall p f d, usable p ->
  (exists names, good_names p f d names) \/
  (flat_names_delim p (Some f) d = Err TypeError /\ ~ string_keys p).
Proof.
  intros p f. induction p using pat_ind'; intros dl Hu.
  - left. exists (map item_text (indices s)). split; [reflexivity|].
    rewrite map_length, indices_length. split; [reflexivity|].
    apply Forall_map. apply Forall_forall. intros; apply item_text_tidy.
  - left. eexists. apply base_names; auto.
  - left. eexists. apply base_names; auto.
  - left. eexists. apply base_names; auto.
  - destruct (usable_dict_items _ _ _ _ _ Hu) as (Hne & Hnd & Hus & HL).
    destruct (mapM_members f dl items) as [(parts & E & HLp & HT)|(E & Hs)].
    + rewrite Forall_forall in *. intros kq Hin. apply H; auto.
    + left. exists (concat parts). split; [|split; auto].
      * rewrite flat_names_dict, E. cbn [bind]. rewrite hstack_ok.
        -- cbn [bind]. rewrite map_np_text; auto.
        -- intros ->. apply mapM_length in E. destruct items; [congruence|discriminate].
      * rewrite HL. auto.
    + right. rewrite flat_names_dict, E. split; auto.
Qed.

(** ** The property lemmas *)

Lemma names_count : forall p f d, usable p -> string_keys p ->
  exists names, flat_names_delim p (Some f) d = Ok names /\
    flat_length p (Some f) = Ok (plint (length names)).
Proof.
  intros p f d Hu Hs. destruct (names_total p f d Hu) as [(names & E & HL & _)|(_ & H)]; [|tauto].
  exists names. split; auto. cbn [flat_length free_with_default bind].
  rewrite HL, <- plint_n; auto. apply usable_int; auto.
Qed.

Lemma names_int_keys : forall p f d, usable p ->
  (exists names, flat_names_delim p (Some f) d = Ok names /\
     flat_length p (Some f) = Ok (plint (length names))) \/
  (flat_names_delim p (Some f) d = Err TypeError /\ ~ string_keys p).
Proof.
  intros p f d Hu. destruct (names_total p f d Hu) as [(names & E & HL & _)|H]; [|right; auto].
  left. exists names. split; auto. cbn [flat_length free_with_default bind].
  rewrite HL, <- plint_n; auto. apply usable_int; auto.
Qed.

Lemma names_numeric : forall k shape lb ub dv fd free d,
  exists names, flat_names_delim (PNum k shape lb ub dv fd) free d = Ok names /\
    length names = prod shape /\ NoDup names /\
    forall i, i < prod shape -> exists item name,
      nth_error names i = Some name /\ bracketed item name /\
      Forall2 lt item shape /\ row_major item shape = i.
Proof.
  intros. exists (map item_text (indices shape)). split; [reflexivity|].
  split; [rewrite map_length; apply indices_length|]. split.
  - apply NoDup_map_inj; [|apply indices_nodup]. intros; apply item_text_inj; auto.
  - intros i Hi. exists (nth i (indices shape) []), (item_text (nth i (indices shape) [])).
    pose proof (nth_indices_in shape i [] Hi) as Hin. apply in_indices in Hin.
    split; [|split; [apply item_bracketed|split; auto]].
    + rewrite nth_error_map. rewrite (nth_error_nth' _ []); [reflexivity|].
      rewrite indices_length; auto.
    + rewrite row_major_ravel; [apply ravel_nth; auto|]. eapply Forall2_len; eauto.
Qed.

(** The entry a bracketed name points to is the entry of the flat vector it labels. *)
Lemma names_numeric_entry : forall A (sc : scalar A) k shape lb ub dv fd free d names vv x a i name item,
  usable (PNum k shape lb ub dv fd) ->
  flat_names_delim (PNum k shape lb ub dv fd) free d = Ok names ->
  fold_gen sc (PNum k shape lb ub dv fd) (vec x) (Some false) vv = Ok (FArr a) ->
  nth_error names i = Some name -> bracketed item name ->
  nth_error (dat a) (row_major item (shp a)) = nth_error x i.
Proof.
  intros A sc k shape lb ub dv fd free d names vv x a i name item Hu En Ef Ei Hb.
  destruct (names_numeric k shape lb ub dv fd free d) as (names' & En' & HL & _ & H).
  rewrite En in En'. injection En' as <-.
  assert (Hi: i < prod shape) by (rewrite <- HL; apply nth_error_Some; congruence).
  destruct (H i Hi) as (item' & name' & Ei' & Hb' & _ & HR).
  rewrite Ei in Ei'. injection Ei' as <-.
  rewrite <- (bracketed_unique _ _ _ Hb Hb') in HR.
  unfold fold_gen in Ef. cbn [free_with_default bind] in Ef. cbn [fold_] in Ef.
  rewrite atleast_vec, ndim_vec in Ef. cbn [Nat.eqb negb] in Ef.
  destruct (negb (size (vec x) =? prod shape)); [discriminate|].
  apply bind_ok in Ef. destruct Ef as (b & Er & Ef).
  apply bind_ok in Ef. destruct Ef as (u & _ & Ef). injection Ef as <-.
  unfold reshape in Er. match type of Er with (if ?c then _ else _) = _ => destruct c end; [|discriminate].
  injection Er as <-.
  cbn [shp dat]. rewrite HR. reflexivity.
Qed.

Lemma names_plain : forall p f d, usable p ->
  match p with PNum _ _ _ _ _ _ | PDict _ _ _ _ _ => False | _ => True end ->
  exists names, flat_names_delim p (Some f) d = Ok names /\
    flat_length p (Some f) = Ok (plint (length names)) /\ NoDup names /\
    forall i name, nth_error names i = Some name -> numeral_of i name.
Proof.
  intros p f d Hu Hp.
  assert (E: flat_names_delim p (Some f) d =
    (l <- flat_length p (Some f) ;; n <- as_index l ;; Ok (map nat_text (seq 0 n)))).
  { destruct p; cbn in Hp; try tauto; reflexivity. }
  destruct (base_names p f d Hu E) as (E1 & HL & _).
  eexists. split; [exact E1|]. split; [|split].
  - cbn [flat_length free_with_default bind]. rewrite HL, <- plint_n; auto. apply usable_int; auto.
  - apply NoDup_map_inj; [|apply seq_NoDup]. intros; apply nat_text_inj; auto.
  - intros i name H. rewrite nth_error_map in H.
    destruct (nth_error (seq 0 (pl_n (flat_len p f))) i) as [j|] eqn:Ej; [|discriminate].
    cbn in H. injection H as <-.
    assert (Hi: i < pl_n (flat_len p f)).
    { rewrite <- (seq_length (pl_n (flat_len p f)) 0). apply nth_error_Some. congruence. }
    rewrite (nth_error_nth' _ 0) in Ej; [|rewrite seq_length; auto].
    rewrite seq_nth in Ej; auto. injection Ej as <-. apply nat_numeral.
Qed.

Lemma mapM_app_inv : forall A B (g : A -> res B) l1 l2 r,
  mapM g (l1 ++ l2) = Ok r -> exists r1 r2, r = r1 ++ r2 /\ mapM g l1 = Ok r1 /\ mapM g l2 = Ok r2.
Proof.
  induction l1 as [|x l1 IH]; intros l2 r H.
  - exists [], r. auto.
  - cbn [app mapM] in *. apply bind_ok in H. destruct H as (y & Ey & H).
    apply bind_ok in H. destruct H as (ys & Eys & H). injection H as <-.
    destruct (IH _ _ Eys) as (r1 & r2 & -> & E1 & E2).
    exists (y :: r1), r2. rewrite Ey. cbn [bind]. rewrite E1. auto.
Qed.

Lemma mapM_total_length : forall f d items parts,
  Forall (fun kq => usable (snd kq)) items ->
  mapM (member_names (Some f) d) items = Ok parts ->
  length (concat parts) = lsum (map (fun kq => pl_n (flat_len (snd kq) f)) items).
Proof.
  intros f d items parts Hu E.
  destruct (mapM_members f d items) as [(parts' & E' & HL & _)|(E' & _)].
  - eapply Forall_impl; [|exact Hu]. cbv beta. intros; apply names_total; auto.
  - rewrite E in E'. injection E' as <-. auto.
  - congruence.
Qed.

(** The members' names come in layout order, each behind its key. *)
Lemma names_dict : forall before s q after l fl fd lk f d names,
  usable (PDict (before ++ (KStr s, q) :: after) l fl fd lk) ->
  flat_names_delim (PDict (before ++ (KStr s, q) :: after) l fl fd lk) (Some f) d = Ok names ->
  exists child, flat_names q (Some f) = Ok child /\
    flat_length q (Some f) = Ok (plint (length child)) /\
    slice names (total_len before f) (length child) = map (fun t => s ++ d ++ t) child.
Proof.
  intros before s q after l fl fd lk f d names Hu En.
  destruct (usable_dict_items _ _ _ _ _ Hu) as (_ & _ & Hus & _).
  apply Forall_app in Hus. destruct Hus as [Hub Hus]. inversion Hus as [|? ? Huq Hua]; subst.
  cbn [snd] in Huq.
  rewrite flat_names_dict in En. apply bind_ok in En. destruct En as (parts & Ep & En).
  apply bind_ok in En. destruct En as (cat & Ec & En). injection En as <-.
  destruct (mapM_app_inv _ _ _ _ _ _ Ep) as (p1 & p2 & -> & E1 & E2).
  cbn [mapM] in E2. apply bind_ok in E2. destruct E2 as (part & Epart & E2).
  apply bind_ok in E2. destruct E2 as (rest & Erest & E2). injection E2 as <-.
  unfold member_names in Epart. cbn [fst snd] in Epart. apply bind_ok in Epart.
  destruct Epart as (child & Ech & Epart). rewrite mapM_key_plus in Epart. injection Epart as <-.
  exists child. split; [exact Ech|].
  destruct (names_total q f underscore Huq) as [(child' & Eq & HL & HT)|(Eq & _)]; [|congruence].
  rewrite Ech in Eq. injection Eq as <-.
  split.
  { cbn [flat_length free_with_default bind]. rewrite HL, <- plint_n; auto. apply usable_int; auto. }
  rewrite hstack_ok in Ec; [|destruct p1; discriminate]. injection Ec as <-.
  rewrite concat_app. cbn [concat]. rewrite !map_app.
  rewrite slice_mid.
  - apply map_np_text. apply Forall_map. eapply Forall_impl; [|exact HT]. cbv beta. intros.
    rewrite app_assoc. apply tidy_app; auto.
  - rewrite map_length, (mapM_total_length f d before p1 Hub E1). reflexivity.
  - rewrite !map_length. reflexivity.
Qed.

(** ** Distinct names *)

Lemma common_start : forall (a b x y : pystr), a ++ x = b ++ y -> starts a b \/ starts b a.
Proof.
  induction a as [|c a IH]; intros [|c' b] x y E; cbn in E.
  - left; exists []; auto.
  - left; exists (c' :: b); auto.
  - right; exists (c :: a); auto.
  - injection E as <- E. destruct (IH b x y E) as [(z & ->)|(z & ->)].
    + left; exists z; reflexivity.
    + right; exists z; reflexivity.
Qed.

Lemma NoDup_app_intro : forall A (l m : list A), NoDup l -> NoDup m ->
  (forall x, In x l -> ~ In x m) -> NoDup (l ++ m).
Proof.
  intros A l m Hl Hm H. induction Hl as [|x l Hx Hl IH]; cbn; auto.
  constructor.
  - rewrite in_app_iff. intros [H1|H1]; [auto|]. apply (H x); [left; auto|auto].
  - apply IH. intros y Hy. apply H. right; auto.
Qed.

Lemma clear_items : forall d items l fl fd lk, clear_keys d (PDict items l fl fd lk) ->
  (forall s t, In (KStr s) (map fst items) -> In (KStr t) (map fst items) -> s <> t ->
     ~ starts (s ++ d) (t ++ d)) /\
  Forall (fun kq => clear_keys underscore (snd kq)) items.
Proof.
  intros d items l fl fd lk (H1 & H2). split; auto.
  clear H1. induction items as [|[k q] items IH]; constructor.
  - apply H2.
  - apply IH. apply H2.
Qed.

Lemma mapM_nodup : forall f d items parts,
  NoDup (map fst items) ->
  Forall (fun kq => usable (snd kq)) items ->
  (forall s t, In (KStr s) (map fst items) -> In (KStr t) (map fst items) -> s <> t ->
     ~ starts (s ++ d) (t ++ d)) ->
  Forall (fun kq => forall names, flat_names_delim (snd kq) (Some f) underscore = Ok names -> NoDup names) items ->
  mapM (member_names (Some f) d) items = Ok parts ->
  NoDup (concat parts) /\
  forall n, In n (concat parts) -> exists s q t, In (KStr s, q) items /\ n = s ++ d ++ t.
Proof.
  intros f d items. induction items as [|[k q] items IH]; intros parts Hk Hu Hc Hn E.
  - injection E as <-. split; [constructor|]. intros n [].
  - inversion_clear Hk as [|? ? Hk1 Hk2]. inversion_clear Hu as [|? ? Hu1 Hu2].
    inversion_clear Hn as [|? ? Hn1 Hn2].
    cbn [mapM] in E. apply bind_ok in E. destruct E as (part & Ep & E).
    apply bind_ok in E. destruct E as (rest & Er & E). injection E as <-.
    destruct (IH rest Hk2 Hu2) as (IH1 & IH2); auto.
    { intros; apply Hc; auto; right; auto. }
    unfold member_names in Ep. cbn [fst snd] in *. apply bind_ok in Ep.
    destruct Ep as (child & Ech & Ep). specialize (Hn1 _ Ech).
    destruct k as [s|z].
    + rewrite mapM_key_plus in Ep. injection Ep as <-. cbn [concat]. split.
      * apply NoDup_app_intro; auto.
        -- apply NoDup_map_inj; auto. intros x y _ _ Exy.
           apply app_inv_head in Exy. apply app_inv_head in Exy. auto.
        -- intros x Hx Hx'. apply in_map_iff in Hx. destruct Hx as (t & <- & _).
           destruct (IH2 _ Hx') as (s' & q' & t' & Hin & Es).
           apply (in_map fst) in Hin. cbn [fst] in Hin.
           assert (Hss: s <> s') by (intros ->; auto).
           rewrite !app_assoc in Es. apply common_start in Es.
           destruct Es as [Es|Es].
           ++ apply (Hc s s') in Es; auto; [left; auto|right; auto].
           ++ apply (Hc s' s) in Es; auto; [right; auto|left; auto].
      * intros n Hin. apply in_app_iff in Hin. destruct Hin as [Hin|Hin].
        -- apply in_map_iff in Hin. destruct Hin as (t & <- & _). exists s, q, t. split; auto. left; auto.
        -- destruct (IH2 _ Hin) as (s' & q' & t' & Hin' & Es). exists s', q', t'. split; auto. right; auto.
    + destruct child as [|c child]; [|discriminate]. injection Ep as <-. cbn [concat app]. split; auto.
      intros n Hin. destruct (IH2 _ Hin) as (s' & q' & t' & Hin' & Es). exists s', q', t'. split; auto. right; auto.
Qed.

Lemma names_distinct : forall p f d names, usable p -> clear_keys d p ->
  flat_names_delim p (Some f) d = Ok names -> NoDup names.
Proof.
  intros p f. induction p using pat_ind'; intros dl names Hu Hc En.
  - destruct (names_numeric k s lb ub dv fd (Some f) dl) as (n' & En' & _ & Hn & _).
    rewrite En in En'. injection En' as <-. auto.
  - destruct (names_plain _ f dl Hu I) as (n' & En' & _ & Hn & _).
    rewrite En in En'. injection En' as <-. auto.
  - destruct (names_plain _ f dl Hu I) as (n' & En' & _ & Hn & _).
    rewrite En in En'. injection En' as <-. auto.
  - destruct (names_plain _ f dl Hu I) as (n' & En' & _ & Hn & _).
    rewrite En in En'. injection En' as <-. auto.
  - destruct (usable_dict_items _ _ _ _ _ Hu) as (Hne & Hk & Hus & _).
    destruct (clear_items _ _ _ _ _ _ Hc) as (Hc1 & Hc2).
    destruct (names_total _ f dl Hu) as [(n' & En' & _ & HT)|(En' & _)]; [|congruence].
    rewrite En in En'. injection En' as <-.
    rewrite flat_names_dict in En. apply bind_ok in En. destruct En as (parts & Ep & En).
    apply bind_ok in En. destruct En as (cat & Ec & En). injection En as <-.
    assert (Hp: parts <> []).
    { intros ->. discriminate. }
    rewrite (hstack_ok _ parts Hp) in Ec. injection Ec as <-.
    destruct (mapM_nodup f dl items parts Hk Hus Hc1) as (Hnd & _); auto.
    + rewrite Forall_forall in *. intros kq Hin names En. apply (H kq Hin underscore); auto.
    + rewrite map_np_text; auto.
      destruct (mapM_members f dl items) as [(parts' & E' & _ & HT')|(E' & _)].
      * rewrite Forall_forall in *. intros; apply names_total; auto.
      * rewrite Ep in E'. injection E' as <-. auto.
      * congruence.
Qed.

Lemma no_underscore_items : forall items l fl fd lk, no_underscore (PDict items l fl fd lk) ->
  Forall (fun kq => (forall s, fst kq = KStr s -> ~ In 95%N s) /\ no_underscore (snd kq)) items.
Proof.
  intros items l fl fd lk H. cbn in H. induction items as [|[k q] items IH]; constructor.
  - cbn. tauto.
  - apply IH. tauto.
Qed.

Lemma no_underscore_clear : forall p, no_underscore p -> clear_keys underscore p.
Proof.
  induction p using pat_ind'; intros Hn; try exact I.
  apply no_underscore_items in Hn. split.
  - intros s t Hs Ht Hst (c & Ec).
    assert (Hk: forall u, In (KStr u) (map fst items) -> ~ In 95%N u).
    { intros u Hu. apply in_map_iff in Hu. destruct Hu as ([k q] & E & Hin). cbn in E. subst k.
      rewrite Forall_forall in Hn. apply (proj1 (Hn _ Hin)). reflexivity. }
    apply Hst. apply Hk in Hs, Ht. clear - Ec Hs Ht. revert t Ec Ht.
    induction s as [|a s IH]; intros [|b t] Ec Ht; cbn in Ec; auto.
    + injection Ec as E _. exfalso. apply Ht. left. auto.
    + injection Ec as E _. exfalso. apply Hs. left. auto.
    + injection Ec as -> Ec. f_equal. apply IH; auto; intros Hi; [apply Hs|apply Ht]; right; auto.
  - clear - H Hn. induction items as [|[k q] items IH]; auto.
    inversion_clear H as [|? ? H1 H2]. inversion_clear Hn as [|? ? Hn1 Hn2]. split.
    + apply H1. apply Hn1.
    + apply IH; auto.
Qed.

Lemma names_distinct_plain : forall p f names, usable p -> no_underscore p ->
  flat_names p (Some f) = Ok names -> NoDup names.
Proof. intros p f names Hu Hn. apply names_distinct; auto. apply no_underscore_clear; auto. Qed.
