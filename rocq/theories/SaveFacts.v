(** * Saving and loading: proofs. *)
From Coq Require Import Reals NArith Ascii String SpecFloat Lra.
From Verif Require Import Base Num Nd Numeric Simplex Psd Pattern Json PatJson SaveLoad Spec SpecJson
  ListFacts PatFacts NumFacts Contract Build Api JsonFacts PatJsonFacts JsonProps.
Local Open Scope list_scope.
Local Open Scope nat_scope.

Lemma str_eqb_same : forall s, str_eqb s s = true.
Proof. intros. apply str_eqb_iff. auto. Qed.
Lemma str_eqb_diff : forall s t, s <> t -> str_eqb s t = false.
Proof. intros s t H. apply Bool.not_true_iff_false. rewrite str_eqb_iff. auto. Qed.

Lemma ends_with_iff : forall s suf, ends_with s suf = true <-> exists a, s = a ++ suf.
Proof.
  intros s suf. unfold ends_with. rewrite Bool.andb_true_iff, str_eqb_iff, Nat.leb_le. split.
  - intros [H1 H2]. exists (firstn (length s - length suf) s). pose proof (firstn_skipn (length s - length suf) s) as E. rewrite H1 in E. auto.
  - intros [a ->]. rewrite app_length. split; [|lia].
    replace (length a + length suf - length suf) with (length a) by lia.
    rewrite skipn_app, skipn_all, Nat.sub_diag. reflexivity.
Qed.
Lemma npz_name_spec : forall file,
  ((exists a, file = a ++ npz) -> npz_name file = file) /\
  (~ (exists a, file = a ++ npz) -> npz_name file = file ++ npz).
Proof.
  intros file. unfold npz_name. destruct (ends_with file npz) eqn:E; split; auto.
  - intros H. apply ends_with_iff in E. tauto.
  - intros H. apply ends_with_iff in H. congruence.
Qed.

Lemma drop_nuls_end : forall s c, c <> 0%N -> drop_nuls (s ++ [c]) = s ++ [c].
Proof.
  induction s as [|x s IH]; intros c H; cbn.
  - destruct (N.eqb_spec c 0); congruence.
  - rewrite IH by auto. destruct s; reflexivity.
Qed.
Lemma text_end : forall io p, exists s, to_json io p = s ++ [125%N].
Proof.
  intros io p. unfold to_json.
  assert (E: exists d, as_dict io p = ODict d) by (destruct p; eexists; reflexivity).
  destruct E as [d ->]. cbn [dumps]. eexists (123%N :: _). rewrite <- app_comm_cons. reflexivity.
Qed.
Lemma drop_nuls_text : forall io p, drop_nuls (to_json io p) = to_json io p.
Proof. intros. destruct (text_end io p) as [s ->]. apply drop_nuls_end. discriminate. Qed.

Lemma usable_never_emptied : forall p, usable p -> never_emptied p.
Proof.
  apply (pat_ind' (fun p => usable p -> never_emptied p)); cbn [usable never_emptied]; try tauto.
  intros items l fl fd lk IH (H1 & _ & _ & _ & H2). split; [intros; congruence|].
  rewrite all_items_Forall in *. rewrite Forall_forall in *. auto.
Qed.

Definition stored (x : list num) (text : pystr) (extras : list (pystr * nd num)) : archive :=
  (str "flat_val" ++ npy, MArr (vec x)) :: (str "pattern_json" ++ npy, MText text) ::
  map (fun nm => (fst nm ++ npy, MArr (snd nm))) extras.

Lemma named_false : forall names extras, named names extras = false ->
  forall n, In n names -> ~ In (str n) (map fst extras).
Proof.
  intros names extras H n Hn Hin. apply in_map_iff in Hin. destruct Hin as ([m a] & E & Hin). cbn in E. subst m.
  assert (named names extras = true); [|congruence]. unfold named. apply existsb_exists. exists (str n, a). split; auto.
  apply existsb_exists. exists n. split; auto. cbn. apply str_eqb_same.
Qed.

Lemma app_npy_inj : forall a b, a ++ npy = b ++ npy -> a = b.
Proof. intros a b H. apply app_inv_tail in H. auto. Qed.

Lemma member_get_extra_none : forall extras n,
  (forall m, In m (map fst extras) -> n <> m ++ npy) ->
  member_get (map (fun nm => (fst nm ++ npy, MArr (snd nm))) extras) n = None.
Proof.
  induction extras as [|[m a] extras IH]; intros n H; auto. cbn [map member_get fst snd].
  rewrite str_eqb_diff by (apply H; left; auto). apply IH. intros. apply H. right. auto.
Qed.
Lemma member_get_extra : forall extras n a, NoDup (map fst extras) -> In (n, a) extras ->
  member_get (map (fun nm => (fst nm ++ npy, MArr (snd nm))) extras) (n ++ npy) = Some (MArr a).
Proof.
  induction extras as [|[m b] extras IH]; intros n a Hd Hin; [contradiction|]. cbn [map member_get fst snd].
  inversion Hd; subst. destruct Hin as [E|Hin].
  - injection E as -> ->. rewrite str_eqb_same. auto.
  - rewrite str_eqb_diff. auto. intros E. apply app_npy_inj in E. subst.
    apply H1. apply (in_map fst _ _ Hin).
Qed.

Lemma not_npy : forall (s : pystr) m, ends_with s npy = false -> s <> m ++ npy.
Proof. intros s m H E. assert (ends_with s npy = true) by (apply ends_with_iff; eauto). congruence. Qed.

Lemma stored_flat : forall x t extras, npz_get (stored x t extras) (str "flat_val") = Ok (MArr (vec x)).
Proof.
  intros. unfold npz_get, stored. cbn [member_get].
  rewrite !str_eqb_diff by (apply not_npy; reflexivity).
  rewrite member_get_extra_none by (intros; apply not_npy; reflexivity). rewrite str_eqb_same. auto.
Qed.
Lemma stored_text : forall x t extras, npz_get (stored x t extras) (str "pattern_json") = Ok (MText t).
Proof.
  intros. unfold npz_get, stored. cbn [member_get].
  rewrite !str_eqb_diff by (apply not_npy; reflexivity).
  rewrite member_get_extra_none by (intros; apply not_npy; reflexivity).
  rewrite str_eqb_diff by (intros E; apply app_npy_inj in E; discriminate). rewrite str_eqb_same. auto.
Qed.
Lemma stored_extra : forall x t extras n a, NoDup (map fst extras) ->
  ~ In (str "flat_val") (map fst extras) -> ~ In (str "pattern_json") (map fst extras) ->
  In (n, a) extras ->
  (forall m, In m (str "flat_val" :: str "pattern_json" :: map fst extras) -> n <> m ++ npy) ->
  npz_get (stored x t extras) n = Ok (MArr a).
Proof.
  intros x t extras n a Hd H1 H2 Hin Hn. unfold npz_get, stored. cbn [member_get].
  rewrite !(str_eqb_diff n) by (apply Hn; cbn; auto).
  rewrite member_get_extra_none by (intros; apply Hn; right; right; auto).
  pose proof (in_map fst _ _ Hin) as Hin'. cbn in Hin'.
  rewrite !str_eqb_diff by (intros E; apply app_npy_inj in E; subst n; contradiction).
  rewrite (member_get_extra extras n a); auto.
Qed.

Lemma save_ok : forall io fs file v p extras fs', save_folded io fs file v p extras = (fs', Ok tt) ->
  exists x, flatten_gen snum p v (Some false) None = Ok x /\
    fs' = put fs (npz_name file) (stored x (to_json io p) extras) /\
    ~ In (str "flat_val") (map fst extras) /\ ~ In (str "pattern_json") (map fst extras).
Proof.
  intros io fs file v p extras fs' H. unfold save_folded in H.
  destruct (named ["file"; "folded_val"; "pattern"] extras)%string; [discriminate|].
  destruct (flatten_gen snum p v (Some false) None) as [x|e]; [|discriminate].
  destruct (named ["flat_val"; "pattern_json"] extras)%string eqn:E; [discriminate|]. injection H as <-.
  exists x. split; auto. split.
  - unfold savez, stored. cbn [map fst snd]. rewrite map_map. cbn [fst snd].
    rewrite drop_nuls_text. reflexivity.
  - split; apply (named_false _ _ E); cbn; auto.
Qed.

Lemma put_same : forall fs n a, put fs n a n = Some a.
Proof. intros. unfold put. rewrite str_eqb_same. auto. Qed.
Lemma put_other : forall fs n a f, f <> n -> put fs n a f = fs f.
Proof. intros. unfold put. rewrite str_eqb_diff; auto. Qed.

(** Loading what is stored under the name gives the value back. *)
Lemma load_stored : forall io reg (fs : fsys) file p v x extras,
  float_io_ok io -> registers_builtins reg ->
  built p -> usable p -> string_keys p -> proper_keys p -> python_bounds p -> fv_ok v ->
  flatten_gen snum p v (Some false) None = Ok x ->
  fs file = Some (stored x (to_json io p) extras) ->
  load_folded io reg fs file = Ok (canon p v, reread p, stored x (to_json io p) extras).
Proof.
  intros io reg fs file p v x extras Hio Hreg Hb Hu Hs Hk Hn Hv Hf Hfs.
  unfold load_folded. rewrite Hfs, stored_text. cbn [bind].
  rewrite (proj1 (json_reads_back io reg p Hio Hreg Hb Hs Hk Hn)). cbn [bind].
  rewrite stored_flat. cbn [bind].
  pose proof (reread_sim p (built_wf p Hb) (usable_never_emptied p Hu)) as S.
  rewrite (proj1 (sim_behaviour _ _ S) num snum (vec x) false None).
  rewrite (proj2 (api_nonfree_fold_of_flatten num snum p v x None Hu Hv Hf)). reflexivity.
Qed.

Theorem save_load : forall io reg fs file v p extras fs',
  float_io_ok io -> registers_builtins reg ->
  built p -> usable p -> string_keys p -> proper_keys p -> python_bounds p -> fv_ok v ->
  NoDup (map fst extras) ->
  save_folded io fs file v p extras = (fs', Ok tt) ->
  (exists q data, load_folded io reg fs' (npz_name file) = Ok (canon p v, q, data) /\
     pat_eqb io q p = true /\ pat_eqb io p q = true /\ same_behaviour q p /\
     forall n a, In (n, a) extras ->
       (forall m, In m (str "flat_val" :: str "pattern_json" :: map fst extras) -> n <> m ++ npy) ->
       npz_get data n = Ok (MArr a)) /\
  (forall f, f <> npz_name file -> fs' f = fs f).
Proof.
  intros io reg fs file v p extras fs' Hio Hreg Hb Hu Hs Hk Hn Hv Hd H.
  destruct (save_ok _ _ _ _ _ _ _ H) as (x & Hx & -> & H1 & H2). split.
  - exists (reread p), (stored x (to_json io p) extras). split.
    + apply load_stored; auto. apply put_same.
    + destruct (pat_reread_eq io p Hb) as (_ & E1 & E2). split; auto. split; auto. split.
      * apply sim_behaviour, reread_sim. apply built_wf; auto. apply usable_never_emptied; auto.
      * intros n a Hin Hm. apply stored_extra; auto.
  - intros f Hf. apply put_other. auto.
Qed.

(** When saving succeeds, and what a failure leaves behind. *)
Theorem save_succeeds : forall io fs file v p extras,
  (snd (save_folded io fs file v p extras) = Ok tt <->
   (exists x, flatten_gen snum p v (Some false) None = Ok x) /\
   forall n, In n ["file"; "folded_val"; "pattern"; "flat_val"; "pattern_json"]%string ->
     ~ In (str n) (map fst extras)) /\
  (snd (save_folded io fs file v p extras) <> Ok tt -> fst (save_folded io fs file v p extras) = fs).
Proof.
  intros io fs file v p extras.
  assert (N: forall names, named names extras = false <-> forall n, In n names -> ~ In (str n) (map fst extras)).
  { intros names. split; [apply named_false|]. intros H. apply Bool.not_true_iff_false. intros E.
    unfold named in E. apply existsb_exists in E. destruct E as ([n a] & Hin & E).
    apply existsb_exists in E. destruct E as (m & Hm & E). cbn in E. apply str_eqb_iff in E. subst n.
    apply (H m Hm). apply (in_map fst _ _ Hin). }
  pose proof (N ["file"; "folded_val"; "pattern"]%string) as N1.
  pose proof (N ["flat_val"; "pattern_json"]%string) as N2.
  unfold save_folded.
  destruct (named ["file"; "folded_val"; "pattern"] extras)%string.
  { cbn [snd fst]. split; auto. split; [discriminate|]. intros [_ H]. enough (true = false) by discriminate.
    apply N1. intros n Hn. apply H. cbn in *. tauto. }
  destruct (flatten_gen snum p v (Some false) None) as [x|e].
  2: { cbn [snd fst]. split; auto. split; [discriminate|]. intros [[x Hx] _]. discriminate. }
  destruct (named ["flat_val"; "pattern_json"] extras)%string; cbn [snd fst].
  - split; auto. split; [discriminate|]. intros [_ H]. enough (true = false) by discriminate.
    apply N2. intros n Hn. apply H. cbn in *. tauto.
  - split; [|intros H; congruence]. split; auto. intros _. split; [eauto|].
    intros n Hn. cbn in Hn.
    destruct Hn as [<-|[<-|[<-|[<-|[<-|[]]]]]];
      try (apply N1; [reflexivity|cbn; tauto]); apply N2; try reflexivity; cbn; tauto.
Qed.

(** Any sequence of saves: a file holds what the last successful save to it wrote. *)
Lemma save_other : forall io fs file v p extras f, f <> npz_name file ->
  fst (save_folded io fs file v p extras) f = fs f.
Proof.
  intros io fs file v p extras f Hf. unfold save_folded.
  destruct (named _ extras); auto. destruct (flatten_gen _ _ _ _ _); auto. destruct (named _ extras); auto.
  apply put_other. auto.
Qed.
Lemma save_all_other : forall io calls fs f,
  (forall c, In c calls -> f <> npz_name (sv_file c) \/
     forall fs0, snd (save_folded io fs0 (sv_file c) (sv_value c) (sv_pattern c) (sv_extras c)) <> Ok tt) ->
  save_all io fs calls f = fs f.
Proof.
  induction calls as [|c calls IH]; intros fs f H; auto.
  transitivity (save_all io (fst (save_folded io fs (sv_file c) (sv_value c) (sv_pattern c) (sv_extras c))) calls f);
    [reflexivity|].
  rewrite IH by (intros; apply H; right; auto).
  destruct (H c (or_introl eq_refl)) as [Hne|He].
  - apply save_other; auto.
  - rewrite (proj2 (save_succeeds io fs (sv_file c) (sv_value c) (sv_pattern c) (sv_extras c)) (He fs)). auto.
Qed.

Theorem save_history : forall io reg fs calls1 file v p extras calls2,
  float_io_ok io -> registers_builtins reg ->
  built p -> usable p -> string_keys p -> proper_keys p -> python_bounds p -> fv_ok v ->
  (exists x, flatten_gen snum p v (Some false) None = Ok x) ->
  (forall n, In n ["file"; "folded_val"; "pattern"; "flat_val"; "pattern_json"]%string ->
     ~ In (str n) (map fst extras)) ->
  (forall c, In c calls2 -> npz_name (sv_file c) <> npz_name file \/
     forall x, flatten_gen snum (sv_pattern c) (sv_value c) (Some false) None <> Ok x) ->
  exists q data,
    load_folded io reg (save_all io fs (calls1 ++ mkSave file v p extras :: calls2)) (npz_name file)
      = Ok (canon p v, q, data) /\ pat_eqb io q p = true.
Proof.
  intros io reg fs calls1 file v p extras calls2 Hio Hreg Hb Hu Hs Hk Hn Hv Hx He Hc.
  unfold save_all. rewrite fold_left_app. cbn [fold_left].
  set (fs1 := fold_left _ calls1 fs). cbn [sv_file sv_value sv_pattern sv_extras].
  destruct (save_folded io fs1 file v p extras) as [fs2 out] eqn:E. cbn [fst].
  assert (out = Ok tt).
  { change out with (snd (fs2, out)). rewrite <- E. apply save_succeeds. auto. }
  subst out. destruct (save_ok _ _ _ _ _ _ _ E) as (x & Hfx & -> & _).
  exists (reread p), (stored x (to_json io p) extras). split; [|apply pat_reread_eq; auto].
  apply load_stored; auto.
  change (save_all io (put fs1 (npz_name file) (stored x (to_json io p) extras)) calls2 (npz_name file) =
    Some (stored x (to_json io p) extras)).
  rewrite save_all_other. apply put_same.
  intros c Hin. destruct (Hc c Hin) as [H|H]; [left; auto|right].
  intros fs0 Ho. apply save_succeeds in Ho. destruct Ho as [[y Hy] _]. apply (H y Hy).
Qed.

(** ** C34 *)
Theorem extension_added : forall io reg fs file v p extras fs',
  ~ (exists a, file = a ++ npz) ->
  save_folded io fs file v p extras = (fs', Ok tt) ->
  fs' (file ++ npz) <> None /\ fs' file = fs file /\
  load_folded io reg fs' file = load_folded io reg fs file /\
  (fs file = None -> load_folded io reg fs' file = Err FileNotFound).
Proof.
  intros io reg fs file v p extras fs' Hf H.
  destruct (save_ok _ _ _ _ _ _ _ H) as (x & _ & -> & _).
  rewrite (proj2 (npz_name_spec file) Hf).
  assert (E: put fs (file ++ npz) (stored x (to_json io p) extras) file = fs file).
  { apply put_other. intros E. rewrite <- (app_nil_r file) in E at 1. apply app_inv_head in E. discriminate. }
  split; [rewrite put_same; discriminate|]. split; auto. unfold load_folded. rewrite E. split; auto.
  intros ->. auto.
Qed.
Theorem extension_kept : forall io fs file v p extras fs',
  (exists a, file = a ++ npz) ->
  save_folded io fs file v p extras = (fs', Ok tt) ->
  fs' file <> None /\ forall f, f <> file -> fs' f = fs f.
Proof.
  intros io fs file v p extras fs' Hf H.
  destruct (save_ok _ _ _ _ _ _ _ H) as (x & _ & -> & _).
  rewrite (proj1 (npz_name_spec file) Hf). split; [rewrite put_same; discriminate|].
  intros. apply put_other. auto.
Qed.

(** An extra called like a member file is hidden behind that member. *)
Theorem hidden_extra : forall io fs file v p (a : nd num) fs',
  save_folded io fs file v p [(str "flat_val" ++ npy, a)] = (fs', Ok tt) ->
  exists data x, fs' (npz_name file) = Some data /\ flatten_gen snum p v (Some false) None = Ok x /\
    npz_get data (str "flat_val" ++ npy) = Ok (MArr (vec x)).
Proof.
  intros io fs file v p a fs' H. destruct (save_ok _ _ _ _ _ _ _ H) as (x & Hx & -> & _).
  exists (stored x (to_json io p) [(str "flat_val" ++ npy, a)]), x. rewrite put_same. split; auto.
Qed.

(** ** Files that were not written by [save_folded] *)
Lemma member_get_iff : forall data name m, NoDup (map fst data) ->
  (member_get data name = Some m <-> In (name, m) data).
Proof.
  induction data as [|[n m'] r IH]; intros name m H; cbn [member_get In]; [split; [discriminate|tauto]|].
  inversion H as [|? ? Hn Hr]; subst. destruct (str_eqb name n) eqn:E.
  - apply str_eqb_iff in E. subst. split; [intros [= <-]; auto|].
    intros [[= <-]|Hin]; auto. exfalso. apply Hn. apply (in_map fst) in Hin. auto.
  - rewrite IH by auto. split; auto. intros [[= <- <-]|Hin]; auto. rewrite str_eqb_same in E. discriminate.
Qed.
Lemma member_get_none : forall data name, ~ In name (map fst data) -> member_get data name = None.
Proof.
  induction data as [|[n m'] r IH]; intros name H; cbn [member_get]; auto. cbn in H.
  rewrite str_eqb_diff by (intros ->; tauto). apply IH. tauto.
Qed.
Lemma npz_get_some : forall data name m, NoDup (map fst data) ->
  In (name, m) data \/ (~ In name (map fst data) /\ In (name ++ npy, m) data) -> npz_get data name = Ok m.
Proof.
  intros data name m H [Hin|[Hn Hin]]; unfold npz_get.
  - apply member_get_iff in Hin; auto. rewrite Hin. auto.
  - rewrite (member_get_none _ _ Hn). apply member_get_iff in Hin; auto. rewrite Hin. auto.
Qed.
Lemma npz_get_none : forall data name, ~ In name (map fst data) -> ~ In (name ++ npy) (map fst data) ->
  npz_get data name = Err KeyError.
Proof. intros data name H1 H2. unfold npz_get. rewrite !member_get_none; auto. Qed.
Theorem foreign_file : forall io reg fs file data, fs file = Some data -> NoDup (map fst data) ->
  let holds := fun n m => In (str n, m) data \/ (~ In (str n) (map fst data) /\ In (str n ++ npy, m) data) in
  let lacks := fun n => ~ In (str n) (map fst data) /\ ~ In (str n ++ npy) (map fst data) in
  (lacks "pattern_json"%string -> load_folded io reg fs file = Err KeyError) /\
  (forall text e, holds "pattern_json"%string (MText text) -> get_pattern_from_json io reg text = Err e ->
     load_folded io reg fs file = Err e) /\
  (forall text p, holds "pattern_json"%string (MText text) -> get_pattern_from_json io reg text = Ok p ->
     (lacks "flat_val"%string -> load_folded io reg fs file = Err KeyError) /\
     (forall x v, holds "flat_val"%string (MArr x) -> fold_gen snum p x (Some false) None = Ok v ->
        load_folded io reg fs file = Ok (v, p, data)) /\
     (forall x e, holds "flat_val"%string (MArr x) -> fold_gen snum p x (Some false) None = Err e ->
        load_folded io reg fs file = Err e)).
Proof.
  intros io reg fs file data Hf Hd holds lacks. unfold load_folded. rewrite Hf.
  split; [|split].
  - intros [H1 H2]. rewrite npz_get_none; auto.
  - intros text e Ht He. rewrite (npz_get_some _ _ _ Hd Ht). cbn [bind]. rewrite He. reflexivity.
  - intros text p Ht Hp. rewrite (npz_get_some _ _ _ Hd Ht). cbn [bind]. rewrite Hp. cbn [bind].
    split; [|split].
    + intros [H1 H2]. rewrite npz_get_none; auto.
    + intros x v Hx Hv. rewrite (npz_get_some _ _ _ Hd Hx). cbn [bind]. rewrite Hv. reflexivity.
    + intros x e Hx Hv. rewrite (npz_get_some _ _ _ Hd Hx). cbn [bind]. rewrite Hv. reflexivity.
Qed.
Theorem stored_text_nuls : forall fs file name t, exists s k,
  savez fs file [(name, MText t)] (npz_name file) = Some [(name ++ npy, MText s)] /\
  t = s ++ repeat 0%N k /\ (forall r, s <> r ++ [0%N]).
Proof.
  intros fs file name t. unfold savez. rewrite put_same. cbn [map fst snd].
  assert (exists k, t = drop_nuls t ++ repeat 0%N k /\ (forall r, drop_nuls t <> r ++ [0%N])) as (k & H1 & H2).
  { induction t as [|c t (k & E & Hr)]; [exists 0; split; auto; intros [|] H; discriminate|].
    cbn [drop_nuls]. destruct (drop_nuls t) as [|d u] eqn:Ed.
    - destruct (N.eqb_spec c 0) as [->|Hc].
      + exists (S k). cbn [app] in *. split; [cbn; congruence|intros [|] H; discriminate].
      + exists k. split; [cbn in *; congruence|]. intros [|x r] H; [cbn in H; congruence|].
        cbn in H. destruct r; discriminate.
    - exists k. split; [rewrite <- app_comm_cons; congruence|].
      intros [|x r] H; [discriminate|]. rewrite <- app_comm_cons in H. injection H as _ H. apply (Hr r). auto. }
  exists (drop_nuls t), k. auto.
Qed.
