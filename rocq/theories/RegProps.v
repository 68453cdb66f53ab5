(** * Registry histories. *)
From Coq Require Import Reals NArith Ascii String.
From Verif Require Import Base Num Nd Pattern Json PatJson Spec SpecJson ListFacts PatFacts PatJsonFacts JsonOdd.
Local Open Scope list_scope.
Local Open Scope nat_scope.

Lemma get_assign : forall V (d : list (key * V)) k k' v,
  dict_get (assign d k v) k' = if key_eqb k' k then Some v else dict_get d k'.
Proof.
  induction d as [|[k0 v0] d IH]; intros k k' v; cbn.
  - reflexivity.
  - destruct (key_eqb k k0) eqn:E; cbn.
    + apply key_eqb_true in E. subst k0. destruct (key_eqb k' k); auto.
    + rewrite IH. destruct (key_eqb k' k0) eqn:E2; auto.
      apply key_eqb_true in E2. subst k0. destruct (key_eqb k' k) eqn:E3; auto.
      apply key_eqb_true in E3. subst k'. rewrite (proj2 (key_eqb_true k k) eq_refl) in E. discriminate.
Qed.

Lemma register_bound : forall C (reg : list (key * C)) name c allow,
  register reg name c allow =
  match dict_get reg (KStr name) with
  | Some _ => if allow then Ok (assign reg (KStr name) c) else Err ValueError
  | None => Ok (assign reg (KStr name) c)
  end.
Proof. intros. unfold register. destruct (dict_get reg (KStr name)), allow; reflexivity. Qed.

Lemma no_overwrite_cons : forall C name (x : pystr * C * bool) h,
  no_overwrite name (x :: h) <-> ~ (fst (fst x) = name /\ snd x = true) /\ no_overwrite name h.
Proof.
  intros C name [[n c] a] h. unfold no_overwrite. cbn [fst snd]. split.
  - intros H. split.
    + intros [-> ->]. apply (H c). left. auto.
    + intros c' Hin. apply (H c'). right. auto.
  - intros [H1 H2] c' [E|Hin].
    + injection E as -> -> ->. tauto.
    + apply (H2 c'). auto.
Qed.
Lemma never_named_cons : forall C name (x : pystr * C * bool) h,
  never_named name (x :: h) <-> fst (fst x) <> name /\ never_named name h.
Proof.
  intros C name [[n c] a] h. unfold never_named. cbn [fst snd]. split.
  - intros H. split.
    + intros ->. apply (H c a). left. auto.
    + intros c' a' Hin. apply (H c' a'). right. auto.
  - intros [H1 H2] c' a' [E|Hin].
    + injection E as -> -> ->. tauto.
    + apply (H2 c' a'). auto.
Qed.

Theorem resolves_cons : forall C before (x : pystr * C * bool) h name c,
  resolves before (x :: h) name c <->
  resolves (if list_eq_dec N.eq_dec (fst (fst x)) name
            then match before with
                 | Some b => if snd x then Some (snd (fst x)) else Some b
                 | None => Some (snd (fst x))
                 end
            else before) h name c.
Proof.
  intros C before [[n d] a] h name c. cbn [fst snd]. unfold resolves.
  destruct (list_eq_dec N.eq_dec n name) as [->|Hne].
  - split.
    + intros [(h1 & h2 & a' & E & Ha & Hn) | (Eb & Hn)].
      * destruct h1 as [|y h1]; [injection E as -> -> E2|injection E as E1 E2].
        -- subst h2. right. split; auto.
           destruct Ha as [-> | (-> & _)]; auto. destruct before; auto.
        -- subst. left. exists h1, h2, a'. split; auto. split; auto.
           destruct Ha as [-> | (-> & Ha)]; auto. apply never_named_cons in Ha. cbn in Ha. tauto.
      * apply no_overwrite_cons in Hn. cbn [fst snd] in Hn. destruct Hn as [H1 H2]. right. split; auto.
        rewrite Eb. destruct a; auto. tauto.
    + intros [(h1 & h2 & a' & E & Ha & Hn) | (Eb & Hn)].
      * subst h. left. exists ((name, d, a) :: h1), h2, a'. split; auto. split; auto.
        destruct Ha as [-> | (Eb & Ha)]; auto. destruct before; try discriminate. destruct a; discriminate.
      * destruct before as [b|].
        -- destruct a.
           ++ injection Eb as <-. left. exists [], h, true. auto.
           ++ right. split; auto. apply no_overwrite_cons. cbn. split; auto. intros [_ H]; discriminate.
        -- injection Eb as <-. left. exists [], h, a. split; auto. split; auto. right. split; auto.
           intros c' a' [].
  - split.
    + intros [(h1 & h2 & a' & E & Ha & Hn) | (Eb & Hn)].
      * destruct h1 as [|y h1]; [injection E; intros; congruence|injection E as E1 E2]. subst. left. exists h1, h2, a'.
        split; auto. split; auto. destruct Ha as [-> | (-> & Ha)]; auto.
        apply never_named_cons in Ha. tauto.
      * apply no_overwrite_cons in Hn. tauto.
    + intros [(h1 & h2 & a' & E & Ha & Hn) | (Eb & Hn)].
      * subst h. left. exists ((n, d, a) :: h1), h2, a'. split; auto. split; auto.
        destruct Ha as [-> | (-> & Ha)]; auto. right. split; auto. apply never_named_cons. auto.
      * right. split; auto. apply no_overwrite_cons. cbn. tauto.
Qed.

Lemma key_name : forall a b : pystr, key_eqb (KStr b) (KStr a) = if list_eq_dec N.eq_dec a b then true else false.
Proof.
  intros. destruct (list_eq_dec N.eq_dec a b) as [->|H].
  - apply key_eqb_true. auto.
  - apply Bool.not_true_iff_false. intros E. apply key_eqb_true in E. congruence.
Qed.

Theorem registry_resolves : forall C (reg : list (key * C)) h name c,
  dict_get (fst (register_run reg h)) (KStr name) = Some c <->
  resolves (dict_get reg (KStr name)) h name c.
Proof.
  intros C reg h name c. revert reg. induction h as [|[[n d] a] h IH]; intros reg.
  - cbn. unfold resolves. split.
    + intros H. right. split; auto. intros c' [].
    + intros [(h1 & h2 & a & E & _)|[H _]]; auto. destruct h1; discriminate.
  - rewrite resolves_cons. cbn [register_run fst snd]. rewrite register_bound.
    destruct (dict_get reg (KStr n)) as [b|] eqn:Eb.
    + destruct a.
      * specialize (IH (assign reg (KStr n) d)). rewrite get_assign, key_name in IH.
        destruct (register_run (assign reg (KStr n) d) h) as [r outs]. cbn [fst] in *. rewrite IH.
        destruct (list_eq_dec N.eq_dec n name) as [->|]; [rewrite Eb|]; tauto.
      * specialize (IH reg). destruct (register_run reg h) as [r outs]. cbn [fst] in *. rewrite IH.
        destruct (list_eq_dec N.eq_dec n name) as [->|]; [rewrite Eb|]; tauto.
    + specialize (IH (assign reg (KStr n) d)). rewrite get_assign, key_name in IH.
      destruct (register_run (assign reg (KStr n) d) h) as [r outs]. cbn [fst] in *. rewrite IH.
      destruct (list_eq_dec N.eq_dec n name) as [->|]; [rewrite Eb|]; tauto.
Qed.

Lemma run_bound : forall C (reg : list (key * C)) h name,
  dict_get (fst (register_run reg h)) (KStr name) = None <->
  dict_get reg (KStr name) = None /\ never_named name h.
Proof.
  intros C reg h name. revert reg. induction h as [|[[n d] a] h IH]; intros reg.
  - cbn. split; [|tauto]. intros H. split; auto. intros c b [].
  - cbn [register_run]. rewrite register_bound, never_named_cons. cbn [fst].
    destruct (dict_get reg (KStr n)) as [b|] eqn:Eb; [destruct a|].
    + specialize (IH (assign reg (KStr n) d)). rewrite get_assign, key_name in IH.
      destruct (register_run (assign reg (KStr n) d) h) as [r outs]. cbn [fst] in *. rewrite IH.
      destruct (list_eq_dec N.eq_dec n name) as [->|]; [rewrite Eb|tauto]. split; intros [H1 H2]; discriminate.
    + specialize (IH reg). destruct (register_run reg h) as [r outs]. cbn [fst] in *. rewrite IH.
      destruct (list_eq_dec N.eq_dec n name) as [->|]; [rewrite Eb|tauto]. split; intros [H1 H2]; discriminate.
    + specialize (IH (assign reg (KStr n) d)). rewrite get_assign, key_name in IH.
      destruct (register_run (assign reg (KStr n) d) h) as [r outs]. cbn [fst] in *. rewrite IH.
      destruct (list_eq_dec N.eq_dec n name) as [->|]; [|tauto]. split; [|tauto]. intros [H1 H2]; discriminate.
Qed.

Lemma register_run_app : forall C (h1 h2 : list (pystr * C * bool)) reg,
  register_run reg (h1 ++ h2) =
  (fst (register_run (fst (register_run reg h1)) h2),
   snd (register_run reg h1) ++ snd (register_run (fst (register_run reg h1)) h2)).
Proof.
  induction h1 as [|[[n d] a] h1 IH]; intros h2 reg.
  - cbn. destruct (register_run reg h2); auto.
  - cbn [app register_run]. destruct (register reg n d a) as [reg'|e].
    + rewrite IH. destruct (register_run reg' h1) as [r outs]. cbn. destruct (register_run r h2); auto.
    + rewrite IH. destruct (register_run reg h1) as [r outs]. cbn. destruct (register_run r h2); auto.
Qed.

(** A call raises ValueError exactly when the name is taken and it does not
    allow overwriting; it then leaves the registry alone. *)
Theorem registry_refuses : forall C (reg : list (key * C)) h1 name c allow h2,
  let before := fst (register_run reg h1) in
  let after := fst (register_run reg (h1 ++ [(name, c, allow)])) in
  (nth_error (snd (register_run reg (h1 ++ (name, c, allow) :: h2))) (length h1) = Some (Some ValueError) <->
     allow = false /\ (dict_get reg (KStr name) <> None \/ exists c' a', In (name, c', a') h1)) /\
  (nth_error (snd (register_run reg (h1 ++ (name, c, allow) :: h2))) (length h1) <> Some (Some ValueError) ->
     nth_error (snd (register_run reg (h1 ++ (name, c, allow) :: h2))) (length h1) = Some None /\
     dict_get after (KStr name) = Some c) /\
  (nth_error (snd (register_run reg (h1 ++ (name, c, allow) :: h2))) (length h1) = Some (Some ValueError) ->
     after = before).
Proof.
  intros C reg h1 name c allow h2. cbv zeta.
  assert (Hlen: forall (h : list (pystr * C * bool)) r, length (snd (register_run r h)) = length h).
  { induction h as [|[[n d] a] h IH]; intros r; auto. cbn [register_run].
    destruct (register r n d a).
    - specialize (IH a0). destruct (register_run a0 h). cbn in *. auto.
    - specialize (IH r). destruct (register_run r h). cbn in *. auto. }
  assert (E: nth_error (snd (register_run reg (h1 ++ (name, c, allow) :: h2))) (length h1) =
    Some (match register (fst (register_run reg h1)) name c allow with Ok _ => None | Err e => Some e end)).
  { rewrite register_run_app. cbn [snd]. rewrite nth_error_app2 by (rewrite Hlen; auto).
    rewrite Hlen, Nat.sub_diag. cbn [register_run]. destruct (register _ name c allow) as [r|e].
    - destruct (register_run r h2). reflexivity.
    - destruct (register_run (fst (register_run reg h1)) h2). reflexivity. }
  rewrite E. rewrite (register_run_app _ h1 [(name, c, allow)]). cbn [fst].
  set (reg1 := fst (register_run reg h1)) in *. rewrite register_bound. cbn [register_run].
  rewrite register_bound.
  assert (B: dict_get reg1 (KStr name) <> None <-> (dict_get reg (KStr name) <> None \/ exists c' a', In (name, c', a') h1)).
  { unfold reg1. rewrite run_bound. unfold never_named. split.
    - intros H. destruct (dict_get reg (KStr name)); [left; discriminate|]. right.
      assert (D: forall h : list (pystr * C * bool), (exists c' a', In (name, c', a') h) \/ (forall c' a', ~ In (name, c', a') h)).
      { induction h as [|[[n d] a] h IH]. right; intros ? ? [].
        destruct (list_eq_dec N.eq_dec n name) as [->|Hn]. left; do 2 eexists; left; reflexivity.
        destruct IH as [(c' & a' & H')|H']; [left; do 2 eexists; right; eauto|right].
        intros c' a' [X|X]; [congruence|]. apply (H' _ _ X). }
      destruct (D h1) as [X|X]; auto. exfalso. apply H. split; auto.
    - intros [H|(c' & a' & H)] [H1 H2]. auto. apply (H2 _ _ H). }
  destruct (dict_get reg1 (KStr name)) as [b|] eqn:Eb.
  - destruct allow; cbn [fst].
    + split; [|split].
      * split; [discriminate|]. intros [X _]. discriminate.
      * intros _. split; auto. rewrite get_assign, (proj2 (key_eqb_true _ _) eq_refl). auto.
      * discriminate.
    + split; [|split].
      * split; auto. intros _. split; auto. apply B. discriminate.
      * intros X. destruct X. reflexivity.
      * auto.
  - cbn [fst]. split; [|split].
    + split; [discriminate|]. intros [_ X]. apply B in X. congruence.
    + intros _. split; auto. rewrite get_assign, (proj2 (key_eqb_true _ _) eq_refl). auto.
    + discriminate.
Qed.

(** Paragami's own classes are registered, and stay so under any calls that do
    not overwrite their names. *)
Theorem builtins_registered : forall h : list (pystr * cls * bool),
  (forall c, no_overwrite (typename c) h) ->
  registers_builtins (fst (register_run builtin_registry h)).
Proof.
  intros h H c. apply registry_resolves. right. split; auto.
  destruct c as [[]| | | |]; vm_compute; reflexivity.
Qed.
