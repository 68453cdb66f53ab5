(** * Soundness of the heap model and memory layout of its results. *)
From Coq Require Import Lia.
From Verif Require Import Base Num Nd Numeric Simplex Psd Pattern Spec ListFacts PatFacts Alias SpecAlias.
Local Open Scope list_scope.
Local Open Scope nat_scope.

Lemma hv_ind' : forall P : hv -> Prop,
  (forall r, P (HArr r)) -> (forall d, Forall (fun kv => P (snd kv)) d -> P (HDict d)) -> forall v, P v.
Proof.
  intros P H1 H2. fix IH 1. intros [r|d].
  - apply H1.
  - apply H2. induction d as [|[k w] d IHd]; constructor.
    + simpl. apply IH.
    + apply IHd.
Qed.

(** ** Reading *)

Lemma nth_grow : forall (h ext : bufs) b, b < length h -> nth b (h ++ ext) [] = nth b h [].
Proof. intros. apply app_nth1; auto. Qed.
Lemma r_ok_grow : forall h ext r, r_ok h r -> r_ok (h ++ ext) r.
Proof. intros h ext r (H1 & H2). split; [rewrite app_length; lia|]. rewrite nth_grow; auto. Qed.
Lemma r_get_grow : forall h ext r, r_ok h r -> r_get (h ++ ext) r = r_get h r.
Proof. intros h ext r (H1 & H2). unfold r_get. rewrite nth_grow; auto. Qed.
Lemma r_get_len : forall h r, r_ok h r -> length (dat (r_get h r)) = prod (r_shp r).
Proof. intros h r (_ & H). cbn. rewrite slice_length; lia. Qed.
Lemma v_ok_dict : forall h d, v_ok h (HDict d) <-> Forall (fun kw => v_ok h (snd kw)) d.
Proof.
  intros h d. unfold v_ok. cbn [arrays]. induction d as [|kw d IH]; cbn [flat_map].
  - split; constructor.
  - rewrite Forall_app, IH. split; [intros [A B]; constructor; auto|inversion 1; auto].
Qed.
Lemma v_ok_grow : forall h ext v, v_ok h v -> v_ok (h ++ ext) v.
Proof. intros h ext v. apply Forall_impl. intros r. apply r_ok_grow. Qed.
Lemma h_read_grow : forall h ext v, v_ok h v -> h_read (h ++ ext) v = h_read h v.
Proof.
  intros h ext v. revert v. apply (hv_ind' (fun v => v_ok h v -> h_read (h ++ ext) v = h_read h v)).
  - intros r H. inversion H; subst. cbn [h_read]. rewrite r_get_grow; auto.
  - intros d IH H. apply v_ok_dict in H. cbn [h_read]. f_equal. apply map_ext_in. intros kw Hin.
    rewrite Forall_forall in IH, H. rewrite (IH kw Hin (H kw Hin)). reflexivity.
Qed.

Lemma at_ok : forall h r, r_ok h r -> r_ok h (v_atleast r).
Proof. intros h [b o [|n s]]; auto. Qed.
Lemma at_get : forall h r, r_get h (v_atleast r) = atleast_1d (r_get h r).
Proof. intros h [b o [|n s]]; reflexivity. Qed.
Lemma at_inside : forall r s, inside s (v_atleast r) -> inside s r.
Proof. intros [b o [|n t]] s; auto. Qed.
Lemma reshape_ok : forall h r s w, r_ok h r -> v_reshape r s = Ok w -> r_ok h w /\ inside w r.
Proof.
  intros h r s w (H1 & H2) E. unfold v_reshape in E. destruct (prod s =? prod (r_shp r)) eqn:P; [|discriminate E].
  apply Nat.eqb_eq in P. injection E as <-. unfold r_ok, inside. cbn [r_buf r_off r_shp]. rewrite P. repeat split; auto.
Qed.
Lemma reshape_get : forall h r s, reshape (r_get h r) s = (w <- v_reshape r s ;; Ok (r_get h w)).
Proof.
  intros h r s. unfold reshape, v_reshape, size, r_get. cbn [shp dat].
  destruct (prod s =? prod (r_shp r)) eqn:P; cbn [bind]; auto.
  cbn [r_buf r_off r_shp dat]. apply Nat.eqb_eq in P. rewrite P. reflexivity.
Qed.
Lemma slice_ok : forall h r o len, r_ok h r -> o <= prod (r_shp r) -> r_ok h (v_slice r o len).
Proof. intros h r o len (H1 & H2) Ho. unfold r_ok, v_slice. cbn [r_buf r_off r_shp prod fold_right]. split; auto. lia. Qed.
Lemma slice_clip : forall A (l : list A) o len, slice l o (Nat.min len (length l - o)) = slice l o len.
Proof.
  intros. unfold slice. rewrite <- (skipn_length o l). rewrite <- firstn_firstn. rewrite firstn_all. reflexivity.
Qed.
Lemma slice_get : forall h r o len, r_ok h r -> o <= prod (r_shp r) ->
  r_get h (v_slice r o len) = vec (slice (dat (r_get h r)) o len).
Proof.
  intros h r o len H Ho. unfold vec.
  assert (E: slice (dat (r_get h r)) o len =
             slice (nth (r_buf r) h []) (r_off r + o) (Nat.min len (prod (r_shp r) - o))).
  { rewrite <- slice_clip, r_get_len by auto. cbn [r_get dat]. rewrite slice_slice by lia. reflexivity. }
  assert (L: length (slice (dat (r_get h r)) o len) = Nat.min len (prod (r_shp r) - o)).
  { unfold slice. rewrite firstn_length, skipn_length, r_get_len by auto. reflexivity. }
  rewrite L, E. unfold r_get, v_slice. cbn [r_buf r_off r_shp prod fold_right].
  rewrite Nat.mul_1_r. reflexivity.
Qed.

(** ** Simulation of the pure model *)

Definition sim {A B} (h : bufs) (m : hres A) (p : res B) (Q : bufs -> A -> B -> Prop) : Prop :=
  exists ext, snd (m h) = h ++ ext /\
    match fst (m h) with
    | Ok a => exists b, p = Ok b /\ Q (h ++ ext) a b
    | Err e => p = Err e
    end.

Lemma sim_bind : forall A B A' B' h (m : hres A) (p : res B) Q (k : A -> hres A') (f : B -> res B') Q',
  sim h m p Q -> (forall ext a b, Q (h ++ ext) a b -> sim (h ++ ext) (k a) (f b) (fun h' => Q' h')) ->
  sim h (hbind m k) (bind p f) Q'.
Proof.
  intros A B A' B' h m p Q k f Q' (ext & E1 & E2) K. unfold sim, hbind.
  destruct (m h) as [[a|e] h1]; cbn [fst snd] in *; subst h1.
  - destruct E2 as (b & -> & Hq). destruct (K ext a b Hq) as (ext2 & F1 & F2).
    exists (ext ++ ext2). rewrite app_assoc. cbn [bind]. auto.
  - subst p. exists ext. cbn. auto.
Qed.
Lemma sim_look : forall A B h (f : bufs -> res A) (p : res B) (Q : bufs -> A -> B -> Prop),
  match f h with Ok a => exists b, p = Ok b /\ Q h a b | Err e => p = Err e end -> sim h (look f) p Q.
Proof. intros A B h f p Q H. exists []. rewrite app_nil_r. unfold look. cbn. auto. Qed.
Lemma sim_look_eq : forall A h (f : bufs -> res A) (Q : bufs -> A -> A -> Prop) p,
  f h = p -> (forall a, p = Ok a -> Q h a a) -> sim h (look f) p Q.
Proof. intros A h f Q p E H. apply sim_look. rewrite E. destruct p; eauto. Qed.
Lemma sim_err : forall A B h (e : exn) (Q : bufs -> A -> B -> Prop), sim h (look (fun _ => Err e)) (Err e) Q.
Proof. intros. apply sim_look. reflexivity. Qed.
Lemma sim_alloc : forall B h a (b : B) (Q : bufs -> aref -> B -> Prop),
  Q (h ++ [dat a]) (mkRef (length h) 0 (shp a)) b -> sim h (alloc a) (Ok b) Q.
Proof. intros B h a b Q H. exists [dat a]. unfold alloc. cbn. split; eauto. Qed.
Lemma sim_weaken : forall A B h (m : hres A) (p : res B) (Q Q' : bufs -> A -> B -> Prop),
  sim h m p Q -> (forall ext a b, Q (h ++ ext) a b -> Q' (h ++ ext) a b) -> sim h m p Q'.
Proof.
  intros A B h m p Q Q' (ext & E1 & E2) H. exists ext. split; auto. destruct (fst (m h)); auto.
  destruct E2 as (b & E & Hq). eauto.
Qed.

Lemma alloc_get : forall h a, length (dat a) = prod (shp a) ->
  r_get (h ++ [dat a]) (mkRef (length h) 0 (shp a)) = a /\ r_ok (h ++ [dat a]) (mkRef (length h) 0 (shp a)).
Proof.
  intros h [s d] E. cbn [dat shp] in E. unfold r_get, r_ok. cbn [r_buf r_off r_shp shp dat].
  rewrite app_nth2, Nat.sub_diag by lia. cbn [nth]. rewrite app_length. cbn [length].
  split; [|split; lia]. rewrite <- E, slice_all. reflexivity.
Qed.

(** Only [free=False] and patterns other than [PatternArray] return views. *)
Definition shares (p : pat) (free : bool) : bool :=
  negb free && match p with PArr _ _ _ => false | _ => true end.

(** What the results look like; [sh] says that views of [x] are possible. *)
Definition placed (h0 : bufs) (x : aref) (sh : bool) (h : bufs) (l : list aref) : Prop :=
  Forall (r_ok h) l /\ Forall (fun s => length h0 <= r_buf s \/ (sh = true /\ inside s x)) l /\
  ForallOrdPairs apart l.
Definition folded_to (h0 : bufs) (x : aref) (sh : bool) (h : bufs) (v : hv) (w : fv num) : Prop :=
  h_read h v = w /\ placed h0 x sh h (arrays v).

Lemma placed_one : forall h0 x sh h r, r_ok h r -> length h0 <= r_buf r \/ (sh = true /\ inside r x) ->
  placed h0 x sh h [r].
Proof.
  intros h0 x sh h r H1 H2. split; [constructor; [exact H1|constructor]|].
  split; [constructor; [exact H2|constructor]|repeat constructor].
Qed.

Lemma sim_checked : forall p x y s vv h, r_ok h y -> (forall w, inside w y -> inside w x) ->
  sim h (checked_view p y s vv)
    (v <- reshape (r_get h y) s ;; _ <- require_valid snum p (FArr v) vv ;; Ok (FArr v)) (folded_to h x true).
Proof.
  intros p x y s vv h H I. apply sim_look. rewrite reshape_get.
  destruct (v_reshape y s) as [w|e] eqn:E; cbn [bind]; auto.
  destruct (require_valid snum p (FArr (r_get h w)) vv) as [u|e]; cbn [bind]; auto.
  eexists; split; [reflexivity|]. destruct (reshape_ok h y s w H E) as (Ow & Iw).
  split; [reflexivity|]. apply placed_one; auto.
Qed.
Lemma sim_fresh : forall h x sh a, length (dat a) = prod (shp a) ->
  sim h (hbind (alloc a) (fun r => look (fun _ => Ok (HArr r)))) (Ok (FArr a)) (folded_to h x sh).
Proof.
  intros h x sh a E. exists [dat a]. unfold hbind, alloc, look. cbn [fst snd]. split; auto.
  eexists; split; [reflexivity|]. destruct (alloc_get h a E) as (G & O).
  split; [cbn [h_read]; rewrite G; reflexivity|]. apply placed_one; auto.
Qed.
Lemma map_same : forall (l : list num), map (fun x => x) l = l.
Proof. intros. apply map_id. Qed.
Lemma nd_map_same : forall (a : nd num), nd_map (fun x => x) a = a.
Proof. intros [s d]. unfold nd_map. cbn. rewrite map_same. reflexivity. Qed.

(** ** fold *)

Lemma constrain_row_length : forall x, length (constrain_row x) = S (length x).
Proof. intros. unfold constrain_row. rewrite map_length. reflexivity. Qed.
Lemma simplex_fold_length : forall n s x, 1 <= n -> length x = prod s * (n - 1) ->
  length (dat (simplex_fold_free n s x)) = prod (s ++ [n]).
Proof.
  intros n s x Hn L. cbn [simplex_fold_free dat]. rewrite prod_app. cbn [prod fold_right]. rewrite Nat.mul_1_r.
  rewrite flat_map_concat.
  rewrite (concat_length_uniform _ n).
  - rewrite map_length, chunks_length. reflexivity.
  - intros r Hr. apply in_map_iff in Hr. destruct Hr as (c & <- & Hc). rewrite constrain_row_length.
    destruct (in_chunks _ _ _ _ _ Hc) as (i & Hi & ->). rewrite (chunk_length _ _ _ _ (prod s)) by auto. lia.
Qed.

Lemma sim_mapM : forall A B C (f : A -> hres B) (g : A -> res C) (R : bufs -> B -> C -> Prop) l h,
  (forall h ext b c, R h b c -> R (h ++ ext) b c) ->
  (forall a ext, In a l -> sim (h ++ ext) (f a) (g a) R) ->
  sim h (hmapM f l) (mapM g l) (fun h' bs cs => Forall2 (R h') bs cs).
Proof.
  intros A B C f g R l h ST. revert h. induction l as [|a l IH]; intros h H; cbn [hmapM mapM].
  - apply sim_look. exists []. split; [reflexivity|constructor].
  - eapply sim_bind.
    + specialize (H a []). rewrite app_nil_r in H. apply H. left; auto.
    + intros ext b c Hb. eapply sim_bind.
      * apply IH. intros a' ext' Hin. rewrite <- app_assoc. apply H. right; auto.
      * intros ext' bs cs Hs. apply sim_look. exists (c :: cs). split; [reflexivity|]. constructor; auto.
Qed.

Definition fold_sound (p : pat) : Prop := forall x free vv h, usable p -> r_ok h x ->
  sim h (hfold_ p x free vv) (fold_ snum p (r_get h x) free vv) (folded_to h x (shares p free)).

Lemma placed_app : forall h0 x sh h l m, placed h0 x sh h l -> placed h0 x sh h m ->
  (forall r s, In r l -> In s m -> apart r s) -> placed h0 x sh h (l ++ m).
Proof.
  intros h0 x sh h l m (A1 & A2 & A3) (B1 & B2 & B3) P.
  split; [apply Forall_app; auto|]. split; [apply Forall_app; auto|].
  induction A3 as [|r l F A3 IH]; cbn [app]; auto. inversion A1; inversion A2; subst.
  constructor.
  - rewrite Forall_app. split; auto. rewrite Forall_forall. intros s Hs. apply P; [left|]; auto.
  - apply IH; auto. intros r' s' Hr Hs. apply P; [right|]; auto.
Qed.

Lemma items_sound : forall free vv flat its, Forall (fun kq => fold_sound (snd kq)) its ->
  all_items (fun _ q => usable q) its ->
  forall off h, r_ok h flat -> pl_float off = false ->
  pl_n off + lsum (map (fun kq => pl_n (flat_len (snd kq) free)) its) <= prod (r_shp flat) ->
  sim h (hfold_items (fun q y => hfold_ q y free vv) free flat its off)
    (fold_items (fun q y => fold_ snum q y free vv) free (dat (r_get h flat)) its off)
    (fun h' d w => map (fun kw => (fst kw, h_read h' (snd kw))) d = w /\
       placed h flat (negb free) h' (arrays (HDict d)) /\
       Forall (fun s => length h <= r_buf s \/ r_off flat + pl_n off <= r_off s) (arrays (HDict d))).
Proof.
  intros free vv flat its F. induction F as [|[k q] its Hq F IH]; intros U off h Ok0 Fl Le.
  - cbn [hfold_items fold_items]. apply sim_look. exists []. split; [reflexivity|].
    split; [reflexivity|]. split; [|constructor]. repeat split; constructor.
  - cbn [hfold_items fold_items]. cbn [all_items] in U. destruct U as (Uq & U). cbn [snd] in Hq.
    cbn [map lsum fold_right snd] in Le. fold (lsum (map (fun kq => pl_n (flat_len (snd kq) free)) its)) in Le.
    set (stop := plen_add off (flat_len q free)).
    assert (Fs: pl_float stop = false).
    { unfold stop, plen_add. cbn. rewrite Fl. cbn. apply usable_int; auto. }
    assert (Es: pl_n stop = pl_n off + pl_n (flat_len q free)) by reflexivity.
    assert (I1: as_index off = Ok (pl_n off)) by (unfold as_index; rewrite Fl; auto).
    assert (I2: as_index stop = Ok (pl_n stop)) by (unfold as_index; rewrite Fs; auto).
    rewrite I1, I2. cbn [bind]. unfold hbind at 1, look at 1. cbn [bind].
    set (x := v_slice flat (pl_n off) (pl_n stop - pl_n off)).
    assert (Ox: r_ok h x) by (apply slice_ok; auto; lia).
    assert (Gx: r_get h x = vec (slice (dat (r_get h flat)) (pl_n off) (pl_n stop - pl_n off)))
      by (apply slice_get; auto; lia).
    cbn [fst snd]. fold x.
    change (sim h (hbind (hfold_ q x free vv) (fun v => hbind (hfold_items (fun q y => hfold_ q y free vv) free flat its stop)
       (fun r => look (fun _ => Ok ((k, v) :: r)))))
      (v <- fold_ snum q (vec (slice (dat (r_get h flat)) (pl_n off) (pl_n stop - pl_n off))) free vv ;;
       r <- fold_items (fun q y => fold_ snum q y free vv) free (dat (r_get h flat)) its stop ;;
       Ok ((k, v) :: r))
      (fun h' d w => map (fun kw => (fst kw, h_read h' (snd kw))) d = w /\
       placed h flat (negb free) h' (arrays (HDict d)) /\
       Forall (fun s => length h <= r_buf s \/ r_off flat + pl_n off <= r_off s) (arrays (HDict d)))).
    rewrite <- Gx. eapply sim_bind; [apply Hq; auto|].
    intros ext v w (Rv & Pv). eapply sim_bind.
    { rewrite <- (r_get_grow h ext flat Ok0). apply IH; auto; [apply r_ok_grow; auto|]. rewrite Es. lia. }
    intros ext2 d ws (Rd & Pd & Hd). apply sim_look. eexists. split; [reflexivity|].
    cbn [map arrays flat_map fst snd]. fold (arrays (HDict d)).
    assert (Len: length (h ++ ext) >= length h) by (rewrite app_length; lia).
    assert (Inx: forall s, inside s x -> r_buf s = r_buf flat /\ r_off flat + pl_n off <= r_off s /\
                  r_off s + prod (r_shp s) <= r_off flat + pl_n stop /\ r_off s + prod (r_shp s) <= r_off flat + prod (r_shp flat)).
    { intros s (B & L & H). unfold x, v_slice in B, L, H. cbn [r_buf r_off r_shp prod fold_right] in B, L, H.
      repeat split; auto; lia. }
    destruct Pv as (V1 & V2 & V3). destruct Pd as (D1 & D2 & D3).
    split; [|split].
    + rewrite <- Rv, <- Rd. f_equal. f_equal. rewrite h_read_grow; auto.
    + rewrite <- app_assoc.
      apply placed_app.
      * rewrite app_assoc. repeat split; auto.
        -- apply v_ok_grow. exact V1.
        -- eapply Forall_impl; [|exact V2]. intros s [H|(Hf & H)]; [left; auto|right]. split; [apply andb_prop in Hf; tauto|].
           destruct (Inx s H) as (B & L1 & L2 & L3). repeat split; auto; lia.
      * rewrite app_assoc. repeat split; auto. eapply Forall_impl; [|exact D2].
        intros s [H|H]; [left; lia|right; auto].
      * intros r s Hr Hs. rewrite Forall_forall in V1, V2, D2, Hd.
        destruct (D2 s Hs) as [Fs'|(Hf & (Bs & Ls & _))].
        -- left. destruct (V1 r Hr) as (Lr & _). lia.
        -- destruct (V2 r Hr) as [Fr|(_ & Ir)].
           ++ left. destruct Ok0 as (Of & _). lia.
           ++ destruct (Inx r Ir) as (Br & _ & L2 & _). right. left.
              destruct (Hd s Hs) as [Fs'|Ls']; [destruct Ok0 as (Of & _); lia|lia].
    + apply Forall_app. split.
      * eapply Forall_impl; [|exact V2]. intros s [H|(Hf & H)]; [left; auto|right]. apply (Inx s H).
      * eapply Forall_impl; [|exact Hd]. intros s [H|H]; [left; lia|right; rewrite Es in H; lia].
Qed.

Lemma to_nd_length : forall n m, length (dat (to_nd n m)) = prod (shp (to_nd n m)).
Proof.
  intros n m. unfold to_nd. cbn [dat shp prod fold_right]. rewrite Nat.mul_1_r.
  rewrite flat_map_concat, (concat_length_uniform _ n).
  - rewrite map_length, seq_length. reflexivity.
  - intros r Hr. apply in_map_iff in Hr. destruct Hr as (i & <- & _). rewrite map_length, seq_length. reflexivity.
Qed.

Theorem hfold_sound : forall p, fold_sound p.
Proof.
  apply pat_ind'.
  - intros k s lb ub dv fd x free vv h U O. cbn [hfold_ fold_]. rewrite <- at_get.
    set (flat := v_atleast x). assert (Of: r_ok h flat) by (apply at_ok; auto).
    unfold ndim, size. cbn [r_get shp]. fold (r_get h flat).
    destruct (negb (length (r_shp flat) =? 1)); [apply sim_err|].
    destruct (prod (r_shp flat) =? prod s) eqn:E; cbn [negb]; [|apply sim_err].
    apply Nat.eqb_eq in E. destruct free.
    + cbn [to_num of_num snum]. rewrite map_same, nd_map_same.
      change (hbind (fun h0 => alloc (num_fold_free s (pyval lb) (pyval ub) (dat (r_get h0 flat))) h0)
              (fun r => look (fun _ => Ok (HArr r)))) with
        (fun h0 => hbind (alloc (num_fold_free s (pyval lb) (pyval ub) (dat (r_get h0 flat))))
              (fun r => look (fun _ => Ok (HArr r))) h0).
      apply sim_fresh. cbn [num_fold_free dat shp]. rewrite map_length, r_get_len; auto.
    + apply sim_checked; auto. apply at_inside.
  - intros n s dv fd x free vv h U O. cbn [hfold_ fold_]. cbn [usable] in U.
    eapply (sim_bind _ _ _ _ h _ _ (fun _ a b => a = b)).
    { apply sim_look. unfold v_len, pylen. cbn [r_get shp]. destruct (r_shp x); eauto. }
    intros ext len len' ->. rewrite <- (r_get_grow h ext x O). 
    assert (O': r_ok (h ++ ext) x) by (apply r_ok_grow; auto). 
    assert (W: forall Q, (forall h', Q h' = folded_to (h ++ ext) x (negb free) h') -> 
       sim (h ++ ext) (if negb (len' =? pl_n (flat_len (PSimplex n s dv fd) free)) then look (fun _ => Err ValueError)
      else if free then
        hbind (look (fun _ => v_reshape x (s ++ [n - 1]))) (fun y =>
        hbind (fun h => alloc (simplex_fold_free n s (dat (r_get h y))) h)
              (fun r => look (fun _ => Ok (HArr r))))
      else checked_view (PSimplex n s dv fd) x (s ++ [n]) vv)
      (if negb (len' =? pl_n (flat_len (PSimplex n s dv fd) free)) then Err ValueError
      else if free then
        x <- reshape (r_get (h ++ ext) x) (s ++ [n - 1]) ;;
        Ok (FArr (nd_map (of_num snum) (simplex_fold_free n s (map (to_num snum) (dat x)))))
      else
        v <- reshape (r_get (h ++ ext) x) (s ++ [n]) ;;
        _ <- require_valid snum (PSimplex n s dv fd) (FArr v) vv ;;
        Ok (FArr v)) (folded_to (h ++ ext) x (negb free))).
    { intros _ _. destruct (negb (len' =? _)); [apply sim_err|]. destruct free; [|apply sim_checked; auto].
      rewrite reshape_get. 
      eapply (sim_bind _ _ _ _ _ _ _ (fun h' a b => r_ok h' a /\ r_get h' a = b /\ r_shp a = s ++ [n - 1])).
      - apply sim_look. destruct (v_reshape x (s ++ [n - 1])) as [y|e] eqn:E; cbn [bind]; auto.
        destruct (reshape_ok _ _ _ _ O' E) as (Oy & _). eexists; split; [reflexivity|]. repeat split; auto; try apply Oy.
        unfold v_reshape in E. destruct (prod (s ++ [n - 1]) =? prod (r_shp x)); [|discriminate E]. injection E as <-. reflexivity.
      - intros ext' y b (Oy & <- & Sy). cbn [to_num of_num snum]. rewrite map_same, nd_map_same.
        eapply sim_weaken.
        + change (hbind (fun h0 => alloc (simplex_fold_free n s (dat (r_get h0 y))) h0)
              (fun r => look (fun _ => Ok (HArr r)))) with
           (fun h0 => hbind (alloc (simplex_fold_free n s (dat (r_get h0 y)))) (fun r => look (fun _ => Ok (HArr r))) h0).
          apply sim_fresh with (x := x) (sh := false). apply simplex_fold_length; [lia|].
          rewrite r_get_len, Sy, prod_app by auto. cbn [prod fold_right]. lia.
        + intros ext2 a b (Ra & (P1 & P2 & P3)). split; auto. split; auto. split; auto.
          eapply Forall_impl; [|exact P2]. intros s' [H|H]; [left|right; auto]. rewrite !app_length in H. rewrite !app_length. lia. }
    eapply sim_weaken; [apply (W _ (fun _ => eq_refl))|].
    intros ext2 a b (Ra & (P1 & P2 & P3)). split; auto. split; auto. split; auto.
    eapply Forall_impl; [|exact P2]. intros s' [H|H]; [left|right; unfold shares; rewrite andb_true_r; auto]. rewrite !app_length in H. lia.
  - intros sz fl d dv fd x free vv h U O. cbn [hfold_ fold_]. rewrite <- at_get.
    set (flat := v_atleast x). assert (Of: r_ok h flat) by (apply at_ok; auto).
    unfold ndim, size. cbn [r_get shp]. fold (r_get h flat).
    destruct (negb (length (r_shp flat) =? 1)); [apply sim_err|].
    destruct (negb (prod (r_shp flat) =? _)); [apply sim_err|].
    destruct free; [|apply sim_checked; auto; apply at_inside].
    cbn [to_num of_num snum]. rewrite map_same.
    eapply (sim_bind _ _ _ _ _ _ _ (fun h' a b => h' = h /\ a = b /\ length (dat a) = prod (shp a))).
    + apply sim_look. destruct (unpack_posdef (dat (r_get h flat)) (pyval d)) as [m|e] eqn:E; auto.
      eexists; split; [reflexivity|]. repeat split; auto.
      unfold unpack_posdef in E. destruct (unvectorize_ld _) as [[n m']|]; cbn [bind] in E; [|discriminate E].
      injection E as <-. apply to_nd_length.
    + intros ext a b (-> & -> & L). rewrite nd_map_same. apply sim_fresh; auto.
  - intros s b fd IH x free vv h U O. cbn [hfold_ fold_]. cbn [usable] in U. destruct U as (Us & Up & Ub & U).
    rewrite <- at_get.
    set (flat := v_atleast x). assert (Of: r_ok h flat) by (apply at_ok; auto).
    unfold ndim, size. cbn [r_get shp]. fold (r_get h flat).
    destruct (negb (length (r_shp flat) =? 1)); [apply sim_err|].
    destruct (prod (r_shp flat) =? pl_n (flat_len (PArr s b fd) free)) eqn:EL; cbn [negb]; [|apply sim_err].
    apply Nat.eqb_eq in EL. cbn [flat_len plen_mul pl_n] in EL.
    assert (NP: pl_n (np_prod s) = prod s) by (destruct s; [contradiction|reflexivity]). rewrite NP in EL.
    destruct s as [|s0 s']; [contradiction|]. set (s := s0 :: s') in *.
    eapply (sim_bind _ _ _ _ _ _ _ (fun h' refs parts => Forall2 (fun r a => r_ok h' r /\ r_get h' r = a) refs parts)).
    + apply sim_mapM.
      * intros h' ext r a (O' & <-). split; [apply r_ok_grow|apply r_get_grow]; auto.
      * intros it ext Hin. pose proof (ravel_lt s it Hin) as Lt.
        assert (I1: as_index (flat_len b free) = Ok (pl_n (flat_len b free))).
        { unfold as_index. rewrite usable_int; auto. }
        rewrite I1. cbn [bind]. set (n := pl_n (flat_len b free)) in *.
        assert (O': r_ok (h ++ ext) flat) by (apply r_ok_grow; auto).
        assert (Le: ravel it s * n <= prod (r_shp flat)) by nia.
        unfold hbind at 1, look at 1. cbn beta iota.
        change (sim (h ++ ext) (hbind (hfold_ b (v_slice flat (ravel it s * n) n) free vv) (fun v => look (fun _ => v_arr v)))
          (v <- fold_ snum b (vec (slice (dat (r_get h flat)) (ravel it s * n) n)) free vv ;; as_arr v)
          (fun h' r a => r_ok h' r /\ r_get h' r = a)).
        rewrite <- (r_get_grow h ext flat Of), <- (slice_get (h ++ ext) flat) by auto.
        eapply sim_bind; [apply IH; auto; apply slice_ok; auto|].
        intros ext2 v w (Rv & (P1 & _)). apply sim_look. destruct v as [r|d]; cbn [v_arr]; subst w; cbn [h_read as_arr]; auto.
        eexists; split; [reflexivity|]. inversion P1; auto.
    + intros ext refs parts F2.
      assert (EP: map (r_get (h ++ ext)) refs = parts).
      { clear - F2. induction F2 as [|r a l m (_ & E) _ IH]; cbn [map]; congruence. }
      eapply (sim_bind _ _ _ _ _ _ _ (fun h' a c => h' = h ++ ext /\ a = c /\ length (dat a) = prod (shp a))).
      * apply sim_look. rewrite EP. unfold stack_reshape.
        destruct (prod (folded_shape (PArr s b fd)) =? _) eqn:E; auto.
        eexists; split; [reflexivity|]. repeat split; auto. cbn [dat shp]. apply Nat.eqb_eq in E. auto.
      * intros ext2 a c (-> & -> & L).
        unfold sim, hbind, alloc, look. cbn [fst snd]. exists [dat c]. destruct (alloc_get (h ++ ext) c L) as (G & O').
        rewrite G. 
        assert (Q: folded_to h x (shares (PArr s b fd) free) ((h ++ ext) ++ [dat c]) (HArr (mkRef (length (h ++ ext)) 0 (shp c))) (FArr c)).
        { split; [cbn [h_read]; rewrite G; reflexivity|]. apply placed_one; auto. left. cbn. rewrite app_length. lia. }
        destruct free; [split; eauto|].
        destruct (require_valid snum (PArr s b fd) (FArr c) vv); cbn [bind]; split; eauto.
  - intros items l fl fd lk IH x free vv h U O. cbn [hfold_ fold_]. cbn [usable] in U. destruct U as (Ui & Un & El & Ef & U).
    rewrite <- at_get.
    set (flat := v_atleast x). assert (Of: r_ok h flat) by (apply at_ok; auto).
    unfold ndim, size. cbn [r_get shp]. fold (r_get h flat).
    destruct (negb (length (r_shp flat) =? 1)); [apply sim_err|].
    destruct (prod (r_shp flat) =? pl_n (flat_len (PDict items l fl fd lk) free)) eqn:EL; cbn [negb]; [|apply sim_err].
    apply Nat.eqb_eq in EL. cbn [flat_len] in EL.
    eapply sim_bind; [apply items_sound; auto|].
    + cbn [plint pl_n]. rewrite EL. destruct free; [rewrite Ef|rewrite El]; cbn [plint pl_n]; lia.
    + intros ext d w (Rd & (P1 & P2 & P3) & _). apply sim_look. cbn [h_read]. rewrite Rd.
      assert (Q: folded_to h x (shares (PDict items l fl fd lk) free) (h ++ ext) (HDict d) (FDict w)).
      { split; [cbn [h_read]; rewrite Rd; reflexivity|]. split; auto. split; auto.
        eapply Forall_impl; [|exact P2]. intros s [H|(Hf & H)]; [left; auto|right]. unfold shares. rewrite andb_true_r. split; auto. apply at_inside; auto. }
      destruct free; [eauto|].
      destruct (require_valid snum (PDict items l fl fd lk) (FDict w) vv); cbn [bind]; eauto.
Qed.
