(** * The pattern Jacobians are the true Jacobians. *)
From Coq Require Import Reals Lra Lia.
From Verif Require Import Base Num Nd Numeric Simplex Psd Pattern Spec ListFacts PatFacts
  NonFree NumFacts CholFacts Free Contract Indices2 Jac SpecJac JacBase.
Local Open Scope list_scope.
Local Open Scope nat_scope.

Lemma transform_eq : forall fr p x,
  transform fr p x =
  (v <- fold_ snum p (vec x) (negb fr) (Some false) ;; flatten_ snum p v fr (Some false)).
Proof. intros [|] p x; reflexivity. Qed.

(** A successful flatten means a valid value. *)
Lemma flatten_valid : forall A (sc : scalar A) p v f vv x,
  flatten_ sc p v f vv = Ok x -> validate sc p v vv = Ok None.
Proof.
  intros A sc p v f vv x H.
  assert (forall p', validate sc p' v vv = validate sc p v vv ->
    (exists (k : unit -> res (list A)), (_ <- require_valid sc p' v vv ;; k tt) = Ok x) ->
    validate sc p v vv = Ok None) as K.
  { intros p' E (k & Hk). apply bind_ok in Hk. destruct Hk as (u & Hu & _).
    apply require_valid_ok in Hu. congruence. }
  destruct p; destruct v as [a|d]; cbn [flatten_] in H; try discriminate;
    apply bind_ok in H; destruct H as (u & Hu & _); apply require_valid_ok in Hu; auto.
  cbn [validate] in *. unfold num_validate in *. rewrite atleast_idem in Hu. auto.
Qed.

Lemma flatten_dict_build : forall A (sc : scalar A) items l fl fd lk d f vv ys,
  items <> [] ->
  Forall2 (fun kq y => exists w, dict_get d (fst kq) = Some w /\
                       flatten_ sc (snd kq) w f vv = Ok y) items ys ->
  flatten_ sc (PDict items l fl fd lk) (FDict d) f vv = Ok (concat ys).
Proof.
  intros A sc items l fl fd lk d f vv ys Hne H. cbn [flatten_].
  rewrite (proj2 (require_valid_ok _ _ _ _ _ tt)).
  - cbn [bind]. rewrite (proj2 (flatten_items_inv _ (fun q w => flatten_ sc q w f vv) d items ys) H).
    cbn [bind]. apply hstack_ok. split; auto. intros ->. inversion H; subst; auto.
  - cbn [validate]. apply validate_items_ok. apply all_items_Forall.
    clear Hne. induction H as [|[k q] y its ys (w & Hw & Hf) H IH]; constructor; auto.
    exists w. split; auto. eapply flatten_valid; eauto.
Qed.

Lemma flatten_arr_build : forall A (sc : scalar A) s b fd a f vv ys,
  0 < prod s -> shp a = s ++ folded_shape b ->
  Forall2 (fun item y => flatten_ sc b (FArr (subarr a item (length s))) f vv = Ok y) (indices s) ys ->
  flatten_ sc (PArr s b fd) (FArr a) f vv = Ok (concat ys).
Proof.
  intros A sc s b fd a f vv ys Hp Hs H. cbn [flatten_].
  rewrite (proj2 (require_valid_ok _ _ _ _ _ tt)).
  - cbn [bind]. rewrite (mapM_of_Forall2 _ _ _ _ _ H). cbn [bind].
    apply hstack_ok. split; auto. intros ->. inversion H.
    apply (f_equal (@length _)) in H1. rewrite indices_length in H1. simpl in H1. lia.
  - cbn [validate folded_shape]. unfold ndim. rewrite Hs, Nat.eqb_refl, shape_eqb_refl. cbn [negb].
    apply (validate_cells_seq _ _ a s (folded_shape b)); auto.
    intros it Hit. rewrite <- (subarr_chunk _ a it s (folded_shape b) Hs).
    clear Hp. induction H as [|it' y l ys Hf H IH]; [contradiction|].
    destruct Hit as [->|Hit]; auto. eapply flatten_valid; eauto.
Qed.

Lemma Forall2_of_nth : forall A B (P : A -> B -> Prop) l r, length r = length l ->
  (forall i a b, nth_error l i = Some a -> nth_error r i = Some b -> P a b) -> Forall2 P l r.
Proof.
  induction l as [|a l IH]; intros [|b r] L H; simpl in L; try discriminate; constructor.
  - apply (H 0); auto.
  - apply IH; auto. intros i. apply (H (S i)).
Qed.

(** ** inverting [joint] *)
Lemma joint_items_inv : forall (n : pat -> nat) (F : pat -> list num -> res (list num)) its x y,
  joint (map (fun kq : key * pat => (n (snd kq), F (snd kq))) its) x = Ok y ->
  exists parts, y = concat parts /\ length parts = length its /\
  forall i k q, nth_error its i = Some (k, q) ->
    exists part, nth_error parts i = Some part /\
      F q (slice x (lsum (map (fun kq => n (snd kq)) (firstn i its))) (n q)) = Ok part.
Proof.
  intros n F. induction its as [|[k q] its IH]; intros x y H.
  - cbn in H. injection H as <-. exists []. split; auto. split; auto. intros [|i] k q E; discriminate.
  - cbn [map joint snd] in H. apply bind_ok in H. destruct H as (y1 & H1 & H).
    apply bind_ok in H. destruct H as (ys & H2 & H). injection H as <-.
    destruct (IH _ _ H2) as (parts & -> & L & Hp). exists (y1 :: parts). split; auto.
    split; [simpl; auto|]. intros [|i] k' q' E; cbn [nth_error] in *.
    + injection E as <- <-. exists y1. split; auto.
    + destruct (Hp i k' q' E) as (part & Hn & Hf). exists part. split; auto. rewrite <- Hf.
      f_equal. cbn [firstn map lsum fold_right snd]. unfold slice. rewrite skipn_skipn'. auto.
Qed.

Lemma joint_const_inv : forall B n (F : list num -> res (list num)) (its : list B) x y,
  joint (map (fun _ => (n, F)) its) x = Ok y ->
  exists parts, y = concat parts /\
    Forall2 (fun i part => F (slice x (i * n) n) = Ok part) (seq 0 (length its)) parts.
Proof.
  intros B n F. induction its as [|b its IH]; intros x y H.
  - cbn in H. injection H as <-. exists []. split; auto. constructor.
  - cbn [map joint] in H. apply bind_ok in H. destruct H as (y1 & H1 & H).
    apply bind_ok in H. destruct H as (ys & H2 & H). injection H as <-.
    destruct (IH _ _ H2) as (parts & -> & Hp). exists (y1 :: parts). split; auto.
    cbn [length seq]. constructor; [exact H1|]. rewrite <- seq_shift.
    assert (forall l r, Forall2 (fun i part => F (slice (skipn n x) (i * n) n) = Ok part) l r ->
      Forall2 (fun i part => F (slice x (i * n) n) = Ok part) (map S l) r) as K.
    { intros l r HF. induction HF; constructor; auto. rewrite <- H. f_equal.
      unfold slice. rewrite skipn_skipn'. auto. }
    apply K; auto.
Qed.

(** ** members to container *)
Lemma joint_dict : forall fr items l fl fd lk x y,
  usable (PDict items l fl fd lk) ->
  length x = pl_n (flat_len (PDict items l fl fd lk) (negb fr)) ->
  joint (map (fun kq => (pl_n (flat_len (snd kq) (negb fr)), transform fr (snd kq))) items)
        (map Fin x) = Ok (map Fin y) ->
  transform fr (PDict items l fl fd lk) (map Fin x) = Ok (map Fin y).
Proof.
  intros fr items l fl fd lk x y Hu Hx HJ. rewrite transform_eq.
  assert (exists v, fold_ snum (PDict items l fl fd lk) (vec (map Fin x)) (negb fr) (Some false) = Ok v)
    as (v & Hv).
  { destruct fr; cbn [negb] in *.
    - eexists. apply fold_lenient; auto. apply lenient_false. rewrite map_length; auto.
    - destruct (free_fold_ok (PDict items l fl fd lk) x (Some false) Hu Hx) as (v & Hv & _). eauto. }
  rewrite Hv. cbn [bind].
  destruct (fold_dict_layout _ _ _ _ _ _ _ _ _ _ _ Hu Hv) as (d & -> & Hk & Hm).
  destruct (joint_items_inv (fun q => pl_n (flat_len q (negb fr))) (transform fr) _ _ _ HJ)
    as (parts & Ey & L & Hp).
  rewrite Ey. apply flatten_dict_build; [apply Hu|].
  clear Hv Hk HJ Ey Hx Hu.
  apply Forall2_of_nth; auto.
  intros i [k q] part Hi Hpt.
  destruct (Hm i k q Hi) as (w & Hw & Hf). destruct (Hp i k q Hi) as (part' & Hn & Ht).
  rewrite Hpt in Hn. injection Hn as <-. exists w. split; auto.
  rewrite transform_eq in Ht. unfold total_len in Hf. rewrite Hf in Ht. exact Ht.
Qed.

Lemma joint_arr : forall fr s b fd x y,
  usable (PArr s b fd) ->
  length x = pl_n (flat_len (PArr s b fd) (negb fr)) ->
  joint (map (fun _ => (pl_n (flat_len b (negb fr)), transform fr b)) (indices s))
        (map Fin x) = Ok (map Fin y) ->
  transform fr (PArr s b fd) (map Fin x) = Ok (map Fin y).
Proof.
  intros fr s b fd x y Hu Hx HJ. rewrite transform_eq.
  assert (exists v, fold_ snum (PArr s b fd) (vec (map Fin x)) (negb fr) (Some false) = Ok v)
    as (v & Hv).
  { destruct fr; cbn [negb] in *.
    - eexists. apply fold_lenient; auto. apply lenient_false. rewrite map_length; auto.
    - destruct (free_fold_ok (PArr s b fd) x (Some false) Hu Hx) as (v & Hv & _). eauto. }
  rewrite Hv. cbn [bind].
  destruct (fold_arr_layout _ _ _ _ _ _ _ _ _ Hu Hv) as (a & -> & Hs & Hm).
  apply joint_const_inv in HJ. destruct HJ as (parts & Ey & Hp).
  rewrite Ey. apply flatten_arr_build; auto; [apply Hu|].
  rewrite indices_length, <- ravel_indices in Hp. clear Ey.
  assert (forall its, (forall it, In it its -> In it (indices s)) -> forall parts,
    Forall2 (fun i part => transform fr b (slice (map Fin x) (i * pl_n (flat_len b (negb fr)))
               (pl_n (flat_len b (negb fr)))) = Ok part) (map (fun it => ravel it s) its) parts ->
    Forall2 (fun item y0 => flatten_ snum b (FArr (subarr a item (length s))) fr (Some false) = Ok y0)
      its parts) as K.
  { clear Hp. induction its as [|it its IH]; intros Hin ps HF; inversion HF; subst; constructor.
    - rewrite transform_eq, (Hm it) in H1 by (apply Hin; left; auto). exact H1.
    - apply IH; auto. intros; apply Hin; right; auto. }
  apply K; auto.
Qed.

(** ** the leaves *)
Definition good (ad : bool -> pat -> list num -> res matrix) (fr : bool) (p : pat) (v : fv num) : Prop :=
  exists x y J, jacobian ad fr p v = Ok J /\
    flatten_ snum p v (negb fr) None = Ok (map Fin x) /\
    flatten_ snum p v fr None = Ok (map Fin y) /\
    length x = pl_n (flat_len p (negb fr)) /\ length y = pl_n (flat_len p fr) /\
    derivative_at (transform fr p) x y J.

Lemma good_true : forall ad fr p v, good ad fr p v ->
  exists J, jacobian ad fr p v = Ok J /\ true_jacobian fr p v J /\
    m_rows J = pl_n (flat_len p fr) /\ m_cols J = pl_n (flat_len p (negb fr)).
Proof.
  intros ad fr p v (x & y & J & HJ & Hx & Hy & Lx & Ly & HD).
  exists J. split; auto. split; [|destruct HD as (_ & -> & -> & _); auto].
  exists x, y. split; [|split]; auto.
Qed.

Lemma good_num : forall ad fr k s lb ub dv fd v,
  usable (PNum k s lb ub dv fd) -> interior (PNum k s lb ub dv fd) v ->
  good ad fr (PNum k s lb ub dv fd) v.
Proof.
  intros ad fr k s lb ub dv fd [a|dct] Hu H; [|contradiction].
  set (p := PNum k s lb ub dv fd) in *.
  pose proof (interior_require None _ _ Hu H) as Hv.
  pose proof (interior_fv_arr _ _ Hu H) as (Hok & Hsf).
  assert (require_valid snum p (FArr (atleast_1d a)) None = Ok tt) as Hv'.
  { rewrite <- Hv. unfold require_valid. simpl. unfold num_validate. rewrite atleast_idem. auto. }
  assert (length (dat a) = prod s) as Hlen.
  { unfold nd_ok in Hok. rewrite Hok. simpl in Hsf. destruct Hsf as [->|[-> ->]]; auto. }
  destruct H as (_ & Hb). destruct Hu as (Hs & Hlu).
  assert (exists x z, dat a = map Fin x /\
     map (unconstrain1 (pyval lb) (pyval ub)) (map Fin x) = map Fin z /\
     map (constrain1 (pyval lb) (pyval ub)) (map Fin z) = map Fin x /\
     Forall (fun r => nlt (pyval lb) (Fin r) /\ nlt (Fin r) (pyval ub)) x)
    as (x & z & Ex & Ez & Ec & Hin).
  { clear - Hb. revert Hb. generalize (dat a). induction l as [|y l IHl]; intros Hb.
    - exists [], []. repeat split; auto.
    - inversion Hb; subst. destruct H1 as ((r & ->) & Hlb & Hub).
      destruct (unconstrain1_fin _ _ r Hlb Hub) as (z & Hz1 & Hz2).
      destruct (IHl H2) as (x & zs & -> & E1 & E2 & HF).
      exists (r :: x), (z :: zs). cbn [map]. rewrite Hz1, Hz2, E1, E2. repeat split; auto. }
  assert (length z = length x) as Lz.
  { apply (f_equal (@length _)) in Ez. rewrite !map_length in Ez. auto. }
  assert (length x = prod s) as Lx by (rewrite <- Hlen, Ex, map_length; auto).
  assert (forall f, flatten_ snum p (FArr a) f None = Ok (map Fin (if f then z else x))) as Hfl.
  { intros f. unfold p in *. cbn [flatten_]. rewrite Hv', atleast_dat. cbn [bind snum of_num to_num].
    destruct f; [|rewrite Ex; auto]. rewrite Ex, <- Ez. auto. }
  exists (if negb fr then z else x), (if fr then z else x).
  eexists. split; [reflexivity|]. split; [apply Hfl|]. split; [apply Hfl|].
  split; [destruct fr; simpl; lia|]. split; [destruct fr; simpl; lia|].
  unfold num_jac_array. rewrite Ex.
  destruct fr; cbn [negb].
  - apply (derivative_map _ (unconstrain1 (pyval lb) (pyval ub))); auto.
    + rewrite !map_length. auto.
    + intros x' Lx'. rewrite transform_eq. cbn [negb].
      rewrite fold_lenient; [|split; auto|apply lenient_false|rewrite map_length; simpl; lia].
      cbn [bind layout folded_shape flatten_ p]. unfold p.
      rewrite (proj2 (require_valid_ok _ _ _ _ _ tt)).
      * cbn [bind snum of_num to_num]. rewrite atleast_dat. cbn [dat]. auto.
      * cbn [validate]. unfold num_validate. rewrite atleast_idem.
        unfold atleast_1d. cbn [shp]. destruct s; [contradiction|]. cbn [shp]. rewrite shape_eqb_refl. auto.
    + intros j Hj. pose proof (Forall_nth' _ _ x j 0%R Hin Hj) as (H1 & H2).
      destruct (unconstrain1_lim _ _ _ H1 H2) as (gr & r & d & Hr & Hg & Hd & Hl & _).
      exists gr, r, d. split; auto. split; auto. split; auto.
      rewrite (nth_map_gen _ _ _ _ _ _ NaN) by (rewrite map_length; auto).
      rewrite nth_fin by auto. auto.
  - apply (derivative_map _ (constrain1 (pyval lb) (pyval ub))); auto.
    + rewrite !map_length. auto.
    + intros x' Lx'. rewrite transform_eq. cbn [negb].
      assert (length x' = pl_n (flat_len p true)) as Lp by (simpl; lia).
      destruct (free_fold_ok p x' (Some false) (conj Hs Hlu) Lp) as (v & Ev & Hiv).
      rewrite Ev. cbn [bind]. pose proof Ev as Ev'. unfold p in Ev'. cbn [fold_] in Ev'.
      rewrite atleast_vec, ndim_vec, size_vec, map_length, Lx', Lz, Lx, !Nat.eqb_refl in Ev'. cbn [negb] in Ev'.
      injection Ev' as <-. 
      rewrite flatten_lenient; [| split; auto|apply lenient_false| | ].
      * cbn [entries p]. unfold p, num_fold_free. cbn [nd_map dat vec snum of_num to_num].
        rewrite !map_id. auto.
      * destruct (interior_fv_arr p _ (conj Hs Hlu) Hiv) as (K & _). exact K.
      * destruct (interior_fv_arr p _ (conj Hs Hlu) Hiv) as (_ & K). exact K.
    + intros j Hj.
      destruct (constrain1_lim (pyval lb) (pyval ub) (nth j z 0%R) Hlu) as (gr & d & Hg & Hd & Hl).
      exists gr, 1%R, d. split; [lra|]. split; auto. split; auto.
      rewrite <- Hd. rewrite Lz in Hj.
      rewrite (nth_map_gen _ _ _ _ _ _ NaN) by (rewrite map_length; auto).
      f_equal. rewrite <- nth_fin by lia. rewrite <- Ez.
      rewrite (nth_map_gen _ _ _ _ _ _ NaN) by (rewrite map_length; auto). auto.
Qed.

Lemma map_fin_inj' : forall a b, map Fin a = map Fin b -> a = b.
Proof.
  induction a; destruct b; simpl; intros H; try discriminate; auto.
  injection H as E H. subst. f_equal. auto.
Qed.

(** Rows of a simplex array. *)
Lemma simplex_rows : forall n rows,
  Forall (fun r => length r = n /\ Forall (Rlt 0) r /\ Rlsum r = 1%R) rows -> 2 <= n ->
  exists zs,
    flat_map unconstrain_row (map (map Fin) rows) = map Fin (concat zs) /\
    length (concat zs) = length rows * (n - 1) /\
    blocks (map (fun _ => (n, fun x => Ok (unconstrain_row x))) rows) (concat rows) (concat zs)
      (map (fun r => simplex_jac true (map Fin r)) rows) /\
    blocks (map (fun _ => (n - 1, fun x => Ok (constrain_row x))) rows) (concat zs) (concat rows)
      (map (fun r => simplex_jac false (map Fin r)) rows).
Proof.
  intros n rows H Hn. induction H as [|r rows (L & Hp & Hs) H (zs & E & Lz & B1 & B2)].
  - exists []. repeat split; constructor.
  - destruct r as [|s0 s]; [simpl in L; lia|]. inversion Hp as [|? ? H0 Hs']; subst.
    set (z := map (fun y => ln y - ln s0)%R s).
    assert (constrain_row (map Fin z) = map Fin (s0 :: s)) as Hc.
    { destruct (constrain_unconstrain_row (s0 :: s)) as (z' & E1 & _ & E2); auto; [discriminate|].
      rewrite unconstrain_row_fin in E1 by auto.
      apply map_fin_inj' in E1. fold z in E1. rewrite E1. auto. }
    assert (softmax z = s0 :: s) as Hsm.
    { rewrite constrain_row_fin in Hc. apply map_fin_inj' in Hc. auto. }
    exists (z :: zs).
    split.
    { change (flat_map unconstrain_row (map (map Fin) ((s0 :: s) :: rows)))
        with (unconstrain_row (map Fin (s0 :: s)) ++ flat_map unconstrain_row (map (map Fin) rows)).
      rewrite unconstrain_row_fin by auto. rewrite E. cbn [concat]. rewrite map_app. auto. }
    cbn [concat].
    split.
    { rewrite app_length, Lz. unfold z. rewrite map_length. simpl. lia. }
    split.
    + constructor; auto. apply unconstrain_row_derivative; auto.
    + constructor; auto.
      * unfold z. rewrite map_length. simpl. lia.
      * rewrite <- Hsm. apply constrain_row_derivative.
Qed.

Lemma joint_const : forall B n (g : list num -> list num) (its : list B) x,
  joint (map (fun _ => (n, fun y => Ok (g y))) its) x =
  Ok (flat_map g (chunks n (length its) x)).
Proof.
  intros B n g. induction its as [|b its IH]; intros x; [reflexivity|].
  cbn [map joint bind]. rewrite IH. cbn [bind]. f_equal.
  unfold chunks. cbn [length seq map flat_map]. f_equal.
  rewrite <- seq_shift, map_map. f_equal. apply map_ext. intros i. unfold chunk, slice.
  rewrite skipn_skipn'. auto.
Qed.

Lemma good_simplex : forall ad fr n s dv fd v,
  usable (PSimplex n s dv fd) -> 0 < prod s -> interior (PSimplex n s dv fd) v ->
  good ad fr (PSimplex n s dv fd) v.
Proof.
  intros ad fr n s dv fd [a|dct] Hu Hs H; [|contradiction].
  set (p := PSimplex n s dv fd) in *.
  pose proof (interior_require None _ _ Hu H) as Hv.
  destruct H as (Hsh & rows & Lr & Ed & Hr). cbn [usable p] in Hu.
  destruct (simplex_rows n rows Hr Hu) as (zs & Ez & Lz & B1 & B2).
  assert (forall r, In r rows -> length r = n) as Hrn.
  { intros r Hin. rewrite Forall_forall in Hr. apply (Hr r Hin). }
  assert (length (concat rows) = prod s * n) as Lx.
  { rewrite <- Lr. apply concat_length_uniform. auto. }
  assert (forall f, flatten_ snum p (FArr a) f None = Ok (map Fin (if f then concat zs else concat rows))) as Hfl.
  { intros f. unfold p in *. cbn [flatten_]. rewrite Hv. cbn [bind snum of_num to_num].
    destruct f; [|rewrite Ed; auto]. rewrite !map_id, Ed, chunks_map, chunks_concat by auto.
    rewrite Ez. auto. }
  assert (forall f : bool, length (if f then concat zs else concat rows) = pl_n (flat_len p f)) as Hln.
  { intros f. cbn [flat_len p]. unfold p. cbn [flat_len]. rewrite simplex_flen. destruct f; lia. }
  assert (map (fun item => simplex_jac fr (dat (subarr a item (length s)))) (indices s)
          = map (fun r => simplex_jac fr (map Fin r)) rows) as EJ.
  { transitivity (map (simplex_jac fr) (chunks n (prod s) (dat a))).
    - unfold chunks. rewrite map_map, <- ravel_indices, map_map. apply map_ext. intros it.
      rewrite (subarr_chunk _ a it s [n]) by auto. cbn [dat prod fold_right].
      rewrite Nat.mul_1_r. auto.
    - rewrite Ed, chunks_map, chunks_concat, map_map by auto. auto. }
  exists (if negb fr then concat zs else concat rows), (if fr then concat zs else concat rows).
  exists (bdiag (map (fun r => simplex_jac fr (map Fin r)) rows)).
  split.
  { unfold p. cbn [jacobian]. rewrite Hsh, shape_eqb_refl. cbn [negb]. rewrite EJ.
    apply block_diag_ok. destruct rows; [simpl in Lr; lia|discriminate]. }
  split; [apply Hfl|]. split; [apply Hfl|]. split; [apply Hln|]. split; [apply Hln|].
  destruct fr; cbn [negb].
  - apply (derivative_weaken (joint (map (fun _ : list R => (n, fun x => Ok (unconstrain_row x))) rows)));
      [|apply blocks_derivative; auto].
    intros x' y' Lx' HJ. rewrite joint_const in HJ. rewrite <- HJ, Lr. rewrite transform_eq. cbn [negb].
    rewrite fold_lenient; [|auto|apply lenient_false|].
    + cbn [bind layout folded_shape p]. unfold p. cbn [flatten_].
      rewrite (proj2 (require_valid_ok _ _ _ _ _ tt)).
      * cbn [bind snum of_num to_num dat]. rewrite !map_id. auto.
      * cbn [validate]. unfold simplex_validate. cbn [shp]. rewrite shape_eqb_refl. auto.
    + rewrite map_length, Lx', Lx. unfold p. cbn [flat_len]. rewrite simplex_flen. auto.
  - apply (derivative_weaken (joint (map (fun _ : list R => (n - 1, fun x => Ok (constrain_row x))) rows)));
      [|apply blocks_derivative; auto].
    intros x' y' Lx' HJ. rewrite joint_const in HJ. rewrite <- HJ, Lr. rewrite transform_eq. cbn [negb].
    assert (length x' = pl_n (flat_len p true)) as Lp.
    { rewrite Lx', Lz, Lr. unfold p. cbn [flat_len]. rewrite simplex_flen. auto. }
    destruct (free_fold_ok p x' (Some false) Hu Lp) as (v & Ev & Hiv).
    rewrite Ev. cbn [bind]. pose proof Ev as Ev'. unfold p in Ev'. cbn [fold_] in Ev'.
    cbn [pylen vec shp bind] in Ev'. rewrite map_length in Ev'.
    change (flat_len (PSimplex n s dv fd) true) with (flat_len p true) in Ev'.
    rewrite <- Lp, Nat.eqb_refl in Ev'. cbn [negb] in Ev'.
    change (mkNd [length x'] (map Fin x')) with (mkNd [length x'] (map Fin x')) in Ev'.
    assert (reshape (mkNd [length x'] (map Fin x')) (s ++ [n - 1]) = Ok (mkNd (s ++ [n - 1]) (map Fin x'))) as Er.
    { unfold reshape, size. cbn [shp dat]. rewrite prod_app. cbn [prod fold_right].
      rewrite (proj2 (Nat.eqb_eq _ _)); auto. rewrite Lx', Lz, Lr. cbn. lia. }
    unfold vec in Ev'. rewrite ?map_length in Ev'. rewrite Er in Ev'. cbn [bind] in Ev'. injection Ev' as <-.
    rewrite flatten_lenient; [|auto|apply lenient_false| | ].
    + unfold p. cbn [entries]. unfold simplex_fold_free. cbn [nd_map dat snum of_num to_num].
      rewrite !map_id. auto.
    + destruct (interior_fv_arr p _ Hu Hiv) as (K & _). exact K.
    + destruct (interior_fv_arr p _ Hu Hiv) as (_ & K). exact K.
Qed.

(** ** containers *)
Lemma good_blocks_items : forall ad fr d its,
  all_items (fun k q => exists w, dict_get d k = Some w /\ good ad fr q w) its ->
  exists xs ys Js,
    jac_items (jacobian ad fr) d its = Ok Js /\
    Forall2 (fun kq J => exists w, dict_get d (fst kq) = Some w /\
                         jacobian ad fr (snd kq) w = Ok J) its Js /\
    Forall2 (fun kq y => exists w, dict_get d (fst kq) = Some w /\
                         flatten_ snum (snd kq) w (negb fr) None = Ok y) its (map (map Fin) xs) /\
    Forall2 (fun kq y => exists w, dict_get d (fst kq) = Some w /\
                         flatten_ snum (snd kq) w fr None = Ok y) its (map (map Fin) ys) /\
    length (concat xs) = lsum (map (fun kq => pl_n (flat_len (snd kq) (negb fr))) its) /\
    length (concat ys) = lsum (map (fun kq => pl_n (flat_len (snd kq) fr)) its) /\
    blocks (map (fun kq => (pl_n (flat_len (snd kq) (negb fr)), transform fr (snd kq))) its)
      (concat xs) (concat ys) Js.
Proof.
  intros ad fr d. induction its as [|[k q] its IH]; intros H.
  - exists [], [], []. repeat split; constructor.
  - destruct H as ((w & Hw & x & y & J & HJ & Hx & Hy & Lx & Ly & HD) & H).
    destruct (IH H) as (xs & ys & Js & E1 & E2 & E3 & E4 & E5 & E6 & E7).
    exists (x :: xs), (y :: ys), (J :: Js).
    cbn [jac_items map concat fst snd]. rewrite Hw, HJ, E1. cbn [bind].
    split; auto. split; [constructor; auto; exists w; auto|].
    split; [constructor; auto; exists w; auto|]. split; [constructor; auto; exists w; auto|].
    split; [rewrite app_length; cbn [lsum fold_right]; unfold lsum in E5; lia|].
    split; [rewrite app_length; cbn [lsum fold_right]; unfold lsum in E6; lia|].
    constructor; auto.
Qed.

Lemma good_blocks_cells : forall ad fr b (g : list nat -> fv num) its,
  (forall it, In it its -> good ad fr b (g it)) ->
  exists xs ys Js,
    mapM (fun it => jacobian ad fr b (g it)) its = Ok Js /\
    Forall2 (fun it J => jacobian ad fr b (g it) = Ok J) its Js /\
    Forall2 (fun it y => flatten_ snum b (g it) (negb fr) None = Ok y) its (map (map Fin) xs) /\
    Forall2 (fun it y => flatten_ snum b (g it) fr None = Ok y) its (map (map Fin) ys) /\
    length (concat xs) = length its * pl_n (flat_len b (negb fr)) /\
    length (concat ys) = length its * pl_n (flat_len b fr) /\
    blocks (map (fun _ => (pl_n (flat_len b (negb fr)), transform fr b)) its)
      (concat xs) (concat ys) Js.
Proof.
  intros ad fr b g. induction its as [|it its IH]; intros H.
  - exists [], [], []. repeat split; constructor.
  - destruct (H it (or_introl eq_refl)) as (x & y & J & HJ & Hx & Hy & Lx & Ly & HD).
    destruct IH as (xs & ys & Js & E1 & E2 & E3 & E4 & E5 & E6 & E7).
    { intros. apply H. right. auto. }
    exists (x :: xs), (y :: ys), (J :: Js).
    cbn [mapM map concat]. rewrite HJ, E1. cbn [bind].
    split; auto. split; [constructor; auto|]. split; [constructor; auto|].
    split; [constructor; auto|]. split; [rewrite app_length; simpl; lia|].
    split; [rewrite app_length; simpl; lia|]. constructor; auto.
Qed.

Lemma concat_map_fin : forall ls, concat (map (map Fin) ls) = map Fin (concat ls).
Proof. intros. symmetry. apply concat_map. Qed.

Lemma good_dict : forall ad fr items l fl fd lk d,
  usable (PDict items l fl fd lk) ->
  all_items (fun k q => exists w, dict_get d k = Some w /\ good ad fr q w) items ->
  good ad fr (PDict items l fl fd lk) (FDict d) /\
  exists J Js, jacobian ad fr (PDict items l fl fd lk) (FDict d) = Ok J /\
    Forall2 (fun kq Jk => exists w, dict_get d (fst kq) = Some w /\
                         jacobian ad fr (snd kq) w = Ok Jk) items Js /\ block_diagonal Js J.
Proof.
  intros ad fr items l fl fd lk d Hu H.
  destruct (good_blocks_items ad fr d items H) as (xs & ys & Js & E1 & E2 & E3 & E4 & E5 & E6 & E7).
  pose proof Hu as (Hne & Hnd & Hl & Hfl & Hus).
  assert (jacobian ad fr (PDict items l fl fd lk) (FDict d) = Ok (bdiag Js)) as HJ.
  { cbn [jacobian]. rewrite E1. cbn [bind]. apply block_diag_ok. intros ->. inversion E2; subst; auto. }
  split.
  - exists (concat xs), (concat ys), (bdiag Js). split; auto.
    split; [rewrite <- concat_map_fin; apply flatten_dict_build; auto|].
    split; [rewrite <- concat_map_fin; apply flatten_dict_build; auto|].
    assert (forall f, pl_n (flat_len (PDict items l fl fd lk) f)
                      = lsum (map (fun kq => pl_n (flat_len (snd kq) f)) items)) as Hlen.
    { intros [|]; cbn [flat_len]; rewrite ?Hl, ?Hfl; auto. }
    rewrite !Hlen. split; auto. split; auto.
    eapply derivative_weaken; [|apply blocks_derivative; exact E7].
    intros x' y' Lx' HJ'. apply joint_dict; auto. rewrite Hlen. lia.
  - exists (bdiag Js), Js. split; auto. split; auto. apply bdiag_block.
Qed.

Lemma good_arr : forall ad fr s b fd a,
  usable (PArr s b fd) -> shp a = s ++ folded_shape b ->
  (forall it, In it (indices s) -> good ad fr b (FArr (subarr a it (length s)))) ->
  good ad fr (PArr s b fd) (FArr a) /\
  exists J Js, jacobian ad fr (PArr s b fd) (FArr a) = Ok J /\
    Forall2 (fun it Jk => jacobian ad fr b (FArr (subarr a it (length s))) = Ok Jk) (indices s) Js /\
    block_diagonal Js J.
Proof.
  intros ad fr s b fd a Hu Hs H.
  destruct (good_blocks_cells ad fr b (fun it => FArr (subarr a it (length s))) (indices s) H)
    as (xs & ys & Js & E1 & E2 & E3 & E4 & E5 & E6 & E7).
  pose proof Hu as (Hne & Hp & Hd & Hub).
  assert (jacobian ad fr (PArr s b fd) (FArr a) = Ok (bdiag Js)) as HJ.
  { cbn [jacobian]. rewrite Hs, shape_eqb_refl. cbn [negb]. rewrite E1. cbn [bind].
    apply block_diag_ok. intros ->. apply Forall2_len in E2. rewrite indices_length in E2. simpl in E2. lia. }
  rewrite indices_length in E5, E6.
  split.
  - exists (concat xs), (concat ys), (bdiag Js). split; auto.
    split; [rewrite <- concat_map_fin; apply flatten_arr_build; auto|].
    split; [rewrite <- concat_map_fin; apply flatten_arr_build; auto|].
    assert (forall f, pl_n (flat_len (PArr s b fd) f) = prod s * pl_n (flat_len b f)) as Hlen.
    { intros f. cbn [flat_len]. rewrite np_prod_int by auto. reflexivity. }
    rewrite !Hlen. split; auto. split; auto.
    eapply derivative_weaken; [|apply blocks_derivative; exact E7].
    intros x' y' Lx' HJ'. apply joint_arr; auto. rewrite Hlen. lia.
  - exists (bdiag Js), Js. split; auto. split; auto. apply bdiag_block.
Qed.

Lemma interior_block : forall s b fd a, interior (PArr s b fd) (FArr a) ->
  forall it, In it (indices s) -> interior b (FArr (subarr a it (length s))).
Proof.
  intros s b fd a (Hs & _ & H) it Hit. rewrite (subarr_chunk _ a it s (folded_shape b) Hs).
  apply H. apply ravel_lt; auto.
Qed.

Theorem all_good : forall ad fr p v,
  usable p -> simplexes_nonempty p -> interior p v -> at_psd (jacobian_true ad fr) p v ->
  good ad fr p v.
Proof.
  intros ad fr.
  apply (pat_ind' (fun p => forall v, usable p -> simplexes_nonempty p -> interior p v ->
    at_psd (jacobian_true ad fr) p v -> good ad fr p v)).
  - intros. apply good_num; auto.
  - intros. apply good_simplex; auto.
  - intros sz fl dl dv fd [a|d] Hu _ Hi Hp; [|contradiction].
    destruct Hp as (J & HJ & x & y & Hx & Hy & HD).
    destruct (interior_fv_arr _ _ Hu Hi) as (Hok & _).
    exists x, y, J. split; auto. split; auto. split; auto.
    pose proof (flatten_length _ snum None _ _ (FArr a) _ Hu Hok Hx) as Lx.
    pose proof (flatten_length _ snum None _ _ (FArr a) _ Hu Hok Hy) as Ly.
    rewrite map_length in Lx, Ly. auto.
  - intros s b fd IH [a|d] Hu Hn Hi Hp; [|contradiction].
    apply good_arr; auto; [apply Hi|]. intros it Hit. apply IH; auto; [apply Hu|].
    eapply interior_block; eauto.
  - intros items l fl fd lk IH [a|d] Hu Hn Hi Hp; [contradiction|].
    apply good_dict; auto. destruct Hu as (_ & _ & _ & _ & Hu). simpl in Hn, Hi, Hp.
    apply all_items_Forall in Hu, Hn, Hi, Hp. apply all_items_Forall.
    rewrite Forall_forall in *. intros kq Hkq. destruct (Hi _ Hkq) as (w & Hw & Hiw).
    exists w. auto.
Qed.

Lemma no_psd_at : forall P p v, no_psd p -> at_psd P p v.
Proof.
  intros P. apply (pat_ind' (fun p => forall v, no_psd p -> at_psd P p v)); simpl; auto.
  - intros. contradiction.
  - intros s b fd IH [a|d] H; auto.
  - intros items l fl fd lk IH [a|d] H; auto.
    apply all_items_Forall in H. apply all_items_Forall. rewrite Forall_forall in *. auto.
Qed.
