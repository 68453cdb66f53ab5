(** * Feasible directions. *)
From Coq Require Import Reals Lra Lia.
From Verif Require Import Base Num Nd Numeric Simplex Psd Pattern Spec ListFacts PatFacts NonFree
  NumFacts CholFacts Free Contract Jac SpecJac JacBase JacFacts JacMore JacPsd CholDiff PsdDiff
  AlongFacts RevFacts PsdProps SpecDir.
Local Open Scope list_scope.
Local Open Scope nat_scope.

(** ** Interior values in terms of their flat vectors *)
Definition flat_mat (n : nat) (z : list R) (i j : nat) : R := nth (i * n + j) z 0%R.
Definition leaf_inside (p : pat) (z : list R) : Prop :=
  match p with
  | PNum _ shape lb ub _ _ =>
      length z = prod shape /\ Forall (fun r => nlt (pyval lb) (Fin r) /\ nlt (Fin r) (pyval ub)) z
  | PSimplex n ashape _ _ =>
      exists rows : list (list R), length rows = prod ashape /\ z = concat rows /\
        Forall (fun r => length r = n /\ Forall (Rlt 0) r /\ Rlsum r = 1%R) rows
  | PPsd n _ dlb _ _ =>
      length z = n * n /\ exists c, pyval dlb = Fin c /\
        symmetric n (flat_mat n z) /\ pos_def n (minus_diag (flat_mat n z) c)
  | _ => False
  end.
Definition inside : pat -> list R -> Prop := flat_leaves leaf_inside.

Definition chain (P : pat -> list R -> Prop) : list (key * pat) -> list R -> Prop :=
  fix go its h :=
    match its with
    | [] => h = []
    | kq :: its => exists y z, h = y ++ z /\ P (snd kq) y /\ go its z
    end.

Lemma rrows_flat : forall n z, length z = n * n -> rrows n (flat_mat n z) = z.
Proof.
  intros n z L. apply (nth_ext _ _ 0%R 0%R); rewrite rrows_length; [auto|].
  intros k Hk. rewrite nth_rrows by auto. unfold flat_mat. f_equal.
  assert (n <> 0) by (intros ->; lia). rewrite (Nat.div_mod k n) at 3 by auto. lia.
Qed.
Lemma flat_rrows : forall n m i j, i < n -> j < n -> flat_mat n (rrows n m) i j = m i j.
Proof.
  intros n m i j Hi Hj. unfold flat_mat. rewrite nth_rrows by nia.
  destruct (div_pos n i j Hj) as (-> & ->). auto.
Qed.

Definition laid_out (p : pat) (z : list R) : Prop :=
  length z = pl_n (flat_len p false) /\ interior p (layout p (map Fin z)).

Lemma inside_dict : forall its z, NoDup (map fst its) ->
  Forall (fun kq => forall z, laid_out (snd kq) z <-> inside (snd kq) z) its ->
  (length z = lsum (map (fun kq => pl_n (flat_len (snd kq) false)) its) /\
   all_items (fun k q => exists w, dict_get (layout_items layout its (map Fin z)) k = Some w /\ interior q w) its
   <-> chain inside its z).
Proof.
  induction its as [|[k q] its IH]; intros z Hnd H.
  - cbn. split; [intros (L & _); destruct z; auto; discriminate|intros ->; auto].
  - inversion Hnd as [|? ? Hk Hnd']; subst. inversion H as [|? ? Hq H']; subst. cbn [snd] in Hq.
    cbn [map lsum fold_right snd chain all_items layout_items].
    rewrite firstn_map, skipn_map.
    set (n := pl_n (flat_len q false)) in *.
    assert (forall w y, all_items (fun k0 q0 => exists u, dict_get ((k, w) :: layout_items layout its y) k0 = Some u /\ interior q0 u) its
      <-> all_items (fun k0 q0 => exists u, dict_get (layout_items layout its y) k0 = Some u /\ interior q0 u) its) as E.
    { intros w y. rewrite !all_items_Forall, !Forall_forall.
      split; intros A [k' q'] Hin; destruct (A _ Hin) as (u & Hu & Hi); exists u; (split; [|exact Hi]); cbn [fst snd] in *.
      - rewrite dict_get_cons_ne in Hu; auto. intros ->. apply Hk. apply (in_map fst) in Hin. auto.
      - rewrite dict_get_cons_ne; auto. intros ->. apply Hk. apply (in_map fst) in Hin. auto. }
    rewrite E. split.
    + intros (L & (w & Hw & Hi) & A). cbn [dict_get] in Hw. rewrite key_eqb_refl in Hw. injection Hw as <-.
      exists (firstn n z), (skipn n z). split; [rewrite firstn_skipn; auto|]. split.
      * apply Hq. split; [rewrite firstn_length; fold n; lia|auto].
      * apply IH; auto. split; [rewrite skipn_length; unfold lsum; lia|auto].
    + intros (y & u & -> & Hy & Hu). apply Hq in Hy. destruct Hy as (Ly & Hy). fold n in Ly.
      apply (IH u Hnd' H') in Hu. destruct Hu as (Lu & Hu).
      rewrite <- Ly, firstn_app_eq, skipn_app_eq by auto.
      split; [rewrite app_length; unfold lsum in Lu; lia|]. split; [|auto].
      exists (layout q (map Fin y)). cbn [dict_get]. rewrite key_eqb_refl. auto.
Qed.

Lemma laid_out_inside : forall p, usable p -> forall z, laid_out p z <-> inside p z.
Proof.
  apply (pat_ind' (fun p => usable p -> forall z, laid_out p z <-> inside p z)).
  - intros k s lb ub dv fd Hu z. unfold laid_out, inside. cbn [flat_len plint pl_n layout folded_shape interior flat_leaves leaf_inside dat].
    split.
    + intros (L & _ & F). split.
      * exact L.
      * clear -F. rewrite Forall_forall in *. intros r Hr. apply (F (Fin r)). apply in_map. auto.
    + intros (L & F). split.
      * exact L.
      * split; [split; [unfold nd_ok; cbn [dat shp]; rewrite map_length; auto|auto]|].
        rewrite Forall_forall in *. intros y Hy. apply in_map_iff in Hy. destruct Hy as (r & <- & Hr).
        split; [exists r; auto|]. apply F. auto.
  - intros n s dv fd Hu z. unfold laid_out, inside. cbn [layout folded_shape interior flat_leaves leaf_inside dat shp].
    cbn [flat_len]. rewrite simplex_flen. split.
    + intros (L & _ & rows & Lr & E & F). exists rows. split; auto. split; auto. apply map_fin_inj'. auto.
    + intros (rows & Lr & -> & F). split.
      * rewrite <- Lr. apply concat_length_uniform. intros x Hx. rewrite Forall_forall in F. apply F. auto.
      * split; auto. exists rows. auto.
  - intros n fl dlb dv fd Hu z. unfold laid_out, inside. cbn [layout folded_shape interior flat_leaves leaf_inside dat shp flat_len plint pl_n].
    split.
    + intros (L & _ & m & c & E & Hc & Hs & Hp). rewrite rows_rrows in E. apply map_fin_inj' in E. subst z.
      split; auto. exists c. split; auto. split.
      * intros i j Hi Hj. rewrite !flat_rrows by auto. auto.
      * eapply pos_def_ext; [|exact Hp]. intros i j Hi Hj. unfold minus_diag. rewrite flat_rrows by auto. auto.
    + intros (L & c & Hc & Hs & Hp). split; auto. split; auto. exists (flat_mat n z), c.
      split; [rewrite rows_rrows, rrows_flat; auto|auto].
  - intros s b fd IH (Hs & Hpp & Hd & Hub) z. specialize (IH Hub).
    set (m := prod (folded_shape b)).
    assert (pl_n (flat_len b false) = m) as Lb by (apply flat_len_arr; auto).
    assert (forall l : list R, layout b (map Fin l) = FArr (mkNd (folded_shape b) (map Fin l))) as EL.
    { intros l. destruct b; try discriminate; auto. }
    unfold laid_out, inside. cbn [flat_leaves interior layout folded_shape shp dat]. fold inside.
    assert (pl_n (flat_len (PArr s b fd) false) = prod s * m) as ->.
    { cbn [flat_len]. rewrite np_prod_int by auto. cbn. rewrite Lb. auto. }
    fold m. split.
    + intros (L & _ & _ & A). exists (chunks m (prod s) z). split; [apply chunks_length|].
      split; [symmetry; apply concat_chunks; auto|]. apply Forall_forall. intros y Hy.
      apply in_chunks in Hy. destruct Hy as (i & Hi & ->). apply IH. split.
      * rewrite Lb. apply (chunk_length _ m z i (prod s)); auto.
      * rewrite EL. specialize (A i Hi). rewrite slice_map in A. exact A.
    + intros (hs & Lh & -> & F).
      assert (forall y, In y hs -> length y = m /\ interior b (FArr (mkNd (folded_shape b) (map Fin y)))) as G.
      { intros y Hy. rewrite Forall_forall in F. apply F in Hy. apply IH in Hy. destruct Hy as (H1 & H2).
        rewrite EL in H2. split; [lia|auto]. }
      assert (length (concat hs) = prod s * m) as L.
      { rewrite <- Lh. apply concat_length_uniform. intros y Hy. apply G. auto. }
      split; auto. split; auto. split.
      * unfold nd_ok. cbn [dat shp]. rewrite map_length, prod_app. fold m. auto.
      * intros i Hi. rewrite slice_map. change (slice (concat hs) (i * m) m) with (chunk m (concat hs) i).
        apply G. rewrite <- (chunks_concat _ m hs (prod s)) at 2 by (auto; intros y Hy; apply G; auto).
        unfold chunks. apply (in_map (chunk m (concat hs))). apply in_seq. lia.
  - intros items l fl fd lk IH (Hne & Hnd & Hl & Hfl & Hu) z.
    unfold laid_out, inside. cbn [flat_leaves interior layout flat_len]. fold inside. rewrite Hl. cbn [plint pl_n].
    apply (inside_dict items z Hnd).
    apply all_items_Forall in Hu. rewrite Forall_forall in *. intros kq Hkq. apply IH; auto.
Qed.

Lemma fold_inside : forall p, usable p -> forall z,
  (exists w, fold p (vec (map Fin z)) (Some false) None = Ok w /\ interior p w) <-> inside p z.
Proof.
  intros p Hu z. rewrite <- laid_out_inside by auto. unfold laid_out.
  change (fold p (vec (map Fin z)) (Some false) None) with (fold_ snum p (vec (map Fin z)) false None).
  split.
  - intros (w & Hw & Hi).
    assert (length z = pl_n (flat_len p false)) as L.
    { destruct (Nat.eq_dec (length z) (pl_n (flat_len p false))); auto.
      rewrite fold_wrong_length in Hw by (auto; rewrite map_length; auto). discriminate. }
    split; auto. rewrite fold_nonfree in Hw by (auto; rewrite map_length; auto).
    destruct (require_valid snum p (layout p (map Fin z)) None); [|discriminate].
    injection Hw as <-. auto.
  - intros (L & Hi). exists (layout p (map Fin z)). split; auto.
    rewrite fold_nonfree by (auto; rewrite map_length; auto). rewrite interior_require by auto. auto.
Qed.

(** ** Lines *)
Definition stays (P : list R -> Prop) (x h : list R) : Prop :=
  length h = length x /\ exists r, (0 < r)%R /\ forall t, (Rabs t < r)%R -> P (line x h t).
Definition keeps (P D : list R -> Prop) (x : list R) : Prop := forall h, stays P x h <-> D h.

Lemma stays_here : forall P x h, stays P x h -> P x.
Proof.
  intros P x h (L & r & Hr & H). rewrite <- (line_zero x h) by auto. apply H. rewrite Rabs_R0. auto.
Qed.

Definition joined (P Q : list R -> Prop) (h : list R) : Prop := exists y z, h = y ++ z /\ P y /\ Q z.

Lemma app_parts : forall (a b c d : list R), length a = length c -> a ++ b = c ++ d -> a = c /\ b = d.
Proof.
  induction a; destruct c; intros d L E; try discriminate; auto.
  cbn in E. injection E as -> E. cbn in L. destruct (IHa b c d ltac:(lia) E) as (-> & ->). auto.
Qed.

Lemma keeps_joined : forall (P Q D E : list R -> Prop) x y,
  (forall z, P z -> length z = length x) -> (forall h, D h -> length h = length x) ->
  keeps P D x -> keeps Q E y -> keeps (joined P Q) (joined D E) (x ++ y).
Proof.
  intros P Q D E x y LP LD HP HQ h. split.
  - intros (L & r & Hr & H). rewrite app_length in L.
    assert (exists a b, h = a ++ b /\ length a = length x /\ length b = length y) as (a & b & -> & La & Lb).
    { exists (firstn (length x) h), (skipn (length x) h). split; [symmetry; apply firstn_skipn|].
      rewrite firstn_length, skipn_length. lia. }
    assert (forall t, (Rabs t < r)%R -> P (line x a t) /\ Q (line y b t)) as K.
    { intros t Ht. destruct (H t Ht) as (u & w & Ew & Hu & Hw). rewrite line_app in Ew by auto.
      apply app_parts in Ew.
      - destruct Ew as (-> & ->). auto.
      - rewrite line_length by auto. symmetry. apply LP. auto. }
    exists a, b. split; auto. split.
    + apply HP. split; auto. exists r. split; auto. intros t Ht. apply K. auto.
    + apply HQ. split; auto. exists r. split; auto. intros t Ht. apply K. auto.
  - intros (a & b & -> & Ha & Hb). pose proof (LD a Ha) as La.
    apply HP in Ha. apply HQ in Hb. destruct Ha as (_ & r & Hr & A). destruct Hb as (Lb & r' & Hr' & B).
    split; [rewrite !app_length; lia|]. exists (Rmin r r'). split; [apply Rmin_pos; auto|].
    intros t Ht. pose proof (Rmin_l r r'). pose proof (Rmin_r r r').
    exists (line x a t), (line y b t). split; [apply line_app; auto|]. split; [apply A|apply B]; lra.
Qed.

Lemma keeps_nil : keeps (fun h => h = []) (fun h => h = []) [].
Proof.
  intros h. split.
  - intros (L & _). destruct h; auto. discriminate.
  - intros ->. split; auto. exists 1%R. split; [lra|]. auto.
Qed.

Lemma keeps_ext : forall (P Q D E : list R -> Prop) x, (forall z, P z <-> Q z) -> (forall h, D h <-> E h) ->
  keeps P D x -> keeps Q E x.
Proof.
  intros P Q D E x HP HD H h. rewrite <- HD, <- (H h). unfold stays.
  split; intros (L & r & Hr & A); split; auto; exists r; split; auto; intros t Ht; apply HP; auto.
Qed.

(** *** numbers *)
Lemma inside_near : forall lb ub r, nlt lb (Fin r) -> nlt (Fin r) ub ->
  exists d, (0 < d)%R /\ forall t, (Rabs (t - r) < d)%R -> nlt lb (Fin t) /\ nlt (Fin t) ub.
Proof.
  intros lb ub r Hl Hu.
  set (d1 := match lb with Fin l => (r - l)%R | _ => 1%R end).
  set (d2 := match ub with Fin u => (u - r)%R | _ => 1%R end).
  assert (0 < d1)%R by (unfold d1; destruct lb; cbn in Hl; lra).
  assert (0 < d2)%R by (unfold d2; destruct ub; cbn in Hu; lra).
  exists (Rmin d1 d2). split; [apply Rmin_pos; auto|]. intros t Ht.
  pose proof (Rmin_l d1 d2). pose proof (Rmin_r d1 d2).
  apply Rabs_def2 in Ht. destruct Ht as (T1 & T2). unfold d1, d2 in *.
  split; [destruct lb|destruct ub]; cbn in *; auto; lra.
Qed.

Lemma keeps_num : forall (lb ub : num) n x,
  Forall (fun r => nlt lb (Fin r) /\ nlt (Fin r) ub) x -> length x = n ->
  keeps (fun z => length z = n /\ Forall (fun r => nlt lb (Fin r) /\ nlt (Fin r) ub) z)
    (fun h => length h = n) x.
Proof.
  intros lb ub n x F L h. split; [intros (E & _); lia|]. intros Lh. split; [lia|].
  destruct (near_all (length x) (fun j t => nlt lb (Fin (nth j x 0 + t * nth j h 0)%R) /\
      nlt (Fin (nth j x 0 + t * nth j h 0)%R) ub) 0) as (r & Hr & H).
  - intros j Hj. destruct (Forall_nth' _ _ x j 0%R F Hj) as (Hl & Hu).
    destruct (inside_near _ _ _ Hl Hu) as (d & Hd & A).
    destruct (line_near x h (fun _ => d)) as (r & Hr & B); [auto|].
    exists r. split; auto. intros t Ht. rewrite Rminus_0_r in Ht. apply A. apply B; auto.
  - exists r. split; auto. intros t Ht. split; [rewrite line_length; lia|].
    apply Forall_forall. intros a Ha. destruct (In_nth _ _ 0%R Ha) as (j & Hj & <-).
    rewrite line_length in Hj by lia. rewrite nth_line by lia. apply H; [rewrite Rminus_0_r; auto|auto].
Qed.

(** *** simplexes *)
Lemma sum_line : forall x h t, length x = length h -> Rlsum (line x h t) = (Rlsum x + t * Rlsum h)%R.
Proof.
  unfold line. induction x; intros [|b h] t L; try discriminate; cbn [map2 Rlsum fold_right]; [ring|].
  change (fold_right Rplus 0%R) with Rlsum. rewrite IHx by (simpl in L; lia). ring.
Qed.

Lemma keeps_row : forall n x, length x = n -> Forall (Rlt 0) x -> Rlsum x = 1%R ->
  keeps (fun r => length r = n /\ Forall (Rlt 0) r /\ Rlsum r = 1%R)
    (fun r => length r = n /\ Rlsum r = 0%R) x.
Proof.
  intros n x Lx Fx Sx h. split.
  - intros (L & r & Hr & H). split; [lia|].
    destruct (H (r / 2)%R) as (_ & _ & S).
    { rewrite Rabs_right by lra. lra. }
    rewrite sum_line, Sx in S by auto.
    assert (r / 2 * Rlsum h = 0)%R as K by lra. apply Rmult_integral in K. destruct K; lra.
  - intros (Lh & Sh).
    assert (keeps (fun z => length z = n /\ Forall (fun r => nlt (Fin 0) (Fin r) /\ nlt (Fin r) PInf) z)
       (fun h => length h = n) x) as K.
    { apply keeps_num; auto. rewrite Forall_forall in *. intros r Hr. split; [apply (Fx r Hr)|exact I]. }
    destruct (proj2 (K h) Lh) as (L & r & Hr & H). split; auto. exists r. split; auto. intros t Ht.
    destruct (H t Ht) as (H1 & H2). split; auto. split.
    + rewrite Forall_forall in *. intros a Ha. apply (H2 a Ha).
    + rewrite sum_line, Sx, Sh by auto. ring.
Qed.

(** A list of blocks. *)
Definition blocks (P : list R -> Prop) (k : nat) (h : list R) : Prop :=
  exists hs : list (list R), length hs = k /\ h = concat hs /\ Forall P hs.
Lemma blocks_0 : forall P h, h = [] <-> blocks P 0 h.
Proof.
  intros P h. split.
  - intros ->. exists []. auto.
  - intros ([|] & L & -> & _); [auto|discriminate].
Qed.
Lemma blocks_S : forall P k h, joined P (blocks P k) h <-> blocks P (S k) h.
Proof.
  intros P k h. split.
  - intros (y & z & -> & Hy & hs & L & -> & F). exists (y :: hs). cbn. auto.
  - intros ([|y hs] & L & -> & F); [discriminate|]. inversion F; subst. exists y, (concat hs).
    split; auto. split; auto. exists hs. cbn in L. auto.
Qed.
Lemma keeps_blocks : forall (P D : list R -> Prop) n xs,
  (forall z, P z -> length z = n) -> (forall h, D h -> length h = n) ->
  (forall x, In x xs -> length x = n /\ keeps P D x) ->
  keeps (blocks P (length xs)) (blocks D (length xs)) (concat xs).
Proof.
  intros P D n xs LP LD. induction xs as [|x xs IH]; intros H.
  - eapply keeps_ext; [apply blocks_0|apply blocks_0|]. apply keeps_nil.
  - cbn [length concat]. eapply keeps_ext; [apply blocks_S|apply blocks_S|].
    destruct (H x (or_introl eq_refl)) as (Lx & Kx).
    apply keeps_joined; auto.
    + intros z Hz. rewrite Lx. auto.
    + intros z Hz. rewrite Lx. auto.
    + apply IH. intros y Hy. apply H. right. auto.
Qed.

(** *** positive definite matrices *)
Lemma inside_pivots : forall n c z, symmetric n (flat_mat n z) ->
  (pos_def n (minus_diag (flat_mat n z) c) <-> pivots_pos n c z).
Proof.
  intros n c z Hs.
  assert (forall i j, minus_diag (flat_mat n z) c i j = rmat n c z i j) as E.
  { intros i j. unfold minus_diag, rmat, flat_mat. destruct (i =? j); ring. }
  assert (symmetric n (rmat n c z)) as Hs'.
  { intros i j Hi Hj. unfold rmat. rewrite (Nat.eqb_sym j i). specialize (Hs i j Hi Hj). unfold flat_mat in Hs. lra. }
  split.
  - intros Hp. destruct (pos_def_chol n (rmat n c z) Hs') as (L & Hl & Hd & HA).
    { eapply pos_def_ext; [|exact Hp]. intros; apply E. }
    exact (pivot_pos _ L n Hl Hd (fun i j Hi Hj => HA i j Hi ltac:(lia))).
  - intros Hp. eapply pos_def_ext; [|apply (gram_pos_def n (rl (rmat n c z) n))].
    + intros i j Hi Hj. rewrite E. destruct (Nat.le_gt_cases j i).
      * symmetry. apply rl_gram; auto.
      * rewrite gram_sym, Hs' by auto. symmetry. apply rl_gram; auto. lia.
    + apply rl_lower.
    + intros i Hi. rewrite rl_diag by auto. apply Rgt_not_eq, sqrt_lt_R0. apply Hp. auto.
Qed.

Lemma keeps_psd : forall n c x, length x = n * n ->
  symmetric n (flat_mat n x) -> pos_def n (minus_diag (flat_mat n x) c) ->
  keeps (fun z => length z = n * n /\ symmetric n (flat_mat n z) /\ pos_def n (minus_diag (flat_mat n z) c))
    (symmetric_direction n) x.
Proof.
  intros n c x Lx Sx Px h. split.
  - intros (L & r & Hr & H). split; [lia|]. intros i j Hi Hj.
    destruct (H (r / 2)%R) as (_ & S & _).
    { rewrite Rabs_right by lra. lra. }
    specialize (S i j Hi Hj). unfold flat_mat in S. rewrite !nth_line in S by auto.
    specialize (Sx i j Hi Hj). unfold flat_mat in Sx.
    apply (Rmult_eq_reg_l (r / 2)%R); lra.
  - intros (L & Sh). split; [lia|].
    assert (forall t, symmetric n (flat_mat n (line x h t))) as Sl.
    { intros t i j Hi Hj. unfold flat_mat. rewrite !nth_line by lia.
      specialize (Sx i j Hi Hj). unfold flat_mat in Sx. rewrite Sx, Sh by auto. auto. }
    destruct (curve_pivots n c (line x h) 0 h) as (r & Hr & H).
    + intros k. apply line_lim. lia.
    + rewrite line_zero by lia. apply inside_pivots; auto.
    + exists r. split; auto. intros t Ht. split; [rewrite line_length; lia|]. split; auto.
      apply inside_pivots; auto. apply H. rewrite Rminus_0_r. auto.
Qed.

(** ** Trees *)
Lemma chain_length : forall (P : pat -> list R -> Prop) its h,
  Forall (fun kq => forall y, P (snd kq) y -> length y = pl_n (flat_len (snd kq) false)) its ->
  chain P its h -> length h = lsum (map (fun kq => pl_n (flat_len (snd kq) false)) its).
Proof.
  induction its as [|kq its IH]; intros h F H.
  - cbn in H. subst. auto.
  - destruct H as (y & z & -> & Hy & Hz). inversion F; subst. cbn [map lsum fold_right].
    rewrite app_length. f_equal; auto.
Qed.

Lemma leaves_length : forall (P : pat -> list R -> Prop),
  (forall p h, usable p -> (match p with PArr _ _ _ | PDict _ _ _ _ _ => False | _ => True end) ->
     P p h -> length h = pl_n (flat_len p false)) ->
  forall p, usable p -> forall h, flat_leaves P p h -> length h = pl_n (flat_len p false).
Proof.
  intros P HP. apply (pat_ind' (fun p => usable p -> forall h, flat_leaves P p h -> length h = pl_n (flat_len p false))).
  - intros. apply HP; auto.
  - intros. apply HP; auto.
  - intros. apply HP; auto.
  - intros s b fd IH (Hs & Hp & Hd & Hub) h (hs & L & -> & F).
    rewrite (concat_length_uniform _ (pl_n (flat_len b false))).
    + cbn [flat_len]. rewrite np_prod_int by auto. cbn. lia.
    + intros x Hx. rewrite Forall_forall in F. auto.
  - intros items l fl fd lk IH (Hne & Hnd & Hl & Hfl & Hu) h H. cbn [flat_len]. rewrite Hl. cbn [plint pl_n].
    apply (chain_length (flat_leaves P)); [|exact H].
    apply all_items_Forall in Hu. rewrite Forall_forall in *. intros kq Hkq. apply IH; auto.
Qed.

Lemma rows_length : forall (Q : list R -> Prop) n s (h : list R),
  (exists rows : list (list R), length rows = s /\ h = concat rows /\ Forall (fun r => length r = n /\ Q r) rows) ->
  length h = s * n.
Proof.
  intros Q n s h (rows & L & -> & F). rewrite <- L. apply concat_length_uniform. intros x Hx.
  rewrite Forall_forall in F. apply F. auto.
Qed.

Lemma inside_length : forall p, usable p -> forall z, inside p z -> length z = pl_n (flat_len p false).
Proof. intros p Hu z H. apply laid_out_inside in H; auto. apply H. Qed.

Lemma direction_length : forall p, usable p -> forall h, direction p h -> length h = pl_n (flat_len p false).
Proof.
  apply leaves_length. intros [k s lb ub dv fd|n s dv fd|n fl dlb dv fd|s b fd|its l fl fd lk] h Hu HT H;
    try contradiction.
  - cbn in H. cbn [flat_len]. destruct s; [exfalso; apply (proj1 Hu); auto|]. exact H.
  - cbn [flat_len]. rewrite simplex_flen. exact (rows_length _ _ _ _ H).
  - apply H.
Qed.

Lemma keeps_chain : forall its,
  Forall (fun kq => usable (snd kq) /\ forall x, inside (snd kq) x -> keeps (inside (snd kq)) (direction (snd kq)) x) its ->
  forall x, chain inside its x -> keeps (chain inside its) (chain direction its) x.
Proof.
  induction its as [|kq its IH]; intros F x H.
  - cbn in H. subst x. apply keeps_nil.
  - inversion F as [|? ? (Hu & K) F']; subst. destruct H as (y & z & -> & Hy & Hz).
    apply (keeps_joined (inside (snd kq)) (chain inside its) (direction (snd kq)) (chain direction its)); auto.
    + intros u Hu'. rewrite (inside_length _ Hu _ Hy). apply inside_length; auto.
    + intros u Hu'. rewrite (inside_length _ Hu _ Hy). apply direction_length; auto.
Qed.

Lemma keeps_tree : forall p, usable p -> forall x, inside p x -> keeps (inside p) (direction p) x.
Proof.
  apply (pat_ind' (fun p => usable p -> forall x, inside p x -> keeps (inside p) (direction p) x)).
  - intros k s lb ub dv fd Hu x (L & F). apply keeps_num; auto.
  - intros n s dv fd Hu x (rows & L & -> & F).
    pose proof (keeps_blocks (fun r => length r = n /\ Forall (Rlt 0) r /\ Rlsum r = 1%R)
      (fun r => length r = n /\ Rlsum r = 0%R) n rows) as K. rewrite L in K. apply K.
    + tauto.
    + tauto.
    + intros r Hr. rewrite Forall_forall in F. destruct (F r Hr) as (H1 & H2 & H3). split; auto. apply keeps_row; auto.
  - intros n fl dlb dv fd Hu x (L & c & Hc & Hs & Hp).
    eapply keeps_ext; [| |apply (keeps_psd n c x L Hs Hp)].
    + intros z. unfold inside. cbn [flat_leaves leaf_inside]. split.
      * intros (A & B). split; auto. exists c. auto.
      * intros (A & c' & Hc' & B). rewrite Hc in Hc'. injection Hc' as <-. auto.
    + intros z. reflexivity.
  - intros s b fd IH (Hs & Hpp & Hd & Hub) x (xs & L & -> & F). specialize (IH Hub).
    pose proof (keeps_blocks (inside b) (direction b) (pl_n (flat_len b false)) xs (inside_length b Hub)
      (direction_length b Hub)) as K. rewrite L in K. apply K.
    intros y Hy. rewrite Forall_forall in F. split; [apply inside_length; auto|apply IH; auto]; apply F; auto.
  - intros items l fl fd lk IH (Hne & Hnd & Hl & Hfl & Hu) x H.
    apply (keeps_chain items); [|exact H].
    apply all_items_Forall in Hu. rewrite Forall_forall in *. intros kq Hkq. split; [apply Hu; auto|].
    apply IH; auto.
Qed.

(** ** The flat vector of an interior value *)
Lemma interior_inside : forall p, usable p -> forall v, interior p v ->
  exists x, flatten_ snum p v false None = Ok (map Fin x) /\ inside p x.
Proof.
  assert (forall p a, usable p -> interior p (FArr a) -> is_dict p = false ->
    flatten_ snum p (FArr a) false None = Ok (dat a)) as Hfl.
  { intros p a Hu Hi Hd. destruct (interior_fv_arr _ _ Hu Hi) as (Hok & _).
    rewrite flatten_nonfree, interior_require by auto. cbn [bind]. destruct p; try discriminate; auto. }
  apply (pat_ind' (fun p => usable p -> forall v, interior p v ->
    exists x, flatten_ snum p v false None = Ok (map Fin x) /\ inside p x)).
  - intros k s lb ub dv fd Hu [a|d] Hi; [|contradiction].
    assert (length (dat a) = prod s) as L.
    { destruct Hi as ((Hok & [<-|(E & ->)]) & _); [apply Hok|]. unfold nd_ok in Hok. rewrite E in Hok. auto. }
    rewrite (Hfl _ _ Hu Hi eq_refl). destruct Hi as (_ & F).
    assert (exists x, dat a = map Fin x /\ Forall (fun r => nlt (pyval lb) (Fin r) /\ nlt (Fin r) (pyval ub)) x) as (x & E & G).
    { clear -F. induction F as [|y l ((r & ->) & Hr) F (x & -> & G)]; [exists []; auto|]. exists (r :: x). auto. }
    exists x. rewrite E. split; auto. split; auto. rewrite E, map_length in L. auto.
  - intros n s dv fd Hu [a|d] Hi; [|contradiction].
    rewrite (Hfl _ _ Hu Hi eq_refl). destruct Hi as (_ & rows & L & E & F).
    exists (concat rows). split; [congruence|]. exists rows. auto.
  - intros n fl dlb dv fd Hu [a|d] Hi; [|contradiction].
    rewrite (Hfl _ _ Hu Hi eq_refl). destruct Hi as (_ & m & c & E & Hc & Hs & Hp).
    exists (rrows n m). split; [rewrite E, rows_rrows; auto|]. split; [apply rrows_length|]. exists c. split; auto. split.
    + intros i j Hi Hj. rewrite !flat_rrows by auto. auto.
    + eapply pos_def_ext; [|exact Hp]. intros i j Hi Hj. unfold minus_diag. rewrite flat_rrows by auto. auto.
  - intros s b fd IH (Hs & Hpp & Hd & Hub) [a|d] Hi; [|contradiction].
    assert (exists xs, Forall2 (fun it y => flatten_ snum b (FArr (subarr a it (length s))) false None = Ok y)
       (indices s) (map (map Fin) xs) /\ length xs = length (indices s) /\ Forall (inside b) xs) as (xs & H1 & H2 & H3).
    { pose proof (interior_block s b fd a Hi) as Hb. revert Hb. generalize (indices s) as its.
      induction its as [|it its IHi]; intros Hb; [exists []; split; [constructor|auto]|].
      destruct (IH Hub _ (Hb it (or_introl eq_refl))) as (x & Ex & Ix).
      destruct IHi as (xs & H1 & H2 & H3); [intros; apply Hb; right; auto|].
      exists (x :: xs). split; [constructor; auto|]. split; [simpl; auto|]. constructor; auto. }
    exists (concat xs). split.
    + rewrite <- concat_map_fin. apply flatten_arr_build; auto. apply Hi.
    + exists xs. rewrite H2, indices_length. auto.
  - intros items l fl fd lk IH (Hne & Hnd & Hl & Hfl' & Hu) [a|d] Hi; [contradiction|].
    assert (exists xs, Forall2 (fun kq y => exists w, dict_get d (fst kq) = Some w /\
         flatten_ snum (snd kq) w false None = Ok y) items (map (map Fin) xs) /\ chain inside items (concat xs)) as (xs & H1 & H2).
    { cbn [interior] in Hi. clear -IH Hu Hi. induction items as [|[k q] items IHi].
      - exists []. split; [constructor|reflexivity].
      - inversion IH; subst. destruct Hu as (Hu1 & Hu). destruct Hi as ((w & Hw & Hi1) & Hi).
        destruct (H1 Hu1 w Hi1) as (x & Ex & Ix). destruct (IHi H2 Hu Hi) as (xs & A & B).
        exists (x :: xs). split; [constructor; [exists w; auto|auto]|]. exists x, (concat xs). auto. }
    exists (concat xs). split; [|exact H2].
    rewrite <- concat_map_fin. apply flatten_dict_build; auto.
Qed.

Theorem feasible_is_direction : forall p v x h, usable p -> interior p v ->
  flatten p v (Some false) None = Ok (map Fin x) -> (feasible p x h <-> direction p h).
Proof.
  intros p v x h Hu Hi Hx.
  assert (inside p x) as Hin.
  { destruct (interior_inside p Hu v Hi) as (x' & Hx' & Hin).
    change (flatten_ snum p v false None = Ok (map Fin x)) in Hx. rewrite Hx in Hx'. injection Hx' as E.
    apply map_fin_inj' in E. subst x'. exact Hin. }
  rewrite <- (keeps_tree p Hu x Hin h). unfold feasible, stays.
  split; intros (L & r & Hr & H); split; auto; exists r; split; auto; intros t Ht; apply fold_inside; auto.
Qed.
