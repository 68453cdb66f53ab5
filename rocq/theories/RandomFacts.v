(** * Random folded values. *)
From Coq Require Import Reals Lra Lia.
From Verif Require Import Base Num Nd Numeric Pattern Spec ListFacts PatFacts NumFacts Contract Api
  Random Jac SpecJac FunWrap SpecEnd EndFacts.
Local Open Scope list_scope.
Local Open Scope nat_scope.

Lemma draws_drawn : forall G (draw : G -> R * G) n g,
  drawn draw g (fst (draws draw n g)) (snd (draws draw n g)) /\ length (fst (draws draw n g)) = n.
Proof.
  induction n; intros g; cbn [draws].
  - split; [constructor|reflexivity].
  - destruct (draw g) as [r g1] eqn:E. specialize (IHn g1). destruct (draws draw n g1) as [l g2]. cbn in *.
    destruct IHn as [H L]. split; [econstructor; eauto|lia].
Qed.

Lemma random_value : forall G (draw : G -> R * G) p g, usable p ->
  exists v x g', random draw p g = (Ok v, g') /\ drawn draw g x g' /\
    flat_length p (Some true) = Ok (plint (length x)) /\
    admissible p v /\ (forall vv, validate snum p v vv = Ok None) /\
    (forall vv, flatten p v (Some true) vv = Ok (map Fin x)).
Proof.
  intros G draw p g U.
  pose proof (usable_int p true U) as I.
  set (n := pl_n (flat_len p true)).
  assert (L: flat_length p (Some true) = Ok (plint n)) by (apply flat_length_some; auto).
  destruct (draws_drawn G draw n g) as [D Ln].
  destruct (fold_admissible p (fst (draws draw n g)) n U L Ln) as (v & A & F & Fl).
  exists v, (fst (draws draw n g)), (snd (draws draw n g)).
  split; [|split; [exact D|split; [rewrite Ln; exact L|split; [exact A|split; [|exact Fl]]]]].
  - unfold random, as_index. rewrite I. fold n. destruct (draws draw n g) as [x g']. cbn in *. rewrite F. reflexivity.
  - intros vv. apply Free.interior_valid; auto. apply A.
Qed.

Lemma random_float_length : forall G (draw : G -> R * G) p g, pl_float (flat_len p true) = true ->
  random draw p g = (Err TypeError, g).
Proof. intros G draw p g H. unfold random, as_index. rewrite H. reflexivity. Qed.

Lemma drawn_unit : forall G (draw : G -> R * G), (forall g, (0 <= fst (draw g) < 1)%R) ->
  forall g x g', drawn draw g x g' -> Forall (fun r => (0 <= r < 1)%R) x.
Proof.
  intros G draw U g x g' D. induction D as [|g r g1 l g2 E D IH]; constructor; auto.
  specialize (U g). rewrite E in U. exact U.
Qed.

Lemma constrain1_range : forall lb ub r, nlt lb ub -> (0 <= r < 1)%R ->
  exists a, constrain1 lb ub (Fin r) = Fin a /\ drawn_range lb ub a.
Proof.
  intros lb ub r H Hr.
  assert (E1: (1 <= exp r)%R) by (rewrite <- exp_0; destruct (proj1 Hr) as [L| <-]; [left; apply exp_increasing; lra|lra]).
  assert (E2: (exp r < exp 1)%R) by (apply exp_increasing; lra).
  unfold constrain1.
  destruct lb as [l| | |], ub as [u| | |]; try contradiction; simpl in H; simpl neqb; cbv iota.
  - cbv zeta. cbn [nexp nsub nneg nadd nmul ndiv]. rewrite (proj2 (Reqb_false (1 + exp r) 0)) by lra. simpl.
    eexists. split; [reflexivity|].
    assert (Q: ((u + - l) * exp r / (1 + exp r) = (u - l) - (u - l) / (1 + exp r))%R) by (field; lra).
    assert (P: (0 < (u - l) / (1 + exp r) <= (u - l) / 2)%R).
    { split; [apply Rdiv_lt_0_compat; lra|]. apply Rmult_le_compat_l; [lra|]. apply Rinv_le_contravar; lra. }
    rewrite Q. lra.
  - eexists. split; [reflexivity|]. simpl. lra.
  - eexists. split; [reflexivity|]. simpl.
    replace (-1 * r)%R with (- r)%R by lra.
    assert (exp (- (1)) < exp (- r))%R by (apply exp_increasing; lra).
    assert (exp (- r) <= 1)%R by (rewrite <- exp_0; destruct (proj1 Hr) as [L| <-]; [left; apply exp_increasing; lra|rewrite Ropp_0; lra]).
    lra.
  - exists r. split; [reflexivity|]. simpl. lra.
Qed.

Lemma random_range : forall G (draw : G -> R * G) k shape lb ub dv fd g,
  usable (PNum k shape lb ub dv fd) -> (forall g, (0 <= fst (draw g) < 1)%R) ->
  exists a g', random draw (PNum k shape lb ub dv fd) g = (Ok (FArr a), g') /\ shp a = shape /\
    Forall (fun x => exists r, x = Fin r /\ drawn_range (pyval lb) (pyval ub) r) (dat a).
Proof.
  intros G draw k shape lb ub dv fd g U H.
  destruct (random_value G draw (PNum k shape lb ub dv fd) g U) as (v & x & g' & R & D & L & A & _ & Fl).
  pose proof (drawn_unit G draw H g x g' D) as Ux.
  destruct (fold_admissible _ x _ U L eq_refl) as (w & _ & Fw & Fl').
  assert (v = w).
  { destruct (admissible_unique _ v _ U L A) as (y & (Ly & Fy) & _).
    destruct (fold_admissible _ y _ U L Ly) as (v' & _ & Fv' & Flv'). rewrite Fv' in Fy. injection Fy as ->.
    specialize (Fl None). rewrite Flv' in Fl. injection Fl as Fl. apply map_Fin_inj in Fl. subst y.
    specialize (Fw None). rewrite Fv' in Fw. injection Fw; auto. }
  subst w. specialize (Fw None).
  assert (E: v = FArr (mkNd shape (map (constrain1 (pyval lb) (pyval ub)) (map Fin x)))).
  { unfold fold, fold_gen in Fw. cbn [free_with_default bind] in Fw. cbn [fold_] in Fw.
    apply flat_length_some in L; auto. cbn in L.
    rewrite atleast_vec, ndim_vec, size_vec, map_length, L, !Nat.eqb_refl in Fw. cbn [negb] in Fw.
    injection Fw as <-. unfold num_fold_free, nd_map. cbn [shp dat]. rewrite !map_id. reflexivity. }
  subst v. exists (mkNd shape (map (constrain1 (pyval lb) (pyval ub)) (map Fin x))), g'.
  split; [exact R|]. split; [reflexivity|]. cbn [dat]. rewrite map_map, Forall_map.
  eapply Forall_impl; [|exact Ux]. intros r Hr. cbn.
  destruct (constrain1_range (pyval lb) (pyval ub) r (proj2 U) Hr) as (a & E & Q). eauto.
Qed.
