(** * A concrete nested pattern and value, used to show that the hypotheses of
    the theorems are met. *)
From Coq Require Import Reals Lra String.
From Verif Require Import Base Num Nd Numeric Simplex Psd Pattern Spec ListFacts PatFacts
  NonFree NumFacts CholFacts Free Contract Build.
Local Open Scope list_scope.
Local Open Scope nat_scope.

Definition ks (s : string) : key := KStr (str s).

(** {'num': array (2,) in [0,1], 'simp': two 2-simplexes, 'cov': 2x2 PSD with
    diag_lb 1, 'arr': array (2,) of scalars >= -3, 'sub': {'x': unbounded scalar}} *)
Definition d_num := PNum KArray [2] (PyInt 0) (PyInt 1) true None.
Definition d_simp := PSimplex 2 [2] true (Some true).
Definition d_cov := PPsd 2 3 (PyInt 1) true None.
Definition d_arr := PArr [2] (PNum KScalar [1] (PyInt (-3)) py_inf true None) None.
Definition d_sub := PDict [(ks "x", PNum KScalar [1] py_ninf py_inf true (Some false))]
                      (plint 1) (plint 1) None true.
Definition demo : pat :=
  PDict [(ks "num", d_num); (ks "simp", d_simp); (ks "cov", d_cov); (ks "arr", d_arr);
         (ks "sub", d_sub)] (plint 13) (plint 10) (Some true) false.

Lemma demo_built : built demo.
Proof.
  assert (built d_num).
  { eapply built_num with (k := KArray). exact I. apply new_numeric_ok. split; [reflexivity|].
    split; [discriminate|]. simpl. lra. }
  assert (built d_simp) by (eapply (built_simplex 2); reflexivity).
  assert (built d_cov).
  { eapply (built_psd 2 (PyInt 1) true None).
    - unfold new_psd. cbn [pyval nltb]. rewrite (proj2 (Rltb_false _ _)); [reflexivity|]. simpl; lra.
    - eexists; reflexivity. }
  assert (built d_arr).
  { apply (built_array [2] (PNum KScalar [1] (PyInt (-3)) py_inf true None) None); [|reflexivity]. eapply built_num with (k := KScalar). reflexivity. apply new_numeric_ok.
    split; [reflexivity|]. split; [discriminate|]. simpl. auto. }
  assert (built d_sub).
  { apply (built_lock (PDict [(ks "x", PNum KScalar [1] py_ninf py_inf true (Some false))]
                      (plint 1) (plint 1) None false)).
    apply (built_set (new_dict None) (ks "x") (PNum KScalar [1] py_ninf py_inf true (Some false)));
      [apply built_dict| |reflexivity].
    eapply built_num with (k := KScalar). reflexivity. apply new_numeric_ok.
    split; [reflexivity|]. split; [discriminate|]. simpl. auto. }
  assert (exists p1 p2 p3 p4,
    setitem (new_dict (Some true)) (ks "num") d_num = Ok p1 /\
    setitem p1 (ks "simp") d_simp = Ok p2 /\ setitem p2 (ks "cov") d_cov = Ok p3 /\
    setitem p3 (ks "arr") d_arr = Ok p4 /\ setitem p4 (ks "sub") d_sub = Ok demo)
    as (p1 & p2 & p3 & p4 & E1 & E2 & E3 & E4 & E5).
  { do 4 eexists. repeat split; reflexivity. }
  apply (built_set p4 (ks "sub") d_sub); auto.
  apply (built_set p3 (ks "arr") d_arr); auto.
  apply (built_set p2 (ks "cov") d_cov); auto.
  apply (built_set p1 (ks "simp") d_simp); auto.
  apply (built_set (new_dict (Some true)) (ks "num") d_num); auto. apply built_dict.
Qed.

Lemma demo_usable : usable demo.
Proof.
  apply usable_of_built; [apply demo_built|].
  simpl. repeat split; auto; discriminate.
Qed.

Definition demo_value : fv num :=
  FDict [(ks "num", FArr (mkNd [2] [Fin (1/2); Fin (1/4)]));
         (ks "simp", FArr (mkNd [2; 2] [Fin (1/2); Fin (1/2); Fin (1/3); Fin (2/3)]));
         (ks "cov", FArr (mkNd [2; 2] [Fin 3; Fin 1; Fin 1; Fin 3]));
         (ks "arr", FArr (mkNd [2; 1] [Fin 5; Fin (-2)]));
         (ks "extra", FArr (mkNd [] [NaN]));
         (ks "sub", FDict [(ks "x", FArr (mkNd [] [Fin 7]))])].

Lemma demo_value_ok : fv_ok demo_value.
Proof. simpl. unfold nd_ok. simpl. tauto. Qed.

Lemma demo_interior : interior demo demo_value.
Proof.
  unfold demo, demo_value. cbn [interior all_items].
  repeat match goal with |- _ /\ _ => split end; auto.
  - eexists; split; [reflexivity|]. simpl. split; [split; [reflexivity|auto]|].
    repeat constructor; eauto; try (eexists; reflexivity); simpl; lra.
  - eexists; split; [reflexivity|]. simpl. split; auto.
    exists [[1/2; 1/2]; [1/3; 2/3]]%R. split; auto. split; auto.
    repeat constructor; simpl; lra.
  - eexists; split; [reflexivity|]. split; auto.
    exists (fun i j => if i =? j then 3%R else 1%R), 1%R. split; [reflexivity|].
    split; [reflexivity|]. split.
    + intros i j _ _. rewrite Nat.eqb_sym. auto.
    + intros x (i & Hi & Hx). unfold minus_diag. simpl.
      assert (0 < x O * x O + x 1%nat * x 1%nat)%R as Hp.
      { assert (i = 0 \/ i = 1) as [-> | ->] by lia.
        - pose proof (Rsqr_pos_lt _ Hx). pose proof (Rle_0_sqr (x 1%nat)). unfold Rsqr in *. lra.
        - pose proof (Rsqr_pos_lt _ Hx). pose proof (Rle_0_sqr (x O)). unfold Rsqr in *. lra. }
      pose proof (Rle_0_sqr (x O + x 1%nat)) as Hs. unfold Rsqr in Hs. lra.
  - eexists; split; [reflexivity|]. cbn [interior d_arr]. split; [reflexivity|]. split; [reflexivity|].
    intros i Hi. cbn in Hi. assert (i = 0 \/ i = 1) as [-> | ->] by lia; simpl;
      (split; [split; [reflexivity|auto]|]); repeat constructor; eauto; try (eexists; reflexivity);
      simpl; lra.
  - eexists; split; [reflexivity|]. simpl. split; auto. eexists; split; [reflexivity|].
    split; [split; [reflexivity|auto]|]. repeat constructor; eauto. eexists; reflexivity.
Qed.

Lemma demo_no_empty : no_empty demo.
Proof. simpl. repeat split; auto; discriminate. Qed.

Definition demo_flat : list num :=
  map Fin [1/2; 1/4; 1/2; 1/2; 1/3; 2/3; 3; 1; 1; 3; 5; -2; 7]%R.

Lemma demo_flatten : flatten demo demo_value (Some false) (Some true) = Ok demo_flat.
Proof.
  unfold flatten, flatten_gen. cbn [free_with_default bind].
  rewrite flatten_nonfree; [|apply demo_usable|apply demo_value_ok].
  rewrite (interior_require (Some true) _ _ demo_usable demo_interior). reflexivity.
Qed.
Lemma demo_fold : fold demo (vec demo_flat) (Some false) (Some true) = Ok (canon demo demo_value).
Proof.
  destruct (nonfree_fold_flatten _ snum (Some true) demo demo_value demo_flat demo_usable demo_value_ok demo_flatten)
    as (_ & H). exact H.
Qed.

Definition d_arr2 : pat := PArr [2; 3] (PNum KVector [2] py_ninf py_inf false None) None.
Lemma d_arr2_case : usable d_arr2 /\
  fold d_arr2 (vec (map Fin [1; 2; 3; 4; 5; 6; 7; 8; 9; 10; 11; 12]%R)) (Some false) (Some false)
  = Ok (FArr (mkNd [2; 3; 2] (map Fin [1; 2; 3; 4; 5; 6; 7; 8; 9; 10; 11; 12]%R))) /\
  In [1; 2] (indices [2; 3]) /\ ravel [1; 2] [2; 3] = 5.
Proof.
  split; [simpl; repeat split; auto; try discriminate; lia|]. split; [reflexivity|].
  split; [simpl; tauto | reflexivity].
Qed.

Lemma demo_value_nodup : NoDup (map fst (match demo_value with FDict d => d | FArr _ => [] end)).
Proof. simpl. repeat constructor; simpl; intuition discriminate. Qed.

(** A mask selecting num[1], simp[0,1], cov[1,0], arr[1,0] and sub['x']. *)
Definition demo_mask : fv bool :=
  FDict [(ks "num", FArr (mkNd [2] [false; true]));
         (ks "simp", FArr (mkNd [2; 2] [false; true; false; false]));
         (ks "cov", FArr (mkNd [2; 2] [false; false; true; false]));
         (ks "arr", FArr (mkNd [2; 1] [false; true]));
         (ks "sub", FDict [(ks "x", FArr (mkNd [1] [true]))])].
Lemma demo_mask_ok : fv_ok demo_mask /\ shape_fits demo demo_mask.
Proof.
  split; [simpl; unfold nd_ok; simpl; tauto|].
  unfold demo, demo_mask. cbn [shape_fits all_items].
  repeat match goal with |- _ /\ _ => split end; auto; eexists; (split; [reflexivity|]); simpl; auto.
  split; auto. eexists; split; [reflexivity|]. simpl; auto.
Qed.
Lemma demo_mask_indices :
  flat_indices demo demo_mask (Some false) = Ok [1; 3; 8; 11; 12] /\
  flat_indices demo demo_mask (Some true) = Ok [1; 2; 4; 5; 6; 8; 9].
Proof. split; reflexivity. Qed.

(** Scalars in [2, 5]; the value sits on the upper, then on the lower bound. *)
Definition d_two : pat := PNum KVector [3] (PyInt 2) (PyInt 5) true None.
Lemma d_two_usable : usable d_two.
Proof. simpl. split; [discriminate|lra]. Qed.
