(** * Concrete names; collisions; the missing default of [free]. *)
From Coq Require Import Reals NArith String Lra.
From Verif Require Import Base Num Nd Numeric Simplex Psd Pattern Spec ListFacts PatFacts NumFacts Build Json
  Names SpecNames NamesFacts Demo.
Local Open Scope list_scope.
Local Open Scope nat_scope.

Lemma demo_string_keys : string_keys demo.
Proof. cbn. repeat split; try (eexists; reflexivity). Qed.
Lemma demo_no_underscore : no_underscore demo.
Proof.
  cbn. repeat split; intros s E; injection E as <-; cbn; intuition discriminate.
Qed.
Lemma demo_clear : clear_keys (str "/") demo.
Proof.
  split.
  - intros s t Hs Ht Hst (c & E). cbn in Hs, Ht.
    repeat (destruct Hs as [Hs|Hs]; [injection Hs as <-|]); try contradiction;
      repeat (destruct Ht as [Ht|Ht]; [injection Ht as <-|]); try contradiction;
      try (apply Hst; reflexivity); discriminate E.
  - cbn. repeat split; auto.
    intros s t [Hs|[]] [Ht|[]] Hst. injection Hs as <-. injection Ht as <-. congruence.
Qed.

Definition texts (l : list string) : list pystr := map str l.

Lemma demo_names :
  flat_names demo (Some false) = Ok (texts
    ["num_[0]"; "num_[1]"; "simp_0"; "simp_1"; "simp_2"; "simp_3"; "cov_0"; "cov_1"; "cov_2";
     "cov_3"; "arr_0"; "arr_1"; "sub_x_[0]"]%string) /\
  flat_names_delim demo (Some true) (str "/") = Ok (texts
    ["num/[0]"; "num/[1]"; "simp/0"; "simp/1"; "cov/0"; "cov/1"; "cov/2"; "arr/0"; "arr/1";
     "sub/x_[0]"]%string).
Proof. split; reflexivity. Qed.

(** A 12 x 2 x 3 array: position 67 is [11,0,1]. *)
Definition d_wide : pat := PNum KArray [12; 2; 3] py_ninf py_inf true None.
Lemma d_wide_case :
  usable d_wide /\
  (exists names, flat_names d_wide None = Ok names /\ nth_error names 67 = Some (str "[11,0,1]")) /\
  bracketed [11; 0; 1] (str "[11,0,1]") /\ row_major [11; 0; 1] [12; 2; 3] = 67.
Proof.
  split; [cbn; split; [discriminate|exact I]|]. split.
  - eexists. split; reflexivity.
  - split; [exact (item_bracketed [11; 0; 1])|reflexivity].
Qed.

Lemma demo_plain_case : usable d_cov /\
  flat_names d_cov (Some true) = Ok (texts ["0"; "1"; "2"]%string) /\ numeral_of 2 (str "2").
Proof.
  split; [apply usable_of_built; [|exact I]|split; [reflexivity|exact (nat_numeral 2)]].
  eapply (built_psd 2 (PyInt 1) true None).
  - unfold new_psd. cbn [pyval nltb]. rewrite (proj2 (Rltb_false _ _)); [reflexivity|]. simpl; lra.
  - eexists; reflexivity.
Qed.

(** {'a': {'b': scalar}, 'a_b': scalar}. *)
Definition d_scalar : pat := PNum KScalar [1] py_ninf py_inf true None.
Definition d_inner : pat := PDict [(ks "b", d_scalar)] (plint 1) (plint 1) None true.
Definition d_clash : pat :=
  PDict [(ks "a", d_inner); (ks "a_b", d_scalar)] (plint 2) (plint 2) None false.

Lemma d_scalar_built : built d_scalar.
Proof.
  eapply built_num with (k := KScalar). reflexivity. apply new_numeric_ok.
  split; [reflexivity|]. split; [discriminate|]. simpl. auto.
Qed.
Lemma d_clash_built : built d_clash.
Proof.
  assert (built d_inner).
  { apply (built_lock (PDict [(ks "b", d_scalar)] (plint 1) (plint 1) None false)).
    apply (built_set (new_dict None) (ks "b") d_scalar);
      [apply built_dict|apply d_scalar_built|reflexivity]. }
  apply (built_set (PDict [(ks "a", d_inner)] (plint 1) (plint 1) None false) (ks "a_b") d_scalar);
    [|apply d_scalar_built|reflexivity].
  apply (built_set (new_dict None) (ks "a") d_inner); [apply built_dict|auto|reflexivity].
Qed.

Lemma names_collide :
  exists p names i j name, built p /\ usable p /\ string_keys p /\
    flat_names p (Some false) = Ok names /\ i <> j /\
    nth_error names i = Some name /\ nth_error names j = Some name.
Proof.
  exists d_clash, (texts ["a_b_[0]"; "a_b_[0]"]%string), 0, 1, (str "a_b_[0]").
  split; [apply d_clash_built|].
  split; [apply usable_of_built; [apply d_clash_built|cbn; repeat split; auto; discriminate]|].
  split; [cbn; repeat split; try (eexists; reflexivity)|]. split; [reflexivity|]. split; [discriminate|].
  split; reflexivity.
Qed.

(** ** [free=None] *)

(** {'s': simplex of size 3, default not free} with default free. *)
Definition d_mixed (fd : option bool) : pat :=
  PDict [(ks "s", PSimplex 3 [] true fd)] (plint 3) (plint 2) (Some true) false.
Lemma d_mixed_built : forall fd, built (d_mixed fd).
Proof.
  intros fd. apply (built_set (new_dict (Some true)) (ks "s") (PSimplex 3 [] true fd)).
  - apply built_dict.
  - eapply (built_simplex 3). reflexivity.
  - reflexivity.
Qed.

Lemma names_default_ignored :
  exists p names l, built p /\ usable p /\ string_keys p /\
    flat_names p None = Ok names /\ flat_length p None = Ok l /\ pl_n l <> List.length names.
Proof.
  exists (d_mixed (Some false)), (texts ["s_0"; "s_1"; "s_2"]%string), (plint 2).
  split; [apply d_mixed_built|].
  split; [apply usable_of_built; [apply d_mixed_built|cbn; repeat split; auto; discriminate]|].
  split; [cbn; repeat split; try (eexists; reflexivity)|]. split; [reflexivity|]. split; [reflexivity|]. discriminate.
Qed.

Lemma names_default_missing :
  exists p l, built p /\ usable p /\ string_keys p /\
    flat_length p None = Ok l /\ flat_names p None = Err ValueError.
Proof.
  exists (d_mixed None), (plint 2).
  split; [apply d_mixed_built|].
  split; [apply usable_of_built; [apply d_mixed_built|cbn; repeat split; auto; discriminate]|].
  split; [cbn; repeat split; try (eexists; reflexivity)|]. split; reflexivity.
Qed.

(** When every default of the tree is the same, [None] means that default. *)
Lemma flat_len_set_fd : forall g p f, flat_len (set_fd g p) f = flat_len p f.
Proof.
  intros g p f. induction p using pat_ind'; try reflexivity.
  cbn [set_fd flat_len]. rewrite IHp. reflexivity.
Qed.
Lemma names_none : forall g p d,
  flat_names_delim (set_fd (Some g) p) None d = flat_names_delim p (Some g) d.
Proof.
  intros g p. induction p using pat_ind'; intros dl; try reflexivity.
  - cbn [set_fd flat_names_delim]. unfold flat_length.
    cbn [free_with_default free_default bind].
    change (PArr s (set_fd (Some g) p) (Some g)) with (set_fd (Some g) (PArr s p fd)).
    rewrite flat_len_set_fd. reflexivity.
  - cbn [set_fd]. rewrite !flat_names_dict. f_equal.
    induction items as [|[k q] items IH]; [reflexivity|].
    inversion_clear H as [|? ? H1 H2]. cbn [mapM]. unfold member_names at 1 3. cbn [fst snd] in *.
    rewrite H1. rewrite (IH H2). reflexivity.
Qed.

(** Errors: an empty dictionary, an int key. *)
Lemma names_empty_dict : forall l fl fd lk f d,
  flat_names_delim (PDict [] l fl fd lk) f d = Err IndexError.
Proof. reflexivity. Qed.
Definition d_int : pat := PDict [(KInt 0, d_scalar)] (plint 1) (plint 1) None false.
Lemma d_int_case : usable d_int /\ ~ string_keys d_int /\ flat_names d_int (Some true) = Err TypeError.
Proof.
  split; [|split; [|reflexivity]].
  - cbn. repeat split; auto; try discriminate. repeat constructor. auto.
  - cbn. intros (((s & H) & _) & _). discriminate.
Qed.
