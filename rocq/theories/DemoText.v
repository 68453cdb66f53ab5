(** * Concrete texts and accessors. *)
From Coq Require Import Reals NArith String Lra Lia.
From Verif Require Import Base Num Nd Numeric Simplex Psd Pattern Spec ListFacts PatFacts NumFacts Build Json
  Names SpecNames NamesFacts Demo DemoNames Text SpecText TextFacts TextProps TextMsg JsonInst PatJson SpecJson
  Access AccessFacts.
Local Open Scope list_scope.
Local Open Scope nat_scope.

Lemma demo_text : pat_text demo_io demo = Ok (
  str "OrderedDict:" ++ newline ++
  tab ++ str "[num] = NumericArrayPattern (2,) (lb=0, ub=1)" ++ newline ++
  tab ++ str "[simp] = SimplexArrayPattern (2,) of 2-d simplices" ++ newline ++
  tab ++ str "[cov] = PDMatrix 2x2 (diag_lb = 1)" ++ newline ++
  tab ++ str "[arr] = PatternArray (2,) of NumericArrayPattern (1,) (lb=-3, ub=inf)" ++ newline ++
  tab ++ str "[sub] = OrderedDict:" ++ newline ++
  tab ++ str "[x] = NumericArrayPattern (1,) (lb=-inf, ub=inf)").
Proof. vm_compute. reflexivity. Qed.
Lemma demo_text_case : string_keys demo /\ ~ string_keys d_int /\ pat_text demo_io d_int = Err TypeError.
Proof. split; [apply demo_string_keys|]. split; [apply d_int_case|reflexivity]. Qed.

(** The class of a numeric pattern and its defaults are not shown, a bound of another type is. *)
Lemma shown_case : float_io_ok demo_io /\ no_dict d_arr /\ python_bounds d_arr /\
  let one lb := PArr [2] (PNum KScalar [1] lb py_inf false (Some true)) None in
  same_shown d_arr (PArr [2] (PNum KArray [1] (PyInt (-3)) py_inf false (Some true)) (Some false)) /\
  ~ same_shown d_arr (one (PyInt 3)) /\ ~ same_shown d_arr (PArr [3] (PNum KArray [1] (PyInt (-3)) py_inf false (Some true)) None).
Proof.
  split; [apply demo_io_ok|]. split; [exact I|]. split; [cbn; auto|]. cbn. repeat split; auto.
  - intros (_ & _ & E & _). discriminate.
  - intros (E & _). discriminate.
Qed.

(** 2 x 1 values with an entry below -3. *)
Definition arr_low : nd num := mkNd [2; 1] [Fin 0; Fin (-4)].
Lemma low_message : nltb (Fin (-4)) (pyval (PyInt (-3))) = true /\
  shp arr_low = folded_shape d_arr /\
  validate_text demo_io snum d_arr (FArr arr_low) (Some true) =
    Ok (false, str "Bad value in location (1,): Value beneath lower bound.").
Proof.
  assert (Rltb (-4) (-3) = true) as H1 by (apply Rltb_true; lra).
  assert (Rltb 0 (-3) = false) as H0 by (apply Rltb_false; lra).
  split; [cbn; replace (IZR (-3)) with (-3)%R by reflexivity; exact H1|]. split; [reflexivity|].
  unfold d_arr, arr_low. cbn -[Rltb str]. 
  rewrite ?H0, ?H1. reflexivity.
Qed.
Lemma shape_messages :
  validate_text demo_io snum d_num (FArr (mkNd [3; 1] [Fin 0; Fin 0; Fin 0])) None =
    Ok (false, str "Wrong size for array. Expected shape: (2,) Got shape: (3, 1)") /\
  validate_text demo_io snum d_arr (FArr (mkNd [2] [Fin 0; Fin 0])) None =
    Ok (false, str "Wrong number of dimensions.  Expected 1, got 2.") /\
  validate_text demo_io snum d_arr (FArr (mkNd [3; 1] [Fin 0; Fin 0; Fin 0])) None =
    Ok (false, str "Wrong shape.  Expected (3, 1), got (2, 1).").
Proof. repeat split; vm_compute; reflexivity. Qed.

Definition two : pat := PDict [(ks "a", d_arr); (ks "b", d_arr)] (plint 4) (plint 4) None true.
Definition arr_good : nd num := mkNd [2; 1] [Fin 0; Fin 0].
Lemma good_message : validate_text demo_io snum d_arr (FArr arr_good) (Some true) = Ok (true, []).
Proof.
  assert (Rltb 0 (-3) = false) as H0 by (apply Rltb_false; lra).
  unfold d_arr, arr_good. cbn -[Rltb str]. rewrite ?H0. reflexivity.
Qed.
Lemma dict_messages :
  validate_text demo_io snum two (FDict [(ks "a", FArr arr_low); (ks "b", FArr arr_good)]) (Some true) =
    Ok (false, str "Bad value in location (1,): Value beneath lower bound. is not valid.") /\
  validate_text demo_io snum two (FDict [(ks "a", FArr arr_good); (ks "b", FArr arr_low)]) (Some true) =
    Ok (false, str "Bad value in location (1,): Value beneath lower bound. is not valid.") /\
  validate_text demo_io snum two (FDict [(ks "a", FArr arr_good)]) (Some true) =
    Ok (false, str "b not in folded_val dictionary.").
Proof.
  assert (ks "a" <> ks "b") as Hk by discriminate.
  destruct low_message as (_ & _ & H). 
  destruct (invalid_member_not_named _ demo_io snum d_arr (FArr arr_good) (FArr arr_low) (Some true) _ _
    (plint 4) (plint 4) None true _ Hk good_message H) as [A B].
  split; [exact A|]. split; [exact B|].
  unfold two. cbn [validate_text items_text dict_get]. rewrite key_eqb_refl.
  rewrite good_message. reflexivity.
Qed.
Lemma leaf_message_case :
  validate_text demo_io snum d_cov (FArr (mkNd [2; 2] [Fin 3; Fin 1; Fin 2; Fin 3])) None =
    Ok (false, str "Matrix is not symmetric.") /\
  validate_text demo_io snum d_cov (FArr (mkNd [2; 2] [Fin 3; Fin 1; Fin 2; Fin 0])) None =
    Ok (false, str "Diagonal is less than the lower bound 1.") /\
  validate_text demo_io snum d_num (FArr (mkNd [2] [Fin 3; Fin 1])) None =
    Ok (false, str "Value above upper bound.").
Proof.
  assert (forall a b, (b <= a)%R -> Rltb a b = false) as Hf by (intros; apply Rltb_false; lra).
  assert (forall a b, (a < b)%R -> Rltb a b = true) as Ht by (intros; apply Rltb_true; lra).
  repeat split; unfold d_cov, d_num; cbn -[Rltb Reqb str]; unfold Reqb;
    repeat (rewrite Hf by lra); repeat (rewrite Ht by lra); try reflexivity.
  destruct (Req_EM_T 2 1); [lra|]. destruct (Req_EM_T 3 3); [|lra]. reflexivity.
Qed.

Lemma access_case :
  shape_of demo = Err AttributeError /\ shape_of d_arr = Ok [2; 1] /\ shape_of d_cov = Ok [2; 2] /\
  dict_keys demo = Ok (map ks ["num"; "simp"; "cov"; "arr"; "sub"])%string /\
  dict_getitem demo (ks "cov") = Ok d_cov /\ dict_getitem demo (ks "none") = Err KeyError.
Proof. repeat split; reflexivity. Qed.
Lemma shape_case : usable d_arr /\ is_dict d_arr = false /\
  exists x v, fold_ snum d_arr x true None = Ok v /\ length (dat x) = prod (shp x).
Proof.
  split; [cbn; repeat split; auto; discriminate|]. split; [reflexivity|].
  exists (vec [Fin 0; Fin 0]). eexists. split; [|reflexivity]. reflexivity.
Qed.
Lemma valid_shape_case : validate snum d_arr (FArr arr_good) (Some true) = Ok None /\
  validate snum (PNum KScalar [1] py_ninf py_inf true None) (FArr (mkNd [] [Fin 7])) (Some true) = Ok None.
Proof.
  split; [|reflexivity]. apply (message_empty_iff_valid _ demo_io). apply good_message.
Qed.
Lemma keys_case : usable demo /\ dict_keys demo = Ok (map ks ["num"; "simp"; "cov"; "arr"; "sub"])%string /\
  exists d, fold demo (vec demo_flat) (Some false) (Some true) = Ok (FDict d) /\
    map fst d = map ks ["num"; "simp"; "cov"; "arr"; "sub"]%string.
Proof.
  split; [apply demo_usable|]. split; [reflexivity|]. eexists. split; [apply demo_fold|]. reflexivity.
Qed.
Lemma set_case : exists p', setitem demo (ks "cov") d_num = Ok p' /\
  dict_keys p' = dict_keys demo /\ dict_getitem p' (ks "cov") = Ok d_num.
Proof. eexists. split; [reflexivity|]. split; reflexivity. Qed.
Lemma del_case : exists p', delitem demo (ks "cov") = Ok p' /\
  dict_keys p' = Ok (map ks ["num"; "simp"; "arr"; "sub"])%string.
Proof. eexists. split; reflexivity. Qed.
Lemma constructed_case :
  new_numeric_vector 3 py_ninf py_inf true None = Ok (PNum KVector [3] py_ninf py_inf true None) /\
  new_numeric_scalar py_ninf py_inf true None = Ok (PNum KScalar [1] py_ninf py_inf true None) /\
  new_simplex (Z.of_nat 3) [2] true None = Ok (PSimplex 3 [2] true None) /\
  new_psd 3 1 (PyInt 0) true None = Ok (PPsd 3 6 (PyInt 0) true None) /\
  new_pattern_array [2; 2] d_num None = Ok (PArr [2; 2] d_num None).
Proof.
  split; [reflexivity|]. split; [reflexivity|]. split; [reflexivity|]. split; [|reflexivity].
  unfold new_psd. cbn [pyval nltb]. rewrite (proj2 (Rltb_false _ _)); [reflexivity|]. simpl; lra.
Qed.
