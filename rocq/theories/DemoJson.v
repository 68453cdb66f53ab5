(** * Concrete patterns for the JSON theorems, and the cases outside them. *)
From Coq Require Import Reals NArith Ascii String SpecFloat Lra.
From Verif Require Import Base Num Nd Numeric Simplex Psd Pattern Json PatJson Spec SpecJson
  ListFacts PatFacts NumFacts Contract Build JsonFacts PatJsonFacts JsonProps JsonOdd JsonInst RegProps Demo.
Local Open Scope list_scope.
Local Open Scope nat_scope.

Lemma builtin_ok : registers_builtins builtin_registry.
Proof. apply (builtins_registered []). intros c d []. Qed.

(** 0.5 and 1.0 *)
Definition f_half : spec_float := S754_finite false 4503599627370496 (-53).
Definition f_one : spec_float := S754_finite false 4503599627370496 (-52).
Lemma f_half_ok : finite64 f_half.
Proof. split; [vm_compute; reflexivity|exact I]. Qed.
Lemma f_one_ok : finite64 f_one.
Proof. split; [vm_compute; reflexivity|exact I]. Qed.
Lemma pow_neg : forall n, powerRZ 2 (Z.neg n) = (/ IZR (2 ^ Zpos n))%R.
Proof. intros. cbn [powerRZ]. rewrite pow_IZR, positive_nat_Z. auto. Qed.
Lemma f_one_value : pyval (PyFloat f_one) = pyval (PyInt 1).
Proof.
  cbn [pyval f_one sf2num]. rewrite pow_neg. f_equal.
  replace (2 ^ 52)%Z with 4503599627370496%Z by reflexivity. field.
Qed.
Lemma f_half_value : pyval (PyFloat f_half) = Fin (1/2).
Proof.
  cbn [pyval f_half sf2num]. rewrite pow_neg. f_equal.
  replace (2 ^ 53)%Z with 9007199254740992%Z by reflexivity. field.
Qed.

(** A dictionary with a key holding an accented letter, a quotation mark, an
    emoji, a line break and a lone surrogate: array (2, 1) of scalars >= 0.5; and
    a key 'sub': [demo]. *)
Definition odd_key : key := KStr [233; 34; 128512; 10; 55296]%N.
Definition j_scalar := PNum KScalar [1] (PyFloat f_half) py_inf false (Some true).
Definition j_arr := PArr [2; 1] j_scalar (Some false).
Definition j_items := [(odd_key, j_arr); (ks "sub", lock_pat demo)].
Definition j_demo : pat := PDict j_items (plint 15) (plint 12) (Some false) false.

Lemma j_scalar_built : built j_scalar.
Proof.
  eapply built_num with (k := KScalar). reflexivity. apply new_numeric_ok. split; [reflexivity|].
  split; [discriminate|]. rewrite f_half_value. exact I.
Qed.
Lemma j_demo_built : built j_demo.
Proof.
  assert (built j_arr) by (apply (built_array [2; 1] j_scalar (Some false)); [apply j_scalar_built|reflexivity]).
  assert (exists p1, setitem (new_dict (Some false)) odd_key j_arr = Ok p1 /\ setitem p1 (ks "sub") demo = Ok j_demo)
    as (p1 & E1 & E2).
  { eexists. split; reflexivity. }
  apply (built_set p1 (ks "sub") demo); auto; [|apply demo_built].
  apply (built_set (new_dict (Some false)) odd_key j_arr); auto. apply built_dict.
Qed.
Lemma j_demo_keys : string_keys j_demo /\ proper_keys j_demo /\ python_bounds j_demo /\ never_emptied j_demo.
Proof.
  repeat match goal with |- _ /\ _ => split end; cbn; auto; try lia; try discriminate;
    repeat match goal with |- _ /\ _ => split end; auto; try lia; try (eexists; reflexivity); try discriminate;
    try (intros; split; discriminate); try (intros; discriminate).
Qed.

(** Its text reads back, as the theorem says; here computed. *)
Lemma j_demo_case : float_io_ok demo_io /\ registers_builtins builtin_registry /\ built j_demo /\
  string_keys j_demo /\ proper_keys j_demo /\ python_bounds j_demo /\ never_emptied j_demo /\
  get_pattern_from_json demo_io builtin_registry (to_json demo_io j_demo) = Ok (reread j_demo) /\
  reread j_demo <> j_demo.
Proof.
  destruct j_demo_keys as (H1 & H2 & H3 & H4).
  repeat match goal with |- _ /\ _ => split end; auto using demo_io_ok, builtin_ok, j_demo_built.
  - exact (proj1 (json_reads_back demo_io builtin_registry j_demo demo_io_ok builtin_ok j_demo_built H1 H2 H3)).
  - discriminate.
Qed.

(** ** Keys that are not proper text *)
Definition u_scalar : pat := PNum KScalar [1] py_ninf py_inf true None.
Definition one_dict (k : key) (q : pat) : pat :=
  PDict [(k, lock_pat q)] (items_len [(k, lock_pat q)] false) (items_len [(k, lock_pat q)] true) None false.
Lemma u_scalar_built : built u_scalar.
Proof.
  eapply built_num with (k := KScalar). reflexivity. apply new_numeric_ok. split; [reflexivity|].
  split; [discriminate|]. exact I.
Qed.
Lemma one_dict_built : forall k q, built q -> built (one_dict k q).
Proof.
  intros k q H. apply (built_set (new_dict None) k q); auto. apply built_dict.
Qed.

Definition pair_key : key := KStr [55296; 56320]%N.
Definition merged_key : key := KStr [65536]%N.

Theorem surrogate_pair_key : forall io, exists q,
  built (one_dict pair_key u_scalar) /\ string_keys (one_dict pair_key u_scalar) /\
  get_pattern_from_json io builtin_registry (to_json io (one_dict pair_key u_scalar)) = Ok q /\
  q = one_dict merged_key u_scalar /\
  pat_eqb io q (one_dict pair_key u_scalar) = false.
Proof.
  intros io. exists (one_dict merged_key u_scalar).
  split; [apply one_dict_built, u_scalar_built|].
  split; [cbn; split; auto; split; auto; eexists; reflexivity|].
  split; [vm_compute; reflexivity|]. split; auto.
Qed.

Theorem surrogate_pair_nested : forall io,
  let p := one_dict (ks "a") (one_dict pair_key u_scalar) in
  let q := one_dict (ks "a") (one_dict merged_key u_scalar) in
  let v := FDict [(ks "a", FDict [(merged_key, FArr (mkNd [1] [Fin 0]))])] in
  built p /\ built q /\ pat_eqb io p q = true /\
  validate snum q v (Some false) = Ok None /\
  exists m, validate snum p v (Some false) = Ok (Some m).
Proof.
  intros io. cbv zeta.
  split; [do 2 apply one_dict_built; apply u_scalar_built|].
  split; [do 2 apply one_dict_built; apply u_scalar_built|].
  split.
  - apply pat_eqb_iff.
    + cbn. repeat constructor. intros [].
    + cbn [looks_same one_dict]. split; [reflexivity|]. vm_compute. reflexivity.
  - split; [vm_compute; reflexivity|]. eexists. vm_compute. reflexivity.
Qed.

(** ** A dictionary whose last member was deleted *)
Definition emptied : pat := PDict [] (mkLen 0 true) (mkLen 0 true) None false.
Lemma emptied_built : built emptied.
Proof.
  apply (built_del (one_dict (ks "a") u_scalar) (ks "a")).
  - apply one_dict_built, u_scalar_built.
  - vm_compute. reflexivity.
Qed.
Theorem emptied_json : forall io,
  built emptied /\
  get_pattern_from_json io builtin_registry (to_json io emptied) = Ok (new_dict None) /\
  pat_eqb io emptied (new_dict None) = true /\
  empty_bool emptied true = Err TypeError /\ empty_bool (new_dict None) true = Ok (FDict []).
Proof.
  intros io. split; [apply emptied_built|]. repeat split; vm_compute; reflexivity.
Qed.

(** ** A PSD pattern built with a fractional size *)
Theorem fractional_psd_equal : forall io dv fd, exists p q,
  new_psd 5 2 (PyInt 0) dv fd = Ok p /\ new_psd 2 1 (PyInt 0) dv fd = Ok q /\
  pat_eqb io p q = true /\
  flat_length p (Some true) = Ok (plint 4) /\ flat_length q (Some true) = Ok (plint 3).
Proof.
  intros io dv fd. exists (PPsd 2 4 (PyInt 0) dv fd), (PPsd 2 3 (PyInt 0) dv fd).
  unfold new_psd. cbn [pyval nltb]. rewrite (proj2 (Rltb_false _ _)) by lra.
  split; [reflexivity|]. split; [reflexivity|]. split.
  - apply pat_eqb_iff; [exact I|]. cbn. repeat split; auto; discriminate.
  - split; reflexivity.
Qed.

(** ** Integer keys *)
Definition int_dict : pat := one_dict (ks "a") (one_dict (KInt 7) j_scalar).
Lemma int_dict_case : built int_dict /\ python_bounds int_dict /\ proper_keys int_dict /\ ~ string_keys int_dict.
Proof.
  split; [do 2 apply one_dict_built; apply j_scalar_built|].
  split; [cbn; auto|]. split.
  - cbn. repeat split; auto; lia.
  - cbn. intros [[_ [[[s H] _] _]] _]. discriminate.
Qed.

(** ** Equal bounds, unequal texts *)
Lemma bounds_case : exists p q,
  new_numeric_kind KScalar [1] (PyInt 1) py_inf true None = Ok p /\
  new_numeric_kind KScalar [1] (PyFloat f_one) py_inf true None = Ok q.
Proof.
  exists (PNum KScalar [1] (PyInt 1) py_inf true None), (PNum KScalar [1] (PyFloat f_one) py_inf true None).
  split; apply new_numeric_ok; (split; [reflexivity|]); (split; [discriminate|]); exact I.
Qed.

(** ** Objects that are no patterns *)
Lemma no_pattern_case : exists d,
  loads demo_io (str "{""a"": 1, ""b"": [true, null, -2.5]}") = Ok (ODict d) /\
  dict_get d (KStr (str "pattern")) = None.
Proof. eexists. split; [vm_compute; reflexivity|vm_compute; reflexivity]. Qed.
Lemma unregistered_case : exists d,
  loads demo_io (str " { ""pattern"" : ""x.Y"" } ") = Ok (ODict d) /\
  dict_get d (KStr (str "pattern")) = Some (OStr (str "x.Y")) /\
  dict_get builtin_registry (KStr (str "x.Y")) = None.
Proof. eexists. split; [vm_compute; reflexivity|split; vm_compute; reflexivity]. Qed.
Lemma not_object_case :
  loads demo_io (str "[1, 2") = Err ValueError /\ loads demo_io (str "[1, 2]") = Ok (OSeq [ONum (PyInt 1); ONum (PyInt 2)]).
Proof. split; vm_compute; reflexivity. Qed.

(** ** Registrations: f, then f refused, g, f overwritten, f refused again *)
Definition reg_calls : list (pystr * nat * bool) :=
  [(str "f", 1, false); (str "f", 2, false); (str "g", 3, true); (str "f", 4, true); (str "f", 5, false)].
Lemma reg_case :
  register_run [] reg_calls =
    ([(KStr (str "f"), 4); (KStr (str "g"), 3)], [None; Some ValueError; None; None; Some ValueError]).
Proof. vm_compute. reflexivity. Qed.
