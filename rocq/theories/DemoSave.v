(** * A concrete save. *)
From Coq Require Import Reals NArith Ascii String SpecFloat Lra.
From Verif Require Import Base Num Nd Numeric Simplex Psd Pattern Json PatJson SaveLoad Spec SpecJson
  ListFacts PatFacts NonFree NumFacts Free Contract Build JsonFacts PatJsonFacts JsonProps SaveFacts JsonInst Demo DemoJson.
Local Open Scope list_scope.
Local Open Scope nat_scope.

Definition s_extras : list (pystr * nd num) :=
  [(str "draws", mkNd [2; 1] [Fin 3; NaN]); (str "x", mkNd [] [Fin 1])].
Definition s_fs : fsys := fun f => if str_eqb f (str "old.npz") then Some [] else None.

Lemma demo_flatten_default : flatten_gen snum demo demo_value (Some false) None = Ok demo_flat.
Proof.
  unfold flatten_gen. cbn [free_with_default bind].
  rewrite flatten_nonfree; [|apply demo_usable|apply demo_value_ok].
  rewrite (interior_require None _ _ demo_usable demo_interior). reflexivity.
Qed.

Lemma save_case : float_io_ok demo_io /\ registers_builtins builtin_registry /\
  built demo /\ usable demo /\ string_keys demo /\ proper_keys demo /\ python_bounds demo /\ fv_ok demo_value /\
  NoDup (map fst s_extras) /\
  snd (save_folded demo_io s_fs (str "out") demo_value demo s_extras) = Ok tt /\
  forall m, In m (str "flat_val" :: str "pattern_json" :: map fst s_extras) -> str "draws" <> m ++ npy.
Proof.
  split; [apply demo_io_ok|]. split; [apply builtin_ok|]. split; [apply demo_built|]. split; [apply demo_usable|].
  destruct j_demo_keys as (H1 & H2 & H3 & _).
  split; [apply H1|]. split; [apply H2|]. split; [apply H3|]. split; [apply demo_value_ok|].
  split; [repeat constructor; cbn; intuition discriminate|].
  split.
  - apply save_succeeds. split; [eexists; apply demo_flatten_default|].
    intros n Hn Hin. cbn in Hn, Hin. repeat destruct Hn as [<-|Hn]; try contradiction; intuition discriminate.
  - intros m Hm E. cbn in Hm. repeat destruct Hm as [<-|Hm]; try contradiction; discriminate.
Qed.

Lemma no_extension_case : ~ (exists a, str "out" = a ++ npz) /\ (exists a, str "out.npz" = a ++ npz).
Proof.
  split.
  - rewrite <- ends_with_iff. discriminate.
  - exists (str "out"). reflexivity.
Qed.

(** A file written by hand: the text ends in NULs before it is stored. *)
Definition s_text : pystr := str "{""pattern"": ""paragami.numeric_array_patterns.NumericScalarPattern""}".
Definition s_data : archive := [(str "flat_val.npy", MArr (vec [Fin 3])); (str "pattern_json", MText s_text)].
Lemma foreign_case :
  savez (fun _ => None) (str "a.npz") [(str "t", MText (s_text ++ [0; 0]%N))] (str "a.npz") =
    Some [(str "t.npy", MText s_text)] /\
  load_folded demo_io builtin_registry (put (fun _ => None) (str "a.npz") s_data) (str "a.npz") =
    Ok (FArr (mkNd [1] [Fin 3]), PNum KScalar [1] py_ninf py_inf true None, s_data) /\
  load_folded demo_io builtin_registry (put (fun _ => None) (str "a.npz") (skipn 1 s_data)) (str "a.npz") = Err KeyError.
Proof.
  split; [vm_compute; reflexivity|].
  assert (forall d, put (fun _ => None) (str "a.npz") d (str "a.npz") = Some d) as E by reflexivity.
  assert (get_pattern_from_json demo_io builtin_registry s_text = Ok (PNum KScalar [1] py_ninf py_inf true None)) as Ep
    by (vm_compute; reflexivity).
  split.
  - destruct (foreign_file demo_io builtin_registry _ _ _ (E s_data)) as (_ & _ & H).
    { repeat constructor; cbn; intuition discriminate. }
    destruct (H s_text _ ltac:(left; cbn; auto) Ep) as (_ & H2 & _).
    apply (H2 (vec [Fin 3])).
    + right. split; [cbn; intuition discriminate|cbn; auto].
    + unfold fold_gen. cbn [free_with_default bind].
      destruct (fold_ snum (PNum KScalar [1] py_ninf py_inf true None) (vec [Fin 3]) false None) eqn:Ef;
        revert Ef; cbn; repeat match goal with |- context [Rlt_dec ?a ?b] => destruct (Rlt_dec a b) end; congruence.
  - destruct (foreign_file demo_io builtin_registry _ _ _ (E (skipn 1 s_data))) as (_ & _ & H).
    { repeat constructor; cbn; intuition discriminate. }
    destruct (H s_text _ ltac:(left; cbn; auto) Ep) as (H1 & _).
    apply H1. split; cbn; intuition discriminate.
Qed.
