(** * Concrete cases for the theorems about shared memory. *)
From Coq Require Import Reals Lra Lia String.
From Verif Require Import Base Num Nd Numeric Pattern Spec Api Build Demo Alias SpecAlias AliasFacts AliasFlat.
Local Open Scope list_scope.
Local Open Scope nat_scope.

(** The nested pattern, with a heap of two buffers: something else, and a vector that
    starts at entry 1 of its buffer. *)
Definition alias_heap (n : nat) : bufs := [[Fin 9]; Fin 8 :: repeat (Fin 0) n].
Definition alias_x (n : nat) : aref := mkRef 1 1 [n].
Lemma alias_x_ok : forall n, r_ok (alias_heap n) (alias_x n).
Proof. intros n. unfold r_ok. cbn. rewrite repeat_length. lia. Qed.

Lemma fst_pair : forall A B (m : A * B) a, fst m = a -> m = (a, snd m).
Proof. intros A B [a b] c H. cbn in *. congruence. Qed.

Definition refs_free : hv :=
  HDict [(ks "num", HArr (mkRef 2 0 [2])); (ks "simp", HArr (mkRef 3 0 [2; 2])); (ks "cov", HArr (mkRef 4 0 [2; 2]));
         (ks "arr", HArr (mkRef 7 0 [2; 1])); (ks "sub", HDict [(ks "x", HArr (mkRef 8 0 [1]))])].
Lemma fold_free_case : usable demo /\ r_ok (alias_heap 10) (alias_x 10) /\
  exists h', hfold demo (alias_x 10) (Some true) None (alias_heap 10) = (Ok refs_free, h').
Proof.
  split; [exact demo_usable|]. split; [apply alias_x_ok|].
  eexists. apply fst_pair. lazy. reflexivity.
Qed.

(** With [free=False] the array of scalars (and nothing else) is new. *)
Definition refs_view : hv :=
  HDict [(ks "num", HArr (mkRef 1 1 [2])); (ks "simp", HArr (mkRef 1 3 [2; 2])); (ks "cov", HArr (mkRef 1 7 [2; 2]));
         (ks "arr", HArr (mkRef 2 0 [2; 1])); (ks "sub", HDict [(ks "x", HArr (mkRef 1 13 [1]))])].
Lemma fold_view_refs : exists h',
  hfold demo (alias_x 13) (Some false) (Some false) (alias_heap 13) = (Ok refs_view, h').
Proof. eexists. apply fst_pair. lazy. reflexivity. Qed.
Lemma members_case : nth_error (arrays refs_view) 0 = Some (mkRef 1 1 [2]) /\
  nth_error (arrays refs_view) 4 = Some (mkRef 1 13 [1]) /\ apart (mkRef 1 1 [2]) (mkRef 1 13 [1]).
Proof. split; [reflexivity|]. split; [reflexivity|]. unfold apart. cbn. lia. Qed.
Lemma fold_view_case : usable demo /\ r_ok (alias_heap 13) (alias_x 13) /\
  exists h', hfold demo (alias_x 13) (Some false) (Some false) (alias_heap 13) = (Ok refs_view, h').
Proof. split; [exact demo_usable|]. split; [apply alias_x_ok|]. exact fold_view_refs. Qed.

Lemma array_case : usable d_arr2 /\ r_ok (alias_heap 12) (alias_x 12) /\
  exists h', hfold d_arr2 (alias_x 12) (Some false) None (alias_heap 12) = (Ok (HArr (mkRef 2 0 [2; 3; 2])), h').
Proof.
  split; [apply d_arr2_case|]. split; [apply alias_x_ok|]. eexists. apply fst_pair. lazy. reflexivity.
Qed.

(** {'num': array (2,) in [0,1], 'sub': {'x': unbounded scalar}}: no array of patterns. *)
Definition d_plain : pat := PDict [(ks "num", d_num); (ks "sub", d_sub)] (plint 3) (plint 3) None false.
Lemma d_plain_usable : usable d_plain.
Proof.
  pose proof demo_usable as U. unfold demo, d_plain in *. cbn [usable all_items] in *.
  repeat match goal with H : _ /\ _ |- _ => destruct H end.
  repeat match goal with |- _ /\ _ => split end; auto; try discriminate.
  repeat constructor; cbn; intros [E|[]] || intros []; discriminate E.
Qed.
Lemma flatten_alias_case : v_ok (alias_heap 3) (HDict [(ks "num", HArr (mkRef 1 1 [2]));
      (ks "sub", HDict [(ks "x", HArr (mkRef 1 3 [1]))])]) /\
  exists h', hflatten d_plain (HDict [(ks "num", HArr (mkRef 1 1 [2]));
      (ks "sub", HDict [(ks "x", HArr (mkRef 1 3 [1]))])]) (Some false) (Some false) (alias_heap 3)
    = (Ok (mkRef 5 0 [3]), h').
Proof.
  split; [repeat constructor|]. eexists. apply fst_pair. lazy. reflexivity.
Qed.
Lemma reference_case : usable d_plain /\ no_arrays d_plain /\ r_ok (alias_heap 3) (alias_x 3) /\
  flat_length d_plain (Some false) = Ok (plint 3) /\
  hfold d_plain (alias_x 3) (Some false) (Some false) (alias_heap 3) =
    (Ok (HDict [(ks "num", HArr (mkRef 1 1 [2])); (ks "sub", HDict [(ks "x", HArr (mkRef 1 3 [1]))])]), alias_heap 3) /\
  nth 1 (dat (r_get (alias_heap 3) (alias_x 3))) NaN <> Fin 1 /\
  h_read (r_set (alias_heap 3) (alias_x 3) 1 (Fin 1)) (HArr (mkRef 1 1 [2])) = FArr (mkNd [2] [Fin 0; Fin 1]).
Proof.
  split; [exact d_plain_usable|]. split; [cbn; tauto|]. split; [apply alias_x_ok|]. split; [reflexivity|].
  split; [lazy; reflexivity|]. split; [|reflexivity]. cbn. intros E. injection E as E. lra.
Qed.

(** "Never return a reference", stated for [fold]. *)
Lemma fold_copies_refuted : ~ (forall p x f vv h v h', usable p -> r_ok h x ->
  hfold p x (Some f) vv h = (Ok v, h') -> forall h2, wrote [x] h' h2 -> h_read h2 v = h_read h' v).
Proof.
  intros H. destruct reference_case as (U & N & O & L & E & Ne & _).
  apply (fold_reference _ _ 3 _ _ _ _ 1 (Fin 1) U N O eq_refl L E); [lia|auto|].
  apply (H _ _ _ _ _ _ _ U O E). apply r_set_wrote; [exact O|cbn; lia].
Qed.
