(** * Concrete cases for the index theorems. *)
From Coq Require Import Reals Lra String.
From Verif Require Import Base Num Nd Numeric Simplex Psd Pattern Spec Demo.
Local Open Scope list_scope.
Local Open Scope nat_scope.

Lemma demo_agree_case : exists x y : list R, x <> y /\
  flat_length demo (Some true) = Ok (plint (length x)) /\
  flat_length demo (Some true) = Ok (plint (length y)) /\
  forall i, In i [1; 2; 4; 5; 6; 8; 9] -> nth_error x i = nth_error y i.
Proof.
  exists [1; 2; 3; 4; 5; 6; 7; 8; 9; 10]%R, [0; 2; 3; 0; 5; 6; 7; 0; 9; 10]%R.
  split; [intros E; inversion E; lra|]. split; [reflexivity|]. split; [reflexivity|].
  intros i Hi. simpl in Hi. repeat (destruct Hi as [<-|Hi]; [reflexivity|]). contradiction.
Qed.

Lemma demo_all_case : exists m, empty_bool demo true = Ok m /\
  flat_indices demo m (Some true) = Ok (seq 0 10).
Proof. eexists. split; reflexivity. Qed.

Lemma d_simp_case : usable d_simp /\ no_psd d_simp /\
  flat_indices d_simp (FArr (mkNd [2; 2] [false; true; false; false])) (Some true) = Ok [0] /\
  differ_only_at 0 [1; 2]%R [3; 2]%R.
Proof.
  split; [simpl; lia|]. split; [simpl; auto|]. split; [reflexivity|]. split; [reflexivity|].
  split; [simpl; intros E; inversion E; lra|]. intros [|j] Hj; [congruence|reflexivity].
Qed.
