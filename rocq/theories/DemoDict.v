(** * A concrete dictionary history. *)
From Coq Require Import Reals String.
From Verif Require Import Base Num Nd Pattern Spec Build DictHeap SpecDict DictFacts DictHist DictOdd Demo.
Local Open Scope list_scope.
Local Open Scope nat_scope.

(** s['x'] = cov; a['s'] = s; b['s'] = s (shared); b['n'] = num; b['m'] = num;
    del b['n']; s['y'] = num (refused). *)
Definition h_ops : list op :=
  [NewLeaf d_cov; NewLeaf d_num; NewDict true None; NewDict true None; NewDict true (Some true);
   SetItem 2 (ks "x") 0; SetItem 3 (ks "s") 2; SetItem 4 (ks "s") 2; SetItem 4 (ks "n") 1;
   SetItem 4 (ks "m") 1; DelItem 4 (ks "n"); SetItem 2 (ks "y") 1].

Lemma h_ops_plain : Forall plain h_ops.
Proof. repeat constructor; simpl; auto; discriminate. Qed.

(** The objects afterwards. *)
Definition h_end : heap :=
  [OLeaf d_cov; OLeaf d_num;
   ODict true [(ks "x", 0)] (plint 4) (plint 3) None true;
   ODict true [(ks "s", 2)] (plint 4) (plint 3) None false;
   ODict true [(ks "s", 2); (ks "m", 1)] (plint 6) (plint 5) (Some true) false].
Lemma h_run : run [] h_ops = h_end.
Proof. vm_compute. reflexivity. Qed.

Lemma h_ops_state :
  nth_error (run [] h_ops) 4 =
    Some (ODict true [(ks "s", 2); (ks "m", 1)] (plint 6) (plint 5) (Some true) false) /\
  unlocked_at (run [] h_ops) 4 /\ reports (run [] h_ops) 4 true 5 /\
  others_sum (run [] h_ops) 4 (ks "m") true 3.
Proof.
  rewrite h_run. split; [reflexivity|]. split; [do 5 eexists; reflexivity|].
  split; [eexists; split; reflexivity|].
  exists [(ks "s", 2); (ks "m", 1)], [3]. split; [do 5 eexists; reflexivity|]. split; [|reflexivity].
  replace (remove_key [(ks "s", 2); (ks "m", 1)] (ks "m")) with [(ks "s", 2)] by (vm_compute; reflexivity).
  constructor; [|constructor]. exists (plint 3). split; reflexivity.
Qed.

Lemma h_locked : locked_at (run [] h_ops) 2.
Proof. rewrite h_run. do 5 eexists. reflexivity. Qed.

(** A non-pattern assigned to b['bad']. *)
Lemma h_bad_state :
  nth_error (h_end ++ [OOther]) 5 = Some OOther /\
  snd (step (h_end ++ [OOther]) (SetItem 4 (ks "bad") 5)) = Err AttributeError.
Proof. split; vm_compute; reflexivity. Qed.

(** {'num': num, 'e': emptied} *)
Definition h_emptied := PDict [] (mkLen 0 true) (mkLen 0 true) None true.
Lemma h_emptied_built :
  built (PDict [(ks "num", d_num); (ks "e", h_emptied)] (mkLen 2 true) (mkLen 2 true) None false) /\
  inside h_emptied
    (PDict [(ks "num", d_num); (ks "e", h_emptied)] (mkLen 2 true) (mkLen 2 true) None false).
Proof.
  split; [|apply (inside_here _ _ _ _ _ _ (ks "e")); simpl; auto].
  assert (built d_num) as Hn.
  { eapply built_num with (k := KArray). exact I. apply new_numeric_ok. split; [reflexivity|].
    split; [discriminate|]. simpl. apply Rlt_0_1. }
  assert (built (PDict [] (mkLen 0 true) (mkLen 0 true) None false)) as He.
  { apply (built_del (PDict [(ks "z", d_num)] (plint 2) (plint 2) None false) (ks "z")); [|reflexivity].
    apply (built_set (new_dict None) (ks "z") d_num); [apply built_dict|auto|reflexivity]. }
  apply (built_set (PDict [(ks "num", d_num)] (plint 2) (plint 2) None false) (ks "e")
    (PDict [] (mkLen 0 true) (mkLen 0 true) None false)); [|auto|reflexivity].
  apply (built_set (new_dict None) (ks "num") d_num); [apply built_dict|auto|reflexivity].
Qed.
