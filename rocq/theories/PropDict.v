(** * Property theorems C20-C24, C66: dictionary objects. *)
From Coq Require Import Reals String.
From Verif Require Import Base Num Nd Pattern Spec Build DictHeap SpecDict DictHist DictOdd Demo DemoDict.
Local Open Scope list_scope.
Local Open Scope nat_scope.

Theorem C20_dict_lengths : forall ops d items f,
  Forall plain ops -> members (run [] ops) d items ->
  (exists n, reports (run [] ops) d f n /\ children_sum (run [] ops) d f n) /\
  (exists p, denotes (run [] ops) d p /\ reports (run [] ops) d f (true_len p f)).
Proof. exact dict_lengths. Qed.
Print Assumptions C20_dict_lengths.

Theorem C20_tree_view : forall ops,
  Forall plain_built ops ->
  (forall r, r < length (run [] ops) -> exists p, denotes (run [] ops) r p /\ built p) /\
  (forall d k r p q, d <> r -> denotes (run [] ops) d p -> denotes (run [] ops) r q ->
     match setitem p k q with
     | Ok p' => exists h', step (run [] ops) (SetItem d k r) = (h', Ok tt) /\
                  denotes h' d p' /\ denotes h' r (lock_pat q) /\
                  (forall x p0, x <> d -> x <> r -> denotes (run [] ops) x p0 -> denotes h' x p0)
     | Err e => step (run [] ops) (SetItem d k r) = (run [] ops, Err e)
     end) /\
  (forall d k p, denotes (run [] ops) d p ->
     match delitem p k with
     | Ok p' => exists h', step (run [] ops) (DelItem d k) = (h', Ok tt) /\ denotes h' d p' /\
                  (forall x p0, x <> d -> denotes (run [] ops) x p0 -> denotes h' x p0)
     | Err e => step (run [] ops) (DelItem d k) = (run [] ops, Err e)
     end).
Proof. exact tree_view. Qed.
Print Assumptions C20_tree_view.

Example C20_case : Forall plain h_ops /\
  nth_error (run [] h_ops) 4 =
    Some (ODict true [(ks "s", 2); (ks "m", 1)] (plint 6) (plint 5) (Some true) false).
Proof. exact (conj h_ops_plain (proj1 h_ops_state)). Qed.

(** For every heap whatsoever, including corrupted ones. *)
Theorem C21_lock_forever : forall h d,
  locked_at h d ->
  (forall ops, nth_error (run h ops) d = nth_error h d) /\
  (forall ops k r, r < length (run h ops) ->
     step (run h ops) (SetItem d k r) = (run h ops, Err ValueError)) /\
  (forall ops k, step (run h ops) (DelItem d k) = (run h ops, Err ValueError)).
Proof. exact lock_forever. Qed.
Print Assumptions C21_lock_forever.

Theorem C21_lock_happens : forall h d,
  (forall ex items len flen fd lk, nth_error h d = Some (ODict ex items len flen fd lk) ->
     snd (step h (Lock d)) = Ok tt /\ locked_at (fst (step h (Lock d))) d) /\
  (forall k r items len flen fd lk, unlocked_at h d ->
     nth_error h r = Some (ODict true items len flen fd lk) ->
     locked_at (fst (step h (SetItem d k r))) r).
Proof. exact lock_happens. Qed.
Print Assumptions C21_lock_happens.

Theorem C21_locked_tree : forall ops later d p,
  Forall plain ops -> locked_at (run [] ops) d -> denotes (run [] ops) d p ->
  denotes (run [] (ops ++ later)) d p.
Proof. exact locked_tree. Qed.
Print Assumptions C21_locked_tree.

Example C21_case : locked_at (run [] h_ops) 2.
Proof. exact h_locked. Qed.

(** The reported length [m + n] and the sum [m + (m + n)] over the members differ
    exactly when the other members have positive length. *)
Theorem C22_self_insertion : forall ops d k f n m,
  Forall plain ops -> unlocked_at (run [] ops) d ->
  reports (run [] ops) d f n -> others_sum (run [] ops) d k f m ->
  exists h', step (run [] ops) (SetItem d k d) = (h', Ok tt) /\ locked_at h' d /\
  forall later,
    reports (run h' later) d f (m + n) /\
    children_sum (run h' later) d f (m + (m + n)) /\
    (forall p, ~ denotes (run h' later) d p).
Proof. exact self_insertion. Qed.
Print Assumptions C22_self_insertion.

Example C22_case : Forall plain h_ops /\ unlocked_at (run [] h_ops) 4 /\
  reports (run [] h_ops) 4 true 5 /\ others_sum (run [] h_ops) 4 (ks "m") true 3.
Proof. split; [exact h_ops_plain|]. exact (proj2 h_ops_state). Qed.

Theorem C23_failed_assignment : forall h d k r ex items len flen fd,
  nth_error h d = Some (ODict ex items len flen fd false) ->
  nth_error h r = Some OOther ->
  (forall k' c, In (k', c) items -> c <> d /\ exists l fl, ref_len h c false = Ok l /\ ref_len h c true = Ok fl) ->
  exists h1 h2 l fl,
    step h (SetItem d k r) = (h1, Err AttributeError) /\
    nth_error h1 d = Some (ODict ex (assign items k r) len flen fd false) /\
    (forall x, x <> d -> nth_error h1 x = nth_error h x) /\
    step h1 (DelItem d k) = (h2, Ok tt) /\
    nth_error h2 d = Some (ODict ex (remove_key items k) l fl fd false) /\
    (forall x, x <> d -> nth_error h2 x = nth_error h x) /\
    (forall f, exists n, reports h2 d f n /\ children_sum h2 d f n).
Proof. exact failed_assignment. Qed.
Print Assumptions C23_failed_assignment.

Example C23_case : nth_error (h_end ++ [OOther]) 5 = Some OOther /\
  snd (step (h_end ++ [OOther]) (SetItem 4 (ks "bad") 5)) = Err AttributeError.
Proof. exact h_bad_state. Qed.

Theorem C24_emptied_lengths : forall h d k c ex len flen fd,
  nth_error h d = Some (ODict ex [(k, c)] len flen fd false) ->
  exists h', step h (DelItem d k) = (h', Ok tt) /\
    nth_error h' d = Some (ODict ex [] (mkLen 0 true) (mkLen 0 true) fd false).
Proof. exact emptied_lengths. Qed.
Print Assumptions C24_emptied_lengths.

Theorem C24_emptied_empty_bool : forall fd lk b,
  empty_bool (PDict [] (mkLen 0 true) (mkLen 0 true) fd lk) b = Err TypeError /\
  empty_bool (new_dict fd) b = Ok (FDict []).
Proof. exact emptied_empty_bool. Qed.
Print Assumptions C24_emptied_empty_bool.

Theorem C24_emptied_inside_never_folds : forall A (sc : scalar A) p fd lk,
  built p -> inside (PDict [] (mkLen 0 true) (mkLen 0 true) fd lk) p ->
  forall x free vv v, fold_gen sc p x free vv <> Ok v.
Proof. exact emptied_inside_never_folds. Qed.
Print Assumptions C24_emptied_inside_never_folds.

Theorem C24_emptied_fold_type_error : forall pre k fd lk post l fl fd' lk' x vv,
  Forall (fun kq => usable (snd kq)) pre ->
  length x = pl_n fl -> total_len pre true <= length x ->
  fold (PDict (pre ++ (k, PDict [] (mkLen 0 true) (mkLen 0 true) fd lk) :: post) l fl fd' lk')
       (vec (map Fin x)) (Some true) vv = Err TypeError.
Proof. exact emptied_fold_type_error. Qed.
Print Assumptions C24_emptied_fold_type_error.

Example C24_case : built (PDict [(ks "num", d_num); (ks "e", h_emptied)] (mkLen 2 true) (mkLen 2 true) None false) /\
  inside h_emptied
    (PDict [(ks "num", d_num); (ks "e", h_emptied)] (mkLen 2 true) (mkLen 2 true) None false).
Proof. exact h_emptied_built. Qed.

Theorem C66_subclass_not_locked : forall h d k r items len flen fd lk items' len' flen' fd',
  nth_error h d = Some (ODict true items len flen fd lk) -> d <> r ->
  nth_error h r = Some (ODict false items' len' flen' fd' false) ->
  nth_error (fst (step h (SetItem d k r))) r = nth_error h r.
Proof. exact subclass_not_locked. Qed.
Print Assumptions C66_subclass_not_locked.

Theorem C66_subclass_stale : forall p free,
  (0 < pl_n (flat_len p free))%nat ->
  reports (run [] (sub_ops p)) 0 free 0 /\
  children_sum (run [] (sub_ops p)) 0 free (pl_n (flat_len p free)).
Proof. exact subclass_stale. Qed.
Print Assumptions C66_subclass_stale.

Example C66_case : 0 < pl_n (flat_len d_num true).
Proof. repeat constructor. Qed.
