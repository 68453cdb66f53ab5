(** * Property theorems C74-C77: objectives of folded values and random values. *)
From Coq Require Import Reals ZArith.
From Verif Require Import Base Num Nd Pattern Spec Jac SpecJac JacPsd FunWrap Optim SpecOptim Random SpecEnd
  EndFacts GradFacts GradSimp RandomFacts Demo DemoJac DemoOptim DemoEnd.
Local Open Scope list_scope.
Local Open Scope nat_scope.

(** C74.  Minimising over free vectors is minimising over the admissible values. *)
Theorem C74_bijection : forall p n, usable p -> flat_length p (Some true) = Ok (plint n) ->
  (forall x, length x = n -> exists v, admissible p v /\ fold p (vec (map Fin x)) (Some true) None = Ok v) /\
  (forall v, admissible p v -> exists x, (length x = n /\ fold p (vec (map Fin x)) (Some true) None = Ok v) /\
     forall y, length y = n /\ fold p (vec (map Fin y)) (Some true) None = Ok v -> x = y).
Proof. exact fold_bijection. Qed.
Print Assumptions C74_bijection.
Example C74_bijection_case : usable demo /\ flat_length demo (Some true) = Ok (plint 10) /\
  admissible demo (canon demo demo_value).
Proof. exact bijection_case. Qed.
Theorem C74_minimisers : forall S (f : callable (obj R) S) p n (F : fv num -> R),
  usable p -> flat_length p (Some true) = Ok (plint n) ->
  (forall v, admissible p v -> returns f v (F v)) ->
  exists g (H : list R -> R), free_objective f p = Ok g /\
    (forall x, length x = n -> returns g (FArr (vec (map Fin x))) (H x)) /\
    forall x v, length x = n -> fold p (vec (map Fin x)) (Some true) None = Ok v ->
      H x = F v /\
      ((forall y, length y = n -> (H x <= H y)%R) <-> (forall w, admissible p w -> (F v <= F w)%R)).
Proof. exact free_minimisers. Qed.
Print Assumptions C74_minimisers.
Example C74_minimisers_case : usable demo /\ flat_length demo (Some true) = Ok (plint 10) /\
  (forall v, admissible demo v -> returns (sum_call demo) v (entry_sum demo v)) /\
  entry_sum demo (canon demo demo_value) <> 0%R.
Proof. exact minimisers_case. Qed.

(** C75.  The same for the preconditioned objective. *)
Theorem C75_preconditioned_minimisers : forall S (f : list num -> S -> res R * S) s n A B (H : list R -> R),
  is_matvec n (unprecondition s) A -> is_matvec n (precondition s) B ->
  mutually_inverse n (precondition s) (unprecondition s) ->
  (forall x st, length x = n -> exists st', f (map Fin x) st = (Ok (H x), st')) ->
  exists K : list R -> R,
    (forall z st, length z = n -> exists st', pre_call f s (map Fin z) st = (Ok (K z), st')) /\
    forall z x, length z = n -> length x = n -> unprecondition s (map Fin z) = Ok (map Fin x) ->
      K z = H x /\
      ((forall z', length z' = n -> (K z <= K z')%R) <-> (forall x', length x' = n -> (H x <= H x')%R)).
Proof. exact pre_minimisers_matrix. Qed.
Print Assumptions C75_preconditioned_minimisers.
Example C75_case : exists s, set_op no_tools (SetMatrix false (fmat 2 demo_a) (Some (fmat 2 demo_b))) = Ok s /\
  is_matvec 2 (unprecondition s) demo_a /\ is_matvec 2 (precondition s) demo_b /\
  mutually_inverse 2 (precondition s) (unprecondition s) /\
  (forall x (st : nat), List.length x = 2 -> exists st', (Ok (Rlsum (fins (map Fin x))), S st) = (Ok (Rlsum x), st')).
Proof. exact pre_case. Qed.

(** C76.  The partial derivatives of the free objective are the gradient of the
    objective times [unfreeing_jacobian]. *)
Theorem C76_gradient : forall S (f : callable (obj R) S) ad p n v x gr Phi,
  usable p -> simplexes_nonempty p -> no_psd p -> flat_length p (Some true) = Ok (plint n) ->
  (forall w z, admissible p w -> flatten p w (Some false) None = Ok (map Fin z) -> returns f w (Phi z)) ->
  interior p v -> flatten p v (Some false) None = Ok (map Fin x) -> has_gradient Phi x gr ->
  exists g H y J D, free_objective f p = Ok g /\
    (forall z, length z = n -> returns g (FArr (vec (map Fin z))) (H z)) /\
    flatten p v (Some true) None = Ok (map Fin y) /\ length y = n /\
    jacobian ad false p v = Ok J /\ partials H y D /\ pulled_back J gr D.
Proof. exact free_gradient. Qed.
Print Assumptions C76_gradient.
Example C76_gradient_case : usable jdemo /\ simplexes_nonempty jdemo /\ no_psd jdemo /\ flat_length jdemo (Some true) = Ok (plint 7) /\
  (forall w z, admissible jdemo w -> flatten jdemo w (Some false) None = Ok (map Fin z) ->
     returns (sum_call jdemo) w (Rlsum z)) /\
  interior jdemo demo_value /\ flatten jdemo demo_value (Some false) None = Ok (map Fin jdemo_entries) /\
  has_gradient Rlsum jdemo_entries (map (fun _ => 1%R) jdemo_entries).
Proof. exact gradient_case. Qed.
Theorem C76_gradient_psd : forall S (f : callable (obj R) S) ad p n v x gr Phi,
  usable p -> simplexes_nonempty p -> flat_length p (Some true) = Ok (plint n) ->
  (forall w z, admissible p w -> flatten p w (Some false) None = Ok (map Fin z) -> returns f w (Phi z)) ->
  interior p v -> flatten p v (Some false) None = Ok (map Fin x) -> has_gradient Phi x gr ->
  at_psd (jacobian_true ad false) p v ->
  exists g H y J D, free_objective f p = Ok g /\
    (forall z, length z = n -> returns g (FArr (vec (map Fin z))) (H z)) /\
    flatten p v (Some true) None = Ok (map Fin y) /\ length y = n /\
    jacobian ad false p v = Ok J /\ partials H y D /\ pulled_back J gr D.
Proof. exact free_gradient_psd. Qed.
Print Assumptions C76_gradient_psd.
Example C76_gradient_psd_case : usable demo /\ simplexes_nonempty demo /\ flat_length demo (Some true) = Ok (plint 10) /\
  (forall w z, admissible demo w -> flatten demo w (Some false) None = Ok (map Fin z) ->
     returns (sum_call demo) w (Rlsum z)) /\
  interior demo demo_value /\
  (exists x, flatten demo demo_value (Some false) None = Ok (map Fin x) /\
     has_gradient Rlsum x (map (fun _ => 1%R) x)) /\
  at_psd (jacobian_true psd_ad false) demo demo_value.
Proof. exact gradient_psd_case. Qed.
Theorem C76_stationary : forall ad p v J gr D,
  usable p -> simplexes_nonempty p -> no_psd p -> interior p v ->
  pl_n (flat_len p true) = pl_n (flat_len p false) ->
  jacobian ad false p v = Ok J -> length gr = m_rows J -> pulled_back J gr D ->
  (zero_vector D <-> zero_vector gr).
Proof. exact stationary. Qed.
Print Assumptions C76_stationary.
Example C76_stationary_case : usable ndemo /\ simplexes_nonempty ndemo /\ no_psd ndemo /\ interior ndemo demo_value /\
  pl_n (flat_len ndemo true) = pl_n (flat_len ndemo false) /\
  exists J, jacobian no_ad false ndemo demo_value = Ok J /\ m_rows J = 3.
Proof. exact stationary_case. Qed.
Theorem C76_stationary_simplex : forall ad n s dv fd v J gr D,
  usable (PSimplex n s dv fd) -> 0 < prod s -> interior (PSimplex n s dv fd) v ->
  jacobian ad false (PSimplex n s dv fd) v = Ok J -> length gr = m_rows J -> pulled_back J gr D ->
  (zero_vector D <->
   forall k, k < prod s -> exists c, forall i, i < n -> nth (k * n + i) gr 0%R = c).
Proof. exact simplex_stationary. Qed.
Print Assumptions C76_stationary_simplex.
Example C76_stationary_simplex_case : usable (PSimplex 2 [2] true None) /\ 0 < prod [2] /\
  interior (PSimplex 2 [2] true None) simp_value /\
  exists J, jacobian no_ad false (PSimplex 2 [2] true None) simp_value = Ok J /\ m_rows J = 4 /\
    pulled_back J [3; 3; 5; 5]%R [0; 0]%R.
Proof. exact simplex_stationary_case. Qed.

(** C77. *)
Theorem C77_random_value : forall G (draw : G -> R * G) p g, usable p ->
  exists v x g', random draw p g = (Ok v, g') /\ drawn draw g x g' /\
    flat_length p (Some true) = Ok (plint (length x)) /\
    admissible p v /\ (forall vv, validate snum p v vv = Ok None) /\
    (forall vv, flatten p v (Some true) vv = Ok (map Fin x)).
Proof. exact random_value. Qed.
Print Assumptions C77_random_value.
Theorem C77_float_length : forall G (draw : G -> R * G) p g, pl_float (flat_len p true) = true ->
  random draw p g = (Err TypeError, g).
Proof. exact random_float_length. Qed.
Print Assumptions C77_float_length.
Example C77_random_case : usable demo /\ snd (random toy_draw demo 0) = 10 /\
  pl_float (flat_len (PDict [] (mkLen 0 true) (mkLen 0 true) None false) true) = true.
Proof. exact random_case. Qed.
Theorem C77_range : forall G (draw : G -> R * G) k shape lb ub dv fd g,
  usable (PNum k shape lb ub dv fd) -> (forall g, (0 <= fst (draw g) < 1)%R) ->
  exists a g', random draw (PNum k shape lb ub dv fd) g = (Ok (FArr a), g') /\ shp a = shape /\
    Forall (fun x => exists r, x = Fin r /\ drawn_range (pyval lb) (pyval ub) r) (dat a).
Proof. exact random_range. Qed.
Print Assumptions C77_range.
Example C77_range_case : usable d_num /\ (forall g, (0 <= fst (toy_draw g) < 1)%R) /\ fst (toy_draw 0) = (/ 2)%R.
Proof. exact range_case. Qed.
