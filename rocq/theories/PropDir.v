(** * Property theorems C87: optimality in free coordinates. *)
From Coq Require Import Reals List.
From Verif Require Import Base Num Nd Numeric Simplex Psd Pattern Spec ListFacts NonFree NumFacts CholFacts
  Free Contract Jac SpecJac JacBase CholDiff PsdDiff FunWrap Api SpecOptim SpecEnd EndFacts GradFacts RevPsd SpecRev
  RevFacts RevGrad SpecDir DirFacts FeasFacts DirProps Demo DemoEnd DemoRev DemoDir.
Import ListNotations.
Local Open Scope nat_scope.

(** The directions in which one can go without leaving the constraints are the ones with
    rows summing to zero on the simplexes and symmetric on the PSD matrices. *)
Theorem C87_directions : forall p v x h, usable p -> interior p v ->
  flatten p v (Some false) None = Ok (map Fin x) -> (feasible p x h <-> direction p h).
Proof. exact feasible_is_direction. Qed.
Print Assumptions C87_directions.

Example C87_directions_case : forall h,
  (h = [1; -3; 1; -1; 0; 0; 2; 5; 5; -7; 1; 1; -3]%R -> feasible demo demo_entries h) /\
  (h = [0; 0; 1; 0; 0; 0; 0; 0; 0; 0; 0; 0; 0]%R -> ~ feasible demo demo_entries h) /\
  (h = [0; 0; 0; 0; 0; 0; 0; 1; 0; 0; 0; 0; 0]%R -> ~ feasible demo demo_entries h).
Proof. exact feasible_case. Qed.

(** They are exactly the products of the unfreeing Jacobian with the free vectors. *)
Theorem C87_image : forall ad p v x,
  usable p -> simplexes_nonempty p -> interior p v -> flatten p v (Some false) None = Ok (map Fin x) ->
  at_psd (jacobian_true ad false) p v ->
  exists J, jacobian ad false p v = Ok J /\
    forall h, feasible p x h <-> exists w, matrix_times J w h.
Proof. exact feasible_image. Qed.
Print Assumptions C87_image.

Theorem C87_image_reverse : forall solve p v x,
  usable p -> simplexes_nonempty p -> psds_nonempty p -> interior p v ->
  flatten p v (Some false) None = Ok (map Fin x) ->
  exists J, jacobian (reverse_ad solve) false p v = Ok J /\
    forall h, feasible p x h <-> exists w, matrix_times J w h.
Proof. exact feasible_image_reverse. Qed.
Print Assumptions C87_image_reverse.

Example C87_image_case : usable demo /\ simplexes_nonempty demo /\ psds_nonempty demo /\ interior demo demo_value /\
  flatten demo demo_value (Some false) None = Ok (map Fin demo_entries).
Proof. exact image_case. Qed.

(** The free gradient vanishes exactly when the flat gradient is orthogonal to them. *)
Theorem C87_first_order : forall S (f : callable (obj R) S) p n v x gr Phi,
  usable p -> simplexes_nonempty p -> flat_length p (Some true) = Ok (plint n) ->
  (forall w z, admissible p w -> flatten p w (Some false) None = Ok (map Fin z) -> returns f w (Phi z)) ->
  interior p v -> flatten p v (Some false) None = Ok (map Fin x) -> has_gradient Phi x gr ->
  exists g H y D, free_objective f p = Ok g /\
    (forall z, length z = n -> returns g (FArr (vec (map Fin z))) (H z)) /\
    flatten p v (Some true) None = Ok (map Fin y) /\ partials H y D /\
    (zero_vector D <-> forall h, feasible p x h -> dot gr h = 0%R).
Proof. exact first_order. Qed.
Print Assumptions C87_first_order.

Example C87_first_order_case : usable demo /\ simplexes_nonempty demo /\ flat_length demo (Some true) = Ok (plint 10) /\
  (forall w z, admissible demo w -> flatten demo w (Some false) None = Ok (map Fin z) ->
     returns (flat_call demo (bowl demo_entries demo_slope)) w (bowl demo_entries demo_slope z)) /\
  interior demo demo_value /\ flatten demo demo_value (Some false) None = Ok (map Fin demo_entries) /\
  has_gradient (bowl demo_entries demo_slope) demo_entries demo_slope /\
  convex_on (flat_inside demo) (bowl demo_entries demo_slope) /\
  ~ zero_vector demo_slope /\ (forall h, feasible demo demo_entries h -> dot demo_slope h = 0%R).
Proof. exact order_case. Qed.

(** For one PSD matrix: exactly when the symmetric part of the gradient vanishes. *)
Theorem C87_psd : forall n fl dlb dv fd v x gr,
  usable (PPsd n fl dlb dv fd) -> interior (PPsd n fl dlb dv fd) v ->
  flatten (PPsd n fl dlb dv fd) v (Some false) None = Ok (map Fin x) ->
  ((forall h, feasible (PPsd n fl dlb dv fd) x h -> dot gr h = 0%R) <->
   forall i j, i < n -> j < n -> (nth (i * n + j) gr 0 + nth (j * n + i) gr 0 = 0)%R).
Proof. exact psd_stationary. Qed.
Print Assumptions C87_psd.

Example C87_psd_case : usable d_cov /\ interior d_cov (FArr (mkNd [2; 2] [Fin 3; Fin 1; Fin 1; Fin 3])) /\
  flatten d_cov (FArr (mkNd [2; 2] [Fin 3; Fin 1; Fin 1; Fin 3])) (Some false) None = Ok (map Fin [3; 1; 1; 3]%R) /\
  (forall i j, i < 2 -> j < 2 ->
     (nth (i * 2 + j) [0; 1; -1; 0] 0 + nth (j * 2 + i) [0; 1; -1; 0] 0 = 0)%R).
Proof. exact psd_slope_case. Qed.

(** The free gradient vanishes at every local minimum under the constraints. *)
Theorem C87_local_minimum : forall S (f : callable (obj R) S) p n v x gr Phi,
  usable p -> simplexes_nonempty p -> flat_length p (Some true) = Ok (plint n) ->
  (forall w z, admissible p w -> flatten p w (Some false) None = Ok (map Fin z) -> returns f w (Phi z)) ->
  interior p v -> flatten p v (Some false) None = Ok (map Fin x) -> has_gradient Phi x gr ->
  local_minimum_on (flat_inside p) Phi x ->
  exists g H y D, free_objective f p = Ok g /\
    (forall z, length z = n -> returns g (FArr (vec (map Fin z))) (H z)) /\
    flatten p v (Some true) None = Ok (map Fin y) /\ partials H y D /\ zero_vector D.
Proof. exact local_minimum. Qed.
Print Assumptions C87_local_minimum.

Example C87_local_minimum_case : local_minimum_on (flat_inside demo) (bowl demo_entries demo_slope) demo_entries.
Proof. exact local_case. Qed.

(** The flat vectors inside the constraints are a convex set. *)
Theorem C87_inside_convex : forall p a b t, usable p -> flat_inside p a -> flat_inside p b -> (0 <= t <= 1)%R ->
  flat_inside p (segment a b t).
Proof. exact inside_convex. Qed.
Print Assumptions C87_inside_convex.

Example C87_inside_convex_case : exists b, flat_inside demo demo_entries /\ flat_inside demo b /\ nth 2 b 0%R <> nth 2 demo_entries 0%R.
Proof. exact inside_case. Qed.

(** If the objective is convex on them, a zero of the free gradient is a global minimum under
    the constraints, and a global minimum of the free objective. *)
Theorem C87_convex : forall S (f : callable (obj R) S) p n v x gr Phi,
  usable p -> simplexes_nonempty p -> flat_length p (Some true) = Ok (plint n) ->
  (forall w z, admissible p w -> flatten p w (Some false) None = Ok (map Fin z) -> returns f w (Phi z)) ->
  interior p v -> flatten p v (Some false) None = Ok (map Fin x) -> has_gradient Phi x gr ->
  convex_on (flat_inside p) Phi ->
  exists g H y D, free_objective f p = Ok g /\
    (forall z, length z = n -> returns g (FArr (vec (map Fin z))) (H z)) /\
    flatten p v (Some true) None = Ok (map Fin y) /\ partials H y D /\
    (zero_vector D <-> minimum_on (flat_inside p) Phi x) /\
    (zero_vector D <-> minimum_on (fun z => length z = n) H y).
Proof. exact convex_minimum. Qed.
Print Assumptions C87_convex.

Example C87_convex_case : minimum_on (flat_inside demo) (bowl demo_entries demo_slope) demo_entries.
Proof. exact minimum_case. Qed.

(** Although the free objective need not be convex. *)
Theorem C87_free_convex_refuted : ~ (forall p n Phi H,
  usable p -> simplexes_nonempty p -> flat_length p (Some true) = Ok (plint n) ->
  convex_on (flat_inside p) Phi ->
  (forall z w u, List.length z = n -> fold p (vec (map Fin z)) (Some true) None = Ok w ->
     flatten p w (Some false) None = Ok (map Fin u) -> H z = Phi u) ->
  convex_on (fun z => List.length z = n) H).
Proof. exact free_convex_refuted. Qed.
Print Assumptions C87_free_convex_refuted.
