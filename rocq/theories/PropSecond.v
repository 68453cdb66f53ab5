(** * Property theorems C91: second-order behaviour in free coordinates. *)
From Coq Require Import Reals List.
From Verif Require Import Base Num Nd Numeric Simplex Psd Pattern Spec Contract Jac SpecJac JacPsd FunWrap Api
  SpecOptim SpecEnd RevPsd SpecRev SpecDir Demo DemoEnd DemoRev DemoDir SpecSecond SecondProps DemoSecond.
Import ListNotations.
Local Open Scope nat_scope.

(** The unfreeing transform is differentiable and its Jacobian is its derivative. *)
Theorem C91_derivative : forall ad p v,
  usable p -> simplexes_nonempty p -> interior p v -> at_psd (jacobian_true ad false) p v ->
  exists J y x, jacobian ad false p v = Ok J /\
    flatten p v (Some true) None = Ok (map Fin y) /\ flatten p v (Some false) None = Ok (map Fin x) /\
    total_derivative (transform false p) y x J.
Proof. exact unfree_total. Qed.
Print Assumptions C91_derivative.

Theorem C91_derivative_reverse : forall solve p v,
  usable p -> simplexes_nonempty p -> psds_nonempty p -> interior p v ->
  exists J y x, jacobian (reverse_ad solve) false p v = Ok J /\
    flatten p v (Some true) None = Ok (map Fin y) /\ flatten p v (Some false) None = Ok (map Fin x) /\
    total_derivative (transform false p) y x J.
Proof. exact unfree_total_reverse. Qed.
Print Assumptions C91_derivative_reverse.

Example C91_derivative_case : usable demo /\ simplexes_nonempty demo /\ psds_nonempty demo /\ interior demo demo_value /\
  at_psd (jacobian_true psd_ad false) demo demo_value.
Proof. exact total_case. Qed.

(** Where the gradient is orthogonal to the constraints the free objective has gradient zero,
    and its Hessian is the Hessian of the objective between the transposed Jacobian and
    the Jacobian. *)
Theorem C91_hessian : forall S (f : callable (obj R) S) ad p n v x gr M Phi,
  usable p -> simplexes_nonempty p -> flat_length p (Some true) = Ok (plint n) ->
  (forall w z, admissible p w -> flatten p w (Some false) None = Ok (map Fin z) -> returns f w (Phi z)) ->
  interior p v -> flatten p v (Some false) None = Ok (map Fin x) -> has_hessian Phi x gr M ->
  (forall h, feasible p x h -> dot gr h = 0%R) -> at_psd (jacobian_true ad false) p v ->
  exists g H y J K, free_objective f p = Ok g /\
    (forall z, length z = n -> returns g (FArr (vec (map Fin z))) (H z)) /\
    flatten p v (Some true) None = Ok (map Fin y) /\ jacobian ad false p v = Ok J /\
    pulled_form J M K /\ has_hessian H y (repeat 0%R n) K.
Proof. exact second_order. Qed.
Print Assumptions C91_hessian.

Theorem C91_hessian_reverse : forall S (f : callable (obj R) S) solve p n v x gr M Phi,
  usable p -> simplexes_nonempty p -> psds_nonempty p -> flat_length p (Some true) = Ok (plint n) ->
  (forall w z, admissible p w -> flatten p w (Some false) None = Ok (map Fin z) -> returns f w (Phi z)) ->
  interior p v -> flatten p v (Some false) None = Ok (map Fin x) -> has_hessian Phi x gr M ->
  (forall h, feasible p x h -> dot gr h = 0%R) ->
  exists g H y J K, free_objective f p = Ok g /\
    (forall z, length z = n -> returns g (FArr (vec (map Fin z))) (H z)) /\
    flatten p v (Some true) None = Ok (map Fin y) /\ jacobian (reverse_ad solve) false p v = Ok J /\
    pulled_form J M K /\ has_hessian H y (repeat 0%R n) K.
Proof. exact second_order_reverse. Qed.
Print Assumptions C91_hessian_reverse.

Example C91_hessian_case : usable demo /\ simplexes_nonempty demo /\ psds_nonempty demo /\ flat_length demo (Some true) = Ok (plint 10) /\
  (forall w z, admissible demo w -> flatten demo w (Some false) None = Ok (map Fin z) ->
     returns (flat_call demo (bowl demo_entries demo_slope)) w (bowl demo_entries demo_slope z)) /\
  interior demo demo_value /\ flatten demo demo_value (Some false) None = Ok (map Fin demo_entries) /\
  has_hessian (bowl demo_entries demo_slope) demo_entries demo_slope twice /\
  (forall h, feasible demo demo_entries h -> dot demo_slope h = 0%R) /\ ~ zero_vector demo_slope /\
  at_psd (jacobian_true psd_ad false) demo demo_value.
Proof. exact hessian_case. Qed.

(** Elsewhere it need not be. *)
Theorem C91_hessian_refuted : ~ (forall ad p n v x y gr M Phi H J K,
  usable p -> simplexes_nonempty p -> flat_length p (Some true) = Ok (plint n) ->
  (forall z w u, List.length z = n -> fold p (vec (map Fin z)) (Some true) None = Ok w ->
     flatten p w (Some false) None = Ok (map Fin u) -> H z = Phi u) ->
  interior p v -> flatten p v (Some false) None = Ok (map Fin x) -> flatten p v (Some true) None = Ok (map Fin y) ->
  has_hessian Phi x gr M -> at_psd (jacobian_true ad false) p v ->
  jacobian ad false p v = Ok J -> pulled_form J M K -> exists D, has_hessian H y D K).
Proof. exact hessian_refuted. Qed.
Print Assumptions C91_hessian_refuted.

(** The free Hessian is positive definite exactly when the objective curves upwards in all
    directions that keep the constraints. *)
Theorem C91_definite : forall ad p v x J M K,
  usable p -> simplexes_nonempty p -> interior p v -> flatten p v (Some false) None = Ok (map Fin x) ->
  at_psd (jacobian_true ad false) p v -> jacobian ad false p v = Ok J -> pulled_form J M K ->
  ((forall w, length w = m_cols J -> ~ zero_vector w -> (0 < quadratic (m_cols J) K w)%R) <->
   (forall h, feasible p x h -> ~ zero_vector h -> (0 < quadratic (length x) M h)%R)).
Proof. exact definite_iff. Qed.
Print Assumptions C91_definite.

Example C91_definite_case : usable pair_pat /\ simplexes_nonempty pair_pat /\ interior pair_pat pair_value /\
  flatten pair_pat pair_value (Some false) None = Ok (map Fin [1/2; 1/2]%R) /\
  at_psd (jacobian_true psd_ad false) pair_pat pair_value /\
  exists J K, jacobian psd_ad false pair_pat pair_value = Ok J /\ pulled_form J pair_hessian K.
Proof. exact definite_case. Qed.

(** A stationary point with such curvature is a strict local minimum, of the free objective
    and under the constraints. *)
Theorem C91_sufficient : forall S (f : callable (obj R) S) p n v x gr M Phi,
  usable p -> simplexes_nonempty p -> flat_length p (Some true) = Ok (plint n) ->
  (forall w z, admissible p w -> flatten p w (Some false) None = Ok (map Fin z) -> returns f w (Phi z)) ->
  interior p v -> flatten p v (Some false) None = Ok (map Fin x) -> has_hessian Phi x gr M ->
  (forall h, feasible p x h -> dot gr h = 0%R) ->
  (forall h, feasible p x h -> ~ zero_vector h -> (0 < quadratic (length x) M h)%R) ->
  exists g H y, free_objective f p = Ok g /\
    (forall z, length z = n -> returns g (FArr (vec (map Fin z))) (H z)) /\
    flatten p v (Some true) None = Ok (map Fin y) /\
    strict_local_minimum_on (fun z => length z = n) H y /\
    strict_local_minimum_on (flat_inside p) Phi x.
Proof. exact sufficient. Qed.
Print Assumptions C91_sufficient.

Example C91_sufficient_case : usable pair_pat /\ simplexes_nonempty pair_pat /\ flat_length pair_pat (Some true) = Ok (plint 1) /\
  (forall w z, admissible pair_pat w -> flatten pair_pat w (Some false) None = Ok (map Fin z) ->
     returns (flat_call pair_pat pair_objective) w (pair_objective z)) /\
  interior pair_pat pair_value /\ flatten pair_pat pair_value (Some false) None = Ok (map Fin [1/2; 1/2]%R) /\
  has_hessian pair_objective [1/2; 1/2]%R [-1; -1]%R pair_hessian /\
  (forall h, feasible pair_pat [1/2; 1/2]%R h -> dot [-1; -1]%R h = 0%R) /\
  (forall h, feasible pair_pat [1/2; 1/2]%R h -> ~ zero_vector h -> (0 < quadratic 2 pair_hessian h)%R) /\
  (quadratic 2 pair_hessian [1; 1]%R < 0)%R.
Proof. exact pair_case. Qed.

(** At a local minimum under the constraints neither curves downwards. *)
Theorem C91_necessary : forall S (f : callable (obj R) S) ad p n v x gr M Phi,
  usable p -> simplexes_nonempty p -> flat_length p (Some true) = Ok (plint n) ->
  (forall w z, admissible p w -> flatten p w (Some false) None = Ok (map Fin z) -> returns f w (Phi z)) ->
  interior p v -> flatten p v (Some false) None = Ok (map Fin x) -> has_hessian Phi x gr M ->
  at_psd (jacobian_true ad false) p v -> local_minimum_on (flat_inside p) Phi x ->
  exists g H y K, free_objective f p = Ok g /\
    (forall z, length z = n -> returns g (FArr (vec (map Fin z))) (H z)) /\
    flatten p v (Some true) None = Ok (map Fin y) /\ has_hessian H y (repeat 0%R n) K /\
    (forall w, length w = n -> (0 <= quadratic n K w)%R) /\
    (forall h, feasible p x h -> (0 <= quadratic (length x) M h)%R).
Proof. exact necessary. Qed.
Print Assumptions C91_necessary.

Example C91_necessary_case : local_minimum_on (flat_inside demo) (bowl demo_entries demo_slope) demo_entries /\
  has_hessian (bowl demo_entries demo_slope) demo_entries demo_slope twice.
Proof. exact necessary_case. Qed.
