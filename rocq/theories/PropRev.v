(** * Property theorems C86: the PSD Jacobians by reverse mode. *)
From Coq Require Import Reals List.
From Verif Require Import Base Num Nd Numeric Simplex Psd Pattern Spec ListFacts NonFree NumFacts CholFacts
  Free Contract Jac SpecJac JacBase CholDiff PsdDiff FunWrap Api SpecOptim SpecEnd EndFacts RevPsd SpecRev
  RevFacts RevGrad Demo DemoAlong DemoEnd DemoRev.
Import ListNotations.
Local Open Scope nat_scope.

(** One backward pass through [_unpack_posdef_matrix] is the product of the cotangent with
    the unfreeing Jacobian. *)
Theorem C86_unpack_vjp : forall solve n fl dlb dv fd v x g,
  0 < n -> usable (PPsd n fl dlb dv fd) -> interior (PPsd n fl dlb dv fd) v ->
  flatten (PPsd n fl dlb dv fd) v (Some true) None = Ok (map Fin x) -> length g = n * n ->
  exists J d, jacobian (reverse_ad solve) false (PPsd n fl dlb dv fd) v = Ok J /\
    unpack_vjp (map Fin x) (mat_of n (mkNd [n; n] (map Fin g))) = Ok (map Fin d) /\
    pulled_back J g d.
Proof. exact unpack_vjp_product. Qed.
Print Assumptions C86_unpack_vjp.

(** One backward pass through [_pack_posdef_matrix] is a symmetric matrix whose product with
    every symmetric direction is the derivative of the free vector weighted by the cotangent. *)
Theorem C86_pack_vjp : forall solve n fl dlb dv fd v x g, solves solve ->
  usable (PPsd n fl dlb dv fd) -> interior (PPsd n fl dlb dv fd) v ->
  flatten (PPsd n fl dlb dv fd) v (Some false) None = Ok (map Fin x) -> length g = fl ->
  exists (b : mat) (rb : nat -> nat -> R),
    pack_vjp solve n (mat_of n (mkNd [n; n] (map Fin x))) (pyval dlb) (map Fin g) = Ok b /\
    (forall i j, i < n -> j < n -> b i j = Fin (rb i j) /\ rb i j = rb j i) /\
    forall h, symmetric_direction n h ->
      exists r G, (0 < r)%R /\
        (forall t, (Rabs t < r)%R -> transform true (PPsd n fl dlb dv fd) (map Fin (line x h t)) = Ok (map Fin (G t)) /\
                                     length (G t) = fl) /\
        derivable_pt_lim (fun t => Rsum fl (fun k => nth k g 0 * nth k (G t) 0)%R) 0
          (Rsum n (fun i => Rsum n (fun j => rb i j * nth (i * n + j) h 0)))%R.
Proof. exact pack_vjp_derivative. Qed.
Print Assumptions C86_pack_vjp.

Example C86_solve_case : solves back_subst.
Proof. exact back_subst_solves. Qed.

(** The unfreeing Jacobian of every pattern is its matrix of partial derivatives. *)
Theorem C86_unfreeing : forall solve p v,
  usable p -> simplexes_nonempty p -> psds_nonempty p -> interior p v ->
  exists J, jacobian (reverse_ad solve) false p v = Ok J /\ true_jacobian false p v J /\
    m_rows J = pl_n (flat_len p false) /\ m_cols J = pl_n (flat_len p true).
Proof. exact reverse_unfreeing. Qed.
Print Assumptions C86_unfreeing.

(** The freeing Jacobian gives the derivative in every direction that keeps the matrices
    symmetric. *)
Theorem C86_freeing : forall solve p v, solves solve ->
  usable p -> simplexes_nonempty p -> psds_nonempty p -> interior p v ->
  exists (J : matrix) (x y : list R),
    jacobian (reverse_ad solve) true p v = Ok J /\
    flatten p v (Some false) None = Ok (map Fin x) /\
    flatten p v (Some true) None = Ok (map Fin y) /\
    m_rows J = pl_n (flat_len p true) /\ m_cols J = pl_n (flat_len p false) /\
    forall h, tangent p h -> derivative_along (transform true p) x y J h.
Proof. exact reverse_freeing. Qed.
Print Assumptions C86_freeing.

(** The two are inverse to each other. *)
Theorem C86_inverse : forall solve p v, solves solve ->
  usable p -> simplexes_nonempty p -> psds_nonempty p -> interior p v ->
  jacobians_inverse (reverse_ad solve) p v.
Proof. exact reverse_inverse. Qed.
Print Assumptions C86_inverse.

Example C86_case : solves back_subst /\ usable demo /\ simplexes_nonempty demo /\ psds_nonempty demo /\
  interior demo demo_value /\ ~ no_psd demo /\ tangent demo demo_direction.
Proof. exact reverse_case. Qed.

(** The freeing Jacobian of a matrix of size two or more is not the matrix of partial
    derivatives: entries mirrored in the diagonal share the derivative. *)
Theorem C86_partials_refuted : forall solve n fl dlb dv fd v, solves solve ->
  2 <= n -> usable (PPsd n fl dlb dv fd) -> interior (PPsd n fl dlb dv fd) v ->
  (exists J, jacobian (reverse_ad solve) true (PPsd n fl dlb dv fd) v = Ok J /\ mirrored_columns n (m_at J)) /\
  ~ jacobian_true (reverse_ad solve) true (PPsd n fl dlb dv fd) v.
Proof. exact reverse_not_partials. Qed.
Print Assumptions C86_partials_refuted.

Example C86_partials_case : forall J,
  jacobian (reverse_ad back_subst) true d_cov (FArr (mkNd [2; 2] [Fin 3; Fin 1; Fin 1; Fin 3])) = Ok J ->
  m_at J 1 1 = Fin (/ (2 * sqrt 2)) /\ m_at J 1 2 = Fin (/ (2 * sqrt 2)).
Proof. exact reverse_entries. Qed.

(** Gradients of objectives of free vectors: the Jacobian of [reverse_ad] pulls the gradient
    back. *)
Theorem C86_gradient : forall S (f : callable (obj R) S) solve p n v x gr Phi,
  usable p -> simplexes_nonempty p -> psds_nonempty p -> flat_length p (Some true) = Ok (plint n) ->
  (forall w z, admissible p w -> flatten p w (Some false) None = Ok (map Fin z) -> returns f w (Phi z)) ->
  interior p v -> flatten p v (Some false) None = Ok (map Fin x) -> has_gradient Phi x gr ->
  exists g H y J D, free_objective f p = Ok g /\
    (forall z, length z = n -> returns g (FArr (vec (map Fin z))) (H z)) /\
    flatten p v (Some true) None = Ok (map Fin y) /\ length y = n /\
    jacobian (reverse_ad solve) false p v = Ok J /\ partials H y D /\ pulled_back J gr D.
Proof. exact reverse_gradient. Qed.
Print Assumptions C86_gradient.

Example C86_gradient_case : usable demo /\ simplexes_nonempty demo /\ psds_nonempty demo /\ flat_length demo (Some true) = Ok (plint 10) /\
  (forall w z, admissible demo w -> flatten demo w (Some false) None = Ok (map Fin z) ->
     returns (sum_call demo) w (Rlsum z)) /\
  interior demo demo_value /\
  exists x, flatten demo demo_value (Some false) None = Ok (map Fin x) /\
     has_gradient Rlsum x (map (fun _ => 1%R) x).
Proof. exact reverse_gradient_case. Qed.

(** And one backward pass computes it. *)
Theorem C86_backward : forall S (f : callable (obj R) S) n fl dlb dv fd v x gr Phi,
  0 < n -> usable (PPsd n fl dlb dv fd) ->
  (forall w z, admissible (PPsd n fl dlb dv fd) w ->
     flatten (PPsd n fl dlb dv fd) w (Some false) None = Ok (map Fin z) -> returns f w (Phi z)) ->
  interior (PPsd n fl dlb dv fd) v ->
  flatten (PPsd n fl dlb dv fd) v (Some false) None = Ok (map Fin x) -> has_gradient Phi x gr ->
  length gr = n * n ->
  exists g H y D, free_objective f (PPsd n fl dlb dv fd) = Ok g /\
    (forall z, length z = fl -> returns g (FArr (vec (map Fin z))) (H z)) /\
    flatten (PPsd n fl dlb dv fd) v (Some true) None = Ok (map Fin y) /\ length y = fl /\
    unpack_vjp (map Fin y) (mat_of n (mkNd [n; n] (map Fin gr))) = Ok (map Fin D) /\
    partials H y D.
Proof. exact backward_gradient. Qed.
Print Assumptions C86_backward.

Example C86_backward_case : 0 < 2 /\ usable d_cov /\ interior d_cov (FArr (mkNd [2; 2] [Fin 3; Fin 1; Fin 1; Fin 3])) /\
  (forall w z, admissible d_cov w -> flatten d_cov w (Some false) None = Ok (map Fin z) ->
     returns (sum_call d_cov) w (Rlsum z)) /\
  flatten d_cov (FArr (mkNd [2; 2] [Fin 3; Fin 1; Fin 1; Fin 3])) (Some false) None = Ok (map Fin [3; 1; 1; 3]%R) /\
  has_gradient Rlsum [3; 1; 1; 3]%R [1; 1; 1; 1]%R.
Proof. exact backward_case. Qed.

Example C86_backward_value : forall a b c,
  unpack_vjp [Fin a; Fin b; Fin c] (mat_of 2 (mkNd [2; 2] [Fin 1; Fin 1; Fin 1; Fin 1])) =
  Ok [Fin (2 * exp a * exp a + 2 * b * exp a); Fin (2 * exp a + 2 * b); Fin (2 * exp c * exp c)].
Proof. exact backward_value. Qed.
