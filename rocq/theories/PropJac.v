(** * Property theorems C41-C45: Jacobians and log determinants. *)
From Coq Require Import Reals String.
From Verif Require Import Base Num Nd Pattern Spec Jac SpecJac JacPsd JacProps JacEdge Demo DemoJac
  PsdDiff AlongFacts DemoAlong.
Local Open Scope list_scope.
Local Open Scope nat_scope.

(** C41. *)
Theorem C41_numeric_jacobians : forall ad freeing k shape lb ub dv fd v,
  usable (PNum k shape lb ub dv fd) -> interior (PNum k shape lb ub dv fd) v ->
  exists J, jacobian ad freeing (PNum k shape lb ub dv fd) v = Ok J /\
    true_jacobian freeing (PNum k shape lb ub dv fd) v J /\
    m_rows J = prod shape /\ m_cols J = prod shape /\
    forall i j, i < prod shape -> j < prod shape -> i <> j -> m_at J i j = Fin 0.
Proof. exact numeric_jacobian. Qed.
Print Assumptions C41_numeric_jacobians.
Example C41_case : usable d_num /\ interior d_num num_value /\
  entry (jacobian no_ad true d_num num_value) 0 0 = Ok (Fin 4) /\
  entry (jacobian no_ad true d_num num_value) 1 1 = Ok (Fin (16 / 3)) /\
  entry (jacobian no_ad true d_num num_value) 1 0 = Ok (Fin 0).
Proof. exact numeric_case. Qed.

(** Values on a bound and infinite values. *)
Theorem C41_edges : forall ad k shape lb ub dv fd a i x,
  nth_error (dat a) i = Some x ->
  exists F U, jacobian ad true (PNum k shape lb ub dv fd) (FArr a) = Ok F /\
    jacobian ad false (PNum k shape lb ub dv fd) (FArr a) = Ok U /\
    (pyval lb = NInf -> pyval ub = PInf -> m_at F i i = Fin 1 /\ m_at U i i = Fin 1) /\
    (forall l, pyval lb = Fin l -> pyval ub = PInf ->
       (x = Fin l -> m_at F i i = PInf /\ m_at U i i = Fin 0) /\
       (x = PInf -> m_at F i i = Fin 0 /\ m_at U i i = PInf)) /\
    (forall h, pyval lb = NInf -> pyval ub = Fin h ->
       (x = Fin h -> m_at F i i = PInf /\ m_at U i i = Fin 0) /\
       (x = NInf -> m_at F i i = Fin 0 /\ m_at U i i = PInf)) /\
    (forall l h, pyval lb = Fin l -> pyval ub = Fin h -> (l < h)%R ->
       (x = Fin l -> m_at F i i = PInf /\ m_at U i i = Fin 0) /\
       (x = Fin h -> m_at F i i = PInf /\ m_at U i i = NaN)).
Proof. exact numeric_edges. Qed.
Print Assumptions C41_edges.
Example C41_edges_case : nth_error (dat (mkNd [2] [Fin 0; Fin 1])) 1 = Some (Fin 1) /\
  pyval (PyInt 0) = Fin 0 /\ pyval (PyInt 1) = Fin 1 /\ (0 < 1)%R /\
  validate snum (PNum KArray [2] (PyInt 0) (PyInt 1) true None) (FArr (mkNd [2] [Fin 0; Fin 1])) (Some true) = Ok None.
Proof. exact edge_case. Qed.

(** "At a valid value the unfreeing Jacobian is a number" fails at the upper bound of a
    two-sided pattern: the free value is [inf], and [exp inf / (1 + exp inf)] is NaN. *)
Theorem C41_upper_bound_refuted : forall ad k shape lb ub dv fd a i l h,
  pyval lb = Fin l -> pyval ub = Fin h -> (l < h)%R -> nth_error (dat a) i = Some (Fin h) ->
  exists U, jacobian ad false (PNum k shape lb ub dv fd) (FArr a) = Ok U /\ m_at U i i = NaN.
Proof. exact upper_edge_nan. Qed.
Print Assumptions C41_upper_bound_refuted.

(** C42; an array of no simplexes is refused. *)
Theorem C42_simplex_jacobians : forall ad freeing n shape dv fd v,
  usable (PSimplex n shape dv fd) -> 0 < prod shape -> interior (PSimplex n shape dv fd) v ->
  exists J Js, jacobian ad freeing (PSimplex n shape dv fd) v = Ok J /\
    true_jacobian freeing (PSimplex n shape dv fd) v J /\
    length Js = prod shape /\
    Forall (fun B => m_rows B = (if freeing then n - 1 else n) /\
                     m_cols B = (if freeing then n else n - 1)) Js /\
    block_diagonal Js J.
Proof. exact simplex_jacobian. Qed.
Print Assumptions C42_simplex_jacobians.
Example C42_case : usable d_simp /\ 0 < prod [2] /\ interior d_simp simp_value /\
  (J <- jacobian no_ad true d_simp simp_value ;; Ok (m_rows J, m_cols J)) = Ok (2, 4) /\
  entry (jacobian no_ad true d_simp simp_value) 0 0 = Ok (Fin (-2)) /\
  entry (jacobian no_ad true d_simp simp_value) 0 1 = Ok (Fin 2) /\
  entry (jacobian no_ad true d_simp simp_value) 0 2 = Ok (Fin 0) /\
  entry (jacobian no_ad true d_simp simp_value) 1 3 = Ok (Fin (3 / 2)) /\
  entry (jacobian no_ad false d_simp simp_value) 3 1 = Ok (Fin (2 / 9)).
Proof. exact simplex_case. Qed.
Theorem C42_no_simplexes : forall ad freeing n shape dv fd a,
  prod shape = 0 -> shp a = shape ++ [n] ->
  jacobian ad freeing (PSimplex n shape dv fd) (FArr a) = Err ValueError.
Proof. exact simplex_jacobian_empty. Qed.
Print Assumptions C42_no_simplexes.
Example C42_no_simplexes_case : jacobian no_ad true (PSimplex 3 [2; 0] true None) (FArr (mkNd [2; 0; 3] [])) = Err ValueError.
Proof. exact empty_case. Qed.

(** C43; the second and the third theorem also cover PSD members.  The second
    assumes the property of what [autograd.jacobian] returns there; the third
    derives it from the Jacobians being right along symmetric directions. *)
Theorem C43_inverse : forall ad p v,
  usable p -> simplexes_nonempty p -> no_psd p -> interior p v ->
  exists J1 J2 : matrix, jacobian ad true p v = Ok J1 /\ jacobian ad false p v = Ok J2 /\
    product_is_identity J1 J2 (pl_n (flat_len p true)).
Proof. exact inverse_jacobians. Qed.
Print Assumptions C43_inverse.
Example C43_case : usable jdemo /\ simplexes_nonempty jdemo /\ no_psd jdemo /\ interior jdemo demo_value /\
  (J <- jacobian no_ad true jdemo demo_value ;; Ok (m_rows J, m_cols J)) = Ok (7, 9) /\
  entry (jacobian no_ad true jdemo demo_value) 0 0 = Ok (Fin 4) /\
  entry (jacobian no_ad true jdemo demo_value) 3 5 = Ok (Fin (3 / 2)) /\
  entry (jacobian no_ad true jdemo demo_value) 5 7 = Ok (Fin 1) /\
  entry (jacobian no_ad true jdemo demo_value) 4 6 = Ok (Fin (1 / 8)) /\
  entry (jacobian no_ad true jdemo demo_value) 6 7 = Ok (Fin 0).
Proof. exact container_case. Qed.
Theorem C43_inverse_with_psd : forall ad p v,
  usable p -> simplexes_nonempty p -> interior p v ->
  at_psd (jacobians_inverse ad) p v -> jacobians_inverse ad p v.
Proof. exact inverse_jacobians_psd. Qed.
Print Assumptions C43_inverse_with_psd.
Example C43_with_psd_case : usable d_one /\ simplexes_nonempty d_one /\ interior d_one one_value /\
  at_psd (jacobians_inverse one_ad) d_one one_value /\
  entry (jacobian one_ad true d_one one_value) 0 0 = Ok (Fin (1 / 8)).
Proof. exact inverse_psd_case. Qed.

Theorem C43_inverse_from_derivatives : forall ad p v,
  usable p -> simplexes_nonempty p -> interior p v ->
  at_psd (jacobian_on_symmetric ad) p v -> at_psd (jacobian_true ad false) p v ->
  jacobians_inverse ad p v.
Proof. exact inverse_from_derivatives. Qed.
Print Assumptions C43_inverse_from_derivatives.
Example C43_from_derivatives_case : usable demo /\ simplexes_nonempty demo /\ interior demo demo_value /\ ~ no_psd demo /\
  (exists ad, at_psd (jacobian_on_symmetric ad) demo demo_value /\
              at_psd (jacobian_true ad false) demo demo_value) /\
  tangent demo demo_direction.
Proof. exact along_case. Qed.

(** C44; the second theorem also covers PSD members, for which [autograd.jacobian]
    is assumed to return the partial derivatives; the third and the fourth say that
    this assumption can be met.  For freeing it is not met by a Jacobian whose
    columns of mirrored entries agree, as those of autograd do; such a Jacobian
    can be right along the directions that keep the PSD members symmetric, and then
    the whole Jacobian is right along them. *)
Theorem C44_derivatives : forall ad freeing p v,
  usable p -> simplexes_nonempty p -> no_psd p -> interior p v ->
  exists J, jacobian ad freeing p v = Ok J /\ true_jacobian freeing p v J /\
    m_rows J = pl_n (flat_len p freeing) /\ m_cols J = pl_n (flat_len p (negb freeing)).
Proof. exact container_jacobian. Qed.
Print Assumptions C44_derivatives.
Example C44_case : usable jdemo /\ simplexes_nonempty jdemo /\ no_psd jdemo /\ interior jdemo demo_value /\
  (J <- jacobian no_ad true jdemo demo_value ;; Ok (m_rows J, m_cols J)) = Ok (7, 9) /\
  entry (jacobian no_ad true jdemo demo_value) 0 0 = Ok (Fin 4) /\
  entry (jacobian no_ad true jdemo demo_value) 3 5 = Ok (Fin (3 / 2)) /\
  entry (jacobian no_ad true jdemo demo_value) 5 7 = Ok (Fin 1) /\
  entry (jacobian no_ad true jdemo demo_value) 4 6 = Ok (Fin (1 / 8)) /\
  entry (jacobian no_ad true jdemo demo_value) 6 7 = Ok (Fin 0).
Proof. exact container_case. Qed.
Theorem C44_derivatives_with_psd : forall ad freeing p v,
  usable p -> simplexes_nonempty p -> interior p v ->
  at_psd (jacobian_true ad freeing) p v ->
  exists J, jacobian ad freeing p v = Ok J /\ true_jacobian freeing p v J /\
    m_rows J = pl_n (flat_len p freeing) /\ m_cols J = pl_n (flat_len p (negb freeing)).
Proof. exact container_jacobian_psd. Qed.
Print Assumptions C44_derivatives_with_psd.
Example C44_with_psd_case : usable demo /\ simplexes_nonempty demo /\ interior demo demo_value /\ ~ no_psd demo /\
  exists ad, at_psd (jacobian_true ad false) demo demo_value.
Proof. exact container_psd_case. Qed.
Theorem C44_psd_unfreeing_differentiable : exists ad, forall p v, usable p -> interior p v -> at_psd (jacobian_true ad false) p v.
Proof. exact psd_unfreeing_differentiable. Qed.
Print Assumptions C44_psd_unfreeing_differentiable.
Theorem C44_psd_differentiable : exists ad, forall p v, usable p -> interior p v ->
    at_psd (jacobian_true ad true) p v /\ at_psd (jacobian_true ad false) p v.
Proof. exact psd_differentiable. Qed.
Print Assumptions C44_psd_differentiable.
Theorem C44_partials_suffice : forall ad p v, usable p -> interior p v ->
  at_psd (jacobian_true ad true) p v -> at_psd (jacobian_on_symmetric ad) p v.
Proof. exact partial_derivatives_symmetric. Qed.
Print Assumptions C44_partials_suffice.
Example C44_partials_case : usable demo /\ interior demo demo_value /\ ~ no_psd demo /\
  exists ad, at_psd (jacobian_true ad true) demo demo_value.
Proof. exact partials_case. Qed.
Theorem C44_derivatives_along : forall ad p v,
  usable p -> simplexes_nonempty p -> interior p v -> at_psd (jacobian_on_symmetric ad) p v ->
  exists (J : matrix) (x y : list R),
    jacobian ad true p v = Ok J /\
    flatten p v (Some false) None = Ok (map Fin x) /\
    flatten p v (Some true) None = Ok (map Fin y) /\
    m_rows J = pl_n (flat_len p true) /\ m_cols J = pl_n (flat_len p false) /\
    forall h, tangent p h -> derivative_along (transform true p) x y J h.
Proof. exact derivatives_along. Qed.
Print Assumptions C44_derivatives_along.
Example C44_along_case : usable demo /\ simplexes_nonempty demo /\ interior demo demo_value /\ ~ no_psd demo /\
  (exists ad, at_psd (jacobian_on_symmetric ad) demo demo_value /\
              at_psd (jacobian_true ad false) demo demo_value) /\
  tangent demo demo_direction.
Proof. exact along_case. Qed.
Theorem C44_symmetrised_refuted : forall ad n fl dlb dv fd v J,
  2 <= n -> usable (PPsd n fl dlb dv fd) -> interior (PPsd n fl dlb dv fd) v ->
  jacobian ad true (PPsd n fl dlb dv fd) v = Ok J ->
  (forall k i j, k < fl -> i < n -> j < n -> m_at J k (i * n + j) = m_at J k (j * n + i)) ->
  ~ jacobian_true ad true (PPsd n fl dlb dv fd) v.
Proof. exact symmetrised_not_partials. Qed.
Print Assumptions C44_symmetrised_refuted.
Example C44_symmetrised_case : 2 <= 2 /\ usable d_cov /\ interior d_cov (FArr (mkNd [2; 2] [Fin 3; Fin 1; Fin 1; Fin 3])) /\
  exists ad J, jacobian ad true d_cov (FArr (mkNd [2; 2] [Fin 3; Fin 1; Fin 1; Fin 3])) = Ok J /\
    forall k i j, k < 3 -> i < 2 -> j < 2 -> m_at J k (i * 2 + j) = m_at J k (j * 2 + i).
Proof. exact symmetrised_case. Qed.
Theorem C44_symmetrised_accepted : exists ad, forall p v, usable p -> interior p v ->
    at_psd (jacobian_on_symmetric ad) p v /\ at_psd (jacobian_true ad false) p v /\
    at_psd (fun q w => forall n fl dlb dv fd J, q = PPsd n fl dlb dv fd ->
              jacobian ad true q w = Ok J ->
              forall k i j, i < n -> j < n -> m_at J k (i * n + j) = m_at J k (j * n + i)) p v.
Proof. exact symmetrised_accepted. Qed.
Print Assumptions C44_symmetrised_accepted.

Theorem C44_dict_blocks : forall ad freeing items l fl fd lk d J,
  jacobian ad freeing (PDict items l fl fd lk) (FDict d) = Ok J ->
  exists Js,
    Forall2 (fun kq Jk => exists w, dict_get d (fst kq) = Some w /\
                                    jacobian ad freeing (snd kq) w = Ok Jk) items Js /\
    block_diagonal Js J.
Proof. exact dict_jacobian_blocks. Qed.
Print Assumptions C44_dict_blocks.
Example C44_dict_blocks_case : exists J, jacobian psd_ad false demo demo_value = Ok J.
Proof. exact dict_blocks_case. Qed.
Theorem C44_array_blocks : forall ad freeing s b fd a J,
  jacobian ad freeing (PArr s b fd) (FArr a) = Ok J ->
  exists Js,
    Forall2 (fun item Jk =>
      jacobian ad freeing b (FArr (subarr a item (length s))) = Ok Jk) (indices s) Js /\
    block_diagonal Js J.
Proof. exact array_jacobian_blocks. Qed.
Print Assumptions C44_array_blocks.
Example C44_array_blocks_case : exists J, jacobian no_ad true d_arr (FArr (mkNd [2; 1] [Fin 5; Fin (-2)])) = Ok J /\
    m_rows J = 2 /\ m_at J 0 0 = Fin (1 / 8) /\ m_at J 0 1 = Fin 0 /\ m_at J 1 1 = Fin 1.
Proof. exact array_blocks_case. Qed.

(** C45. *)
Theorem C45_log_determinants : forall ad p v,
  usable p -> numeric_only p -> interior p v ->
  exists J1 J2 m1 m2 r,
    jacobian ad true p v = Ok J1 /\ jacobian ad false p v = Ok J2 /\
    (forall i j, i < m_rows J1 -> j < m_cols J1 -> m_at J1 i j = Fin (m1 i j)) /\
    (forall i j, i < m_rows J2 -> j < m_cols J2 -> m_at J2 i j = Fin (m2 i j)) /\
    m_cols J1 = m_rows J1 /\ m_cols J2 = m_rows J2 /\
    det (m_rows J1) m1 <> 0%R /\ det (m_rows J2) m2 <> 0%R /\
    log_abs_det true p v = Ok (Fin r) /\ log_abs_det false p v = Ok (Fin (- r)) /\
    r = ln (Rabs (det (m_rows J1) m1)) /\ (- r)%R = ln (Rabs (det (m_rows J2) m2)).
Proof. exact log_determinants. Qed.
Print Assumptions C45_log_determinants.
Example C45_case : usable ndemo /\ numeric_only ndemo /\ interior ndemo demo_value /\
  exists r, log_abs_det true ndemo demo_value = Ok (Fin r) /\ r = ln (64 / 3).
Proof. exact log_det_case. Qed.
Theorem C45_unsupported : forall freeing p v,
  usable p -> interior p v -> ~ numeric_only p ->
  log_abs_det freeing p v = Err NotImplementedError.
Proof. exact log_determinants_unsupported. Qed.
Print Assumptions C45_unsupported.
Example C45_unsupported_case : usable demo /\ interior demo demo_value /\ ~ numeric_only demo /\
  log_abs_det true demo demo_value = Err NotImplementedError.
Proof. exact unsupported_case. Qed.
