(** * Property theorems C93: curvature in preconditioned coordinates. *)
From Coq Require Import Reals List.
From Verif Require Import Base Num Nd Pattern Spec Contract Jac SpecJac JacPsd FunWrap Optim SpecOptim SpecEnd SpecDir SpecSecond
  Demo DemoOptim DemoEnd DemoSecond SpecWhite WhiteProps DemoWhite.
Import ListNotations.
Local Open Scope nat_scope.

(** A linear preconditioner [A] turns the gradient into its product with the transpose of [A]
    and puts the Hessian between the transpose of [A] and [A]. *)
Theorem C93_hessian : forall S Y (f : list num -> S -> res Y * S) ret s n A H,
  is_matvec n (unprecondition s) A -> computes n f ret H ->
  exists K, computes n (pre_call f s) ret K /\
    forall z x gr M, length z = n -> length x = n -> unprecondition s (map Fin z) = Ok (map Fin x) -> has_hessian H x gr M ->
      K z = H x /\ has_hessian K z (times n (Rtrans A) gr) (Rmatmul n (Rtrans A) (Rmatmul n M A)).
Proof. exact pre_hessian. Qed.
Print Assumptions C93_hessian.
Example C93_hessian_case : exists s, set_op no_tools (SetMatrix false (fmat 2 demo_a) (Some (fmat 2 demo_b))) = Ok s /\
  is_matvec 2 (unprecondition s) demo_a /\ computes 2 oval_call (fun r => r) oval /\
  unprecondition s (map Fin [0; 1]%R) = Ok (map Fin [1; 1]%R) /\ has_hessian oval [1; 1]%R [3; 3]%R demo_h /\
  Rmat_eq 2 (Rmatmul 2 (Rtrans demo_a) (Rmatmul 2 demo_h demo_a)) (m2 8 6 6 6).
Proof. exact pre_hessian_case. Qed.

(** Preconditioned with its own Hessian, the function has the eigenvectors it had, and each
    eigenvalue divided by what it was clamped to. *)
Theorem C93_truncated : forall S Y (f : list num -> S -> res Y * S) ret t n a H x gr M V w lo hi X h,
  computes n f ret H -> length x = n -> has_hessian H x gr M ->
  hessian_array n a M -> orthonormal n V -> Rmat_eq n (with_spectrum n V w) (sym_part M) ->
  (forall m, is_array n n (sym_part M) m -> t_eigh t m = Ok (vec (fvec n w), mkNd [n; n] (rows_of n V))) ->
  (forall i, i < n -> (0 < rclamp lo hi (w i))%R) ->
  (X = None /\ h = Some (HDense a) \/ exists z, X = Some z /\ h = None /\ t_hessian t z = Ok (HDense a)) ->
  exists s K z gr', set_op t (SetHessian X h (rbound lo) (rbound hi)) = Ok s /\ computes n (pre_call f s) ret K /\
    length z = n /\ precondition s (map Fin x) = Ok (map Fin z) /\ unprecondition s (map Fin z) = Ok (map Fin x) /\
    (zero_vector gr -> zero_vector gr') /\
    has_hessian K z gr' (with_spectrum n V (fun i => w i / rclamp lo hi (w i))%R).
Proof. exact pre_truncated. Qed.
Print Assumptions C93_truncated.

(** Without bounds the Hessian becomes the identity. *)
Theorem C93_whitened : forall S Y (f : list num -> S -> res Y * S) ret t n a H x gr M V w X h,
  computes n f ret H -> length x = n -> has_hessian H x gr M ->
  hessian_array n a M -> orthonormal n V -> Rmat_eq n (with_spectrum n V w) (sym_part M) ->
  (forall m, is_array n n (sym_part M) m -> t_eigh t m = Ok (vec (fvec n w), mkNd [n; n] (rows_of n V))) ->
  (forall i, i < n -> (0 < w i)%R) ->
  (X = None /\ h = Some (HDense a) \/ exists z, X = Some z /\ h = None /\ t_hessian t z = Ok (HDense a)) ->
  exists s K z gr', set_op t (SetHessian X h None None) = Ok s /\ computes n (pre_call f s) ret K /\
    length z = n /\ precondition s (map Fin x) = Ok (map Fin z) /\ unprecondition s (map Fin z) = Ok (map Fin x) /\
    (zero_vector gr -> zero_vector gr') /\ has_hessian K z gr' Rid.
Proof. exact pre_whitened. Qed.
Print Assumptions C93_whitened.

Example C93_truncated_case : computes 2 oval_call (fun r => r) oval /\ has_hessian oval [1; 1]%R [3; 3]%R demo_h /\
  hessian_array 2 (mkNd [2; 2] (rows_of 2 demo_h)) demo_h /\ orthonormal 2 demo_v /\
  Rmat_eq 2 (with_spectrum 2 demo_v demo_w) (sym_part demo_h) /\
  (forall m, is_array 2 2 (sym_part demo_h) m -> t_eigh eigh_tools m = Ok (vec (fvec 2 demo_w), mkNd [2; 2] (rows_of 2 demo_v))) /\
  (forall i, i < 2 -> (0 < rclamp None (Some 2%R) (demo_w i))%R) /\ (forall i, i < 2 -> (0 < demo_w i)%R) /\
  t_hessian eigh_tools (map Fin [1; 1]%R) = Ok (HDense (mkNd [2; 2] (rows_of 2 demo_h))) /\
  (demo_w 0 / rclamp None (Some 2) (demo_w 0) = 3 / 2)%R.
Proof. exact truncated_case. Qed.

(** Whatever the bounds, no two positive eigenvalues are further apart than before. *)
Theorem C93_conditioning : forall lo hi a b, (0 < a <= b)%R -> (0 < rclamp lo hi a)%R ->
  (0 < rclamp lo hi b)%R /\ (0 < a / rclamp lo hi a <= b / rclamp lo hi b)%R /\
  ((b / rclamp lo hi b) / (a / rclamp lo hi a) <= b / a)%R.
Proof. exact clamp_ratio. Qed.
Print Assumptions C93_conditioning.
Example C93_conditioning_case : (0 < 1 <= 8)%R /\ (rclamp (Some 2) (Some 4) 1 = 2)%R /\ (rclamp (Some 2) (Some 4) 8 = 4)%R.
Proof. exact ratio_case. Qed.

(** At a stationary point under the constraints with positive curvature along them, the
    free Hessian is accepted by [set_preconditioner_with_hessian], and the preconditioned
    free objective has gradient zero and Hessian the identity. *)
Theorem C93_optimum : forall S (f : callable (obj R) S) ad p n v x gr M Phi t J K V w,
  usable p -> simplexes_nonempty p -> flat_length p (Some true) = Ok (plint n) ->
  (forall u z, admissible p u -> flatten p u (Some false) None = Ok (map Fin z) -> returns f u (Phi z)) ->
  interior p v -> flatten p v (Some false) None = Ok (map Fin x) -> has_hessian Phi x gr M ->
  (forall h, feasible p x h -> dot gr h = 0%R) ->
  (forall h, feasible p x h -> ~ zero_vector h -> (0 < quadratic (length x) M h)%R) ->
  at_psd (jacobian_true ad false) p v -> jacobian ad false p v = Ok J -> pulled_form J M K ->
  orthonormal n V -> Rmat_eq n (with_spectrum n V w) (sym_part K) ->
  (forall m, is_array n n (sym_part K) m -> t_eigh t m = Ok (vec (fvec n w), mkNd [n; n] (rows_of n V))) ->
  exists g y s z P, free_objective f p = Ok g /\ flatten p v (Some true) None = Ok (map Fin y) /\
    set_op t (SetHessian None (Some (HDense (mkNd [n; n] (rows_of n K)))) None None) = Ok s /\
    precondition s (map Fin y) = Ok (map Fin z) /\ unprecondition s (map Fin z) = Ok (map Fin y) /\
    computes n (pre_call (on_vectors g) s) (fun r => ROne (OOther r)) P /\
    has_hessian P z (repeat 0%R n) Rid.
Proof. exact optimum_whitened. Qed.
Print Assumptions C93_optimum.
(** With [C91_sufficient_case], which meets the other hypotheses. *)
Example C93_optimum_case : exists t J K V w, at_psd (jacobian_true psd_ad false) pair_pat pair_value /\
  jacobian psd_ad false pair_pat pair_value = Ok J /\ pulled_form J pair_hessian K /\
  orthonormal 1 V /\ Rmat_eq 1 (with_spectrum 1 V w) (sym_part K) /\
  (forall m, is_array 1 1 (sym_part K) m -> t_eigh t m = Ok (vec (fvec 1 w), mkNd [1; 1] (rows_of 1 V))).
Proof. exact optimum_case. Qed.
