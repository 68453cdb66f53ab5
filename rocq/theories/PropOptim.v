(** * Property theorems C49-C52, C62-C64, C67: preconditioners, eigenvalue tools and
    optimization objectives. *)
From Coq Require Import Reals ZArith.
From Verif Require Import Base Num Nd Spec SpecValid Jac Optim SpecOptim OptimFacts OptimHist DemoOptim.
Local Open Scope list_scope.
Local Open Scope nat_scope.

(** C49.  After any history of calls, some of which may raise, the operators are those
    installed by the last call that did not. *)
Theorem C49_history : forall t l, installed t l (run_ops t l).
Proof. exact precond_history. Qed.
Print Assumptions C49_history.
Theorem C49_initial : forall t x,
  precondition (run_ops t []) x = Ok x /\ unprecondition (run_ops t []) x = Ok x.
Proof. exact precond_initial. Qed.
Print Assumptions C49_initial.
Theorem C49_failed_call : forall t s o s' e, do_op t s o = (s', Some e) -> s' = s.
Proof. exact precond_failed_call. Qed.
Print Assumptions C49_failed_call.
Theorem C49_call_evaluates : forall Y S (f : list num -> S -> res Y * S) t l x st,
  (forall y, unprecondition (run_ops t l) x = Ok y -> pre_call f (run_ops t l) x st = f y st) /\
  (forall e, unprecondition (run_ops t l) x = Err e -> pre_call f (run_ops t l) x st = (Err e, st)).
Proof. exact precond_call. Qed.
Print Assumptions C49_call_evaluates.
Theorem C49_inverse_call : forall Y S (f : list num -> S -> res Y * S) t l n,
  mutually_inverse n (precondition (run_ops t l)) (unprecondition (run_ops t l)) ->
  forall x st, exists c, precondition (run_ops t l) (fvec n x) = Ok c /\
    pre_call f (run_ops t l) c st = f (fvec n x) st.
Proof. exact precond_inverse_call. Qed.
Print Assumptions C49_inverse_call.
Theorem C49_matrices : forall t (sparse : bool) n A B a b,
  is_array n n A a -> is_array n n B b -> inverse_matrices n A B ->
  forall given, given = Some b \/
    (given = None /\ (if sparse then t_sparse_inv t a else t_inv t a) = Ok b) ->
  exists s, set_op t (SetMatrix sparse a given) = Ok s /\
    is_matvec n (unprecondition s) A /\ is_matvec n (precondition s) B /\
    mutually_inverse n (precondition s) (unprecondition s).
Proof. exact precond_matrix. Qed.
Print Assumptions C49_matrices.
Example C49_case : exists s, set_op no_tools (SetMatrix false (fmat 2 demo_a) (Some (fmat 2 demo_b))) = Ok s /\
  run_ops no_tools demo_ops = s /\
  unprecondition s (fvec 2 (fun _ => 1%R)) = Ok (fvec 2 (fun i => match i with 0 => 3 | _ => 1 end)%R) /\
  do_op no_tools s (SetHessian None None None None) = (s, Some ValueError) /\
  mutually_inverse 2 (precondition s) (unprecondition s).
Proof. exact history_case. Qed.

(** C50. *)
Theorem C50_hessian_preconditioner : forall t n a H V w lo hi x h,
  hessian_array n a H -> orthonormal n V ->
  (forall m, is_array n n (sym_part H) m ->
     t_eigh t m = Ok (vec (fvec n w), mkNd [n; n] (rows_of n V))) ->
  (forall i, i < n -> (0 < rclamp lo hi (w i))%R) ->
  (x = None /\ h = Some (HDense a) \/
   exists z, x = Some z /\ h = None /\ t_hessian t z = Ok (HDense a)) ->
  exists s A B, set_op t (SetHessian x h (rbound lo) (rbound hi)) = Ok s /\
    is_matvec n (unprecondition s) A /\ is_matvec n (precondition s) B /\
    mutually_inverse n (precondition s) (unprecondition s) /\
    symmetric n A /\ symmetric n B /\
    Rmat_eq n (Rmatmul n A (Rmatmul n (with_spectrum n V (fun i => rclamp lo hi (w i))) A)) Rid /\
    Rmat_eq n (Rmatmul n B B) (with_spectrum n V (fun i => rclamp lo hi (w i))).
Proof. exact hessian_preconditioner. Qed.
Print Assumptions C50_hessian_preconditioner.
Example C50_case : exists s A B, set_op eigh_tools (SetHessian (Some []) None None (rbound (Some 2%R))) = Ok s /\
  is_matvec 2 (unprecondition s) A /\ is_matvec 2 (precondition s) B /\
  mutually_inverse 2 (precondition s) (unprecondition s) /\
  Rmat_eq 2 (Rmatmul 2 B B) (m2 (3 / 2) (1 / 2) (1 / 2) (3 / 2)).
Proof. exact hessian_case. Qed.
Theorem C50_whitens : forall t n a H V w,
  hessian_array n a H -> orthonormal n V -> Rmat_eq n (with_spectrum n V w) (sym_part H) ->
  (forall m, is_array n n (sym_part H) m ->
     t_eigh t m = Ok (vec (fvec n w), mkNd [n; n] (rows_of n V))) ->
  (forall i, i < n -> (0 < w i)%R) ->
  exists s A, set_op t (SetHessian None (Some (HDense a)) None None) = Ok s /\
    is_matvec n (unprecondition s) A /\ symmetric n A /\
    mutually_inverse n (precondition s) (unprecondition s) /\
    Rmat_eq n (Rmatmul n A (Rmatmul n (sym_part H) A)) Rid.
Proof. exact hessian_whitened. Qed.
Print Assumptions C50_whitens.
Example C50_whitens_case : exists s A, set_op eigh_tools
    (SetHessian None (Some (HDense (mkNd [2; 2] (rows_of 2 demo_h)))) None None) = Ok s /\
  is_matvec 2 (unprecondition s) A /\ symmetric 2 A /\
  Rmat_eq 2 (Rmatmul 2 A (Rmatmul 2 (m2 2 1 1 2) A)) Rid.
Proof. exact whitened_case. Qed.
Example C50_shapes_case :
  (exists s A B, set_op ones_tools (SetHessian None (Some (HDense (vec (fvec 2 (fun _ => 1%R))))) (rbound (Some 1%R)) None) = Ok s /\
    is_matvec 2 (unprecondition s) A /\ is_matvec 2 (precondition s) B /\
    Rmat_eq 2 (Rmatmul 2 B B) (m2 (3 / 2) (1 / 2) (1 / 2) (3 / 2))) /\
  (exists s A B, set_op ones_tools (SetHessian None (Some (HDense (mkNd [] [Fin 4]))) None None) = Ok s /\
    is_matvec 1 (unprecondition s) A /\ is_matvec 1 (precondition s) B /\ (B 0%nat 0%nat * B 0%nat 0%nat = 4)%R).
Proof. exact odd_hessian_case. Qed.
Theorem C50_vector_not_definite : forall n v, 2 <= n -> ~ pos_def n (fun i j => (v i + v j) / 2)%R.
Proof. exact vector_hessian_indefinite. Qed.
Print Assumptions C50_vector_not_definite.
Theorem C50_arguments : forall t x h lo hi,
  (x = None -> h = None -> set_op t (SetHessian x h lo hi) = Err ValueError) /\
  (x <> None -> h <> None -> set_op t (SetHessian x h lo hi) = Err ValueError) /\
  (x = None -> h = Some HSparse -> set_op t (SetHessian x h lo hi) = Err NotImplementedError).
Proof. exact hessian_arguments. Qed.
Print Assumptions C50_arguments.

Theorem C50_failures : forall t x h lo hi,
  (forall a r c, shp a = [r; c] -> r <> c -> r <> 1 -> c <> 1 ->
     (x = None /\ h = Some (HDense a)) \/ (exists z, x = Some z /\ h = None /\ t_hessian t z = Ok (HDense a)) ->
     set_op t (SetHessian x h lo hi) = Err ValueError) /\
  (forall z e, x = Some z -> h = None -> t_hessian t z = Err e -> set_op t (SetHessian x h lo hi) = Err e) /\
  (forall z, x = Some z -> h = None -> t_hessian t z = Ok HSparse ->
     set_op t (SetHessian x h lo hi) = Err NotImplementedError).
Proof. exact hessian_failures. Qed.
Print Assumptions C50_failures.
Example C50_failures_case : shp (mkNd [2; 3] (repeat (Fin 1) 6)) = [2; 3] /\ 2 <> 3 /\ 2 <> 1 /\ 3 <> 1 /\
  set_op no_tools (SetHessian None (Some (HDense (mkNd [2; 3] (repeat (Fin 1) 6)))) None None) = Err ValueError.
Proof. exact rectangle_case. Qed.

(** C51.  The heap [h] of float arrays is unchanged; the result is new. *)
Theorem C51_truncation : forall h a l lo hi, nth_error h a = Some l ->
  exists r, truncate_eigenvalues h a (option_map BNum lo) (option_map BNum hi) = (Ok (length h), h ++ [r]) /\
    Forall2 (clamped (lower_bound lo) (upper_bound hi)) l r.
Proof. exact truncate_clamps. Qed.
Print Assumptions C51_truncation.
Theorem C51_complex_minimum : forall h a re im hi,
  exists h', truncate_eigenvalues h a (Some (BComplex re im)) hi =
    (Err (if neqb im (Fin 0) then TypeError else ValueError), h') /\ firstn (length h) h' = h.
Proof. exact truncate_complex_min. Qed.
Print Assumptions C51_complex_minimum.
Theorem C51_complex_maximum : forall h a lo re im,
  exists h', truncate_eigenvalues h a (option_map BNum lo) (Some (BComplex re im)) =
    (Err (if neqb im (Fin 0) then TypeError else ValueError), h') /\ firstn (length h) h' = h.
Proof. exact truncate_complex_max. Qed.
Print Assumptions C51_complex_maximum.
Example C51_case : truncate_eigenvalues [[Fin 1; Fin 3; NaN; PInf]] 0 (Some (BNum (Fin 2))) (Some (BNum (Fin 4))) =
    (Ok 1, [[Fin 1; Fin 3; NaN; PInf]; [Fin 2; Fin 3; NaN; Fin 4]]) /\
  truncate_eigenvalues [[Fin 1; Fin 3; NaN; PInf]] 0 (Some (BNum (Fin 4))) (Some (BNum (Fin 2))) =
    (Ok 1, [[Fin 1; Fin 3; NaN; PInf]; [Fin 2; Fin 2; NaN; Fin 2]]) /\
  truncate_eigenvalues [[Fin 1]] 0 (Some (BComplex (Fin 1) (Fin 1))) None = (Err ValueError, [[Fin 1]; [Fin 1]]).
Proof. exact truncation_case. Qed.

(** C52. *)
Theorem C52_history : forall X Y (f : X -> res Y) printable pe le l s t,
  obj_run f printable (new_objective pe le) l = (s, t) ->
  map fst t = l /\ o_count s = evaluations t /\
  entries_from (log_every le) t (log_start t) (o_entries s) /\
  (exists ps, entries_from (print_every pe) t 0 ps /\
     o_printed s = map (fun e => (fst (fst e), snd e)) ps).
Proof. exact objective_history. Qed.
Print Assumptions C52_history.
Theorem C52_outcomes : forall X Y (f : X -> res Y) printable pe le l s t i x r,
  obj_run f printable (new_objective pe le) l = (s, t) -> nth_error t i = Some (Eval x, r) ->
  (r = Some (f x) \/ exists y, f x = Ok y /\ printable y = false /\ r = Some (Err TypeError)) /\
  (forall y, f x = Ok y ->
     (r = Some (Err TypeError) <->
      happens (print_every pe (firstn i t)) (evaluations (firstn i t)) /\ printable y = false)).
Proof. exact objective_outcomes. Qed.
Print Assumptions C52_outcomes.
Theorem C52_raising : forall X Y (f : X -> res Y) printable s x s' e,
  obj_step f printable s (Eval x) = (s', Some (Err e)) -> s' = s.
Proof. exact objective_raising. Qed.
Print Assumptions C52_raising.
Example C52_case : obj_run demo_f (fun y => negb (y =? 70)%Z) (new_objective 0 2) demo_calls =
  (mkObj 5 5 1 [(2, 3, 30%Z); (4, 6, 60%Z)] [],
   [(Eval 1, Some (Ok 10%Z)); (ResetLog, None); (Eval 2, Some (Ok 20%Z)); (Eval 3, Some (Ok 30%Z));
    (Eval 5, Some (Err ValueError)); (Eval 4, Some (Ok 40%Z)); (SetLog 1%Z, None); (SetPrint 5%Z, None);
    (Eval 6, Some (Ok 60%Z)); (Eval 7, Some (Err TypeError))]).
Proof. exact objective_case. Qed.

(** C62. *)
Theorem C62_sparse_preconditioner : forall sqrt_mat factorized h n H S m g f,
  is_array n n H h -> sqrt_mat h = Ok m -> is_array n n S m ->
  Rmat_eq n (Rmatmul n S (Rtrans S)) H ->
  factorized m = Ok g -> factorized (transpose m) = Ok f ->
  (forall y, exists x, f (fvec n y) = Ok (fvec n x) /\ forall i, i < n -> Rmatvec n (Rtrans S) x i = y i) ->
  exists mult solve B A, sparse_inv_sqrt_funcs sqrt_mat factorized true h = Ok (mult, solve) /\
    is_matvec n mult B /\ is_matvec n solve A /\ mutually_inverse n mult solve /\
    Rmat_eq n (Rmatmul n (Rtrans B) B) H /\
    Rmat_eq n (Rmatmul n (Rtrans A) (Rmatmul n H A)) Rid.
Proof. exact sparse_preconditioner. Qed.
Print Assumptions C62_sparse_preconditioner.
Theorem C62_dense_argument : forall sqrt_mat factorized h,
  sparse_inv_sqrt_funcs sqrt_mat factorized false h = Err ValueError.
Proof. exact sparse_dense_argument. Qed.
Print Assumptions C62_dense_argument.
Example C62_case : exists mult solve B A,
  sparse_inv_sqrt_funcs (fun _ => Ok (fmat 2 demo_s)) (fun _ => Ok (matvec (fmat 2 demo_st_inv))) true
    (fmat 2 (m2 4 2 2 2)) = Ok (mult, solve) /\
  is_matvec 2 mult B /\ is_matvec 2 solve A /\ mutually_inverse 2 mult solve /\
  Rmat_eq 2 (Rmatmul 2 (Rtrans B) B) (m2 4 2 2 2) /\
  Rmat_eq 2 (Rmatmul 2 (Rtrans A) (Rmatmul 2 (m2 4 2 2 2) A)) Rid.
Proof. exact sparse_case. Qed.

(** C63. *)
Theorem C63_operator_matrix : forall n m f L, 0 < n -> linear_operator n m f L ->
  exists M A, matrix_from_operator f n = Ok M /\ is_array m n A M /\
    forall x, f (fvec n x) = Ok (fvec m (Rmatvec n A x)).
Proof. exact operator_matrix. Qed.
Print Assumptions C63_operator_matrix.
Theorem C63_preconditioner : forall t l n L, 0 < n ->
  (linear_operator n n (unprecondition (run_ops t l)) L ->
   exists M A, get_preconditioner (run_ops t l) n = Ok M /\ is_array n n A M /\
     is_matvec n (unprecondition (run_ops t l)) A) /\
  (linear_operator n n (precondition (run_ops t l)) L ->
   exists M A, get_preconditioner_inv (run_ops t l) n = Ok M /\ is_array n n A M /\
     is_matvec n (precondition (run_ops t l)) A).
Proof. exact preconditioner_matrix. Qed.
Print Assumptions C63_preconditioner.
Theorem C63_dimension_zero : forall f, matrix_from_operator f 0 = Err ValueError.
Proof. exact operator_matrix_empty. Qed.
Print Assumptions C63_dimension_zero.
Example C63_case : exists M A, matrix_from_operator (matvec (fmat 2 demo_a)) 2 = Ok M /\
  is_array 2 2 A M /\ Rmat_eq 2 A demo_a.
Proof. exact operator_case. Qed.

(** C64. *)
Theorem C64_raises : forall s n v y z tol,
  precondition s (fvec n v) = Ok y -> unprecondition s y = Ok (fvec n z) ->
  check_preconditioner s (fvec n v) (Fin tol) =
    (if Rlt_dec tol (sqrt (Rsum n (fun i => (v i - z i) * (v i - z i))%R)) then Err ValueError else Ok tt).
Proof. exact check_raises. Qed.
Print Assumptions C64_raises.
Theorem C64_correct_passes : forall s n v tol,
  mutually_inverse n (precondition s) (unprecondition s) -> (0 <= tol)%R ->
  check_preconditioner s (fvec n v) (Fin tol) = Ok tt.
Proof. exact check_correct_passes. Qed.
Print Assumptions C64_correct_passes.
Theorem C64_nan_passes : forall s v y z tol,
  precondition s v = Ok y -> unprecondition s y = Ok z -> length z = length v -> In NaN z ->
  check_preconditioner s v tol = Ok tt.
Proof. exact check_nan_passes. Qed.
Print Assumptions C64_nan_passes.
Theorem C64_lengths : forall s n u b v y z tol tol0, precondition s v = Ok y -> unprecondition s y = Ok z ->
  (length v <> length z -> length v <> 1 -> length z <> 1 -> check_preconditioner s v tol = Err ValueError) /\
  (v = fvec n u -> z = [Fin b] -> check_preconditioner s v (Fin tol0) =
     (if Rlt_dec tol0 (sqrt (Rsum n (fun i => (u i - b) * (u i - b))%R)) then Err ValueError else Ok tt)) /\
  (v = [Fin b] -> z = fvec n u -> check_preconditioner s v (Fin tol0) =
     (if Rlt_dec tol0 (sqrt (Rsum n (fun i => (b - u i) * (b - u i))%R)) then Err ValueError else Ok tt)).
Proof. exact check_lengths. Qed.
Print Assumptions C64_lengths.
Theorem C64_errors : forall s v tol,
  (forall e, precondition s v = Err e -> check_preconditioner s v tol = Err e) /\
  (forall y e, precondition s v = Ok y -> unprecondition s y = Err e -> check_preconditioner s v tol = Err e).
Proof. exact check_errors. Qed.
Print Assumptions C64_errors.
Example C64_case : check_preconditioner (mkPre (matvec (fmat 1 (fun _ _ => 2%R))) (fun x => Ok x)) [Fin 1] (Fin (1 / 2)) = Err ValueError /\
  check_preconditioner (mkPre (matvec (fmat 1 (fun _ _ => 2%R))) (fun x => Ok x)) [Fin 1] (Fin 2) = Ok tt /\
  check_preconditioner (mkPre (fun x => Ok (map (fun _ => NaN) x)) (fun x => Ok x)) [Fin 1] (Fin 0) = Ok tt.
Proof. exact check_case. Qed.

(** C67.  "The log always pairs arguments with their values" fails, because the log
    keeps the caller's array; it holds if no array is written to after the call. *)
Theorem C67_log_refuted : exists (f : list num -> res num) printable h pe le l,
  ~ log_consistent f (alias_run f printable h pe le l).
Proof. exact log_late_write. Qed.
Print Assumptions C67_log_refuted.
Theorem C67_log_without_late_writes : forall Y (f : list num -> res Y) printable h pe le l,
  no_late_writes [] l -> log_consistent f (alias_run f printable h pe le l).
Proof. exact log_values. Qed.
Print Assumptions C67_log_without_late_writes.
Example C67_case : no_late_writes [] demo_writes /\
  alias_run (fun v => Ok (nth 0 v NaN)) (fun _ => true) [[Fin 1]; [Fin 2]] 0 1 demo_writes =
  ([[Fin 3]; [Fin 4]], mkObj 2 0 1 [(0, 0, Fin 3); (1, 1, Fin 4)] []).
Proof. exact alias_case. Qed.
