(** * Property theorems C53-C57, C68 and C69: the autograd supplements. *)
From Coq Require Import Reals ZArith.
From Verif Require Import Base Num Nd Spec Jac SpecJac Optim SpecOptim AdSupp SpecAd AdFacts AdMore AdSparse AdMat DemoOptim DemoAd.
Local Open Scope list_scope.
Local Open Scope nat_scope.

(** C53.  Group [k] of the result is the sum of the rows whose label stands for [k]. *)
Theorem C53_grouped_sum : forall x zs num K rest,
  nd_ok x -> shp x = length zs :: rest -> zs <> [] -> Forall (in_range K) zs -> group_count K zs num ->
  exists r, grouped_sum x (GInt (vec zs)) num = Ok r /\ shp r = K :: rest /\ nd_ok r /\
    forall k j, k < K -> j < prod rest ->
      nth (k * prod rest + j) (dat r) NaN =
      nsum (map (fun n => nth (n * prod rest + j) (dat x) NaN)
              (filter (fun n => belongs K (nth n zs 0%Z) k) (seq 0 (length zs)))).
Proof. exact grouped_sum_value. Qed.
Print Assumptions C53_grouped_sum.
Theorem C53_errors : forall x z num,
  (1 < ndim z -> grouped_sum x (GInt z) num = Err ValueError) /\
  (ndim z = 1 -> nth 0 (shp (atleast_1d x)) 0 <> nth 0 (shp z) 0 -> grouped_sum x (GInt z) num = Err ValueError) /\
  (ndim z = 1 -> dat z = [] -> grouped_sum x (GInt z) num = Err ValueError) /\
  (ndim z = 1 -> forall k g, num = Some k -> In g (dat z) -> (k <= g)%Z ->
     grouped_sum x (GInt z) num = Err ValueError).
Proof. exact grouped_sum_errors. Qed.
Print Assumptions C53_errors.
Theorem C53_low_label : forall x zs K rest g,
  shp x = length zs :: rest -> Forall (fun z => z < Z.of_nat K)%Z zs -> In g zs -> (g < - Z.of_nat K)%Z ->
  grouped_sum x (GInt (vec zs)) (Some (Z.of_nat K)) = Err IndexError.
Proof. exact grouped_sum_low_label. Qed.
Print Assumptions C53_low_label.
Theorem C53_float_labels : forall x zs s num,
  grouped_sum x (GFloat (mkNd s (map (fun z => Fin (IZR z)) zs))) num = grouped_sum x (GInt (mkNd s zs)) num.
Proof. exact grouped_sum_float_labels. Qed.
Print Assumptions C53_float_labels.
Example C53_case : nd_ok demo_x /\ shp demo_x = [length demo_labels; 2] /\ demo_labels <> [] /\
  Forall (in_range 3) demo_labels /\ group_count 3 demo_labels (Some 3%Z) /\
  grouped_sum demo_x (GInt (vec demo_labels)) (Some 3%Z) = Ok (mkNd [3; 2] (map Fin [6; 8; 0; 0; 3; 4]%R)) /\
  grouped_sum_vjp (GInt (vec demo_labels)) (Some 3%Z) (mkNd [3; 2] (map Fin [1; 2; 3; 4; 5; 6]%R)) =
    Ok (mkNd [3; 2] (map Fin [1; 2; 5; 6; 1; 2]%R)).
Proof. exact grouped_case. Qed.
Example C53_error_case : grouped_sum (vec (map Fin [1; 2]%R)) (GInt (vec [0; 4]%Z)) (Some 4%Z) = Err ValueError /\
  grouped_sum (vec (map Fin [1; 2]%R)) (GInt (vec [0]%Z)) None = Err ValueError /\
  grouped_sum (vec (map Fin [1; 2]%R)) (GInt (vec [0; -3]%Z)) (Some 2%Z) = Err IndexError /\
  group_count 2 [1; -1]%Z None /\
  grouped_sum (vec (map Fin [1; 2]%R)) (GInt (vec [1; -1]%Z)) None = Ok (vec (map Fin [0; 3]%R)).
Proof. exact grouped_error_case. Qed.

(** C54.  Integer labels. *)
Theorem C54_derivatives : forall zs num K rest,
  zs <> [] -> Forall (in_range K) zs -> group_count K zs num ->
  exact_derivative (length zs :: rest) (K :: rest)
    (fun x => grouped_sum x (GInt (vec zs)) num) (grouped_sum_jvp (GInt (vec zs)) num) /\
  adjoint (length zs :: rest) (K :: rest)
    (grouped_sum_jvp (GInt (vec zs)) num) (grouped_sum_vjp (GInt (vec zs)) num).
Proof. exact grouped_sum_derivatives. Qed.
Print Assumptions C54_derivatives.
Example C54_case : nd_ok demo_x /\ shp demo_x = [length demo_labels; 2] /\ demo_labels <> [] /\
  Forall (in_range 3) demo_labels /\ group_count 3 demo_labels (Some 3%Z) /\
  grouped_sum demo_x (GInt (vec demo_labels)) (Some 3%Z) = Ok (mkNd [3; 2] (map Fin [6; 8; 0; 0; 3; 4]%R)) /\
  grouped_sum_vjp (GInt (vec demo_labels)) (Some 3%Z) (mkNd [3; 2] (map Fin [1; 2; 3; 4; 5; 6]%R)) =
    Ok (mkNd [3; 2] (map Fin [1; 2; 5; 6; 1; 2]%R)).
Proof. exact grouped_case. Qed.
(** For float or boolean labels the reverse rule is wrong. *)
Theorem C54_float_labels_refuted : exists x num, (exists r, grouped_sum_jvp (GFloat x) num (farr [2] (fun _ => 1%R)) = Ok r) /\
  forall v, grouped_sum_vjp (GFloat x) num v = Err IndexError.
Proof. exact float_labels_refuted. Qed.
Print Assumptions C54_float_labels_refuted.
Theorem C54_bool_labels_refuted : exists b num,
  exact_derivative [2] [2] (fun x => grouped_sum x (GBool b) num) (grouped_sum_jvp (GBool b) num) /\
  ~ adjoint [2] [2] (grouped_sum_jvp (GBool b) num) (grouped_sum_vjp (GBool b) num).
Proof. exact bool_labels_refuted. Qed.
Print Assumptions C54_bool_labels_refuted.

(** C55.  The result is a new array; rows are taken from the last assignment. *)
Theorem C55_replace : forall h a x x_sub l n rest,
  nth_error h a = Some x -> nd_ok x -> nd_ok x_sub -> shp x = n :: rest -> shp x_sub = length l :: rest ->
  Forall (in_range n) l ->
  exists r, replace_at h x_sub a (IInt l) = (Ok (length h), h ++ [r]) /\
    replace x_sub x (IInt l) = Ok r /\ shp r = n :: rest /\ nd_ok r /\
    forall k j, k < n -> j < prod rest ->
      (forall p, last_at n l k p ->
         nth (k * prod rest + j) (dat r) NaN = nth (p * prod rest + j) (dat x_sub) NaN) /\
      ((forall p, p < length l -> belongs n (nth p l 0%Z) k = false) ->
       nth (k * prod rest + j) (dat r) NaN = nth (k * prod rest + j) (dat x) NaN).
Proof. exact replace_value. Qed.
Print Assumptions C55_replace.
Theorem C55_replace_by_number : forall h a x c l n rest,
  nth_error h a = Some x -> nd_ok x -> shp x = n :: rest -> Forall (in_range n) l ->
  exists r, replace_at h (scalar c) a (IInt l) = (Ok (length h), h ++ [r]) /\
    replace (scalar c) x (IInt l) = Ok r /\ shp r = n :: rest /\ nd_ok r /\
    forall k j, k < n -> j < prod rest ->
      nth (k * prod rest + j) (dat r) NaN =
      if existsb (fun z => belongs n z k) l then c else nth (k * prod rest + j) (dat x) NaN.
Proof. exact replace_number. Qed.
Print Assumptions C55_replace_by_number.
Theorem C55_inputs_kept : forall h x_sub a i, firstn (length h) (snd (replace_at h x_sub a i)) = h.
Proof. exact replace_inputs_kept. Qed.
Print Assumptions C55_inputs_kept.
Theorem C55_bad_index : forall x_sub x l n rest, shp x = n :: rest -> ~ Forall (in_range n) l ->
  replace x_sub x (IInt l) = Err IndexError.
Proof. exact replace_bad_index. Qed.
Print Assumptions C55_bad_index.
Theorem C55_mask : forall x_sub x l n rest, shp x = n :: rest -> length l = n ->
  replace x_sub x (IBool l) = replace x_sub x (IInt (map Z.of_nat (select (seq 0 n) l))).
Proof. exact replace_mask. Qed.
Print Assumptions C55_mask.
Theorem C55_derivatives : forall l n rest x x_sub, Forall (in_range n) l ->
  exact_derivative [length l] [n] (fun u => replace u (farr [n] x) (IInt l)) (replace_jvp_sub (farr [n] x) (IInt l)) /\
  exact_derivative (n :: rest) (n :: rest) (fun y => replace (farr (length l :: rest) x_sub) y (IInt l))
    (replace_jvp_x (IInt l)) /\
  adjoint (n :: rest) (n :: rest) (replace_jvp_x (IInt l)) (replace_vjp_x (IInt l)) /\
  (distinct_rows n l -> adjoint [length l] [n] (replace_jvp_sub (farr [n] x) (IInt l)) (replace_vjp_sub (IInt l))).
Proof. exact replace_derivatives. Qed.
Print Assumptions C55_derivatives.
Example C55_case : nd_ok demo_r /\ Forall (in_range 3) [0; -1]%Z /\ distinct_rows 3 [0; -1]%Z /\
  last_at 3 [0; -1]%Z 2 1 /\
  replace_at [demo_x; demo_r] (vec (map Fin [7; 8]%R)) 1 (IInt [0; -1]%Z) =
    (Ok 2, [demo_x; demo_r; vec (map Fin [7; 2; 8]%R)]) /\
  replace (vec (map Fin [7; 8]%R)) demo_r (IInt [1; -2]%Z) = Ok (vec (map Fin [1; 8; 3]%R)) /\
  replace (scalar (Fin 5)) demo_x (IInt [1]%Z) = Ok (mkNd [3; 2] (map Fin [1; 2; 5; 5; 5; 6]%R)) /\
  replace (vec (map Fin [7; 8]%R)) demo_r (IBool [true; false; true]) = Ok (vec (map Fin [7; 2; 8]%R)) /\
  replace (vec (map Fin [7; 8]%R)) demo_r (IInt [0; 3]%Z) = Err IndexError.
Proof. exact replace_case. Qed.
(** Where the rules are wrong: repeated indices, more than one axis, numbers. *)
Theorem C55_duplicate_refuted : exists l n x, Forall (in_range n) l /\
  exact_derivative [length l] [n] (fun u => replace u (farr [n] x) (IInt l)) (replace_jvp_sub (farr [n] x) (IInt l)) /\
  ~ adjoint [length l] [n] (replace_jvp_sub (farr [n] x) (IInt l)) (replace_vjp_sub (IInt l)).
Proof. exact duplicate_refuted. Qed.
Print Assumptions C55_duplicate_refuted.
Theorem C55_matrix_forward_fails : forall l n rest x g, Forall (in_range n) l -> shp x = n :: rest ->
  shp g = length l :: rest -> rest <> [] -> ~ (length l = 1 /\ Forall (eq 1) rest) ->
  replace_jvp_sub x (IInt l) g = Err ValueError.
Proof. exact replace_jvp_sub_matrix. Qed.
Print Assumptions C55_matrix_forward_fails.
Theorem C55_matrix_rows_refuted : exists x x_sub l, (exists r, replace x_sub x (IInt l) = Ok r) /\
  replace_jvp_sub x (IInt l) x_sub = Err ValueError.
Proof. exact matrix_rows_refuted. Qed.
Print Assumptions C55_matrix_rows_refuted.
Theorem C55_number_refuted : exists n l, Forall (in_range n) l /\ distinct_rows n l /\
  (forall x, exact_derivative [] [n] (fun u => replace u (farr [n] x) (IInt l)) (replace_jvp_sub (farr [n] x) (IInt l))) /\
  forall x, ~ adjoint [] [n] (replace_jvp_sub (farr [n] x) (IInt l)) (replace_vjp_sub (IInt l)).
Proof. exact number_refuted. Qed.
Print Assumptions C55_number_refuted.

(** C56.  Every derivative, of any order and mode, is one of the two primitives. *)
Theorem C56_products : forall z r c Zm x, shp z = [r; c] -> is_array r c Zm (matrix_of z) ->
  sp_apply z PZ (farr [c] x) = Ok (farr [r] (fun i => Rsum c (fun j => Zm i j * x j)%R)) /\
  (forall y, sp_apply z PZt (farr [r] y) = Ok (farr [c] (fun j => Rsum r (fun i => Zm i j * y i)%R))) /\
  (forall l X, sp_apply z PZ (farr [c; l] X) =
     Ok (farr [r; l] (fun a => Rsum c (fun j => Zm (a / l)%nat j * X (j * l + a mod l)%nat)%R))) /\
  (forall l Y, sp_apply z PZt (farr [r; l] Y) =
     Ok (farr [c; l] (fun a => Rsum r (fun i => Zm i (a / l)%nat * Y (i * l + a mod l)%nat)%R))).
Proof. exact sparse_product_value. Qed.
Print Assumptions C56_products.
Theorem C56_derivatives : forall z r c Zm tail p path b, shp z = [r; c] ->
  is_array r c Zm (matrix_of z) -> length tail <= 1 ->
  exists m m', (derived p path = PZ /\ m = c /\ m' = r \/ derived p path = PZt /\ m = r /\ m' = c) /\
    exact_derivative (m :: tail) (m' :: tail) (sp_apply z (derived p path)) (sp_jvp z (derived p path) b) /\
    adjoint (m :: tail) (m' :: tail) (sp_jvp z (derived p path) b) (sp_vjp z (derived p path) b).
Proof. exact sparse_product_derivatives. Qed.
Print Assumptions C56_derivatives.
Theorem C56_parity : forall p path,
  derived p path = if Nat.even (length (filter (fun s => match s with Reverse => true | Forward => false end) path))
                   then p else other p.
Proof. exact derived_parity. Qed.
Print Assumptions C56_parity.
Theorem C56_errors : forall z p b,
  (ndim z <> 2 -> sp_apply z p b = Err ValueError) /\
  (2 < ndim b -> sp_apply z p b = Err ValueError) /\
  (forall k tail, shp b = k :: tail -> nd_ok b -> length tail <= 1 ->
     k <> (match p with PZ => nth 1 (shp z) 0 | PZt => nth 0 (shp z) 0 end) -> sp_apply z p b = Err ValueError).
Proof. exact sparse_product_errors. Qed.
Print Assumptions C56_errors.
Example C56_case : shp demo_z = [2; 3] /\ is_array 2 3 demo_zm (matrix_of demo_z) /\
  sp_apply demo_z PZ (vec (map Fin [1; 1; 1]%R)) = Ok (vec (map Fin [3; 4]%R)) /\
  sp_apply demo_z PZt (mkNd [2; 1] (map Fin [1; 1]%R)) = Ok (mkNd [3; 1] (map Fin [1; 3; 3]%R)) /\
  derived PZ [Forward; Reverse; Reverse; Reverse] = PZt /\
  sp_apply demo_z PZ (vec (map Fin [1; 1]%R)) = Err ValueError /\
  sp_apply (vec (map Fin [1; 1]%R)) PZ (vec (map Fin [1; 1]%R)) = Err ValueError.
Proof. exact ad_sparse_case. Qed.
Theorem C56_solvers : forall n Zm zs zts p path b,
  solves n Zm zs -> solves n (Rtrans Zm) zts ->
  exact_derivative [n] [n] (solve_apply zs zts (derived p path)) (solve_jvp zs zts (derived p path) b) /\
  adjoint [n] [n] (solve_jvp zs zts (derived p path) b) (solve_vjp zs zts (derived p path) b) /\
  solves n (match derived p path with PZ => Zm | PZt => Rtrans Zm end) (solve_apply zs zts (derived p path)).
Proof. exact solver_derivatives. Qed.
Print Assumptions C56_solvers.
Example C56_solver_case : solves 2 demo_a (matmul_nd (fmat 2 demo_b)) /\
  solves 2 (Rtrans demo_a) (matmul_nd (fmat 2 (Rtrans demo_b))).
Proof. exact ad_solver_case. Qed.

(** C57.  Directional derivatives at invertible matrices. *)
Theorem C57_inverse : forall inv n a g sa sg, inverter inv -> is_array n n a sa -> is_array n n g sg ->
  invertible n a ->
  exists ans b j D, inv sa = Ok ans /\ is_array n n b ans /\ inverse_matrices n a b /\
    inv_jvp sg ans = Ok j /\ is_array n n D j /\
    matrix_derivative n n (fun t x => inverse_matrices n (moved a g t) x) D.
Proof. exact inv_jvp_derivative. Qed.
Print Assumptions C57_inverse.
Theorem C57_inverse_stack : forall inv n As Gs sas sgs, inverter inv ->
  Forall2 (is_array n n) As sas -> Forall2 (is_array n n) Gs sgs -> Forall (invertible n) As ->
  length As = length Gs ->
  exists anss js, mapM inv sas = Ok anss /\ inv_jvp_stack sgs anss = Ok js /\ length js = length As /\
    forall k, k < length As -> exists D, is_array n n D (nth k js (mkMat 0 0 (fun _ _ => NaN))) /\
      matrix_derivative n n (fun t x => inverse_matrices n (moved (nth k As Rid) (nth k Gs Rid) t) x) D.
Proof. exact inv_jvp_stack_derivative. Qed.
Print Assumptions C57_inverse_stack.
Theorem C57_solve_matrix_argument_vector : forall solve n a g y sa sg, linear_solver solve -> is_array n n a sa -> is_array n n g sg ->
  invertible n a ->
  exists x D, solve sa (A1 (fvec n y)) = Ok (A1 (fvec n x)) /\ solution1 n a y x /\
    jvp_solve_a solve sg (A1 (fvec n x)) sa = Ok (A1 (fvec n D)) /\
    vector_derivative n (fun t z => solution1 n (moved a g t) y z) D.
Proof. exact solve_jvp_a_vector. Qed.
Print Assumptions C57_solve_matrix_argument_vector.
Theorem C57_solve_matrix_argument_matrix : forall solve n m a g y sa sg sy, linear_solver solve -> is_array n n a sa ->
  is_array n n g sg -> is_array n m y sy -> invertible n a ->
  exists x sx D j, solve sa (A2 sy) = Ok (A2 sx) /\ is_array n m x sx /\ solution2 n m a y x /\
    jvp_solve_a solve sg (A2 sx) sa = Ok (A2 j) /\ is_array n m D j /\
    matrix_derivative n m (fun t z => solution2 n m (moved a g t) y z) D.
Proof. exact solve_jvp_a_matrix. Qed.
Print Assumptions C57_solve_matrix_argument_matrix.
Theorem C57_solve_right_side_vector : forall solve n a y h sa, linear_solver solve -> is_array n n a sa -> invertible n a ->
  exists x D, solve sa (A1 (fvec n y)) = Ok (A1 (fvec n x)) /\ solution1 n a y x /\
    jvp_solve_b solve (A1 (fvec n h)) sa = Ok (A1 (fvec n D)) /\
    vector_derivative n (fun t z => solution1 n a (fun i => y i + t * h i)%R z) D.
Proof. exact solve_jvp_b_vector. Qed.
Print Assumptions C57_solve_right_side_vector.
Theorem C57_solve_right_side_matrix : forall solve n m a y h sa sy sh, linear_solver solve -> is_array n n a sa ->
  is_array n m y sy -> is_array n m h sh -> invertible n a ->
  exists x sx D j, solve sa (A2 sy) = Ok (A2 sx) /\ is_array n m x sx /\ solution2 n m a y x /\
    jvp_solve_b solve (A2 sh) sa = Ok (A2 j) /\ is_array n m D j /\
    matrix_derivative n m (fun t z => solution2 n m a (moved y h t) z) D.
Proof. exact solve_jvp_b_matrix. Qed.
Print Assumptions C57_solve_right_side_matrix.
Example C57_case : inverter det_inv /\ linear_solver det_solve /\ invertible 2 demo_a /\ det 2 demo_a = 2%R /\
  (exists j, inv_jvp (fmat 2 Rid) (fmat 2 demo_b) = Ok j /\ is_array 2 2 (m2 (- 1 / 4) (3 / 4) 0 (- 1)) j) /\
  slogdet_jvp det_solve 2 (fmat 2 Rid) (fmat 2 demo_a) = Ok (Fin 0, Fin (3 / 2)).
Proof. exact matrix_case. Qed.

(** C68. *)
Theorem C68_slogdet : forall solve nd n a g sa sg, linear_solver solve -> is_array n n a sa ->
  is_array n n g sg -> invertible n a -> nd <= 2 ->
  exists d, slogdet_jvp solve nd sg sa = Ok (Fin 0, Fin d) /\
    derivable_pt_lim (fun t => ln (Rabs (det n (moved a g t)))) 0 d /\
    det n a <> 0%R /\ near0 (fun t => 0 < det n (moved a g t) * det n a)%R.
Proof. exact slogdet_jvp_derivative. Qed.
Print Assumptions C68_slogdet.
Theorem C68_slogdet_stack : forall solve nd g x, 2 < nd -> slogdet_jvp solve nd g x = Err ValueError.
Proof. exact slogdet_jvp_stack. Qed.
Print Assumptions C68_slogdet_stack.
Example C68_case : inverter det_inv /\ linear_solver det_solve /\ invertible 2 demo_a /\ det 2 demo_a = 2%R /\
  (exists j, inv_jvp (fmat 2 Rid) (fmat 2 demo_b) = Ok j /\ is_array 2 2 (m2 (- 1 / 4) (3 / 4) 0 (- 1)) j) /\
  slogdet_jvp det_solve 2 (fmat 2 Rid) (fmat 2 demo_a) = Ok (Fin 0, Fin (3 / 2)).
Proof. exact matrix_case. Qed.

(** C69. *)
Theorem C69_special_functions : forall ok ga po gamma gammaln rgamma psi polygamma gammasgn sgn,
  gamma_family ok ga po -> computes ok gamma ga -> computes ok gammaln (fun x => ln (Rabs (ga x))) ->
  computes ok rgamma (fun x => / ga x)%R -> computes ok psi (po 0) ->
  (forall n, computes ok (polygamma n) (po n)) ->
  computes ok gammasgn sgn -> (forall x, ok x -> sgn x = if Rltb 0 (ga x) then 1%R else (-1)%R) ->
  forall x u, ok x ->
  (exists d, gamma_jvp psi (Fin u) (gamma (Fin x)) (Fin x) = Fin d /\ directional ga x u d) /\
  (exists d, gammaln_jvp psi (Fin u) (Fin x) = Fin d /\ directional (fun y => ln (Rabs (ga y))) x u d) /\
  (exists d, rgamma_jvp psi gamma (Fin u) (Fin x) = Fin d /\ directional (fun y => / ga y)%R x u d) /\
  (exists d, psi_jvp polygamma (Fin u) (Fin x) = Fin d /\ directional (po 0) x u d) /\
  (forall n, exists d, polygamma_jvp polygamma (Fin u) n (Fin x) = Fin d /\ directional (po n) x u d) /\
  (exists d, gammasgn_jvp (Fin u) (Fin x) = Fin d /\ directional sgn x u d).
Proof. exact special_function_jvps. Qed.
Print Assumptions C69_special_functions.
Example C69_case : gamma_family (fun _ => True) demo_ga demo_po /\
  exists gamma gammaln rgamma psi polygamma gammasgn,
    computes (fun _ => True) gamma demo_ga /\ computes (fun _ => True) gammaln (fun x => ln (Rabs (demo_ga x))) /\
    computes (fun _ => True) rgamma (fun x => / demo_ga x)%R /\ computes (fun _ => True) psi (demo_po 0) /\
    (forall n, computes (fun _ => True) (polygamma n) (demo_po n)) /\
    computes (fun _ => True) gammasgn (fun _ => (-1)%R) /\
    (forall x, (-1)%R = if Rltb 0 (demo_ga x) then 1%R else (-1)%R) /\
    gamma_jvp psi (Fin 2) (gamma (Fin 1)) (Fin 1) = Fin (2 * - exp (1 * 1 / 2) * 1).
Proof. exact special_case. Qed.
