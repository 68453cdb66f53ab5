(** * Property theorems C46-C48, C59-C61. *)
From Coq Require Import Reals SpecFloat.
From Verif Require Import Base Num Nd Simplex Psd Pattern Spec SpecPsd PsdProps.

(** [x] holds the Cholesky factor of [m - c I] row by row, with the logarithm on
    the diagonal. *)
Theorem C46_psd_free_iff : forall sz fl dlb dv fd m c vv,
  usable (PPsd sz fl dlb dv fd) -> pyval dlb = Fin c ->
  symmetric sz m -> (forall i, i < sz -> (c <= m i i)%R) ->
  let p := PPsd sz fl dlb dv fd in
  let v := FArr (mkNd [sz; sz] (rows_of sz m)) in
  (pos_def sz (minus_diag m c) /\
   exists x L, flatten p v (Some true) vv = Ok (map Fin x) /\
     chol_factor sz (minus_diag m c) L /\
     (forall L', chol_factor sz (minus_diag m c) L' -> forall i j, i < sz -> j < sz -> L i j = L' i j) /\
     forall i j, j <= i -> i < sz ->
       nth_error x (i * (i + 1) / 2 + j) = Some (if i =? j then ln (L i i) else L i j)) \/
  (~ pos_def sz (minus_diag m c) /\ flatten p v (Some true) vv = Err LinAlgError).
Proof. exact psd_free_iff. Qed.
Print Assumptions C46_psd_free_iff.

Example C46_case : usable p47 /\ symmetric 2 m47 /\ (forall i, i < 2 -> (1 <= m47 i i)%R).
Proof. exact psd_case. Qed.

Theorem C47_validates_but_not_free : usable p47 /\ pos_def 2 m47 /\ (forall i, i < 2 -> (1 < m47 i i)%R) /\
  validate snum p47 (FArr (mkNd [2; 2] (rows_of 2 m47))) (Some true) = Ok None /\
  flatten p47 (FArr (mkNd [2; 2] (rows_of 2 m47))) (Some true) (Some true) = Err LinAlgError.
Proof. exact validates_but_not_free. Qed.
Print Assumptions C47_validates_but_not_free.

Theorem C48_unvectorize_accepts : forall v n,
  triangular (length v) n ->
  exists m, unvectorize_ld v = Ok (n, m) /\
    (forall i j, j <= i -> i < n -> m i j = nth (i * (i + 1) / 2 + j) v NaN) /\
    (forall i j, i < j -> m i j = Fin 0).
Proof. exact unvectorize_accepts. Qed.
Print Assumptions C48_unvectorize_accepts.

Theorem C48_unvectorize_rejects : forall v,
  (forall n, ~ triangular (length v) n) -> unvectorize_ld v = Err ValueError.
Proof. exact unvectorize_rejects. Qed.
Print Assumptions C48_unvectorize_rejects.

Theorem C48_vectorize_spec : forall n m,
  exists v, vectorize_ld_nd (to_nd n m) = Ok v /\ triangular (length v) n /\
    (forall i j, j <= i -> i < n -> nth_error v (i * (i + 1) / 2 + j) = Some (m i j)).
Proof. exact vectorize_spec. Qed.
Print Assumptions C48_vectorize_spec.

Theorem C48_vectorize_of_unvectorize : forall v n m, unvectorize_ld v = Ok (n, m) ->
  vectorize_ld_nd (to_nd n m) = Ok v.
Proof. exact vectorize_of_unvectorize. Qed.
Print Assumptions C48_vectorize_of_unvectorize.

Theorem C48_unvectorize_of_vectorize : forall n m v, vectorize_ld_nd (to_nd n m) = Ok v ->
  exists m', unvectorize_ld v = Ok (n, m') /\
    forall i j, i < n -> j < n -> m' i j = if j <=? i then m i j else Fin 0.
Proof. exact unvectorize_of_vectorize. Qed.
Print Assumptions C48_unvectorize_of_vectorize.

Theorem C48_unvectorize_adjoint : forall n v g, triangular (length v) n ->
  exists (U : nat -> nat -> R) (w : list R) m,
    unvectorize_ld (map Fin v) = Ok (n, m) /\
    (forall i j, i < n -> j < n -> m i j = Fin (U i j)) /\
    unvectorize_vjp (mkNd [n; n] (rows_of n g)) = Ok (map Fin w) /\
    Rsum n (fun i => Rsum n (fun j => U i j * g i j))%R = dot v w.
Proof. exact unvectorize_adjoint. Qed.
Print Assumptions C48_unvectorize_adjoint.

Theorem C48_unvectorize_vjp_shapes : forall g,
  (length (shp g) < 2 -> unvectorize_vjp g = Err IndexError) /\
  (forall r c rest, shp g = r :: c :: rest -> r <> c -> unvectorize_vjp g = Err AssertionError) /\
  (forall r rest, shp g = r :: r :: rest -> rest <> [] -> unvectorize_vjp g = Err ValueError).
Proof. exact unvectorize_vjp_shapes. Qed.
Print Assumptions C48_unvectorize_vjp_shapes.
Example C48_unvectorize_vjp_shapes_case : unvectorize_vjp (mkNd [2; 3] (repeat (Fin 1) 6)) = Err AssertionError /\
  unvectorize_vjp (mkNd [2] [Fin 1; Fin 1]) = Err IndexError /\
  unvectorize_vjp (mkNd [1; 1; 2] [Fin 1; Fin 1]) = Err ValueError.
Proof. exact unvectorize_vjp_shapes_case. Qed.

(** The registered jvp, and linearity: moving [v] by [t u] moves the result by [t]
    times the jvp of [u]. *)
Theorem C48_unvectorize_jvp_linear : forall n v u t, triangular (length v) n -> length u = length v ->
  exists (V D W : nat -> nat -> R) mv md mw,
    unvectorize_ld (map Fin v) = Ok (n, mv) /\
    unvectorize_jvp (map Fin u) = Ok (n, md) /\
    unvectorize_ld (map Fin (map2 (fun a b => a + t * b)%R v u)) = Ok (n, mw) /\
    (forall i j, i < n -> j < n -> mv i j = Fin (V i j) /\ md i j = Fin (D i j) /\ mw i j = Fin (W i j) /\
       W i j = (V i j + t * D i j)%R).
Proof. exact unvectorize_jvp_linear. Qed.
Print Assumptions C48_unvectorize_jvp_linear.

Example C48_case : triangular (length [1; 2; 3; 4; 5; 6]%R) 3 /\ forall n, ~ triangular 4 n.
Proof. exact triangular_case. Qed.

(** The symmetric variant: inverse of vectorising for finite entries, not for infinite
    ones on the diagonal. *)
Theorem C48_symmetric_unvectorize : forall v n, triangular (length v) n ->
  exists (S : nat -> nat -> R) m, unvectorize_symmetric (map Fin v) = Ok (n, m) /\
    (forall i j, i < n -> j < n -> m i j = Fin (S i j)) /\ symmetric n S /\
    (forall i j, j <= i -> i < n -> S i j = nth (i * (i + 1) / 2 + j) v 0%R) /\
    vectorize_ld_nd (to_nd n m) = Ok (map Fin v).
Proof. exact symmetric_unvectorize. Qed.
Print Assumptions C48_symmetric_unvectorize.
Theorem C48_symmetric_of_vectorize : forall n S v, symmetric n S ->
  vectorize_ld_nd (mkNd [n; n] (rows_of n S)) = Ok v ->
  exists m, unvectorize_symmetric v = Ok (n, m) /\ forall i j, i < n -> j < n -> m i j = Fin (S i j).
Proof. exact symmetric_of_vectorize. Qed.
Print Assumptions C48_symmetric_of_vectorize.
Theorem C48_symmetric_rejects : forall v, (forall n, ~ triangular (length v) n) -> unvectorize_symmetric v = Err ValueError.
Proof. exact symmetric_rejects. Qed.
Print Assumptions C48_symmetric_rejects.
Theorem C48_symmetric_infinite : forall v n m i, triangular (length v) n -> i < n ->
  nth (i * (i + 1) / 2 + i) v NaN = PInf -> unvectorize_symmetric v = Ok (n, m) -> m i i = NaN.
Proof. exact symmetric_infinite. Qed.
Print Assumptions C48_symmetric_infinite.
Theorem C48_symmetric_infinite_refuted : ~ (forall v n, triangular (length v) n ->
  exists m, unvectorize_symmetric v = Ok (n, m) /\ vectorize_ld_nd (to_nd n m) = Ok v).
Proof. exact symmetric_infinite_refuted. Qed.
Print Assumptions C48_symmetric_infinite_refuted.
Example C48_symmetric_case : triangular (length [1; 2; 3]%R) 2 /\
  exists m, unvectorize_symmetric (map Fin [1; 2; 3]%R) = Ok (2, m) /\ m 0 1 = Fin 2 /\ m 1 0 = Fin 2 /\ m 1 1 = Fin 3.
Proof. exact symmetric_vec_case. Qed.

(** [_sym_index] numbers the unordered pairs below [n] without gaps. *)
Theorem C48_sym_index : forall n,
  (forall i j, i < n -> j < n -> sym_index i j = sym_index j i /\ sym_index i j < n * (n + 1) / 2 /\
     forall a b, a < n -> b < n -> sym_index a b = sym_index i j -> a = i /\ b = j \/ a = j /\ b = i) /\
  forall k, k < n * (n + 1) / 2 -> exists i j, j <= i /\ i < n /\ sym_index i j = k.
Proof. exact sym_index_spec. Qed.
Print Assumptions C48_sym_index.
Example C48_sym_index_case : sym_index 1 3 = 7 /\ sym_index 3 1 = 7 /\ 1 < 4 /\ 3 < 4.
Proof. exact sym_index_case. Qed.

Theorem C59_numeric_constructor : forall k s lb ub dv fd p,
  new_numeric_kind k s lb ub dv fd = Ok p <->
  p = PNum k s lb ub dv fd /\ s <> [] /\ nlt (pyval lb) (pyval ub).
Proof. exact numeric_constructor. Qed.
Print Assumptions C59_numeric_constructor.

Theorem C59_numeric_failures : forall k s lb ub dv fd,
  (pyval lb = NaN \/ pyval ub = NaN -> new_numeric_kind k s lb ub dv fd = Err AssertionError) /\
  (pyval lb <> NaN -> pyval ub <> NaN -> ~ nlt (pyval lb) (pyval ub) ->
   new_numeric_kind k s lb ub dv fd = Err ValueError) /\
  (nlt (pyval lb) (pyval ub) -> s = [] -> new_numeric_kind k s lb ub dv fd = Err ValueError).
Proof. exact numeric_failures. Qed.
Print Assumptions C59_numeric_failures.

Theorem C59_simplex_constructor : forall n s dv fd,
  ((2 <= n)%Z -> new_simplex n s dv fd = Ok (PSimplex (Z.to_nat n) s dv fd)) /\
  ((n < 2)%Z -> new_simplex n s dv fd = Err ValueError).
Proof. exact simplex_constructor. Qed.
Print Assumptions C59_simplex_constructor.

Theorem C59_psd_constructor : forall n d lb dv fd,
  (nlt (pyval lb) (Fin 0) -> new_psd n d lb dv fd = Err ValueError) /\
  (~ nlt (pyval lb) (Fin 0) -> exists p, new_psd n d lb dv fd = Ok p).
Proof. exact psd_constructor. Qed.
Print Assumptions C59_psd_constructor.

Theorem C59_array_constructor : forall s b fd,
  (is_dict b = true -> new_pattern_array s b fd = Err NotImplementedError) /\
  (is_dict b = false -> new_pattern_array s b fd = Ok (PArr s b fd)).
Proof. exact array_constructor. Qed.
Print Assumptions C59_array_constructor.

Example C59_cases : new_numeric_kind KArray [2] (PyInt 1) (PyInt 1) true None = Err ValueError /\
  new_numeric_kind KArray [2] (PyFloat S754_nan) (PyInt 1) true None = Err AssertionError /\
  new_numeric_kind KArray [] (PyInt 0) (PyInt 1) true None = Err ValueError /\
  new_simplex 1 [3] true None = Err ValueError /\
  new_psd 2 1 (PyInt (-1)) true None = Err ValueError.
Proof. exact constructor_cases. Qed.

(** [size = k + r/d]. *)
Theorem C60_fractional_psd : forall k r (d : positive) dlb dv fd p vv,
  r < Pos.to_nat d ->
  new_psd (k * Pos.to_nat d + r) d dlb dv fd = Ok p ->
  let e := Pos.to_nat d in
  ((r * (2 * k * e + e + r) < 2 * e * e) -> new_psd k 1 dlb dv fd = Ok p) /\
  ((2 * e * e <= r * (2 * k * e + e + r)) ->
    forall x v, fold p (vec x) (Some true) vv <> Ok v).
Proof. exact fractional_psd. Qed.
Print Assumptions C60_fractional_psd.

Example C60_case : (forall vv x v, fold (PPsd 2 4 (PyInt 0) true None) (vec x) (Some true) vv <> Ok v) /\
  new_psd 9 4 (PyInt 0) true None = new_psd 2 1 (PyInt 0) true None.
Proof. exact fractional_case. Qed.

Theorem C61_logsumexp_spec : forall x l,
  logsumexp (Fin x) (map Fin l) = Fin (ln (Rlsum (map exp (x :: l)))).
Proof. exact logsumexp_spec. Qed.
Print Assumptions C61_logsumexp_spec.

Theorem C61_logsumexp_no_overflow : forall x l,
  exists M, nmaxl (Fin x) (map Fin l) = Fin M /\ In M (x :: l) /\
    forall y, In y (x :: l) -> exists r, nsub (Fin y) (nmaxl (Fin x) (map Fin l)) = Fin r /\ (r <= 0)%R.
Proof. exact logsumexp_no_overflow. Qed.
Print Assumptions C61_logsumexp_no_overflow.

Theorem C61_logsumexp_shift : forall x l c,
  logsumexp (Fin (x + c)) (map Fin (map (fun y => y + c)%R l)) = nadd (logsumexp (Fin x) (map Fin l)) (Fin c).
Proof. exact logsumexp_shift. Qed.
Print Assumptions C61_logsumexp_shift.

Example C61_case : logsumexp (Fin 0) (map Fin [0; 0]%R) = Fin (ln 3).
Proof. exact logsumexp_case. Qed.
