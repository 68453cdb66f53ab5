(** * Reverse mode differentiation of the PSD transforms gives their Jacobians. *)
From Coq Require Import Reals Lra Lia.
From Verif Require Import Base Num Nd Numeric Simplex Psd Pattern Spec ListFacts PatFacts NonFree
  NumFacts CholFacts Free Contract Jac SpecJac JacBase JacFacts JacMore JacPsd CholDiff PsdDiff
  AlongFacts JacProps RevPsd SpecRev.
From Verif Require PsdProps.
Local Open Scope list_scope.
Local Open Scope nat_scope.

Notation fin_mat n A a := (mat_eq n A (fun i j => Fin (a i j))).

(** ** The derivative of the factor *)
Lemma dl_product : forall A h n, (forall j, j < n -> (0 < pivot A j)%R) ->
  forall i j, i < n -> j <= i ->
  Rsum n (fun k => (dl A h n i k * rl A n j k + rl A n i k * dl A h n j k)%R) = h i j.
Proof.
  intros A h n Hp i j Hi Hj.
  rewrite (Rsum_trunc n (S j)).
  2: lia.
  2:{ intros k Hk. rewrite (rl_lower A n j k), (dl_lower A h n j k) by lia. ring. }
  cbn [Rsum].
  rewrite (Rsum_ext j _ (fun k => (dl A h j i k * rl A j j k + rl A j i k * dl A h j j k)%R)).
  2:{ intros k Hk. rewrite !(rl_stable A j n), !(dl_stable A h j n) by lia. auto. }
  rewrite !(rl_stable A (S j) n), !(dl_stable A h (S j) n) by lia.
  pose proof (sqrt_lt_R0 _ (Hp j ltac:(lia))) as Hs.
  cbn [rl dl]. rewrite !Nat.eqb_refl, !Nat.ltb_irrefl.
  rewrite (proj2 (Nat.ltb_ge i j)) by lia. fold (pivot A j).
  destruct (Nat.eqb_spec i j) as [->|]; [|unfold Rsqr]; field; lra.
Qed.

Lemma dl_symmetric : forall A h n, (forall j, j < n -> (0 < pivot A j)%R) ->
  (forall i j, i < n -> j < n -> h i j = h j i) ->
  forall i j, i < n -> j < n ->
  Rsum n (fun k => (dl A h n i k * rl A n j k + rl A n i k * dl A h n j k)%R) = h i j.
Proof.
  intros A h n Hp Hh i j Hi Hj. destruct (Nat.le_gt_cases j i); [apply dl_product; auto|].
  rewrite Hh, <- (dl_product A h n Hp j i) by lia. apply Rsum_ext. intros. ring.
Qed.

(** A matrix whose product with the transpose of a triangular factor is strictly
    upper triangular is strictly upper triangular. *)
Lemma strictly_upper : forall n (L N : nat -> nat -> R), lower L ->
  (forall i, i < n -> L i i <> 0%R) ->
  (forall i j, i < n -> j <= i -> Rsum n (fun k => L k i * N k j)%R = 0%R) ->
  forall d i j, n - i <= d -> i < n -> j <= i -> N i j = 0%R.
Proof.
  intros n L N HL Hd H. induction d; intros i j Hdi Hi Hj; [lia|].
  pose proof (H i j Hi Hj) as E. rewrite (Rsum_single n _ i) in E.
  - apply Rmult_integral in E. destruct E as [E|E]; auto. apply Hd in E; auto. contradiction.
  - auto.
  - intros k Hk Hne. destruct (Nat.lt_ge_cases k i).
    + rewrite HL by auto. ring.
    + rewrite (IHd k j) by lia. ring.
Qed.

(** ** The gradient of the factor *)
Definition rphi (X : nat -> nat -> R) (i j : nat) : R :=
  (if i =? j then X i j / 2 else if j <? i then X i j else 0)%R.

Lemma sum_rotate : forall n (S D L : nat -> nat -> R),
  Rsum n (fun i => Rsum n (fun j => S i j * Rsum n (fun k => D i k * L j k + L i k * D j k)))%R =
  Rsum n (fun i => Rsum n (fun k => Rsum n (fun j => (S i j + S j i) * L j k) * D i k))%R.
Proof.
  intros n S D L.
  transitivity (Rsum n (fun i => Rsum n (fun j => Rsum n (fun k => S i j * D i k * L j k)))%R +
                Rsum n (fun i => Rsum n (fun j => Rsum n (fun k => S i j * L i k * D j k)))%R)%R.
  - rewrite <- Rsum_plus. apply Rsum_ext. intros i Hi. rewrite <- Rsum_plus. apply Rsum_ext. intros j Hj.
    rewrite <- Rsum_scal, <- Rsum_plus. apply Rsum_ext. intros k Hk. ring.
  - rewrite (Rsum_swap n n (fun i j => Rsum n (fun k => S i j * L i k * D j k)%R)).
    rewrite <- Rsum_plus. apply Rsum_ext. intros i Hi.
    rewrite (Rsum_swap n n (fun j k => (S i j * D i k * L j k)%R)).
    rewrite (Rsum_swap n n (fun j k => (S j i * L j k * D i k)%R)).
    rewrite <- Rsum_plus. apply Rsum_ext. intros k Hk.
    rewrite <- Rsum_scal_r, <- Rsum_plus. apply Rsum_ext. intros j Hj. ring.
Qed.

Lemma gradient_pairing : forall n (L S Y G D h : nat -> nat -> R), lower L ->
  (forall i, i < n -> L i i <> 0%R) ->
  (forall i k, i < k -> D i k = 0%R) ->
  (forall i j, i < n -> j < n ->
     Rsum n (fun k => L k i * Y k j)%R = rphi (fun a b => Rsum n (fun k => L k a * G k b)%R) j i) ->
  (forall i j, i < n -> j < n -> Rsum n (fun k => L k i * S k j)%R = Y j i) ->
  (forall i j, i < n -> j < n -> Rsum n (fun k => D i k * L j k + L i k * D j k)%R = h i j) ->
  Rsum n (fun i => Rsum n (fun j => (S i j + S j i) / 2 * h i j))%R =
  Rsum n (fun i => Rsum n (fun j => G i j * D i j))%R.
Proof.
  intros n L S Y G D h HL Hd HD HY HS Hh.
  set (X := rphi (fun a b => Rsum n (fun k => L k a * G k b)%R)) in *.
  assert (forall i j, i < n -> j < n ->
    Rsum n (fun k => L k i * Rsum n (fun l => S k l * L l j))%R = X i j) as E1.
  { intros i j Hi Hj. rewrite <- (HY j i) by auto.
    transitivity (Rsum n (fun l => L l j * Rsum n (fun k => L k i * S k l))%R).
    - rewrite (Rsum_ext n _ (fun k => Rsum n (fun l => L l j * (L k i * S k l))%R)).
      + rewrite Rsum_swap. apply Rsum_ext. intros. rewrite Rsum_scal. auto.
      + intros k Hk. rewrite <- Rsum_scal. apply Rsum_ext. intros. ring.
    - apply Rsum_ext. intros l Hl. rewrite HS by auto. auto. }
  assert (forall i j, i < n -> j < n ->
    Rsum n (fun k => L k i * Rsum n (fun l => S l k * L l j))%R = X j i) as E2.
  { intros i j Hi Hj. rewrite <- (E1 j i) by auto.
    rewrite (Rsum_ext n _ (fun k => Rsum n (fun l => L k i * (S l k * L l j))%R)).
    - rewrite Rsum_swap. apply Rsum_ext. intros l Hl. rewrite <- Rsum_scal. apply Rsum_ext. intros. ring.
    - intros k Hk. rewrite <- Rsum_scal. apply Rsum_ext. intros. ring. }
  set (M := fun i k => Rsum n (fun j => (S i j + S j i) * L j k)%R).
  assert (forall i j, i < n -> j <= i -> (M i j - G i j)%R = 0%R) as Z.
  { intros i j Hi Hj.
    apply (strictly_upper n L (fun i j => M i j - G i j)%R HL Hd) with (d := n); try lia.
    clear i j Hi Hj. intros i j Hi Hj.
    rewrite (Rsum_ext n _ (fun k => (L k i * Rsum n (fun l => S k l * L l j) +
       L k i * Rsum n (fun l => S l k * L l j)) - L k i * G k j)%R).
    - rewrite Rsum_minus, Rsum_plus, E1, E2 by lia. unfold X, rphi. rewrite Nat.eqb_sym.
      destruct (Nat.eqb_spec j i) as [->|]; [field|].
      rewrite (proj2 (Nat.ltb_lt j i)), (proj2 (Nat.ltb_ge i j)) by lia. ring.
    - intros k Hk. unfold M.
      rewrite (Rsum_ext n (fun j0 => ((S k j0 + S j0 k) * L j0 j)%R) (fun j0 => (S k j0 * L j0 j + S j0 k * L j0 j)%R))
        by (intros; ring).
      rewrite Rsum_plus. ring. }
  transitivity (Rsum n (fun i => Rsum n (fun j => S i j * h i j))%R).
  - transitivity (/ 2 * Rsum n (fun i => Rsum n (fun j => S i j * h i j)) +
       / 2 * Rsum n (fun i => Rsum n (fun j => S j i * h i j)))%R.
    + rewrite <- !Rsum_scal, <- Rsum_plus. apply Rsum_ext. intros i Hi.
      rewrite <- !Rsum_scal, <- Rsum_plus. apply Rsum_ext. intros j Hj. field.
    + rewrite (Rsum_swap n n (fun i j => (S j i * h i j)%R)).
      rewrite (Rsum_ext n (fun j => Rsum n (fun i => S j i * h i j)%R) (fun i => Rsum n (fun j => S i j * h i j)%R)).
      * field.
      * intros i Hi. apply Rsum_ext. intros j Hj. f_equal. rewrite <- !Hh by auto.
        apply Rsum_ext. intros. ring.
  - rewrite (Rsum_ext n _ (fun i => Rsum n (fun j => S i j * Rsum n (fun k => D i k * L j k + L i k * D j k)))%R).
    + rewrite sum_rotate. apply Rsum_ext. intros i Hi. apply Rsum_ext. intros k Hk. fold (M i k).
      destruct (Nat.le_gt_cases k i).
      * replace (M i k) with (G i k) by (pose proof (Z i k Hi H); lra). auto.
      * rewrite HD by auto. ring.
    + intros i Hi. apply Rsum_ext. intros j Hj. rewrite Hh by auto. auto.
Qed.

(** ** From extended to real numbers *)
Lemma mul_fin : forall n A B a b, fin_mat n A a -> fin_mat n B b ->
  fin_mat n (mat_mul n A B) (fun i j => Rsum n (fun k => a i k * b k j)%R).
Proof.
  intros n A B a b HA HB i j Hi Hj. unfold mat_mul. rewrite <- nsum_seq. f_equal.
  apply map_ext_in. intros k Hk. apply in_seq in Hk. rewrite HA, HB by lia. auto.
Qed.
Lemma transpose_fin : forall n A a, fin_mat n A a -> fin_mat n (mat_transpose A) (fun i j => a j i).
Proof. intros n A a H i j Hi Hj. unfold mat_transpose. auto. Qed.
Lemma add_fin : forall n A B a b, fin_mat n A a -> fin_mat n B b ->
  fin_mat n (mat_add A B) (fun i j => a i j + b i j)%R.
Proof. intros n A B a b HA HB i j Hi Hj. unfold mat_add. rewrite HA, HB by auto. auto. Qed.
Lemma phi_fin : forall n A a, fin_mat n A a -> fin_mat n (phi A) (rphi a).
Proof.
  intros n A a H i j Hi Hj. unfold phi, rphi. rewrite H by auto.
  destruct (Nat.eqb_spec i j) as [->|].
  - rewrite Nat.leb_refl. cbn [nadd]. rewrite ndiv_fin by lra. f_equal; try field.
  - destruct (Nat.leb_spec j i), (Nat.ltb_spec j i); try lia; cbn [nadd];
      rewrite ndiv_fin by lra; f_equal; try field.
Qed.
Definition rdiag_vjp (d : nat -> R) (g : nat -> nat -> R) (i j : nat) : R :=
  if i =? j then (g i i * d i)%R else g i j.
Lemma exp_vjp_fin : forall n M m G g, fin_mat n M m -> fin_mat n G g ->
  fin_mat n (exp_diag_vjp M G) (rdiag_vjp (fun k => exp (m k k)) g).
Proof.
  intros n M m G g HM HG i j Hi Hj. unfold exp_diag_vjp, mat_add, make_diagonal, rdiag_vjp.
  destruct (Nat.eqb_spec i j) as [->|]; rewrite ?HM, ?HG by auto; cbn; f_equal; ring.
Qed.
Lemma log_vjp_fin : forall n M m G g, fin_mat n M m -> fin_mat n G g ->
  (forall i, i < n -> m i i <> 0%R) ->
  fin_mat n (log_diag_vjp M G) (rdiag_vjp (fun k => / m k k)%R g).
Proof.
  intros n M m G g HM HG Hd i j Hi Hj. unfold log_diag_vjp, mat_add, make_diagonal, rdiag_vjp.
  destruct (Nat.eqb_spec i j) as [->|]; rewrite ?HM, ?HG by auto.
  - rewrite ndiv_fin by auto. cbn. f_equal. unfold Rdiv. ring.
  - cbn. f_equal. ring.
Qed.
Lemma matmul_vjp_fin : forall n C c G g, fin_mat n C c -> fin_mat n G g ->
  fin_mat n (matmul_transpose_vjp n C G)
    (fun i j => Rsum n (fun k => g i k * c k j) + Rsum n (fun k => c k j * g k i))%R.
Proof.
  intros n C c G g HC HG. unfold matmul_transpose_vjp.
  apply (add_fin n _ _ (fun i j => Rsum n (fun k => g i k * c k j)%R) (fun i j => Rsum n (fun k => c k j * g k i)%R)).
  - apply (mul_fin n _ _ g c); auto.
  - apply (transpose_fin n _ (fun i j => Rsum n (fun k => c k i * g k j)%R)).
    apply (mul_fin n _ _ (fun i j => c j i) g); auto. apply transpose_fin. auto.
Qed.
Lemma to_nd_fin : forall n A a, fin_mat n A a -> dat (to_nd n A) = map Fin (rrows n a).
Proof.
  intros n A a H. rewrite <- rows_rrows. unfold to_nd, rows_of. cbn [dat].
  assert (forall l, (forall i, In i l -> i < n) ->
    flat_map (fun i => map (fun j => A i j) (seq 0 n)) l = flat_map (fun i => map (fun j => Fin (a i j)) (seq 0 n)) l) as E.
  { induction l; intros Hl; auto. cbn [flat_map]. f_equal; [|apply IHl; intros; apply Hl; right; auto].
    apply map_ext_in. intros j Hj. apply in_seq in Hj. apply H; [apply Hl; left; auto|lia]. }
  apply E. intros i Hi. apply in_seq in Hi. lia.
Qed.
Lemma mat_of_fin : forall n s w, length w = n * n ->
  fin_mat n (mat_of n (mkNd s (map Fin w))) (fun i j => nth (i * n + j) w 0%R).
Proof.
  intros n s w Lw i j Hi Hj. unfold mat_of. cbn [dat].
  rewrite (nth_map_gen _ _ _ _ _ NaN 0%R) by (rewrite Lw; nia). auto.
Qed.
Lemma unvec_fin : forall n v, length v = T n ->
  fin_mat n (unvec_entry (map Fin v)) (fun i j => if j <=? i then nth (ld_ind i j) v 0%R else 0%R).
Proof.
  intros n v Hv a b Ha Hb. unfold unvec_entry. destruct (b <=? a) eqn:E; auto.
  apply Nat.leb_le in E. rewrite sym_index_low by auto.
  rewrite (nth_map_gen _ _ _ _ _ NaN 0%R); auto.
  rewrite Hv. unfold ld_ind. change (a * (a + 1) / 2) with (T a).
  assert (T (S a) <= T n) by (apply T_mono; lia). rewrite T_S in H. lia.
Qed.
Lemma basis_units : forall len, basis len = map (fun r => map Fin (unit_vec len r)) (seq 0 len).
Proof.
  intros len. unfold basis, unit_vec. apply map_ext. intros r. rewrite map_map. apply map_ext.
  intros j. destruct (j =? r); auto.
Qed.
Lemma unit_vec_length : forall N l, length (unit_vec N l) = N.
Proof. intros. unfold unit_vec. rewrite map_length, seq_length. auto. Qed.
Lemma map2_seq : forall A B C (f : A -> B -> C) l m da db, length l = length m ->
  map2 f l m = map (fun k => f (nth k l da) (nth k m db)) (seq 0 (length l)).
Proof.
  intros A B C f. induction l; destruct m; intros da db E; try discriminate; auto.
  cbn [map2 length seq map nth]. f_equal. rewrite (IHl m da db) by (injection E; auto).
  rewrite <- seq_shift, map_map. auto.
Qed.
Lemma tril_surj : forall n p, p < T n -> exists i j, j <= i /\ i < n /\ p = ld_ind i j.
Proof.
  induction n; intros p Hp; [rewrite T_0 in Hp; lia|].
  rewrite T_S in Hp. destruct (lt_dec p (T n)) as [l|].
  - destruct (IHn p l) as (i & j & H1 & H2 & H3). exists i, j. repeat split; auto.
  - exists n, (p - T n). unfold ld_ind. change (n * (n + 1) / 2) with (T n). lia.
Qed.
Lemma ld_ind_lt : forall n i j, j <= i -> i < n -> ld_ind i j < T n.
Proof.
  intros n i j Hj Hi. unfold ld_ind. change (i * (i + 1) / 2) with (T i).
  assert (T (S i) <= T n) by (apply T_mono; lia). rewrite T_S in H. lia.
Qed.
Lemma ld_ind_inj : forall i j i' j', j <= i -> j' <= i' -> ld_ind i j = ld_ind i' j' -> i = i' /\ j = j'.
Proof.
  intros i j i' j' H H' E.
  assert ((i, j) = (i', j')) as P.
  { rewrite <- (nth_tril (S (i + i')) i j (0, 0)), <- (nth_tril (S (i + i')) i' j' (0, 0)) by lia.
    rewrite E. auto. }
  injection P; auto.
Qed.
Lemma Rsum_app : forall m n f, (Rsum (m + n) f = Rsum m f + Rsum n (fun k => f (m + k)%nat))%R.
Proof.
  induction n; intros f; [rewrite Nat.add_0_r; cbn; ring|].
  rewrite Nat.add_succ_r. cbn [Rsum]. rewrite IHn. ring.
Qed.
Lemma Rsum_mul : forall m n f, Rsum (m * n) f = Rsum m (fun i => Rsum n (fun j => f (i * n + j))).
Proof.
  induction m; intros n f; auto. cbn [Rsum]. rewrite <- IHm.
  replace (S m * n) with (m * n + n) by lia. apply Rsum_app.
Qed.
Lemma div_pos : forall n i j, j < n -> (i * n + j) / n = i /\ (i * n + j) mod n = j.
Proof.
  intros n i j H. split.
  - rewrite Nat.div_add_l, Nat.div_small by lia. lia.
  - rewrite Nat.add_comm, Nat.mod_add, Nat.mod_small by lia. auto.
Qed.

(** ** Unfreeing *)
Lemma unpack_vjp_fin : forall n v r, length v = T n -> r < n * n ->
  unpack_vjp (map Fin v) (mat_of n (mkNd [n; n] (map Fin (unit_vec (n * n) r)))) =
  Ok (map Fin (map (fun k => dgram n v k (r / n) (r mod n)) (seq 0 (T n)))).
Proof.
  intros n v r Lv Hr. assert (n <> 0) as Hn by (intros ->; lia).
  pose proof (Nat.mod_upper_bound r n Hn) as Hm.
  assert (r / n < n) as Hd by (apply Nat.div_lt_upper_bound; auto).
  unfold unpack_vjp. rewrite (unvectorize_T _ n) by (rewrite map_length; auto). cbn [bind fst snd].
  set (g := fun i j => nth (i * n + j) (unit_vec (n * n) r) 0%R).
  assert (forall i j, i < n -> j < n -> g i j = if (i =? r / n) && (j =? r mod n) then 1%R else 0%R) as Eg.
  { intros i j Hi Hj. unfold g. rewrite nth_unit_vec, (proj2 (Nat.ltb_lt (i * n + j) (n * n))), andb_true_r by nia.
    pose proof (div_pos n i j Hj) as (D1 & D2). pose proof (Nat.div_mod r n Hn) as DM.
    destruct (Nat.eqb_spec (i * n + j) r) as [<-|Hne].
    - rewrite D1, D2, !Nat.eqb_refl. auto.
    - destruct (Nat.eqb_spec i (r / n)) as [->|]; auto.
      destruct (Nat.eqb_spec j (r mod n)) as [->|]; auto. exfalso. apply Hne. lia. }
  pose proof (mat_of_fin n [n; n] _ (unit_vec_length (n * n) r)) as HG. fold g in HG.
  pose proof (matmul_vjp_fin n _ _ _ _ (exp_diag_unvec n v Lv) HG) as HM.
  pose proof (exp_vjp_fin n _ _ _ _ (unvec_fin n v Lv) HM) as HE. cbv beta in HE.
  unfold unvectorize_vjp, vectorize_ld_nd. cbn [shp to_nd]. rewrite Nat.eqb_refl. f_equal.
  fold (to_nd n (exp_diag_vjp (unvec_entry (map Fin v))
     (matmul_transpose_vjp n (exp_diag (unvec_entry (map Fin v))) (mat_of n {| shp := [n; n]; dat := map Fin (unit_vec (n * n) r) |})))).
  apply (list_eq_nth _ _ _ NaN).
  - unfold vectorize_ld. rewrite !map_length, tril_length, seq_length. auto.
  - unfold vectorize_ld. intros k Hk. rewrite map_length, tril_length in Hk.
    destruct (tril_surj n k Hk) as (i & j & Hj & Hi & ->).
    rewrite (nth_map_gen _ _ _ _ _ NaN (0, 0)) by (rewrite tril_length; auto).
    rewrite nth_tril by auto. cbn [fst snd].
    rewrite (nth_map_gen _ _ _ _ _ NaN 0%R) by (rewrite map_length, seq_length; auto).
    rewrite (nth_map_gen _ _ _ _ _ 0%R 0), seq_nth by (rewrite ?seq_length; auto). cbn [Nat.add].
    rewrite PsdProps.mat_of_nd by lia. rewrite HE by lia. f_equal.
    set (a := r / n) in *. set (b := r mod n) in *.
    assert (Rsum n (fun k => g i k * chol_of v k j)%R = if i =? a then chol_of v b j else 0%R) as S1.
    { rewrite (Rsum_single n _ b Hm).
      2:{ intros l Hl Hne. rewrite Eg by lia. rewrite (proj2 (Nat.eqb_neq l b) Hne), andb_false_r. ring. }
      rewrite Eg by lia. rewrite Nat.eqb_refl, andb_true_r. destruct (i =? a); ring. }
    assert (Rsum n (fun k => chol_of v k j * g k i)%R = if i =? b then chol_of v a j else 0%R) as S2.
    { rewrite (Rsum_single n _ a Hd).
      2:{ intros l Hl Hne. rewrite Eg by lia. rewrite (proj2 (Nat.eqb_neq l a) Hne). cbn [andb]. ring. }
      rewrite Eg by lia. rewrite Nat.eqb_refl. cbn [andb]. destruct (i =? b); ring. }
    assert (forall e, e < n -> forall l, l < n -> dchol v (ld_ind i j) e l =
        if (e =? i) && (l =? j) then (if i =? j then exp (nth (ld_ind i j) v 0%R) else 1%R) else 0%R) as ED.
    { intros e He l Hl. unfold dchol. destruct (Nat.leb_spec l e) as [Hle|Hle]; cbn [andb].
      - destruct (Nat.eqb_spec (ld_ind e l) (ld_ind i j)) as [E|E].
        + apply ld_ind_inj in E; auto. destruct E as (-> & ->). rewrite !Nat.eqb_refl. auto.
        + destruct (Nat.eqb_spec e i) as [->|]; auto. destruct (Nat.eqb_spec l j) as [->|]; auto. congruence.
      - destruct (Nat.eqb_spec e i) as [->|]; auto. destruct (Nat.eqb_spec l j) as [->|]; auto. lia. }
    unfold dgram. rewrite (Rsum_single n _ j).
    + rewrite !ED by lia. rewrite Nat.eqb_refl, !andb_true_r. unfold rdiag_vjp.
      rewrite (Nat.eqb_sym a i), (Nat.eqb_sym b i).
      destruct (Nat.eqb_spec i j) as [->|].
      * rewrite S1, S2, Nat.leb_refl. destruct (j =? a), (j =? b); ring.
      * rewrite S1, S2. destruct (i =? a), (i =? b); ring.
    + lia.
    + intros l Hl Hne. rewrite !ED by lia. destruct (Nat.eqb_spec l j); [lia|]. rewrite !andb_false_r. ring.
Qed.

(** ** Freeing *)
Lemma untake_unit : forall n k, k < T n ->
  fin_mat n (untake n (map Fin (unit_vec (T n) k)))
    (fun i j => if (fst (nth k (tril n) (0, 0)) =? i) && (snd (nth k (tril n) (0, 0)) =? j) then 1%R else 0%R).
Proof.
  intros n k Hk i j Hi Hj. unfold untake.
  rewrite (map2_seq _ _ _ _ _ _ (0, 0) NaN) by (rewrite map_length, unit_vec_length, tril_length; auto).
  rewrite tril_length.
  set (f := fun l => if (fst (nth l (tril n) (0, 0)) =? i) && (snd (nth l (tril n) (0, 0)) =? j)
              then nth l (unit_vec (T n) k) 0%R else 0%R).
  rewrite (map_ext_in _ (fun l => Fin (f l))).
  - rewrite nsum_seq. f_equal. rewrite (Rsum_single _ _ k Hk).
    + unfold f. rewrite nth_unit_vec, Nat.eqb_refl, (proj2 (Nat.ltb_lt k (T n))) by auto. auto.
    + intros l Hl Hne. unfold f. rewrite nth_unit_vec. destruct (Nat.eqb_spec l k); [lia|].
      destruct (_ && _); auto.
  - intros l Hl. apply in_seq in Hl. unfold f.
    rewrite (nth_map_gen _ _ _ _ _ NaN 0%R) by (rewrite unit_vec_length; lia).
    destruct (_ && _); auto.
Qed.

Lemma pack_vjp_fin : forall solve n c x k s, solves solve -> length x = n * n -> pivots_pos n c x ->
  k < T n ->
  exists (b : mat) (rb : nat -> nat -> R),
    pack_vjp solve n (mat_of n (mkNd s (map Fin x))) (Fin c) (map Fin (unit_vec (T n) k)) = Ok b /\
    fin_mat n b rb /\ (forall i j, i < n -> j < n -> rb i j = rb j i) /\
    forall h, symmetric_direction n h ->
      Rsum n (fun i => Rsum n (fun j => rb i j * nth (i * n + j) h 0))%R = dfree n c x h k.
Proof.
  intros solve n c x k s Hs Lx Hp Hk. unfold pack_vjp.
  set (L := rl (rmat n c x) n).
  assert (lower L) as HL by apply rl_lower.
  assert (forall i, i < n -> (0 < L i i)%R) as Hd.
  { intros i Hi. unfold L. rewrite rl_diag by auto. apply sqrt_lt_R0, Hp; auto. }
  assert (forall i, i < n -> L i i <> 0%R) as Hd0 by (intros i Hi; apply Rgt_not_eq, Hd; auto).
  destruct (cholesky_gram L n (fun i j => nsub (mat_of n (mkNd s (map Fin x)) i j) (make_diagonal (fun _ => Fin c) i j)) HL Hd)
    as (C & HC & HCe).
  { intros i j Hi Hj. rewrite mat_of_fin by (auto; lia). unfold make_diagonal.
    unfold L; rewrite <- (rl_gram (rmat n c x) n Hp i j Hi Hj). unfold rmat. destruct (i =? j); cbn; f_equal; ring. }
  rewrite HC. cbn [bind]. unfold cholesky_vjp.
  pose proof (log_vjp_fin n _ _ _ _ HCe (untake_unit n k Hk) Hd0) as HG.
  set (G := rdiag_vjp (fun k => / L k k)%R
     (fun i j => if (fst (nth k (tril n) (0, 0)) =? i) && (snd (nth k (tril n) (0, 0)) =? j) then 1%R else 0%R)) in *.
  pose proof (transpose_fin n _ _ HCe) as HT. cbv beta in HT.
  pose proof (phi_fin n _ _ (mul_fin n _ _ _ _ HT HG)) as HX. cbv beta in HX.
  pose proof (transpose_fin n _ _ HX) as HXT. cbv beta in HXT.
  destruct (Hs n _ _ (fun i j => L j i) _ HT HXT) as (Y & ry & EY & HY & SY);
    [intros; apply HL; auto|auto|].
  rewrite EY. cbn [bind].
  pose proof (transpose_fin n _ _ HY) as HYT. cbv beta in HYT.
  destruct (Hs n _ _ (fun i j => L j i) _ HT HYT) as (S & rs & ES & HS & SS);
    [intros; apply HL; auto|auto|].
  rewrite ES. cbn [bind].
  eexists. exists (fun i j => ((rs i j + rs j i) / 2)%R). split; [reflexivity|]. split; [|split].
  - intros i j Hi Hj. cbv beta. rewrite !HS by auto. cbn [nadd]. rewrite ndiv_fin by lra. auto.
  - intros i j _ _. f_equal. ring.
  - intros h (Lh & Sh). set (H := fun i j => nth (i * n + j) h 0%R).
    set (D := dl (rmat n c x) H n).
    refine (eq_trans (gradient_pairing n L rs ry G D H HL Hd0 _ _ _ _) _).
    + intros a b Hab. apply dl_lower. auto.
    + exact SY.
    + intros i j Hi Hj. apply (SS i j Hi Hj).
    + apply dl_symmetric; auto.
    + unfold dfree. fold H. fold D. fold L.
      destruct (tril_surj n k Hk) as (i & j & Hj & Hi & ->).
      unfold G, rdiag_vjp. rewrite nth_tril by auto. cbn [fst snd].
      rewrite (Rsum_single n _ i Hi).
      * rewrite (Rsum_single n _ j).
        2: lia.
        2:{ intros l Hl Hne. destruct (Nat.eqb_spec i l) as [<-|].
            - rewrite Nat.eqb_refl, (proj2 (Nat.eqb_neq j i)) by lia. cbn [andb]. ring.
            - rewrite (proj2 (Nat.eqb_neq j l)), andb_false_r by lia. ring. }
        rewrite !Nat.eqb_refl. cbn [andb]. destruct (Nat.eqb_spec i j) as [->|];
          rewrite ?Nat.eqb_refl; cbn [andb]; ring.
      * intros l Hl Hne. apply Rsum_zero. intros q Hq.
        destruct (Nat.eqb_spec i l); [lia|]. cbn [andb]. destruct (l =? q); ring.
Qed.

(** ** The Jacobians of a PSD pattern *)
Lemma stack_rows_ok : forall cols rows, rows <> [] ->
  stack_rows cols rows = Ok (mkMat (length rows) cols (fun i j => nth j (nth i rows []) NaN)).
Proof. intros cols [|r rows] H; [contradiction|reflexivity]. Qed.

Lemma forward_ok : forall sz fl dlb dv fd v freeing x y,
  usable (PPsd sz fl dlb dv fd) -> interior (PPsd sz fl dlb dv fd) v ->
  flatten_ snum (PPsd sz fl dlb dv fd) v (negb freeing) None = Ok (map Fin x) ->
  flatten_ snum (PPsd sz fl dlb dv fd) v freeing None = Ok (map Fin y) ->
  fold_ snum (PPsd sz fl dlb dv fd) (vec (map Fin x)) (negb freeing) None = Ok v.
Proof.
  intros sz fl dlb dv fd v freeing x y Hu Hi Hx Hy.
  replace (Ok v) with (Ok (canon (PPsd sz fl dlb dv fd) v)) by (destruct v; reflexivity).
  destruct freeing; cbn [negb] in *.
  - apply (nonfree_fold_flatten _ _ _ _ _ _ Hu) in Hx; [apply Hx|].
    destruct v as [a|d]; [|contradiction]. apply (interior_fv_arr _ _ Hu Hi).
  - destruct (free_fold_of_flatten None None _ _ Hu Hi) as (w & Hw & _ & Hf).
    rewrite Hx in Hw. injection Hw as Hw. rewrite Hw. exact Hf.
Qed.

Lemma derivative_at_ext : forall F x y J J', m_rows J' = m_rows J -> m_cols J' = m_cols J ->
  (forall i j, i < m_rows J -> j < m_cols J -> m_at J' i j = m_at J i j) ->
  derivative_at F x y J -> derivative_at F x y J'.
Proof.
  intros F x y J J' Hr Hc HJ (H1 & H2 & H3 & H4). split; auto. split; [congruence|]. split; [congruence|].
  intros j Hj. destruct (H4 j Hj) as (r & G & Hr' & HG & HD). exists r, G. split; auto. split; auto.
  intros i Hi. rewrite HJ by congruence. auto.
Qed.

Lemma reverse_unfree_rows : forall solve sz fl dlb dv fd v c xf, 0 < sz ->
  usable (PPsd sz fl dlb dv fd) -> interior (PPsd sz fl dlb dv fd) v -> pyval dlb = Fin c ->
  length xf = T sz ->
  flatten_ snum (PPsd sz fl dlb dv fd) v true None = Ok (map Fin xf) ->
  flatten_ snum (PPsd sz fl dlb dv fd) v false None = Ok (map Fin (flat_of sz c xf)) ->
  reverse_ad solve false (PPsd sz fl dlb dv fd) (map Fin xf) =
  Ok (mkMat (sz * sz) (T sz) (fun i j => nth j (nth i
     (map (fun r => map Fin (map (fun k => dgram sz xf k (r / sz) (r mod sz)) (seq 0 (T sz)))) (seq 0 (sz * sz))) []) NaN)).
Proof.
  intros solve sz fl dlb dv fd v c xf Hn Hu Hi Hc Lx Hfree Hflat. unfold reverse_ad.
  rewrite (forward_ok sz fl dlb dv fd v false xf (flat_of sz c xf)) by auto. cbn [bind]. rewrite Hflat. cbn [bind].
  rewrite map_length. unfold flat_of at 1. rewrite rrows_length, basis_units, mapM_map.
  rewrite (mapM_ok_all _ _ _ (fun r => map Fin (map (fun k => dgram sz xf k (r / sz) (r mod sz)) (seq 0 (T sz))))).
  - cbn [bind]. rewrite stack_rows_ok.
    + rewrite map_length, seq_length, map_length, Lx. auto.
    + destruct sz; [lia|]. discriminate.
  - intros r Hr. apply in_seq in Hr. apply unpack_vjp_fin; auto. lia.
Qed.

Lemma reverse_unfree_leaf : forall solve p v, usable p -> psds_nonempty p -> interior p v -> is_psd p ->
  jacobian_true (reverse_ad solve) false p v.
Proof.
  intros solve [| |sz fl dlb dv fd| |] v Hu Hn Hi Hp; try contradiction; clear Hp.
  destruct (psd_vectors sz fl dlb dv fd v Hu Hi) as (c & xf & Hc & Lxf & Hfree & Hflat).
  destruct (psd_ad_true _ v Hu Hi I) as (J & HJ & x & y & Hx & Hy & HD).
  destruct v as [a|d]; [|contradiction]. cbn [jacobian negb] in HJ. rewrite Hfree in HJ.
  cbn [bind psd_ad] in HJ. injection HJ as HJ.
  eexists. split.
  - cbn [jacobian negb]. rewrite Hfree. cbn [bind].
    rewrite (reverse_unfree_rows solve sz fl dlb dv fd (FArr a) c xf) by auto. reflexivity.
  - exists x, y. split; [auto|]. split; [auto|]. eapply derivative_at_ext; [..|exact HD].
    + rewrite <- HJ. reflexivity.
    + rewrite <- HJ. cbn [m_cols]. rewrite map_length. auto.
    + rewrite <- HJ. cbn [m_rows m_cols m_at]. rewrite map_length, Lxf. intros i j Hi' Hj.
      rewrite (nth_map_gen _ _ _ _ _ [] 0), seq_nth by (rewrite ?seq_length; auto).
      rewrite (nth_map_gen _ _ _ _ _ NaN 0%R) by (rewrite map_length, seq_length; auto).
      rewrite (nth_map_gen _ _ _ _ _ 0%R 0), seq_nth by (rewrite ?seq_length; auto).
      fold real_of. rewrite map_map, map_id. auto.
Qed.

Lemma reverse_free_leaf : forall solve p v, solves solve -> usable p -> psds_nonempty p -> interior p v ->
  is_psd p ->
  jacobian_on_symmetric (reverse_ad solve) p v /\
  (forall n fl dlb dv fd J, p = PPsd n fl dlb dv fd -> jacobian (reverse_ad solve) true p v = Ok J ->
     mirrored_columns n (m_at J)).
Proof.
  intros solve [| |sz fl dlb dv fd| |] v Hs Hu Hn Hi Hp; try contradiction; clear Hp.
  destruct (psd_vectors sz fl dlb dv fd v Hu Hi) as (c & xf & Hc & Lxf & Hfree & Hflat).
  set (x := flat_of sz c xf) in *.
  assert (pivots_pos sz c x) as Hp by apply flat_of_pivots.
  assert (length x = sz * sz) as Lx by apply rrows_length.
  assert (fvec sz c x = xf) as Ef by (apply fvec_flat_of; auto). clearbody x.
  assert (forall k, k < T sz -> exists rb : nat -> nat -> R,
    (b <- pack_vjp solve sz (mat_of sz (mkNd [sz; sz] (map Fin x))) (pyval dlb) (map Fin (unit_vec (T sz) k)) ;;
     Ok (dat (to_nd sz b))) = Ok (map Fin (rrows sz rb)) /\
    (forall i j, i < sz -> j < sz -> rb i j = rb j i) /\
    forall h, symmetric_direction sz h ->
      Rsum sz (fun i => Rsum sz (fun j => rb i j * nth (i * sz + j) h 0))%R = dfree sz c x h k) as HR.
  { intros k Hk. destruct (pack_vjp_fin solve sz c x k [sz; sz] Hs Lx Hp Hk) as (b & rb & E & Hb & Hsy & Hh).
    exists rb. rewrite Hc, E. cbn [bind]. rewrite (to_nd_fin sz b rb Hb). auto. }
  assert (exists rows, mapM (fun g =>
      b <- pack_vjp solve sz (mat_of sz (mkNd [sz; sz] (map Fin x))) (pyval dlb) g ;; Ok (dat (to_nd sz b)))
      (basis (T sz)) = Ok rows /\ length rows = T sz /\
      forall k, k < T sz -> exists rb : nat -> nat -> R, nth k rows [] = map Fin (rrows sz rb) /\
        (forall i j, i < sz -> j < sz -> rb i j = rb j i) /\
        forall h, symmetric_direction sz h ->
          Rsum sz (fun i => Rsum sz (fun j => rb i j * nth (i * sz + j) h 0))%R = dfree sz c x h k)
    as (rows & ER & LR & HRows).
  { rewrite basis_units, mapM_map.
    set (F := fun k => b <- pack_vjp solve sz (mat_of sz (mkNd [sz; sz] (map Fin x))) (pyval dlb) (map Fin (unit_vec (T sz) k)) ;;
     Ok (dat (to_nd sz b))).
    exists (map (fun k => match F k with Ok r => r | Err _ => [] end) (seq 0 (T sz))).
    split; [|split].
    - apply mapM_ok_all. intros k Hk. apply in_seq in Hk. destruct (HR k ltac:(lia)) as (rb & E & _).
      fold (F k). unfold F at 2. rewrite E. exact E.
    - rewrite map_length, seq_length. auto.
    - intros k Hk. destruct (HR k Hk) as (rb & E & H). exists rb. split; auto.
      rewrite (nth_map_gen _ _ _ _ _ [] 0), seq_nth by (rewrite ?seq_length; auto).
      cbn [Nat.add]. unfold F. rewrite E. auto. }
  assert (rows <> []) as Hne.
  { intros ->. cbn [length] in LR. destruct sz; [cbn in Hn; lia|]. rewrite T_S in LR. lia. }
  assert (reverse_ad solve true (PPsd sz fl dlb dv fd) (map Fin x) =
    Ok (mkMat (T sz) (sz * sz) (fun i j => nth j (nth i rows []) NaN))) as EJ.
  { unfold reverse_ad. rewrite (forward_ok sz fl dlb dv fd v true x xf) by auto. cbn [bind].
    rewrite Hfree. cbn [bind]. rewrite !map_length, Lxf, Lx, ER. cbn [bind].
    rewrite stack_rows_ok, LR by auto. auto. }
  destruct v as [a|d]; [|contradiction]. split.
  - eexists. exists x, xf. split; [|split; [exact Hflat|split; [exact Hfree|]]].
    + cbn [jacobian negb]. rewrite Hflat. cbn [bind]. exact EJ.
    + intros h Hh. rewrite <- Ef.
      apply leaf_along; auto; [apply Hh|]. intros k Hk.
      destruct (HRows k Hk) as (rb & E & _ & Hsum). exists (fun l => rb (l / sz) (l mod sz)). split.
      * intros l Hl. cbn [m_at]. rewrite E, (nth_map_gen _ _ _ _ _ NaN 0%R), nth_rrows by (rewrite ?rrows_length; auto).
        auto.
      * rewrite <- (Hsum h Hh), Rsum_mul. apply Rsum_ext. intros i Hi'. apply Rsum_ext. intros j Hj.
        destruct (div_pos sz i j Hj) as (-> & ->). auto.
  - intros n fl' dlb' dv' fd' J Eq HJ. injection Eq as <- <- <- <- <-.
    cbn [jacobian negb] in HJ. rewrite Hflat in HJ. cbn [bind] in HJ. rewrite EJ in HJ. injection HJ as <-.
    intros k i j Hi' Hj. cbn [m_at]. destruct (Nat.lt_ge_cases k (T sz)) as [Hk|Hk].
    + destruct (HRows k Hk) as (rb & E & Hsy & _). rewrite E.
      assert (i * sz + j < sz * sz) as B1 by nia. assert (j * sz + i < sz * sz) as B2 by nia.
      rewrite !(nth_map_gen _ _ _ _ _ NaN 0%R) by (rewrite rrows_length; auto).
      rewrite !nth_rrows by auto.
      destruct (div_pos sz i j Hj) as (-> & ->). destruct (div_pos sz j i Hi') as (-> & ->).
      rewrite Hsy; auto.
    + rewrite (nth_overflow rows) by lia. destruct (i * sz + j), (j * sz + i); auto.
Qed.

(** ** Trees *)
Lemma psds_nonempty_at : forall p v, psds_nonempty p -> at_psd (fun q _ => psds_nonempty q) p v.
Proof.
  apply (pat_ind' (fun p => forall v, psds_nonempty p -> at_psd (fun q _ => psds_nonempty q) p v)).
  - intros; exact I.
  - intros; exact I.
  - intros; auto.
  - intros s b fd IH [a|d] H; [|exact I]. intros it _. apply IH. auto.
  - intros items l fl fd lk IH [a|d] H; [exact I|]. cbn [psds_nonempty] in H. cbn [at_psd].
    apply all_items_Forall in H. apply all_items_Forall. rewrite Forall_forall in *.
    intros kq Hkq w _. apply IH; auto.
Qed.

Lemma reverse_at : forall solve p v, solves solve -> usable p -> psds_nonempty p -> interior p v ->
  at_psd (jacobian_on_symmetric (reverse_ad solve)) p v /\
  at_psd (jacobian_true (reverse_ad solve) false) p v.
Proof.
  intros solve p v Hs Hu Hn Hi. pose proof (psds_nonempty_at p v Hn) as A.
  split; (eapply at_psd_impl; [|exact Hu|exact Hi|exact A]); intros q w Hu' Hi' Hq Hn'.
  - apply reverse_free_leaf; auto.
  - apply reverse_unfree_leaf; auto.
Qed.

(** The unfreeing Jacobian is the matrix of partial derivatives; nothing is asked
    of [solve]. *)
Theorem reverse_unfreeing : forall solve p v,
  usable p -> simplexes_nonempty p -> psds_nonempty p -> interior p v ->
  exists J, jacobian (reverse_ad solve) false p v = Ok J /\ true_jacobian false p v J /\
    m_rows J = pl_n (flat_len p false) /\ m_cols J = pl_n (flat_len p true).
Proof.
  intros solve p v Hu Hs Hn Hi. apply (container_jacobian_psd (reverse_ad solve) false); auto.
  eapply at_psd_impl; [|exact Hu|exact Hi|apply psds_nonempty_at; exact Hn].
  intros. apply reverse_unfree_leaf; auto.
Qed.

Theorem reverse_freeing : forall solve p v, solves solve ->
  usable p -> simplexes_nonempty p -> psds_nonempty p -> interior p v ->
  exists (J : matrix) (x y : list R),
    jacobian (reverse_ad solve) true p v = Ok J /\
    flatten p v (Some false) None = Ok (map Fin x) /\
    flatten p v (Some true) None = Ok (map Fin y) /\
    m_rows J = pl_n (flat_len p true) /\ m_cols J = pl_n (flat_len p false) /\
    forall h, tangent p h -> derivative_along (transform true p) x y J h.
Proof.
  intros solve p v Hs Hu Hsn Hn Hi. apply derivatives_along; auto. apply reverse_at; auto.
Qed.

Theorem reverse_inverse : forall solve p v, solves solve ->
  usable p -> simplexes_nonempty p -> psds_nonempty p -> interior p v ->
  jacobians_inverse (reverse_ad solve) p v.
Proof.
  intros solve p v Hs Hu Hsn Hn Hi. destruct (reverse_at solve p v Hs Hu Hn Hi).
  apply inverse_from_derivatives; auto.
Qed.

(** The freeing Jacobian of a matrix of size two or more is not the matrix of
    partial derivatives. *)
Theorem reverse_not_partials : forall solve n fl dlb dv fd v, solves solve ->
  2 <= n -> usable (PPsd n fl dlb dv fd) -> interior (PPsd n fl dlb dv fd) v ->
  (exists J, jacobian (reverse_ad solve) true (PPsd n fl dlb dv fd) v = Ok J /\ mirrored_columns n (m_at J)) /\
  ~ jacobian_true (reverse_ad solve) true (PPsd n fl dlb dv fd) v.
Proof.
  intros solve n fl dlb dv fd v Hs Hn Hu Hi.
  destruct (reverse_free_leaf solve (PPsd n fl dlb dv fd) v Hs Hu ltac:(cbn; lia) Hi I) as ((J & x & y & HJ & _) & HM).
  pose proof (HM _ _ _ _ _ J eq_refl HJ) as M. split; [exists J; auto|].
  apply (symmetrised_not_partials _ _ _ _ _ _ _ J Hn Hu Hi HJ). intros k i j _ Hi' Hj. apply M; auto.
Qed.
