(** * Concrete cases for the theorems about objectives of folded values. *)
From Coq Require Import Reals Lra Lia String.
From Verif Require Import Base Num Nd Numeric Simplex Pattern Spec SpecValid ListFacts NumFacts PatFacts NonFree Free Contract
  Api Demo Jac SpecJac JacBase JacFacts JacMore JacPsd JacProps DemoJac FunWrap Optim SpecOptim LinAlg OptimFacts
  DemoOptim Random SpecEnd EndFacts GradFacts GradSimp RandomFacts.
Local Open Scope list_scope.
Local Open Scope nat_scope.

(** The objective "sum of all entries of the folded value". *)
Definition fins (l : list num) : list R := map (fun a => match a with Fin r => r | _ => 0%R end) l.
Definition entry_sum (p : pat) (v : fv num) : R :=
  match flatten p v (Some false) None with Ok l => Rlsum (fins l) | Err _ => 0%R end.
Definition sum_call (p : pat) : callable (obj R) unit :=
  mkFun (fun args _ s => (match args with
                          | [OVal v] => Ok (ROne (OOther (entry_sum p v)))
                          | _ => Err TypeError
                          end, s)) true.
Lemma sum_returns : forall p v, returns (sum_call p) v (entry_sum p v).
Proof. intros p v s. exists s. reflexivity. Qed.
Lemma sum_flat : forall p v z, flatten p v (Some false) None = Ok (map Fin z) -> returns (sum_call p) v (Rlsum z).
Proof.
  intros p v z E. replace (Rlsum z) with (entry_sum p v); [apply sum_returns|].
  unfold entry_sum, fins. rewrite E, map_map, map_id. reflexivity.
Qed.

Lemma bijection_case : usable demo /\ flat_length demo (Some true) = Ok (plint 10) /\
  admissible demo (canon demo demo_value).
Proof.
  split; [exact demo_usable|]. split; [reflexivity|].
  destruct (api_free_fold_of_flatten demo demo_value None None demo_usable demo_interior) as (x & F1 & L1 & F2).
  assert (L: flat_length demo (Some true) = Ok (plint 10)) by reflexivity.
  rewrite L in L1. injection L1 as L1.
  destruct (fold_admissible demo x 10 demo_usable L (eq_sym L1)) as (v & A & F & _).
  specialize (F None). rewrite F2 in F. injection F as <-. exact A.
Qed.

Lemma minimisers_case : usable demo /\ flat_length demo (Some true) = Ok (plint 10) /\
  (forall v, admissible demo v -> returns (sum_call demo) v (entry_sum demo v)) /\
  entry_sum demo (canon demo demo_value) <> 0%R.
Proof.
  split; [exact demo_usable|]. split; [reflexivity|]. split; [intros; apply sum_returns|].
  unfold entry_sum.
  assert (E: flatten demo (canon demo demo_value) (Some false) None = Ok demo_flat).
  { unfold flatten, flatten_gen. cbn [free_with_default bind].
    destruct bijection_case as (_ & _ & (I & _)).
    rewrite flatten_nonfree; [|apply demo_usable|simpl; unfold nd_ok; simpl; tauto].
    rewrite (interior_require None _ _ demo_usable I). reflexivity. }
  rewrite E. cbn. lra.
Qed.

Lemma pre_case : exists s, set_op no_tools (SetMatrix false (fmat 2 demo_a) (Some (fmat 2 demo_b))) = Ok s /\
  is_matvec 2 (unprecondition s) demo_a /\ is_matvec 2 (precondition s) demo_b /\
  mutually_inverse 2 (precondition s) (unprecondition s) /\
  (forall x (st : nat), List.length x = 2 -> exists st', (Ok (Rlsum (fins (map Fin x))), S st) = (Ok (Rlsum x), st')).
Proof.
  destruct (precond_matrix no_tools false 2 demo_a demo_b _ _ (array_fmat 2 _) (array_fmat 2 _) demo_inverse
    (Some (fmat 2 demo_b))) as (s & Hs & HA & HB & HI); auto.
  exists s. repeat (split; auto). intros x st _. exists (S st). unfold fins. rewrite map_map, map_id. reflexivity.
Qed.

(** The sum has the gradient (1, ..., 1). *)
Lemma sum_gradient : forall x, has_gradient Rlsum x (map (fun _ => 1%R) x).
Proof.
  intros x. split; [apply map_length|]. intros eps He. exists 1%R. split; [lra|]. intros z Lz _.
  replace (Rlsum z - Rlsum x - _)%R with 0%R.
  { rewrite Rabs_R0. apply Rmult_le_pos; [lra|]. apply rs_nonneg. intros. apply Rabs_pos. }
  rewrite <- !rs_list, Lz.
  rewrite (Rsum_ext_lt (List.length x) (fun i => nth i (map (fun _ => 1) x) 0 * (nth i z 0 - nth i x 0))%R
    (fun i => nth i z 0 + (-1) * nth i x 0)%R).
  - rewrite rs_plus, rs_scal. lra.
  - intros i Hi. rewrite (nth_indep _ 0%R 1%R) by (rewrite map_length; auto).
    rewrite (map_nth (fun _ => 1%R) x 0%R). lra.
Qed.

Lemma demo_flat_none : flatten demo demo_value (Some false) None = Ok demo_flat.
Proof.
  unfold flatten, flatten_gen. cbn [free_with_default bind].
  rewrite flatten_nonfree; [|apply demo_usable|apply demo_value_ok].
  rewrite (interior_require None _ _ demo_usable demo_interior). reflexivity.
Qed.
Definition jdemo_entries : list R := [1/2; 1/4; 1/2; 1/2; 1/3; 2/3; 5; -2; 7]%R.
Lemma jdemo_flat_none : flatten jdemo demo_value (Some false) None = Ok (map Fin jdemo_entries).
Proof.
  unfold flatten, flatten_gen. cbn [free_with_default bind].
  rewrite flatten_nonfree; [|apply jdemo_usable|apply demo_value_ok].
  rewrite (interior_require None _ _ jdemo_usable jdemo_interior). reflexivity.
Qed.

Lemma gradient_case :
  usable jdemo /\ simplexes_nonempty jdemo /\ no_psd jdemo /\ flat_length jdemo (Some true) = Ok (plint 7) /\
  (forall w z, admissible jdemo w -> flatten jdemo w (Some false) None = Ok (map Fin z) ->
     returns (sum_call jdemo) w (Rlsum z)) /\
  interior jdemo demo_value /\ flatten jdemo demo_value (Some false) None = Ok (map Fin jdemo_entries) /\
  has_gradient Rlsum jdemo_entries (map (fun _ => 1%R) jdemo_entries).
Proof.
  split; [exact jdemo_usable|]. split; [simpl; repeat split; lia|]. split; [simpl; tauto|]. split; [reflexivity|].
  split; [intros; apply sum_flat; auto|]. split; [exact jdemo_interior|]. split; [exact jdemo_flat_none|].
  apply sum_gradient.
Qed.

Lemma gradient_psd_case :
  usable demo /\ simplexes_nonempty demo /\ flat_length demo (Some true) = Ok (plint 10) /\
  (forall w z, admissible demo w -> flatten demo w (Some false) None = Ok (map Fin z) ->
     returns (sum_call demo) w (Rlsum z)) /\
  interior demo demo_value /\
  (exists x, flatten demo demo_value (Some false) None = Ok (map Fin x) /\
     has_gradient Rlsum x (map (fun _ => 1%R) x)) /\
  at_psd (jacobian_true psd_ad false) demo demo_value.
Proof.
  split; [exact demo_usable|]. split; [simpl; repeat split; lia|]. split; [reflexivity|].
  split; [intros; apply sum_flat; auto|]. split; [exact demo_interior|]. split.
  - eexists. split; [exact demo_flat_none|apply sum_gradient].
  - apply psd_ad_at; [exact demo_usable|exact demo_interior].
Qed.

(** For numeric members the two lengths are equal. *)
Lemma stationary_case : usable ndemo /\ simplexes_nonempty ndemo /\ no_psd ndemo /\ interior ndemo demo_value /\
  pl_n (flat_len ndemo true) = pl_n (flat_len ndemo false) /\
  exists J, jacobian no_ad false ndemo demo_value = Ok J /\ m_rows J = 3.
Proof.
  split; [exact ndemo_usable|]. split; [simpl; tauto|]. split; [simpl; tauto|]. split; [exact ndemo_interior|].
  split; [reflexivity|].
  destruct (container_jacobian no_ad false ndemo demo_value ndemo_usable ltac:(simpl; tauto) ltac:(simpl; tauto)
    ndemo_interior) as (J & E & _ & R & _). exists J. split; auto.
Qed.

(** Two 2-simplexes and a gradient that is constant on each but not zero. *)
Definition simp_value : fv num := FArr (mkNd [2; 2] [Fin (1/2); Fin (1/2); Fin (1/3); Fin (2/3)]).
Lemma simplex_stationary_case : usable (PSimplex 2 [2] true None) /\ 0 < prod [2] /\
  interior (PSimplex 2 [2] true None) simp_value /\
  exists J, jacobian no_ad false (PSimplex 2 [2] true None) simp_value = Ok J /\ m_rows J = 4 /\
    pulled_back J [3; 3; 5; 5]%R [0; 0]%R.
Proof.
  assert (I: interior (PSimplex 2 [2] true None) simp_value).
  { simpl. split; auto. exists [[1/2; 1/2]; [1/3; 2/3]]%R. split; auto. split; auto. repeat constructor; simpl; lra. }
  split; [simpl; lia|]. split; [simpl; lia|]. split; [exact I|].
  eexists. split; [reflexivity|]. split; [reflexivity|]. split; [reflexivity|].
  intros j Hj. change (j < 2) in Hj.
  exists (fun i => match m_at (bdiag [simplex_jac false [Fin (1/2); Fin (1/2)]; simplex_jac false [Fin (1/3); Fin (2/3)]]) i j with Fin r => r | _ => 0%R end).
  assert (j = 0 \/ j = 1) as [-> | ->] by lia; cbn; split; try (cbn; lra);
    intros i Hi; assert (i = 0 \/ i = 1 \/ i = 2 \/ i = 3) as [-> | [-> | [-> | ->]]] by lia; reflexivity.
Qed.

(** A generator that counts its draws and gives 1/2, 1/3, 1/4, ... *)
Definition toy_draw (g : nat) : R * nat := ((/ INR (g + 2))%R, S g).
Lemma toy_unit : forall g, (0 <= fst (toy_draw g) < 1)%R.
Proof.
  intros g. cbn [toy_draw fst]. assert (2 <= INR (g + 2))%R.
  { rewrite plus_INR. pose proof (pos_INR g). simpl. lra. }
  split.
  - left. apply Rinv_0_lt_compat. lra.
  - replace 1%R with (/ 1)%R by lra. apply Rinv_lt_contravar; lra.
Qed.
Lemma random_case : usable demo /\ snd (random toy_draw demo 0) = 10 /\
  pl_float (flat_len (PDict [] (mkLen 0 true) (mkLen 0 true) None false) true) = true.
Proof. split; [exact demo_usable|]. split; reflexivity. Qed.
Lemma range_case : usable d_num /\ (forall g, (0 <= fst (toy_draw g) < 1)%R) /\ fst (toy_draw 0) = (/ 2)%R.
Proof.
  split; [apply demo_usable|]. split; [exact toy_unit|]. reflexivity.
Qed.
