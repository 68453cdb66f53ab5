(** * Concrete patterns and values for the Jacobian theorems. *)
From Coq Require Import Reals Lra Lia String.
From Verif Require Import Base Num Nd Numeric Simplex Psd Pattern Spec ListFacts PatFacts NonFree
  NumFacts CholFacts Free Contract Build Demo Jac SpecJac JacBase JacFacts JacMore JacPsd JacProps.
Local Open Scope list_scope.
Local Open Scope nat_scope.

(** The demo dictionary without its PSD member. *)
Definition jdemo : pat :=
  PDict [(ks "num", d_num); (ks "simp", d_simp); (ks "arr", d_arr); (ks "sub", d_sub)]
    (plint 9) (plint 7) (Some true) false.
(** A dictionary of numeric patterns. *)
Definition ndemo : pat :=
  PDict [(ks "num", d_num); (ks "sub", d_sub)] (plint 3) (plint 3) None false.

Lemma jdemo_usable : usable jdemo.
Proof.
  pose proof demo_usable as H. unfold demo, jdemo in *. cbn [usable all_items] in H |- *.
  destruct H as (_ & _ & _ & _ & H1 & H2 & _ & H4 & H5 & _).
  split; [discriminate|]. split.
  - repeat constructor; simpl; intuition discriminate.
  - split; [reflexivity|]. split; [reflexivity|]. auto.
Qed.
Lemma ndemo_usable : usable ndemo.
Proof.
  pose proof demo_usable as H. unfold demo, ndemo in *. cbn [usable all_items] in H |- *.
  destruct H as (_ & _ & _ & _ & H1 & H2 & _ & H4 & H5 & _).
  split; [discriminate|]. split.
  - repeat constructor; simpl; intuition discriminate.
  - split; [reflexivity|]. split; [reflexivity|]. auto.
Qed.

Lemma jdemo_interior : interior jdemo demo_value.
Proof.
  pose proof demo_interior as (H1 & H2 & _ & H4 & H5 & _). cbn [interior jdemo all_items].
  exact (conj H1 (conj H2 (conj H4 (conj H5 I)))).
Qed.
Lemma ndemo_interior : interior ndemo demo_value.
Proof.
  pose proof demo_interior as (H1 & H2 & _ & H4 & H5 & _). cbn [interior ndemo all_items].
  exact (conj H1 (conj H5 I)).
Qed.

Definition no_ad (freeing : bool) (p : pat) (x : list num) : res matrix := Err Unmodelled.
Definition entry (r : res matrix) (i j : nat) : res num := J <- r ;; Ok (m_at J i j).

Definition num_value : fv num := FArr (mkNd [2] [Fin (1/2); Fin (1/4)]).
Lemma numeric_case :
  usable d_num /\ interior d_num num_value /\
  entry (jacobian no_ad true d_num num_value) 0 0 = Ok (Fin 4) /\
  entry (jacobian no_ad true d_num num_value) 1 1 = Ok (Fin (16 / 3)) /\
  entry (jacobian no_ad true d_num num_value) 1 0 = Ok (Fin 0).
Proof.
  pose proof demo_usable as Hu. unfold demo in Hu. cbn [usable all_items] in Hu.
  destruct Hu as (_ & _ & _ & _ & Hu & _).
  pose proof demo_interior as ((w & Hw & Hi) & _).
  injection Hw as <-. split; [exact Hu|]. split; [exact Hi|].
  cbn -[ndiv]. unfold unconstrain1_jac. cbn -[ndiv]. rewrite !ndiv_fin by lra. cbn [nadd].
  repeat split; do 2 f_equal; solve [lra | field].
Qed.

Definition simp_value : fv num :=
  FArr (mkNd [2; 2] [Fin (1/2); Fin (1/2); Fin (1/3); Fin (2/3)]).
Lemma simplex_case :
  usable d_simp /\ 0 < prod [2] /\ interior d_simp simp_value /\
  (J <- jacobian no_ad true d_simp simp_value ;; Ok (m_rows J, m_cols J)) = Ok (2, 4) /\
  entry (jacobian no_ad true d_simp simp_value) 0 0 = Ok (Fin (-2)) /\
  entry (jacobian no_ad true d_simp simp_value) 0 1 = Ok (Fin 2) /\
  entry (jacobian no_ad true d_simp simp_value) 0 2 = Ok (Fin 0) /\
  entry (jacobian no_ad true d_simp simp_value) 1 3 = Ok (Fin (3 / 2)) /\
  entry (jacobian no_ad false d_simp simp_value) 3 1 = Ok (Fin (2 / 9)).
Proof.
  pose proof demo_usable as Hu. unfold demo in Hu. cbn [usable all_items] in Hu.
  destruct Hu as (_ & _ & _ & _ & _ & Hu & _).
  pose proof demo_interior as (_ & (w & Hw & Hi) & _).
  injection Hw as <-. split; [exact Hu|]. split; [simpl; lia|]. split; [exact Hi|].
  split; [reflexivity|]. cbn -[ndiv]. rewrite !ndiv_fin by lra.
  repeat split; do 2 f_equal; solve [lra | field].
Qed.

Lemma empty_case :
  jacobian no_ad true (PSimplex 3 [2; 0] true None) (FArr (mkNd [2; 0; 3] [])) = Err ValueError.
Proof. reflexivity. Qed.

Lemma container_case :
  usable jdemo /\ simplexes_nonempty jdemo /\ no_psd jdemo /\ interior jdemo demo_value /\
  (J <- jacobian no_ad true jdemo demo_value ;; Ok (m_rows J, m_cols J)) = Ok (7, 9) /\
  entry (jacobian no_ad true jdemo demo_value) 0 0 = Ok (Fin 4) /\
  entry (jacobian no_ad true jdemo demo_value) 3 5 = Ok (Fin (3 / 2)) /\
  entry (jacobian no_ad true jdemo demo_value) 5 7 = Ok (Fin 1) /\
  entry (jacobian no_ad true jdemo demo_value) 4 6 = Ok (Fin (1 / 8)) /\
  entry (jacobian no_ad true jdemo demo_value) 6 7 = Ok (Fin 0).
Proof.
  split; [exact jdemo_usable|]. split; [simpl; repeat split; lia|].
  split; [simpl; tauto|]. split; [exact jdemo_interior|]. split; [reflexivity|].
  cbn -[ndiv]. unfold unconstrain1_jac. cbn -[ndiv]. rewrite !ndiv_fin by lra. cbn [nadd].
  repeat split; do 2 f_equal; solve [lra | field].
Qed.

Lemma container_psd_case :
  usable demo /\ simplexes_nonempty demo /\ interior demo demo_value /\ ~ no_psd demo /\
  exists ad, at_psd (jacobian_true ad false) demo demo_value.
Proof.
  split; [exact demo_usable|]. split; [simpl; repeat split; lia|]. split; [exact demo_interior|].
  split; [simpl; tauto|]. exists psd_ad. apply psd_ad_at; [exact demo_usable|exact demo_interior].
Qed.

Lemma dict_blocks_case :
  exists J, jacobian psd_ad false demo demo_value = Ok J.
Proof.
  destruct (container_jacobian_psd psd_ad false demo demo_value demo_usable
    ltac:(simpl; repeat split; lia) demo_interior
    (psd_ad_at _ _ demo_usable demo_interior)) as (J & HJ & _). exists J. exact HJ.
Qed.

(** One by one matrices with [diag_lb = 1]: the free value of [[5]] is
    [log(sqrt(4))]. *)
Definition d_one : pat := PPsd 1 1 (PyInt 1) true None.
Definition one_value : fv num := FArr (mkNd [1; 1] [Fin 5]).
Definition one_ad (freeing : bool) (p : pat) (x : list num) : res matrix :=
  match x with
  | [Fin y] =>
      Ok (mkMat 1 1 (fun _ _ => Fin (if freeing then / (2 * (y - 1)) else 2 * exp (2 * y))))
  | _ => Err Unmodelled
  end.
Lemma one_interior : interior d_one one_value.
Proof.
  split; [reflexivity|]. exists (fun _ _ => 5%R), 1%R. split; [reflexivity|]. split; [reflexivity|].
  split; [intros i j _ _; auto|]. intros x (i & Hi & Hx). assert (i = 0) as -> by lia.
  cbn. unfold minus_diag. cbn. pose proof (Rsqr_pos_lt _ Hx). unfold Rsqr in *. lra.
Qed.
Lemma one_usable : usable d_one.
Proof. split; [reflexivity|]. exists 1%R. split; [reflexivity|lra]. Qed.

Lemma inverse_psd_case :
  usable d_one /\ simplexes_nonempty d_one /\ interior d_one one_value /\
  at_psd (jacobians_inverse one_ad) d_one one_value /\
  entry (jacobian one_ad true d_one one_value) 0 0 = Ok (Fin (1 / 8)).
Proof.
  split; [exact one_usable|]. split; [exact I|]. split; [exact one_interior|].
  assert (jacobian one_ad true d_one one_value =
          Ok (mkMat 1 1 (fun _ _ => Fin (/ (2 * (5 - 1)))))) as E1.
  { change (jacobian one_ad true d_one one_value) with
      (x <- (_ <- require_valid snum d_one one_value None ;; Ok [Fin 5]) ;; one_ad true d_one x).
    rewrite (interior_require None d_one one_value one_usable one_interior). reflexivity. }
  destruct (free_fold_of_flatten None (Some false) d_one one_value one_usable one_interior)
    as (x & Hx & Lx & Hf).
  destruct x as [|y [|]]; try discriminate Lx.
  assert (exp (2 * y) = 4)%R as Hy.
  { assert (fold_ snum d_one (vec (map Fin [y])) true (Some false)
            = Ok (FArr (mkNd [1; 1] (rows_of 1 (add_diag 1 (gram 1 (chol_of [y]))))))) as E.
    { transitivity (m <- unpack_posdef (map Fin [y]) (Fin 1) ;; Ok (FArr (nd_map (fun x => x) m)));
        [reflexivity|].
      rewrite (unpack_fin 1) by reflexivity. reflexivity. }
    rewrite E in Hf. injection Hf as Hf. revert Hf. unfold add_diag, gram, chol_of, diag_map. cbn.
    intros Hf. replace (2 * y)%R with (y + y)%R by ring. rewrite exp_plus.
    assert (0 + exp y * exp y + 1 = 5)%R by (congruence || lra). lra. }
  assert (jacobian one_ad false d_one one_value =
          Ok (mkMat 1 1 (fun _ _ => Fin (2 * exp (2 * y))))) as E2.
  { change (jacobian one_ad false d_one one_value) with
      (x <- flatten_ snum d_one one_value true None ;; one_ad false d_one x).
    rewrite Hx. reflexivity. }
  split.
  - exists (mkMat 1 1 (fun _ _ => Fin (/ (2 * (5 - 1))))),
      (mkMat 1 1 (fun _ _ => Fin (2 * exp (2 * y)))).
    split; [exact E1|]. split; [exact E2|].
    split; [intros i j _ _; eexists; reflexivity|]. split; [intros i j _ _; eexists; reflexivity|].
    split; [reflexivity|]. split; [reflexivity|]. split; [reflexivity|].
    intros i j Hi Hj. cbn in Hi, Hj. assert (i = 0) as -> by lia. assert (j = 0) as -> by lia.
    cbn. rewrite Hy. f_equal. field.
  - unfold entry. rewrite E1. cbn. do 2 f_equal. field.
Qed.

Lemma log_det_case :
  usable ndemo /\ numeric_only ndemo /\ interior ndemo demo_value /\
  exists r, log_abs_det true ndemo demo_value = Ok (Fin r) /\ r = ln (64 / 3).
Proof.
  split; [exact ndemo_usable|]. split; [simpl; tauto|]. split; [exact ndemo_interior|].
  cbn -[ndiv nlog]. unfold num_log_det, num_jac_array, unconstrain1_jac. cbn -[ndiv nlog].
  rewrite !ndiv_fin by lra. cbn -[ndiv nlog].
  replace (1 / (1 / 2 + - 0) + 1 / (1 + - (1 / 2)))%R with 4%R by field.
  replace (1 / (1 / 4 + - 0) + 1 / (1 + - (1 / 4)))%R with (16 / 3)%R by field.
  rewrite !Rabs_right by lra. rewrite !nlog_pos by lra. cbn [nadd].
  eexists. split; [reflexivity|].
  replace (64 / 3)%R with (4 * (16 / 3))%R by lra. rewrite ln_mult by lra.
  rewrite ln_1. ring.
Qed.

Lemma unsupported_case :
  usable demo /\ interior demo demo_value /\ ~ numeric_only demo /\
  log_abs_det true demo demo_value = Err NotImplementedError.
Proof.
  split; [exact demo_usable|]. split; [exact demo_interior|]. split; [simpl; tauto|]. reflexivity.
Qed.

Lemma array_blocks_case :
  exists J, jacobian no_ad true d_arr (FArr (mkNd [2; 1] [Fin 5; Fin (-2)])) = Ok J /\
    m_rows J = 2 /\ m_at J 0 0 = Fin (1 / 8) /\ m_at J 0 1 = Fin 0 /\ m_at J 1 1 = Fin 1.
Proof.
  eexists. split; [reflexivity|]. split; [reflexivity|]. cbn -[ndiv]. unfold unconstrain1_jac.
  cbn -[ndiv]. rewrite !ndiv_fin by lra. repeat split; f_equal; solve [lra | field].
Qed.

Lemma edge_case : nth_error (dat (mkNd [2] [Fin 0; Fin 1])) 1 = Some (Fin 1) /\
  pyval (PyInt 0) = Fin 0 /\ pyval (PyInt 1) = Fin 1 /\ (0 < 1)%R /\
  validate snum (PNum KArray [2] (PyInt 0) (PyInt 1) true None) (FArr (mkNd [2] [Fin 0; Fin 1])) (Some true) = Ok None.
Proof.
  split; [reflexivity|]. split; [reflexivity|]. split; [reflexivity|]. split; [lra|].
  cbn -[Rltb]. unfold Rltb. repeat (destruct (Rlt_dec _ _); try lra; cbn -[Rltb]). reflexivity.
Qed.
