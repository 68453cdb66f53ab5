(** * Concrete cases for the theorems about first-order optimality. *)
From Coq Require Import Reals Lra Lia String.
From Verif Require Import Base Num Nd Numeric Simplex Psd Pattern Spec ListFacts NumFacts PatFacts NonFree Free Contract
  Api Demo Jac SpecJac JacBase JacFacts JacMore JacPsd JacProps FunWrap SpecOptim
  SpecEnd EndFacts GradFacts GradSimp RevPsd SpecRev RevFacts DemoEnd DemoRev SpecDir DirFacts FeasFacts DirProps.
Local Open Scope list_scope.
Local Open Scope nat_scope.

(** The objective that is [Phi] of the flat vector. *)
Definition flat_call (p : pat) (Phi : list R -> R) : callable (obj R) unit :=
  mkFun (fun args _ s => (match args with
                          | [OVal v] => match flatten p v (Some false) None with
                                        | Ok l => Ok (ROne (OOther (Phi (fins l))))
                                        | Err e => Err e
                                        end
                          | _ => Err TypeError
                          end, s)) true.
Lemma flat_returns : forall p Phi w z, flatten p w (Some false) None = Ok (map Fin z) ->
  returns (flat_call p Phi) w (Phi z).
Proof.
  intros p Phi w z E s. exists s. unfold flat_call. cbn [c_call]. rewrite E. unfold fins.
  rewrite map_map, map_id. reflexivity.
Qed.

(** A convex objective with gradient [a] at [x]. *)
Definition bowl (x a z : list R) : R :=
  Rsum (List.length x) (fun i => (nth i z 0 - nth i x 0) * (nth i z 0 - nth i x 0) + nth i a 0 * nth i z 0)%R.

Lemma bowl_gradient : forall x a, List.length a = List.length x -> has_gradient (bowl x a) x a.
Proof.
  intros x a L. split; auto. intros eps He. exists eps. split; auto. intros z Lz Hz.
  unfold bowl. rewrite <- rs_scal.
  assert (Rsum (List.length x) (fun i => (nth i z 0 - nth i x 0) * (nth i z 0 - nth i x 0) + nth i a 0 * nth i z 0) -
    Rsum (List.length x) (fun i => (nth i x 0 - nth i x 0) * (nth i x 0 - nth i x 0) + nth i a 0 * nth i x 0) -
    Rsum (List.length x) (fun i => nth i a 0 * (nth i z 0 - nth i x 0)) =
    Rsum (List.length x) (fun i => (nth i z 0 - nth i x 0) * (nth i z 0 - nth i x 0)))%R as ->.
  { generalize (List.length x) as n. induction n; cbn; [ring|]. lra. }
  apply Rsum_abs_le. intros i Hi. specialize (Hz i Hi). rewrite Rabs_mult. pose proof (Rabs_pos (nth i z 0 - nth i x 0)%R).
  nra.
Qed.

Lemma bowl_convex : forall (P : list R -> Prop) (x a : list R), (forall z, P z -> List.length z = List.length x) -> convex_on P (bowl x a).
Proof.
  intros P x a HP u w t Hu Hw Ht _. unfold bowl. rewrite <- !rs_scal, <- rs_plus.
  generalize (List.length x) as n. induction n; cbn [Rsum]; [lra|].
  apply Rplus_le_compat; auto. rewrite nth_segment by (rewrite (HP u Hu), (HP w Hw); auto).
  set (p := nth n u 0%R). set (q := nth n w 0%R). set (c := nth n x 0%R). set (d := nth n a 0%R).
  pose proof (Rle_0_sqr (p - q)) as K. unfold Rsqr in K.
  assert (0 <= t * (1 - t) * ((p - q) * (p - q)))%R by (apply Rmult_le_pos; [nra|auto]). nra.
Qed.

(** At the demonstration value: the gradient is constant on the rows of the simplexes,
    antisymmetric on the covariance and zero elsewhere. *)
Definition demo_entries : list R := [1/2; 1/4; 1/2; 1/2; 1/3; 2/3; 3; 1; 1; 3; 5; -2; 7]%R.
Definition demo_slope : list R := [0; 0; 1; 1; 2; 2; 0; 1; -1; 0; 0; 0; 0]%R.
Lemma demo_entries_ok : flatten demo demo_value (Some false) None = Ok (map Fin demo_entries).
Proof. rewrite demo_flat_none. reflexivity. Qed.

Lemma demo_slope_orthogonal : forall h, feasible demo demo_entries h -> dot demo_slope h = 0%R.
Proof.
  intros h H. apply (feasible_is_direction demo demo_value) in H;
    [|exact demo_usable|exact demo_interior|exact demo_entries_ok].
  destruct H as (n & z1 & -> & Hn & s & z2 & -> & Hs & c & z3 & -> & Hc & a & z4 & -> & Ha & u & z5 & -> & Hu & ->).
  cbn [snd] in *.
  assert (List.length n = 2) as Ln by exact Hn.
  destruct Hs as (rows & Lr & -> & F). cbn in Lr.
  destruct rows as [|r1 [|r2 [|]]]; try discriminate.
  inversion F as [|? ? (L1 & S1) F']; subst. inversion F' as [|? ? (L2 & S2) _]; subst.
  destruct Hc as (Lc & Sc). specialize (Sc 0 1 ltac:(lia) ltac:(lia)). cbn in Sc, Lc.
  pose proof (direction_length d_arr) as La. specialize (La ltac:(apply demo_usable) a Ha).
  pose proof (direction_length d_sub) as Lu. specialize (Lu ltac:(apply demo_usable) u Hu).
  cbn in La, Lu.
  do 3 (destruct n as [|? n]; try discriminate). do 3 (destruct r1 as [|? r1]; try discriminate).
  do 3 (destruct r2 as [|? r2]; try discriminate). do 5 (destruct c as [|? c]; try discriminate).
  do 3 (destruct a as [|? a]; try discriminate). do 2 (destruct u as [|? u]; try discriminate).
  cbn in S1, S2, Sc. unfold dot, demo_slope. cbn. lra.
Qed.

Lemma order_case :
  usable demo /\ simplexes_nonempty demo /\ flat_length demo (Some true) = Ok (plint 10) /\
  (forall w z, admissible demo w -> flatten demo w (Some false) None = Ok (map Fin z) ->
     returns (flat_call demo (bowl demo_entries demo_slope)) w (bowl demo_entries demo_slope z)) /\
  interior demo demo_value /\ flatten demo demo_value (Some false) None = Ok (map Fin demo_entries) /\
  has_gradient (bowl demo_entries demo_slope) demo_entries demo_slope /\
  convex_on (flat_inside demo) (bowl demo_entries demo_slope) /\
  ~ zero_vector demo_slope /\ (forall h, feasible demo demo_entries h -> dot demo_slope h = 0%R).
Proof.
  split; [exact demo_usable|]. split; [simpl; repeat split; lia|]. split; [reflexivity|].
  split; [intros; apply flat_returns; auto|]. split; [exact demo_interior|]. split; [exact demo_entries_ok|].
  split; [apply bowl_gradient; reflexivity|]. split.
  - apply bowl_convex. intros z Hz. apply flat_inside_iff in Hz; [|exact demo_usable].
    rewrite (inside_length demo demo_usable z Hz). reflexivity.
  - split; [|exact demo_slope_orthogonal]. intros Z. inversion Z as [|? ? _ Z1]. inversion Z1 as [|? ? _ Z2]. inversion Z2 as [|? ? E _]. lra.
Qed.

(** So the demonstration value is a minimum. *)
Lemma minimum_case : minimum_on (flat_inside demo) (bowl demo_entries demo_slope) demo_entries.
Proof.
  destruct order_case as (U & SN & L & C & I & Fx & HG & CV & _ & O).
  destruct (first_order_full _ _ demo 10 demo_value demo_entries demo_slope _ U SN L C I Fx HG)
    as (g & H & y & D & A1 & A2 & A3 & A4 & A5 & A6 & A7).
  intros z Iz. assert (flat_inside demo demo_entries) as Ix by (exists demo_value; auto).
  pose proof (proj1 (flat_inside_iff demo _ U) Ix) as Ix'. pose proof (proj1 (flat_inside_iff demo z U) Iz) as Iz'.
  assert (List.length demo_entries = List.length z) as Lz.
  { rewrite (inside_length demo U _ Ix'), (inside_length demo U z Iz'). auto. }
  destruct (convex_tree demo U demo_entries z Ix' Iz' Lz) as (Hd & Hs).
  pose proof (convex_bound (flat_inside demo) _ demo_entries demo_slope z CV HG Ix Iz Lz
    (fun t Ht => inside_convex demo _ _ t U Ix Iz Ht)) as K.
  rewrite O in K; [lra|]. apply (feasible_is_direction demo demo_value); auto.
Qed.
Lemma local_case : local_minimum_on (flat_inside demo) (bowl demo_entries demo_slope) demo_entries.
Proof. exists 1%R. split; [lra|]. intros z (Hz & _). apply minimum_case. exact Hz. Qed.

Lemma image_case : usable demo /\ simplexes_nonempty demo /\ psds_nonempty demo /\ interior demo demo_value /\
  flatten demo demo_value (Some false) None = Ok (map Fin demo_entries).
Proof.
  split; [exact demo_usable|]. split; [simpl; repeat split; lia|]. split; [simpl; repeat split; lia|].
  split; [exact demo_interior|exact demo_entries_ok].
Qed.
(** A direction in which one can go, and two in which one cannot. *)
Lemma feasible_case : forall h,
  (h = [1; -3; 1; -1; 0; 0; 2; 5; 5; -7; 1; 1; -3]%R -> feasible demo demo_entries h) /\
  (h = [0; 0; 1; 0; 0; 0; 0; 0; 0; 0; 0; 0; 0]%R -> ~ feasible demo demo_entries h) /\
  (h = [0; 0; 0; 0; 0; 0; 0; 1; 0; 0; 0; 0; 0]%R -> ~ feasible demo demo_entries h).
Proof.
  intros h. rewrite (feasible_is_direction demo demo_value demo_entries h demo_usable demo_interior demo_entries_ok).
  split; [|split].
  - intros ->. exists [1; -3]%R, [1; -1; 0; 0; 2; 5; 5; -7; 1; 1; -3]%R. split; [reflexivity|]. split; [reflexivity|].
    exists [1; -1; 0; 0]%R, [2; 5; 5; -7; 1; 1; -3]%R. split; [reflexivity|]. split.
    { exists [[1; -1]; [0; 0]]%R. split; [reflexivity|]. split; [reflexivity|]. repeat constructor; cbn; lra. }
    exists [2; 5; 5; -7]%R, [1; 1; -3]%R. split; [reflexivity|]. split.
    { split; [reflexivity|]. intros i j Hi Hj. destruct i as [|[|]]; try lia; destruct j as [|[|]]; try lia; reflexivity. }
    exists [1; 1]%R, [-3]%R. split; [reflexivity|]. split.
    { exists [[1]; [1]]%R. split; [reflexivity|]. split; [reflexivity|]. repeat constructor. }
    exists [-3]%R, []. split; [reflexivity|]. split; [|reflexivity].
    exists [-3]%R, []. split; [reflexivity|]. split; reflexivity.
  - intros -> (n & z1 & E1 & Hn & s & z2 & E2 & Hs & _). subst z1.
    assert (List.length n = 2) as Ln by exact Hn. destruct Hs as (rows & Lr & -> & F). cbn in Lr.
    destruct rows as [|r1 [|r2 [|]]]; try discriminate. inversion F as [|? ? (L1 & S1) F']; subst.
    do 3 (destruct n as [|? n]; try discriminate). do 3 (destruct r1 as [|? r1]; try discriminate).
    cbn in E1. injection E1 as <- <- <- <- _. cbn in S1. lra.
  - intros -> (n & z1 & E1 & Hn & s & z2 & E2 & Hs & c & z3 & E3 & Hc & _). subst z1 z2.
    assert (List.length n = 2) as Ln by exact Hn. destruct Hs as (rows & Lr & -> & F). cbn in Lr.
    destruct rows as [|r1 [|r2 [|]]]; try discriminate. inversion F as [|? ? (L1 & S1) F']; subst.
    inversion F' as [|? ? (L2 & S2) _]; subst. destruct Hc as (Lc & Sc). cbn [snd] in *.
    specialize (Sc 0 1 ltac:(lia) ltac:(lia)).
    do 3 (destruct n as [|? n]; try discriminate). do 3 (destruct r1 as [|? r1]; try discriminate).
    do 3 (destruct r2 as [|? r2]; try discriminate). do 5 (destruct c as [|? c]; try discriminate).
    cbn in E1. injection E1 as <- <- <- <- <- <- <- <- <- <- _. cbn in Sc. lra.
Qed.

(** Two different points inside. *)
Lemma inside_case : exists b, flat_inside demo demo_entries /\ flat_inside demo b /\ nth 2 b 0%R <> nth 2 demo_entries 0%R.
Proof.
  destruct (proj1 (feasible_case [1; -3; 1; -1; 0; 0; 2; 5; 5; -7; 1; 1; -3]%R) eq_refl) as (L & r & Hr & K).
  destruct (K (r / 2)%R) as (w & Fw & Iw); [rewrite Rabs_right; lra|].
  exists (line demo_entries [1; -3; 1; -1; 0; 0; 2; 5; 5; -7; 1; 1; -3] (r / 2))%R.
  split; [exists demo_value; split; [exact demo_interior|exact demo_entries_ok]|]. split.
  - apply flat_inside_iff; [exact demo_usable|]. apply fold_inside; [exact demo_usable|]. exists w. auto.
  - unfold demo_entries. cbn. lra.
Qed.

(** A convex objective need not be convex in the free coordinates. *)
Definition pos_pat : pat := PNum KArray [1] (PyInt 0) py_inf true (Some true).
Lemma free_convex_refuted : ~ (forall p n Phi H,
  usable p -> simplexes_nonempty p -> flat_length p (Some true) = Ok (plint n) ->
  convex_on (flat_inside p) Phi ->
  (forall z w u, List.length z = n -> fold p (vec (map Fin z)) (Some true) None = Ok w ->
     flatten p w (Some false) None = Ok (map Fin u) -> H z = Phi u) ->
  convex_on (fun z => List.length z = n) H).
Proof.
  intros A. specialize (A pos_pat 1 (fun z => - nth 0 z 0)%R (fun z => - exp (nth 0 z 0))%R).
  assert (usable pos_pat) as U by (split; [discriminate|exact I]).
  assert (convex_on (fun z => List.length z = 1) (fun z => - exp (nth 0 z 0))%R) as K.
  { apply A; auto.
    - exact I.
    - intros a b t Ha Hb Ht _. apply flat_inside_iff in Ha, Hb; auto.
      apply (inside_length _ U) in Ha, Hb. rewrite nth_segment by congruence. lra.
    - intros z w u Lz Fw Fu. destruct z as [|z [|]]; try discriminate. cbn in Fw.
      injection Fw as <-. cbn in Fu. destruct (require_valid _ _ _ _) in Fu; [|discriminate].
      injection Fu as Fu. destruct u as [|u [|]]; try discriminate. injection Fu as <-. cbn. ring. }
  specialize (K [0%R] [ln 4] (1/2)%R eq_refl eq_refl ltac:(lra) eq_refl). cbn in K.
  replace ((1 - 1 / 2) * 0 + 1 / 2 * ln 4)%R with (ln 2)%R in K.
  - rewrite exp_0, !exp_ln in K by lra. lra.
  - replace 4%R with (2 * 2)%R by ring. rewrite ln_mult by lra. lra.
Qed.

Lemma psd_slope_case :
  usable d_cov /\ interior d_cov (FArr (mkNd [2; 2] [Fin 3; Fin 1; Fin 1; Fin 3])) /\
  flatten d_cov (FArr (mkNd [2; 2] [Fin 3; Fin 1; Fin 1; Fin 3])) (Some false) None = Ok (map Fin [3; 1; 1; 3]%R) /\
  (forall i j, i < 2 -> j < 2 ->
     (nth (i * 2 + j) [0; 1; -1; 0] 0 + nth (j * 2 + i) [0; 1; -1; 0] 0 = 0)%R).
Proof.
  destruct backward_case as (_ & H1 & H2 & _ & H3 & _). split; auto. split; auto. split; auto.
  intros i j Hi Hj. destruct i as [|[|]]; try lia; destruct j as [|[|]]; try lia; cbn; lra.
Qed.
