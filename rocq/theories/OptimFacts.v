(** * Proofs about preconditioners, eigenvalue tools and objectives. *)
From Coq Require Import Reals Lra Lia ZArith.
From Verif Require Import Base Num Nd Spec SpecValid ListFacts NumFacts Valid CholFacts Jac JacBase Optim SpecOptim LinAlg.
Local Open Scope list_scope.
Local Open Scope nat_scope.

(** ** histories of preconditioner changes *)
Lemma precond_history : forall t l, installed t l (run_ops t l).
Proof.
  intros t l. unfold run_ops. induction l using rev_ind.
  - simpl. constructor. constructor.
  - rewrite fold_left_app. cbn [fold_left].
    set (s := fold_left (fun s o => fst (do_op t s o)) l new_precond) in *.
    unfold do_op. destruct (set_op t x) eqn:E; cbn [fst].
    + apply installed_last; auto.
    + inversion IHl; subst.
      * constructor. apply Forall_app. split; auto. constructor; eauto.
      * rewrite <- app_assoc. simpl. apply installed_last; auto. apply Forall_app. split; auto.
        constructor; eauto.
Qed.
Lemma precond_initial : forall t x,
  precondition (run_ops t []) x = Ok x /\ unprecondition (run_ops t []) x = Ok x.
Proof. intros. split; reflexivity. Qed.
Lemma precond_failed_call : forall t s o s' e, do_op t s o = (s', Some e) -> s' = s.
Proof. intros t s o s' e. unfold do_op. destruct (set_op t o); congruence. Qed.
Lemma precond_call : forall Y S (f : list num -> S -> res Y * S) t l x st,
  (forall y, unprecondition (run_ops t l) x = Ok y -> pre_call f (run_ops t l) x st = f y st) /\
  (forall e, unprecondition (run_ops t l) x = Err e -> pre_call f (run_ops t l) x st = (Err e, st)).
Proof. intros. unfold pre_call. split; intros ? ->; auto. Qed.
Lemma precond_inverse_call : forall Y S (f : list num -> S -> res Y * S) t l n,
  mutually_inverse n (precondition (run_ops t l)) (unprecondition (run_ops t l)) ->
  forall x st, exists c, precondition (run_ops t l) (fvec n x) = Ok c /\
    pre_call f (run_ops t l) c st = f (fvec n x) st.
Proof.
  intros Y S f t l n H x st. destruct (H x) as (H1 & _).
  destruct (precondition (run_ops t l) (fvec n x)) as [c|]; [|discriminate].
  exists c. split; auto. cbn [bind] in H1. unfold pre_call. rewrite H1. auto.
Qed.
Lemma matvecs_inverse : forall n f g A B, is_matvec n f A -> is_matvec n g B -> inverse_matrices n A B ->
  mutually_inverse n f g.
Proof.
  intros n f g A B Hf Hg (H1 & H2) x. rewrite Hf, Hg. cbn [bind]. rewrite Hf, Hg.
  split; f_equal; apply fvec_ext; intros i Hi; rewrite <- mv_mm;
    (transitivity (Rmatvec n Rid x i); [apply mv_ext; auto|apply mv_id; auto]).
Qed.
Lemma mutually_inverse_sym : forall n f g, mutually_inverse n f g -> mutually_inverse n g f.
Proof. intros n f g H x. destruct (H x). split; auto. Qed.
Lemma precond_matrix : forall t (sparse : bool) n A B a b,
  is_array n n A a -> is_array n n B b -> inverse_matrices n A B ->
  forall given, given = Some b \/
    (given = None /\ (if sparse then t_sparse_inv t a else t_inv t a) = Ok b) ->
  exists s, set_op t (SetMatrix sparse a given) = Ok s /\
    is_matvec n (unprecondition s) A /\ is_matvec n (precondition s) B /\
    mutually_inverse n (precondition s) (unprecondition s).
Proof.
  intros t sparse n A B a b Ha Hb HI given Hg.
  assert (is_matvec n (matvec a) A) by (intro x; apply matvec_array; auto).
  assert (is_matvec n (matvec b) B) by (intro x; apply matvec_array; auto).
  exists (mkPre (matvec a) (matvec b)). split; [|split; [|split]]; auto.
  - destruct Hg as [->|(-> & E)]; cbn [set_op]; auto. rewrite E. auto.
  - apply mutually_inverse_sym. eapply matvecs_inverse; eauto.
Qed.

(** ** truncation *)
Definition keep_above (x : num) (e : num) : num := if nleb e x then x else e.
Definition keep_below (x : num) (e : num) : num := if ngeb e x then x else e.
Definition opt_map {A} (f : A -> num -> num) (b : option A) (l : list num) : list num :=
  match b with Some x => map (f x) l | None => l end.

Lemma upd_last : forall A (l : list A) x y, upd (l ++ [x]) (length l) y = l ++ [y].
Proof. induction l; intros; simpl; auto. f_equal. auto. Qed.
Lemma set_where_last : forall h l mask x,
  set_where (h ++ [l]) (length h) mask x = h ++ [map (fun e => if mask e then x else e) l].
Proof.
  intros. unfold set_where. rewrite upd_last. rewrite app_nth2, Nat.sub_diag by lia. auto.
Qed.
Lemma truncate_real : forall h a lo hi,
  truncate_eigenvalues h a (option_map BNum lo) (option_map BNum hi) =
  (Ok (length h), h ++ [opt_map keep_below hi (opt_map keep_above lo (nth a h []))]).
Proof.
  intros h a lo hi. unfold truncate_eigenvalues.
  destruct lo as [lo|], hi as [hi|]; cbn [option_map isreal negb to_float bind opt_map];
    rewrite ?set_where_last; auto.
Qed.
Lemma nleb_nle : forall a b, nleb a b = true <-> nle a b.
Proof.
  intros a b. unfold nleb, nle. rewrite Bool.orb_true_iff, nltb_nlt.
  split; intros [H|H]; auto; right.
  - destruct a, b; simpl in H; try discriminate; split; try congruence.
    unfold Reqb in H. destruct (Req_EM_T _ _); congruence.
  - destruct H as (<- & H). destruct a; simpl; auto; try congruence.
    unfold Reqb. destruct (Req_EM_T _ _); congruence.
Qed.
Lemma nle_cases : forall a b, a <> NaN -> b <> NaN -> nlt a b \/ a = b \/ nlt b a.
Proof.
  intros a b Ha Hb. destruct a, b; simpl; auto; try congruence.
  match goal with |- (?x < ?y)%R \/ _ => destruct (Rtotal_order x y) as [|[|]]; subst; auto end.
Qed.
Lemma nlt_irr : forall a, ~ nlt a a.
Proof. intros a H. destruct a; simpl in H; auto. lra. Qed.
Lemma nlt_tr : forall a b c, nlt a b -> nlt b c -> nlt a c.
Proof. intros a b c H K. destruct a, b, c; simpl in *; auto; try tauto. lra. Qed.
Lemma clamp_one : forall lo hi e, lo <> NaN -> hi <> NaN ->
  clamped lo hi e (keep_below hi (keep_above lo e)).
Proof.
  intros lo hi e Hlo Hhi. unfold clamped. split; [|split].
  - intros ->. destruct lo, hi; reflexivity.
  - intros He Hle. unfold keep_below, keep_above, ngeb.
    assert (forall a b, nle a b -> nlt b a -> False) as X.
    { intros a b [H|(<- & H)] K; [|eapply nlt_irr; eauto]. eapply nlt_irr, nlt_tr; eauto. }
    assert (forall a b, b <> NaN -> nle a b -> nle a b) as _ by auto.
    destruct (nleb e lo) eqn:E1.
    + apply nleb_nle in E1. destruct (nleb hi lo) eqn:E2.
      * apply nleb_nle in E2.
        assert (hi = lo) as -> by (destruct E2 as [E2|(E2 & _)]; auto; exfalso; eauto).
        assert (nle lo lo) by (right; auto).
        repeat split; auto.
        -- intros K1 K2. destruct K2 as [K2|(K2 & _)]; [exfalso; exact (X _ _ K1 K2)|congruence].
      * assert (nle lo lo) by (right; auto). repeat split; auto.
        -- intros K1 K2. destruct E1 as [E1|(E1 & _)]; [exfalso; exact (X _ _ K1 E1)|congruence].
        -- intros K. exfalso. eapply X; [exact Hle|].
           destruct E1 as [E1|(E1 & _)]; [eapply nlt_tr; eauto|congruence].
    + assert (nlt lo e) as L.
      { destruct (nle_cases e lo He Hlo) as [K|[K|K]]; auto; exfalso;
          assert (nleb e lo = true) by (apply nleb_nle; unfold nle; auto); congruence. }
      destruct (nleb hi e) eqn:E2.
      * apply nleb_nle in E2. assert (nle hi hi) by (right; auto). repeat split; auto.
        -- intros K1 K2. destruct E2 as [E2|(E2 & _)]; [exfalso; exact (X _ _ K2 E2)|congruence].
        -- intros K. exfalso. eapply nlt_irr, nlt_tr; eauto.
      * assert (nlt e hi) as L2.
        { destruct (nle_cases e hi He Hhi) as [K|[K|K]]; auto; exfalso;
            assert (nleb hi e = true) by (apply nleb_nle; unfold nle; auto; right; split; congruence); congruence. }
        repeat split; auto; try (left; auto; fail).
        -- intros K. exfalso. eapply nlt_irr, nlt_tr; eauto.
        -- intros K. exfalso. eapply nlt_irr, nlt_tr; eauto.
  - intros He Hlt. unfold keep_below, keep_above, ngeb.
    assert (nleb hi (if nleb e lo then lo else e) = true) as ->; auto.
    apply nleb_nle. destruct (nleb e lo) eqn:E1; [left; auto|].
    destruct (nle_cases e lo He Hlo) as [K|[K|K]].
    + exfalso. assert (nleb e lo = true) by (apply nleb_nle; left; auto). congruence.
    + subst. left. auto.
    + left. eapply nlt_tr; eauto.
Qed.
Lemma opt_above : forall lo l, opt_map keep_above lo l = map (keep_above (lower_bound lo)) l.
Proof.
  intros lo l. assert (forall e, keep_above NInf e = e) as H by (intros []; reflexivity).
  assert (forall e, keep_above NaN e = e) as H' by (intros []; reflexivity).
  destruct lo as [[]|]; cbn [opt_map lower_bound]; auto.
  - apply map_ext. intros. rewrite H, H'. auto.
  - rewrite (map_ext _ _ H), map_id. auto.
Qed.
Lemma opt_below : forall hi l, opt_map keep_below hi l = map (keep_below (upper_bound hi)) l.
Proof.
  intros hi l. assert (forall e, keep_below PInf e = e) as H by (intros []; reflexivity).
  assert (forall e, keep_below NaN e = e) as H' by (intros []; reflexivity).
  destruct hi as [[]|]; cbn [opt_map upper_bound]; auto.
  - apply map_ext. intros. rewrite H, H'. auto.
  - rewrite (map_ext _ _ H), map_id. auto.
Qed.
Lemma truncate_clamps : forall h a l lo hi, nth_error h a = Some l ->
  exists r, truncate_eigenvalues h a (option_map BNum lo) (option_map BNum hi) = (Ok (length h), h ++ [r]) /\
    Forall2 (clamped (lower_bound lo) (upper_bound hi)) l r.
Proof.
  intros h a l lo hi Ha. eexists. split; [apply truncate_real|].
  rewrite (nth_error_nth _ _ [] Ha), opt_below, opt_above, map_map.
  clear Ha. induction l; cbn [map]; constructor; auto.
  apply clamp_one; destruct lo as [[]|], hi as [[]|]; discriminate.
Qed.
Lemma truncate_complex_min : forall h a re im hi,
  exists h', truncate_eigenvalues h a (Some (BComplex re im)) hi =
    (Err (if neqb im (Fin 0) then TypeError else ValueError), h') /\ firstn (length h) h' = h.
Proof.
  intros. unfold truncate_eigenvalues. exists (h ++ [nth a h []]). split.
  - cbn [isreal to_float bind]. destruct (neqb im (Fin 0)); auto.
  - rewrite firstn_app, firstn_all, Nat.sub_diag, app_nil_r. auto.
Qed.
Lemma truncate_complex_max : forall h a lo re im,
  exists h', truncate_eigenvalues h a (option_map BNum lo) (Some (BComplex re im)) =
    (Err (if neqb im (Fin 0) then TypeError else ValueError), h') /\ firstn (length h) h' = h.
Proof.
  intros. unfold truncate_eigenvalues.
  destruct lo as [lo|]; cbn [option_map isreal to_float bind negb]; rewrite ?set_where_last.
  - exists (h ++ [map (keep_above lo) (nth a h [])]). split.
    + destruct (neqb im (Fin 0)); auto.
    + rewrite firstn_app, firstn_all, Nat.sub_diag, app_nil_r. auto.
  - exists (h ++ [nth a h []]). split.
    + destruct (neqb im (Fin 0)); auto.
    + rewrite firstn_app, firstn_all, Nat.sub_diag, app_nil_r. auto.
Qed.
Lemma truncate_fvec : forall n w lo hi,
  truncate (fvec n w) (rbound lo) (rbound hi) = Ok (fvec n (fun i => rclamp lo hi (w i))).
Proof.
  intros n w lo hi. unfold truncate.
  replace (rbound lo) with (option_map BNum (option_map Fin lo)) by (destruct lo; auto).
  replace (rbound hi) with (option_map BNum (option_map Fin hi)) by (destruct hi; auto).
  rewrite truncate_real. cbn [bind length app nth]. f_equal. unfold fvec.
  assert (forall l x, keep_above (Fin l) (Fin x) = Fin (Rmax l x)) as HA.
  { intros. unfold keep_above, nleb, nltb, neqb, Rltb, Reqb, Rmax.
    destruct (Rlt_dec x l), (Req_EM_T x l), (Rle_dec l x); cbn [orb]; auto; f_equal; lra. }
  assert (forall l x, keep_below (Fin l) (Fin x) = Fin (Rmin l x)) as HB.
  { intros. unfold keep_below, ngeb, nleb, nltb, neqb, Rltb, Reqb, Rmin.
    destruct (Rlt_dec l x), (Req_EM_T l x), (Rle_dec l x); cbn [orb]; auto; f_equal; lra. }
  destruct lo as [lo|], hi as [hi|]; cbn [option_map opt_map]; rewrite ?map_map; unfold rclamp;
    apply map_ext; intros; rewrite ?HA, ?HB; auto.
Qed.

Lemma nsqrt_fin : forall x, (0 <= x)%R -> nsqrt (Fin x) = Fin (sqrt x).
Proof. intros x H. unfold nsqrt, Rltb. destruct (Rlt_dec x 0); auto. lra. Qed.

(** ** spectra *)
Lemma ws_entry : forall n V w i j, with_spectrum n V w i j = Rsum n (fun k => V i k * (w k * V j k))%R.
Proof.
  intros. unfold with_spectrum, Rmatmul. apply Rsum_ext. intros k Hk. f_equal.
  unfold Rdiag, Rtrans. rewrite (Rsum_single n _ k Hk).
  - rewrite Nat.eqb_refl. auto.
  - intros l Hl Hne. rewrite (proj2 (Nat.eqb_neq k l)) by auto. ring.
Qed.
Lemma ws_ext : forall n V w w', (forall i, i < n -> w i = w' i) ->
  Rmat_eq n (with_spectrum n V w) (with_spectrum n V w').
Proof.
  intros n V w w' H i j _ _. rewrite !ws_entry. apply Rsum_ext. intros k Hk. rewrite H; auto.
Qed.
Lemma ws_sym : forall n V w i j, with_spectrum n V w i j = with_spectrum n V w j i.
Proof. intros. rewrite !ws_entry. apply Rsum_ext. intros; ring. Qed.
Lemma ws_one : forall n V, orthonormal n V -> Rmat_eq n (with_spectrum n V (fun _ => 1%R)) Rid.
Proof.
  intros n V H i j Hi Hj. rewrite <- (orthonormal_rows n V H i j Hi Hj), ws_entry.
  unfold Rmatmul, Rtrans. apply Rsum_ext. intros; ring.
Qed.
Lemma mv_diag : forall n w x i, i < n -> Rmatvec n (Rdiag w) x i = (w i * x i)%R.
Proof.
  intros n w x i Hi. unfold Rmatvec, Rdiag. rewrite (Rsum_single n _ i Hi).
  - rewrite Nat.eqb_refl. auto.
  - intros k Hk Hne. rewrite (proj2 (Nat.eqb_neq i k)) by auto. ring.
Qed.
Lemma mm_diag_l : forall n w a i j, i < n -> Rmatmul n (Rdiag w) a i j = (w i * a i j)%R.
Proof. intros. apply (mv_diag n w (fun k => a k j) i); auto. Qed.
Lemma ws_mul : forall n V w u, orthonormal n V ->
  Rmat_eq n (Rmatmul n (with_spectrum n V w) (with_spectrum n V u))
            (with_spectrum n V (fun i => w i * u i)%R).
Proof.
  intros n V w u H. unfold with_spectrum.
  eapply meq_trans; [apply meq_assoc|]. apply mm_ext; [apply meq_refl|].
  eapply meq_trans; [apply meq_assoc|].
  eapply meq_trans.
  { apply mm_ext; [apply meq_refl|]. eapply meq_trans; [apply meq_sym, meq_assoc|].
    apply mm_ext; [exact H|apply meq_refl]. }
  eapply meq_trans; [apply mm_ext; [apply meq_refl|apply mm_id_l]|].
  intros i j Hi Hj. rewrite !mm_diag_l by auto. ring.
Qed.
Lemma ws_inverse : forall n V w u, orthonormal n V -> (forall i, i < n -> (w i * u i = 1)%R) ->
  Rmat_eq n (Rmatmul n (with_spectrum n V w) (with_spectrum n V u)) Rid.
Proof.
  intros n V w u HV H. eapply meq_trans; [apply ws_mul; auto|].
  eapply meq_trans; [|apply ws_one; eauto]. apply ws_ext. auto.
Qed.

Lemma matrix_of_rows : forall n m, is_array n n m (matrix_of (mkNd [n; n] (rows_of n m))).
Proof.
  intros n m. split; auto. split; auto. intros i j Hi Hj. cbn [matrix_of m_at shp dat nth].
  rewrite <- (mat_of_rows n m i j Hi Hj). reflexivity.
Qed.

Lemma transform_spectrum : forall n V u g f, orthonormal n V ->
  f (fvec n u) = Ok (fvec n g) ->
  exists op, transform_eigenspace (mkNd [n; n] (rows_of n V)) (mkNd [n] (fvec n u)) f = Ok op /\
    is_matvec n op (with_spectrum n V g).
Proof.
  intros n V u g f HV Hf. unfold transform_eigenspace, ndim. cbn [shp length nth dat].
  rewrite !Nat.eqb_refl. cbn [negb]. rewrite Hf. cbn [bind]. rewrite !fvec_length, Nat.eqb_refl.
  cbn [negb]. eexists. split; [reflexivity|]. intro x. cbn beta.
  pose proof (matrix_of_rows n V) as HA.
  rewrite (matvec_array n n (Rtrans V) _ x (array_trans _ _ _ _ HA)). cbn [bind].
  rewrite (map2_fvec _ (fun e l => (e - 1) * l)%R) by reflexivity.
  rewrite (matvec_array n n V _ _ HA). cbn [bind]. f_equal.
  rewrite (map2_fvec _ Rplus) by reflexivity. apply fvec_ext. intros i Hi.
  unfold with_spectrum. rewrite mv_mm.
  rewrite <- (mv_id n x i Hi) at 1.
  rewrite <- (mv_ext n _ _ x x i Hi (orthonormal_rows n V HV)) by auto. rewrite mv_mm.
  unfold Rmatvec at 1 3 5. rewrite <- Rsum_plus. apply Rsum_ext. intros k Hk.
  rewrite (mv_mm n (Rdiag g)), mv_diag by auto. ring.
Qed.

Lemma hessian_array_read : forall n a H, hessian_array n a H ->
  exists m, symmetrize (atleast_2d a) = Ok m /\ is_array n n (sym_part H) m.
Proof.
  assert (forall n v, forall i, i < n -> nth i (fvec n v) NaN = Fin (v i)) as Hv.
  { intros n v i Hi. unfold fvec. erewrite nth_indep with (d' := Fin (v 0)) by (rewrite map_length, seq_length; auto).
    rewrite (map_nth (fun i => Fin (v i)) (seq 0 n) 0 i), seq_nth; auto. }
  intros n a H Ha. destruct Ha as [H|x ->|s v Hs].
  - unfold atleast_2d, symmetrize. cbn [shp]. rewrite Nat.eqb_refl. eexists. split; [reflexivity|].
    split; auto. split; auto. intros i j Hi Hj. cbn [m_at].
    destruct (matrix_of_rows n H) as (_ & _ & HM). rewrite !HM by auto. reflexivity.
  - eexists. split; [reflexivity|]. split; auto. split; auto. intros i j Hi Hj.
    assert (i = 0) as -> by lia. assert (j = 0) as -> by lia. reflexivity.
  - assert (forall m, m_rows m = n -> m_cols m = n ->
              (forall i j, i < n -> j < n -> m_at m i j = Fin (1 / 2 * (v i + v j))) ->
              is_array n n (sym_part (fun i j => (v i + v j) / 2)%R) m) as Hm.
    { intros m H1 H2 H3. split; auto. split; auto. intros i j Hi Hj. rewrite H3 by auto. unfold sym_part.
      f_equal. field. }
    destruct (Nat.eq_dec n 1) as [->|Hn].
    { assert (s = [1] \/ s = [1; 1]) as Hs' by (cbn in Hs; intuition).
      exists (mkMat 1 1 (fun i j => nmul (Fin (1 / 2)) (nadd (m_at (matrix_of (mkNd [1; 1] (fvec 1 v))) i j)
                                                        (m_at (matrix_of (mkNd [1; 1] (fvec 1 v))) j i)))).
      split; [destruct Hs' as [->| ->]; reflexivity|]. apply Hm; auto.
      intros i j Hi Hj. assert (i = 0) as -> by lia. assert (j = 0) as -> by lia. reflexivity. }
    assert (s = [n] \/ s = [1; n] \/ s = [n; 1]) as Hs' by (cbn in Hs; intuition).
    assert ((1 =? n) = false) as E1 by (apply Nat.eqb_neq; auto).
    assert ((n =? 1) = false) as E2 by (apply Nat.eqb_neq; auto).
    assert (exists m, symmetrize (mkNd [1; n] (fvec n v)) = Ok m /\ is_array n n (sym_part (fun i j => (v i + v j) / 2)%R) m) as Hrow.
    { unfold symmetrize. cbn [shp]. rewrite E1. cbn [Nat.eqb]. eexists. split; [reflexivity|]. apply Hm; auto.
      intros i j Hi Hj. cbn [m_at matrix_of shp dat nth]. rewrite !Nat.mul_0_l, !Nat.add_0_l, !Hv by auto.
      cbn [nmul nadd]. f_equal. ring. }
    destruct Hs' as [->|[->| ->]]; [exact Hrow|exact Hrow|].
    unfold atleast_2d, symmetrize. cbn [shp]. rewrite E2. cbn [Nat.eqb]. eexists. split; [reflexivity|]. apply Hm; auto.
    intros i j Hi Hj. cbn [m_at matrix_of shp dat nth]. rewrite !Nat.mul_1_r, !Nat.add_0_r, !Hv by auto. reflexivity.
Qed.
(** Nothing that is not square is rejected when it is a vector, and no vector of two
    or more entries gives a positive definite matrix. *)
Lemma vector_hessian_indefinite : forall n v, 2 <= n -> ~ pos_def n (fun i j => (v i + v j) / 2)%R.
Proof.
  intros n v Hn H.
  assert (exists x : nat -> R, (exists i, i < n /\ x i <> 0%R) /\ Rsum n x = 0%R) as (x & Hx & Hz).
  { exists (fun i => match i with 0 => 1 | 1 => -1 | _ => 0 end)%R. split; [exists 0; split; [lia|lra]|].
    destruct n as [|[|n]]; [lia|lia|]. clear. induction n; [cbn [Rsum]; lra|].
    change (Rsum (S (S (S n))) ?f) with (Rsum (S (S n)) f + f (S (S n)))%R. rewrite IHn. lra. }
  specialize (H x Hx). revert H.
  rewrite (Rsum_ext n _ (fun i => x i * (v i / 2 * Rsum n x + Rsum n (fun j => v j / 2 * x j)))%R).
  - rewrite Hz. rewrite (Rsum_ext n _ (fun i => Rsum n (fun j => v j / 2 * x j) * x i)%R) by (intros; ring).
    rewrite Rsum_scal, Hz. lra.
  - intros i Hi. rewrite <- Rsum_scal, <- Rsum_plus, <- Rsum_scal. apply Rsum_ext. intros j Hj. field.
Qed.
Lemma hessian_preconditioner : forall t n a H V w lo hi x h,
  hessian_array n a H -> orthonormal n V ->
  (forall m, is_array n n (sym_part H) m ->
     t_eigh t m = Ok (vec (fvec n w), mkNd [n; n] (rows_of n V))) ->
  (forall i, i < n -> (0 < rclamp lo hi (w i))%R) ->
  (x = None /\ h = Some (HDense a) \/
   exists z, x = Some z /\ h = None /\ t_hessian t z = Ok (HDense a)) ->
  exists s A B, set_op t (SetHessian x h (rbound lo) (rbound hi)) = Ok s /\
    is_matvec n (unprecondition s) A /\ is_matvec n (precondition s) B /\
    mutually_inverse n (precondition s) (unprecondition s) /\
    symmetric n A /\ symmetric n B /\
    Rmat_eq n (Rmatmul n A (Rmatmul n (with_spectrum n V (fun i => rclamp lo hi (w i))) A)) Rid /\
    Rmat_eq n (Rmatmul n B B) (with_spectrum n V (fun i => rclamp lo hi (w i))).
Proof.
  intros t n a H V w lo hi x h Ha HV He Hw Hx.
  set (u := fun i => rclamp lo hi (w i)).
  destruct (transform_spectrum n V u (fun i => sqrt (u i)) sqrt_all HV) as (f & Hf & HF).
  { unfold sqrt_all, fvec. rewrite map_map. f_equal. apply map_ext_in. intros i Hi. apply in_seq in Hi.
    rewrite nsqrt_fin; auto. apply Rlt_le, Hw. lia. }
  destruct (transform_spectrum n V u (fun i => 1 / sqrt (u i))%R inv_sqrt_all HV) as (g & Hg & HG).
  { unfold inv_sqrt_all, fvec. rewrite map_map. f_equal. apply map_ext_in. intros i Hi. apply in_seq in Hi.
    assert (0 < u i)%R by (apply Hw; lia).
    rewrite nsqrt_fin by lra. rewrite ndiv_fin; auto. pose proof (sqrt_lt_R0 _ H0). lra. }
  assert (inv_sqrt_funcs (t_eigh t) a (rbound lo) (rbound hi) = Ok (f, g)) as HI.
  { destruct (hessian_array_read n a H Ha) as (m & Em & Hm).
    unfold inv_sqrt_funcs. rewrite Em. cbn [bind]. rewrite (He m Hm).
    cbn [bind fst snd vec dat shp]. rewrite truncate_fvec. cbn [bind]. rewrite fvec_length.
    fold u. rewrite Hf. cbn [bind]. rewrite Hg. reflexivity. }
  exists (mkPre g f), (with_spectrum n V (fun i => 1 / sqrt (u i))%R), (with_spectrum n V (fun i => sqrt (u i))).
  assert (forall i, i < n -> (0 < sqrt (u i))%R) as Hp by (intros i Hi; apply sqrt_lt_R0, Hw; auto).
  assert (forall i, i < n -> (sqrt (u i) * sqrt (u i) = u i)%R) as Hq
    by (intros i Hi; apply sqrt_sqrt, Rlt_le, Hw; auto).
  split; [|split; [|split; [|split; [|split; [|split; [|split]]]]]]; auto.
  - destruct Hx as [(-> & ->)|(z & -> & -> & Hz)]; cbn [set_op bind].
    + rewrite HI. reflexivity.
    + rewrite Hz. cbn [bind]. rewrite HI. reflexivity.
  - cbn [precondition unprecondition a_times a_inv_times].
    eapply matvecs_inverse; [exact HF|exact HG|].
    split; apply ws_inverse; auto; intros i Hi; specialize (Hp i Hi); field; lra.
  - intros i j _ _. apply ws_sym.
  - intros i j _ _. apply ws_sym.
  - eapply meq_trans; [apply mm_ext; [apply meq_refl|apply ws_mul; auto]|].
    apply ws_inverse; auto. intros i Hi. specialize (Hp i Hi). fold (u i). rewrite <- (Hq i Hi) at 2.
    field. lra.
  - eapply meq_trans; [apply ws_mul; auto|]. apply ws_ext. auto.
Qed.
Lemma hessian_whitened : forall t n a H V w,
  hessian_array n a H -> orthonormal n V -> Rmat_eq n (with_spectrum n V w) (sym_part H) ->
  (forall m, is_array n n (sym_part H) m ->
     t_eigh t m = Ok (vec (fvec n w), mkNd [n; n] (rows_of n V))) ->
  (forall i, i < n -> (0 < w i)%R) ->
  exists s A, set_op t (SetHessian None (Some (HDense a)) None None) = Ok s /\
    is_matvec n (unprecondition s) A /\ symmetric n A /\
    mutually_inverse n (precondition s) (unprecondition s) /\
    Rmat_eq n (Rmatmul n A (Rmatmul n (sym_part H) A)) Rid.
Proof.
  intros t n a H V w Ha HV HS He Hw.
  destruct (hessian_preconditioner t n a H V w None None None (Some (HDense a)))
    as (s & A & B & Hs & HA & HB & HI & HsA & _ & HR & _); auto.
  exists s, A. split; [exact Hs|]. split; auto. split; auto. split; auto.
  eapply meq_trans; [|exact HR]. apply mm_ext; [apply meq_refl|]. apply mm_ext; [|apply meq_refl].
  apply meq_sym. exact HS.
Qed.
Lemma hessian_arguments : forall t x h lo hi,
  (x = None -> h = None -> set_op t (SetHessian x h lo hi) = Err ValueError) /\
  (x <> None -> h <> None -> set_op t (SetHessian x h lo hi) = Err ValueError) /\
  (x = None -> h = Some HSparse -> set_op t (SetHessian x h lo hi) = Err NotImplementedError).
Proof.
  intros. split; [|split].
  - intros -> ->. auto.
  - intros H K. destruct x, h; try congruence. auto.
  - intros -> ->. auto.
Qed.

(** ** matrices of operators *)
Lemma nth_upd_eq : forall A (l : list A) i x, i < length l -> nth_error (upd l i x) i = Some x.
Proof. induction l; intros [|i] x Hi; simpl in *; auto; try lia. apply IHl. lia. Qed.
Lemma nth_upd_neq : forall A (l : list A) i j x, j <> i -> nth_error (upd l i x) j = nth_error l j.
Proof. induction l; intros [|i] [|j] x Hi; simpl in *; auto; try lia. Qed.
Lemma unit_fvec : forall n j, j < n -> unit_vec n j = fvec n (fun k => Rid k j).
Proof.
  intros n j Hj. unfold unit_vec.
  apply (nth_ext _ _ NaN NaN).
  - rewrite upd_length, repeat_length, fvec_length. auto.
  - rewrite upd_length, repeat_length. intros i Hi. rewrite nth_fvec by auto. unfold Rid.
    destruct (Nat.eqb_spec i j) as [->|Hne].
    + apply nth_error_nth. apply nth_upd_eq. rewrite repeat_length. auto.
    + apply nth_error_nth. rewrite nth_upd_neq by auto. apply nth_error_repeat. auto.
Qed.
Lemma linear_sum : forall n m f L, linear_operator n m f L -> forall x i, i < m ->
  L x i = Rsum n (fun j => L (fun k => Rid k j) i * x j)%R.
Proof.
  intros n m f L (Hf & HL) x i Hi.
  assert (forall y, (forall k, k < n -> y k = x k) -> L y i = L x i) as Hext.
  { intros y Hy. apply (fvec_inj m (L y) (L x)); auto.
    assert (Ok (fvec m (L y)) = Ok (fvec m (L x))) as E; [|congruence].
    rewrite <- !Hf. f_equal. apply fvec_ext. auto. }
  assert (forall p, p <= n ->
    L (fun k => if k <? p then x k else 0%R) i = Rsum p (fun j => L (fun k => Rid k j) i * x j)%R) as H.
  { induction p; intros Hp.
    - simpl Rsum. pose proof (HL 0%R 0%R x x i Hi) as E.
      replace (0 * L x i + 0 * L x i)%R with 0%R in E by ring.
      transitivity (L (fun k => 0 * x k + 0 * x k)%R i); [|exact E].
      apply (fvec_inj m (L _) (L _)); auto.
      match goal with |- fvec m (L ?a) = fvec m (L ?b) =>
        assert (Ok (fvec m (L a)) = Ok (fvec m (L b))) as E'; [|congruence] end.
      rewrite <- !Hf. f_equal. apply fvec_ext. intros k _. destruct (Nat.ltb_spec k 0); [lia|ring].
    - simpl Rsum. rewrite <- IHp by lia.
      pose proof (HL 1%R (x p) (fun k => if k <? p then x k else 0%R) (fun k => Rid k p) i Hi) as E.
      transitivity (L (fun k => 1 * (if k <? p then x k else 0) + x p * Rid k p)%R i); [|rewrite E; ring].
      apply (fvec_inj m (L _) (L _)); auto.
      match goal with |- fvec m (L ?a) = fvec m (L ?b) =>
        assert (Ok (fvec m (L a)) = Ok (fvec m (L b))) as E'; [|congruence] end.
      rewrite <- !Hf. f_equal. apply fvec_ext. intros k _. unfold Rid.
      destruct (Nat.ltb_spec k (S p)), (Nat.ltb_spec k p), (Nat.eqb_spec k p); try lia; subst; ring. }
  rewrite <- H by auto. symmetry. apply Hext. intros k Hk. apply Nat.ltb_lt in Hk. rewrite Hk. auto.
Qed.
Lemma operator_matrix : forall n m f L, 0 < n -> linear_operator n m f L ->
  exists M A, matrix_from_operator f n = Ok M /\ is_array m n A M /\
    forall x, f (fvec n x) = Ok (fvec m (Rmatvec n A x)).
Proof.
  intros n m f L Hn HL. pose proof HL as (Hf & _).
  assert (mapM (fun i => f (unit_vec n i)) (seq 0 n) =
          Ok (map (fun j => fvec m (L (fun k => Rid k j))) (seq 0 n))) as HM.
  { apply mapM_of_Forall2.
    assert (forall l, Forall (fun j => j < n) l ->
      Forall2 (fun a b => f (unit_vec n a) = Ok b) l (map (fun j => fvec m (L (fun k => Rid k j))) l)) as X.
    { induction l; intros Hl; constructor; inversion Hl; subst; auto. rewrite unit_fvec by auto. auto. }
    apply X. apply Forall_forall. intros j Hj. apply in_seq in Hj. lia. }
  exists (mkMat m n (fun i j => nth i (nth j (map (fun j => fvec m (L (fun k => Rid k j))) (seq 0 n)) []) NaN)).
  exists (fun i j => L (fun k => Rid k j) i).
  split; [|split].
  - unfold matrix_from_operator. rewrite HM. cbn [bind].
    destruct n; [lia|]. cbn [seq map].
    rewrite fvec_length.
    rewrite (proj2 (forallb_forall _ _)); auto.
    intros s [<-|Hs]; [rewrite fvec_length; apply Nat.eqb_refl|].
    apply in_map_iff in Hs. destruct Hs as (j & <- & _). rewrite fvec_length. apply Nat.eqb_refl.
  - split; auto. split; auto. intros i j Hi Hj. cbn [m_at].
    rewrite (nth_map_gen _ _ _ _ _ [] 0) by (rewrite seq_length; auto). rewrite seq_nth by auto.
    rewrite nth_fvec by auto. auto.
  - intro x. rewrite Hf. f_equal. apply fvec_ext. intros i Hi. apply (linear_sum n m f L HL); auto.
Qed.
Lemma operator_matrix_empty : forall f, matrix_from_operator f 0 = Err ValueError.
Proof. reflexivity. Qed.
Lemma preconditioner_matrix : forall t l n L, 0 < n ->
  (linear_operator n n (unprecondition (run_ops t l)) L ->
   exists M A, get_preconditioner (run_ops t l) n = Ok M /\ is_array n n A M /\
     is_matvec n (unprecondition (run_ops t l)) A) /\
  (linear_operator n n (precondition (run_ops t l)) L ->
   exists M A, get_preconditioner_inv (run_ops t l) n = Ok M /\ is_array n n A M /\
     is_matvec n (precondition (run_ops t l)) A).
Proof. intros t l n L Hn. split; intro H; apply (operator_matrix n n _ L Hn H). Qed.

(** ** check_preconditioner *)
Lemma norm_fvec : forall n d, norm2 (fvec n d) = Fin (sqrt (Rsum n (fun i => d i * d i)%R)).
Proof.
  intros. unfold norm2, fvec. rewrite map_map. cbn [nmul]. rewrite (nsum_fvec n (fun i => d i * d i)%R).
  apply nsqrt_fin. apply Rsum_nonneg. intros. apply Rle_0_sqr.
Qed.
Lemma check_raises : forall s n v y z tol,
  precondition s (fvec n v) = Ok y -> unprecondition s y = Ok (fvec n z) ->
  check_preconditioner s (fvec n v) (Fin tol) =
    (if Rlt_dec tol (sqrt (Rsum n (fun i => (v i - z i) * (v i - z i))%R)) then Err ValueError else Ok tt).
Proof.
  intros s n v y z tol H K. unfold check_preconditioner.
  unfold precondition, unprecondition in *. rewrite H. cbn [bind]. rewrite K. cbn [bind].
  rewrite !fvec_length, Nat.eqb_refl. cbn [bind].
  rewrite (map2_fvec _ Rminus) by reflexivity. rewrite norm_fvec.
  unfold ngtb, nltb, Rltb. destruct (Rlt_dec _ _); auto.
Qed.
Lemma check_correct_passes : forall s n v tol,
  mutually_inverse n (precondition s) (unprecondition s) -> (0 <= tol)%R ->
  check_preconditioner s (fvec n v) (Fin tol) = Ok tt.
Proof.
  intros s n v tol H Ht. destruct (H v) as (H1 & _).
  destruct (precondition s (fvec n v)) as [y|] eqn:E; [|discriminate]. cbn [bind] in H1.
  rewrite (check_raises s n v y v tol E H1).
  replace (Rsum n _) with 0%R by (symmetry; apply Rsum_zero; intros; ring).
  rewrite sqrt_0. destruct (Rlt_dec tol 0); auto. lra.
Qed.
Lemma nsum_nan : forall l, In NaN l -> nsum l = NaN.
Proof.
  assert (forall l, In NaN l -> fold_right nadd (Fin 0) l = NaN) as H.
  { induction l; intros []; subst; simpl; auto. rewrite IHl by auto. destruct a; auto. }
  exact H.
Qed.
Lemma check_nan_passes : forall s v y z tol,
  precondition s v = Ok y -> unprecondition s y = Ok z -> length z = length v -> In NaN z ->
  check_preconditioner s v tol = Ok tt.
Proof.
  intros s v y z tol H K HL HN. unfold check_preconditioner.
  unfold precondition, unprecondition in *. rewrite H. cbn [bind]. rewrite K. cbn [bind].
  rewrite HL, Nat.eqb_refl. cbn [bind].
  assert (norm2 (map2 nsub v z) = NaN) as ->.
  { unfold norm2. rewrite nsum_nan; auto. apply in_map_iff. exists NaN. split; auto.
    clear - HL HN. revert z HL HN. induction v as [|a v IH]; intros [|b z] HL HN; simpl in *; auto; try lia.
    destruct HN as [->|HN]; [left; destruct a; auto|right; apply IH; auto]. }
  unfold ngtb. destruct tol; auto.
Qed.
Lemma check_lengths : forall s n u b v y z tol tol0, precondition s v = Ok y -> unprecondition s y = Ok z ->
  (length v <> length z -> length v <> 1 -> length z <> 1 -> check_preconditioner s v tol = Err ValueError) /\
  (v = fvec n u -> z = [Fin b] -> check_preconditioner s v (Fin tol0) =
     (if Rlt_dec tol0 (sqrt (Rsum n (fun i => (u i - b) * (u i - b))%R)) then Err ValueError else Ok tt)) /\
  (v = [Fin b] -> z = fvec n u -> check_preconditioner s v (Fin tol0) =
     (if Rlt_dec tol0 (sqrt (Rsum n (fun i => (b - u i) * (b - u i))%R)) then Err ValueError else Ok tt)).
Proof.
  intros s n u b v y z tol tol0 H K. unfold check_preconditioner.
  unfold precondition, unprecondition in *. rewrite H. cbn [bind]. rewrite K. cbn [bind]. clear H K.
  assert (forall (f : num -> num) g, (forall r, f (Fin r) = Fin (g r)) ->
            map f (fvec n u) = fvec n (fun i => g (u i))) as HM.
  { intros f g E. unfold fvec. rewrite map_map. apply map_ext. auto. }
  assert (forall d, (if ngtb (norm2 (fvec n d)) (Fin tol0) then Err ValueError else Ok tt) =
            (if Rlt_dec tol0 (sqrt (Rsum n (fun i => d i * d i)%R)) then Err ValueError else Ok tt)) as HN.
  { intros d. rewrite norm_fvec. unfold ngtb, nltb, Rltb. destruct (Rlt_dec _ _); auto. }
  split; [|split].
  - intros H1 H2 H3. apply Nat.eqb_neq in H1. rewrite H1.
    destruct v as [|x [|x' v]], z as [|x1 [|x2 z]]; cbn in *; auto; try lia; discriminate.
  - intros -> ->. rewrite fvec_length. destruct (Nat.eqb_spec n 1) as [->|Hn].
    + cbn [length Nat.eqb bind]. change (map2 nsub (fvec 1 u) [Fin b]) with (fvec 1 (fun i => u i - b)%R). apply HN.
    + cbn [length]. destruct (Nat.eqb_spec n 1); [lia|].
      assert (map (fun a => nsub a (Fin b)) (fvec n u) = fvec n (fun i => u i - b)%R) as E
        by (apply (HM (fun a => nsub a (Fin b)) (fun a => a - b)%R); reflexivity).
      destruct (fvec n u) as [|x [|x' l]] eqn:Ef; [| |].
      * cbn [bind]. rewrite E. apply HN.
      * exfalso. apply (f_equal (@length _)) in Ef. rewrite fvec_length in Ef. cbn in Ef. lia.
      * cbn [bind]. rewrite E. apply HN.
  - intros -> ->. rewrite fvec_length. cbn [length]. destruct (Nat.eqb_spec 1 n) as [<-|Hn].
    + cbn [bind]. change (map2 nsub [Fin b] (fvec 1 u)) with (fvec 1 (fun i => b - u i)%R). apply HN.
    + cbn [bind]. rewrite (HM (nsub (Fin b)) (fun a => b - a)%R) by reflexivity. apply HN.
Qed.
Lemma check_errors : forall s v tol,
  (forall e, precondition s v = Err e -> check_preconditioner s v tol = Err e) /\
  (forall y e, precondition s v = Ok y -> unprecondition s y = Err e -> check_preconditioner s v tol = Err e).
Proof.
  intros. unfold check_preconditioner, precondition, unprecondition.
  split; [intros e ->|intros y e -> H]; cbn [bind]; auto. rewrite H. auto.
Qed.

(** Hessians that cannot be read as a square matrix, and failing tools. *)
Lemma hessian_failures : forall t x h lo hi,
  (forall a r c, shp a = [r; c] -> r <> c -> r <> 1 -> c <> 1 ->
     (x = None /\ h = Some (HDense a)) \/ (exists z, x = Some z /\ h = None /\ t_hessian t z = Ok (HDense a)) ->
     set_op t (SetHessian x h lo hi) = Err ValueError) /\
  (forall z e, x = Some z -> h = None -> t_hessian t z = Err e -> set_op t (SetHessian x h lo hi) = Err e) /\
  (forall z, x = Some z -> h = None -> t_hessian t z = Ok HSparse ->
     set_op t (SetHessian x h lo hi) = Err NotImplementedError).
Proof.
  intros t x h lo hi. split; [|split].
  - intros a r c Hs N1 N2 N3 H.
    assert (E: inv_sqrt_funcs (t_eigh t) a lo hi = Err ValueError).
    { unfold inv_sqrt_funcs, atleast_2d. rewrite Hs. unfold symmetrize. rewrite Hs.
      rewrite (proj2 (Nat.eqb_neq r c) N1), (proj2 (Nat.eqb_neq r 1) N2), (proj2 (Nat.eqb_neq c 1) N3). reflexivity. }
    destruct H as [[-> ->]|(z & -> & -> & Hz)]; cbn [set_op bind].
    + rewrite E. reflexivity.
    + rewrite Hz. cbn [bind]. rewrite E. reflexivity.
  - intros z e -> -> Hz. cbn [set_op]. rewrite Hz. reflexivity.
  - intros z -> -> Hz. cbn [set_op]. rewrite Hz. reflexivity.
Qed.
