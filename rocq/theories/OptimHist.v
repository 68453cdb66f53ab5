(** * Proofs about the sparse preconditioner and the history of an objective. *)
From Coq Require Import Reals Lra Lia ZArith.
From Verif Require Import Base Num Nd Spec ListFacts NumFacts CholFacts Jac Optim SpecOptim LinAlg OptimFacts.
Local Open Scope list_scope.
Local Open Scope nat_scope.

(** ** sparse preconditioner *)
Lemma solver_matrix : forall n M f,
  (forall y, exists x, f (fvec n y) = Ok (fvec n x) /\ forall i, i < n -> Rmatvec n M x i = y i) ->
  exists B, inverse_matrices n M B /\ is_matvec n f B.
Proof.
  intros n M f H.
  destruct (finite_choice n (fun j x => forall i, i < n -> Rmatvec n M x i = Rid i j)) as (X & HX).
  { intros j Hj. destruct (H (fun i => Rid i j)) as (x & _ & Hx). exists x. auto. }
  set (B := Rtrans X).
  assert (Rmat_eq n (Rmatmul n M B) Rid) as HB by (intros i j Hi Hj; apply (HX j Hj i Hi)).
  exists B. pose proof (one_sided_inverse n M B HB) as HB'. split; [split; auto|].
  intro y. destruct (H y) as (x & Hf & Hx). rewrite Hf. f_equal. apply fvec_ext. intros i Hi.
  rewrite <- (mv_id n x i Hi). rewrite <- (mv_ext n _ _ x x i Hi HB') by auto. rewrite mv_mm.
  apply mv_ext; auto. apply meq_refl.
Qed.
Lemma sparse_preconditioner : forall sqrt_mat factorized h n H S m g f,
  is_array n n H h -> sqrt_mat h = Ok m -> is_array n n S m ->
  Rmat_eq n (Rmatmul n S (Rtrans S)) H ->
  factorized m = Ok g -> factorized (transpose m) = Ok f ->
  (forall y, exists x, f (fvec n y) = Ok (fvec n x) /\ forall i, i < n -> Rmatvec n (Rtrans S) x i = y i) ->
  exists mult solve B A, sparse_inv_sqrt_funcs sqrt_mat factorized true h = Ok (mult, solve) /\
    is_matvec n mult B /\ is_matvec n solve A /\ mutually_inverse n mult solve /\
    Rmat_eq n (Rmatmul n (Rtrans B) B) H /\
    Rmat_eq n (Rmatmul n (Rtrans A) (Rmatmul n H A)) Rid.
Proof.
  intros sqrt_mat factorized h n H S m g f Hh Hs Hm HS Hg Hf Hsolve.
  destruct (solver_matrix n (Rtrans S) f Hsolve) as (A & HI & HA).
  exists (matvec (transpose m)), f, (Rtrans S), A.
  assert (is_matvec n (matvec (transpose m)) (Rtrans S)) as HB
    by (intro x; apply matvec_array, array_trans; auto).
  split; [|split; [|split; [|split; [|split]]]]; auto.
  - unfold sparse_inv_sqrt_funcs. cbn [negb]. rewrite Hs. cbn [bind]. rewrite Hg. cbn [bind]. rewrite Hf. auto.
  - eapply matvecs_inverse; eauto.
  - destruct HI as (H1 & _).
    eapply meq_trans.
    { apply mm_ext; [apply meq_refl|]. apply mm_ext; [apply meq_sym, HS|apply meq_refl]. }
    eapply meq_trans; [apply mm_ext; [apply meq_refl|apply meq_assoc]|].
    eapply meq_trans; [apply mm_ext; [apply meq_refl|apply mm_ext; [apply meq_refl|exact H1]]|].
    eapply meq_trans; [apply mm_ext; [apply meq_refl|apply mm_id_r]|].
    eapply meq_trans; [|eapply meq_trans; [apply meq_tr, H1|apply meq_id_trans]].
    intros i j _ _. symmetry. apply (mm_trans n (Rtrans S) A).
Qed.
Lemma sparse_dense_argument : forall sqrt_mat factorized h,
  sparse_inv_sqrt_funcs sqrt_mat factorized false h = Err ValueError.
Proof. reflexivity. Qed.

(** ** objective *)
Lemma after_last_app : forall A (p : A -> bool) l a,
  after_last p (l ++ [a]) = if p a then [] else after_last p l ++ [a].
Proof.
  induction l as [|b l IH]; intros a; simpl.
  - destruct (p a); auto.
  - rewrite existsb_app, IH. simpl. rewrite Bool.orb_false_r.
    destruct (p a); [rewrite Bool.orb_true_r; auto|]. rewrite Bool.orb_false_r.
    destruct (existsb p l); auto. destruct (p b); auto.
Qed.
Lemma after_last_length : forall A (p : A -> bool) l, length (after_last p l) <= length l.
Proof. induction l; simpl; auto. destruct (existsb p l); [lia|]. destruct (p a); simpl; lia. Qed.
Lemma log_every_app : forall X Y (t : trace X Y) i c,
  log_every i (t ++ [c]) = match fst c with SetLog n => n | _ => log_every i t end.
Proof.
  induction t as [|(o, r) t IH]; intros i (o', r'); simpl; [destruct o'; auto|].
  destruct o; rewrite IH; auto.
Qed.
Lemma print_every_app : forall X Y (t : trace X Y) i c,
  print_every i (t ++ [c]) = match fst c with SetPrint n => n | _ => print_every i t end.
Proof.
  induction t as [|(o, r) t IH]; intros i (o', r'); simpl; [destruct o'; auto|].
  destruct o; rewrite IH; auto.
Qed.
Lemma due_happens : forall e n, due e n = true <-> happens e n.
Proof.
  intros e n. unfold due, happens. rewrite Bool.andb_true_iff, Z.ltb_lt, Z.eqb_eq.
  split; intros (H & K); split; auto; apply Z.mod_divide; auto; lia.
Qed.
Lemma obj_run_app : forall X Y (f : X -> res Y) pr l s o,
  obj_run f pr s (l ++ [o]) =
  (fst (obj_step f pr (fst (obj_run f pr s l)) o),
   snd (obj_run f pr s l) ++ [(o, snd (obj_step f pr (fst (obj_run f pr s l)) o))]).
Proof.
  induction l as [|a l IH]; intros s o; simpl.
  - destruct (obj_step f pr s o); auto.
  - destruct (obj_step f pr s a) as (s', out). rewrite IH.
    destruct (obj_run f pr s' l) as (s'', t). simpl. auto.
Qed.

Section Trace.
Context {X Y : Type}.
Lemma made_app : forall every (t : trace X Y) c i e, i < length t ->
  made_at every (t ++ [c]) i e <-> made_at every t i e.
Proof.
  intros every t c i e Hi. unfold made_at. rewrite nth_error_app1 by auto.
  rewrite firstn_app. replace (i - length t) with 0 by lia. rewrite app_nil_r. tauto.
Qed.
Lemma entries_le : forall every (t : trace X Y) from es, entries_from every t from es -> from <= length t.
Proof.
  intros every t from es H. induction H; auto; try lia.
Qed.
Lemma entries_app : forall every (t : trace X Y) c from es new, entries_from every t from es ->
  entries_from every (t ++ [c]) (length t) new -> entries_from every (t ++ [c]) from (es ++ new).
Proof.
  intros every t c from es new H Hn. induction H; simpl; auto.
  - apply entries_yes; auto. apply made_app; auto. apply entries_le in H0. lia.
  - apply entries_no; auto.
    + rewrite app_length. lia.
    + intros e He. apply (H0 e). apply (made_app every t c i e H). exact He.
Qed.
Lemma entries_last : forall every (t : trace X Y) c new,
  (match c with
   | (Eval x, Some (Ok y)) => new = if due (every t) (evaluations t) then [(evaluations t, x, y)] else []
   | _ => new = []
   end) -> entries_from every (t ++ [c]) (length t) new.
Proof.
  intros every t c new H.
  assert (forall e, made_at every (t ++ [c]) (length t) e <->
    exists x y, c = (Eval x, Some (Ok y)) /\ happens (every t) (evaluations t) /\ e = (evaluations t, x, y)) as M.
  { intros e. unfold made_at. rewrite nth_error_app2, Nat.sub_diag by lia. cbn [nth_error].
    rewrite firstn_app, firstn_all, Nat.sub_diag. cbn [firstn]. rewrite app_nil_r.
    split; intros (x & y & E & K); exists x, y; split; auto; congruence. }
  assert (S (length t) = length (t ++ [c])) as L by (rewrite app_length; simpl; lia).
  assert ((exists x y, c = (Eval x, Some (Ok y)) /\ due (every t) (evaluations t) = true /\
             new = [(evaluations t, x, y)]) \/
          (new = [] /\ forall x y, c = (Eval x, Some (Ok y)) -> due (every t) (evaluations t) = false)) as D.
  { destruct c as (o, r). destruct o; try (right; split; [auto|intros; discriminate]).
    destruct r as [[y|]|]; try (right; split; [auto|intros; discriminate]).
    destruct (due (every t) (evaluations t)) eqn:E; [left; exists x, y; auto|right; split; auto]. }
  destruct D as [(x & y & Ec & D & ->)|(-> & D)].
  - apply entries_yes.
    + apply (M _). exists x, y. split; auto. split; auto. apply due_happens. auto.
    + rewrite L. constructor.
  - apply entries_no.
    + lia.
    + intros e He. apply (proj1 (M e)) in He. destruct He as (x & y & Ec & K & _).
      apply due_happens in K. rewrite (D x y Ec) in K. discriminate.
    + rewrite L. constructor.
Qed.
Lemma evaluations_app : forall (t : trace X Y) c,
  evaluations (t ++ [c]) =
    if resets_count c then 0 else evaluations t + (if succeeded c then 1 else 0).
Proof.
  intros t c. unfold evaluations. rewrite after_last_app. destruct (resets_count c); auto.
  rewrite filter_app, app_length. simpl. destruct (succeeded c); auto.
Qed.
Lemma log_start_app : forall (t : trace X Y) c,
  log_start (t ++ [c]) = if resets_log c then length (t ++ [c]) else log_start t.
Proof.
  intros t c. unfold log_start. rewrite after_last_app. destruct (resets_log c); simpl; [lia|].
  rewrite !app_length. simpl. pose proof (after_last_length _ resets_log t). lia.
Qed.

Variable f : X -> res Y.
Variable printable : Y -> bool.
Variables pe le : Z.
Definition inv (s : objective X Y) (t : trace X Y) : Prop :=
  o_count s = evaluations t /\ o_log s = log_every le t /\ o_print s = print_every pe t /\
  entries_from (log_every le) t (log_start t) (o_entries s) /\
  exists ps, entries_from (print_every pe) t 0 ps /\ o_printed s = map (fun e => (fst (fst e), snd e)) ps.

Lemma entries_empty : forall every (t : trace X Y), entries_from every t (length t) [].
Proof. constructor. Qed.

Lemma obj_inv : forall l, inv (fst (obj_run f printable (new_objective pe le) l))
  (snd (obj_run f printable (new_objective pe le) l)).
Proof.
  induction l using rev_ind.
  - repeat split; auto; simpl; try constructor. exists []. split; [constructor|auto].
  - rewrite obj_run_app. cbn [fst snd].
    set (s := fst (obj_run f printable (new_objective pe le) l)) in *.
    set (t := snd (obj_run f printable (new_objective pe le) l)) in *.
    destruct IHl as (Hc & Hl & Hp & He & ps & Hps & Hpr).
    assert (forall c every, (forall x y, c <> (Eval x, Some (Ok y))) ->
              entries_from every (t ++ [c]) (length t) []) as Hno.
    { intros c every H. apply entries_last. destruct c as (o, r). destruct o; auto.
      destruct r as [[y|]|]; auto. exfalso. eapply H. reflexivity. }
    assert (forall c every es from, (forall x y, c <> (Eval x, Some (Ok y))) ->
              entries_from every t from es -> entries_from every (t ++ [c]) from es) as Hk.
    { intros c every es from H H'. rewrite <- (app_nil_r es). apply entries_app; auto. }
    destruct x as [x|n|n| | |].
    + unfold inv. rewrite evaluations_app, log_every_app, print_every_app, log_start_app.
      cbn [obj_step]. destruct (f x) as [y|e] eqn:Ef; cbn [fst snd].
      * destruct (due (o_print s) (o_count s) && negb (printable y)) eqn:Ed; cbn [fst snd resets_count resets_log succeeded].
        -- rewrite Nat.add_0_r. repeat split; auto.
           ++ apply Hk; auto; congruence.
           ++ exists ps. split; auto. apply Hk; auto; congruence.
        -- cbn [o_count o_log o_print o_entries o_printed]. rewrite Hc. repeat split; auto; try lia.
           ++ apply entries_app; auto. apply entries_last. rewrite <- Hl. auto.
           ++ exists (ps ++ if due (o_print s) (evaluations t) then [(evaluations t, x, y)] else []).
              split.
              ** apply entries_app; auto. apply entries_last. rewrite <- Hp. auto.
              ** rewrite map_app, Hpr. f_equal. destruct (due (o_print s) (evaluations t)); auto.
      * cbn [fst snd resets_count resets_log succeeded]. rewrite Nat.add_0_r. repeat split; auto.
        -- apply Hk; auto; congruence.
        -- exists ps. split; auto. apply Hk; auto; congruence.
    + unfold inv. rewrite evaluations_app, log_every_app, print_every_app, log_start_app.
      cbn [obj_step fst snd resets_count resets_log succeeded o_count o_log o_print o_entries o_printed]. rewrite Nat.add_0_r. repeat split; auto.
      * apply Hk; auto; congruence.
      * exists ps. split; auto. apply Hk; auto; congruence.
    + unfold inv. rewrite evaluations_app, log_every_app, print_every_app, log_start_app.
      cbn [obj_step fst snd resets_count resets_log succeeded o_count o_log o_print o_entries o_printed]. rewrite Nat.add_0_r. repeat split; auto.
      * apply Hk; auto; congruence.
      * exists ps. split; auto. apply Hk; auto; congruence.
    + unfold inv. rewrite evaluations_app, log_every_app, print_every_app, log_start_app.
      cbn [obj_step fst snd resets_count resets_log succeeded o_count o_log o_print o_entries o_printed]. repeat split; auto.
      * constructor.
      * exists ps. split; auto. apply Hk; auto; congruence.
    + unfold inv. rewrite evaluations_app, log_every_app, print_every_app, log_start_app.
      cbn [obj_step fst snd resets_count resets_log succeeded o_count o_log o_print o_entries o_printed]. repeat split; auto.
      * apply Hk; auto; congruence.
      * exists ps. split; auto. apply Hk; auto; congruence.
    + unfold inv. rewrite evaluations_app, log_every_app, print_every_app, log_start_app.
      cbn [obj_step fst snd resets_count resets_log succeeded o_count o_log o_print o_entries o_printed]. rewrite Nat.add_0_r. repeat split; auto.
      * constructor.
      * exists ps. split; auto. apply Hk; auto; congruence.
Qed.

Lemma obj_trace_ops : forall l s, map fst (snd (obj_run f printable s l)) = l.
Proof.
  induction l; intros s; simpl; auto.
  destruct (obj_step f printable s a) as (s', out). specialize (IHl s').
  destruct (obj_run f printable s' l). simpl in *. f_equal. auto.
Qed.
Lemma obj_outcomes : forall l i x r,
  nth_error (snd (obj_run f printable (new_objective pe le) l)) i = Some (Eval x, r) ->
  let t := snd (obj_run f printable (new_objective pe le) l) in
  (r = Some (f x) \/ exists y, f x = Ok y /\ printable y = false /\ r = Some (Err TypeError)) /\
  (forall y, f x = Ok y ->
     (r = Some (Err TypeError) <->
      happens (print_every pe (firstn i t)) (evaluations (firstn i t)) /\ printable y = false)).
Proof.
  induction l using rev_ind; intros i x0 r H t.
  - destruct i; discriminate.
  - unfold t. rewrite obj_run_app in *. cbn [fst snd] in *.
    pose proof (obj_inv l) as (Hc & _ & Hp & _).
    set (s := fst (obj_run f printable (new_objective pe le) l)) in *.
    set (tr := snd (obj_run f printable (new_objective pe le) l)) in *.
    destruct (Nat.lt_ge_cases i (length tr)) as [L|L].
    + rewrite nth_error_app1 in H by auto. rewrite firstn_app. replace (i - length tr) with 0 by lia.
      rewrite app_nil_r. apply IHl. auto.
    + rewrite nth_error_app2 in H by auto.
      destruct (i - length tr) as [|k] eqn:E; [|destruct k; discriminate].
      assert (i = length tr) as -> by lia. cbn [nth_error] in H. injection H as -> <-.
      rewrite firstn_app, firstn_all, Nat.sub_diag. cbn [firstn]. rewrite app_nil_r.
      rewrite <- Hc, <- Hp. setoid_rewrite <- due_happens. cbn [obj_step].
      destruct (f x0) as [y|e] eqn:Ef.
      * destruct (due (o_print s) (o_count s)) eqn:Ed, (printable y) eqn:Ey; cbn [andb negb snd];
          (split; [|intros y' Ey'; injection Ey' as <-; split; intros K; try split; try congruence; destruct K; congruence]);
          auto. right. exists y. auto.
      * cbn [snd]. split; auto. intros; discriminate.
Qed.
End Trace.

Lemma objective_history : forall X Y (f : X -> res Y) printable pe le l s t,
  obj_run f printable (new_objective pe le) l = (s, t) ->
  map fst t = l /\ o_count s = evaluations t /\
  entries_from (log_every le) t (log_start t) (o_entries s) /\
  (exists ps, entries_from (print_every pe) t 0 ps /\
     o_printed s = map (fun e => (fst (fst e), snd e)) ps).
Proof.
  intros X Y f printable pe le l s t H.
  pose proof (obj_inv f printable pe le l) as (Hc & _ & _ & He & Hp). rewrite H in *. cbn [fst snd] in *.
  split; [|auto]. pose proof (obj_trace_ops f printable l (new_objective pe le)) as K. rewrite H in K. auto.
Qed.
Lemma objective_outcomes : forall X Y (f : X -> res Y) printable pe le l s t i x r,
  obj_run f printable (new_objective pe le) l = (s, t) -> nth_error t i = Some (Eval x, r) ->
  (r = Some (f x) \/ exists y, f x = Ok y /\ printable y = false /\ r = Some (Err TypeError)) /\
  (forall y, f x = Ok y ->
     (r = Some (Err TypeError) <->
      happens (print_every pe (firstn i t)) (evaluations (firstn i t)) /\ printable y = false)).
Proof.
  intros X Y f printable pe le l s t i x r H K.
  pose proof (obj_outcomes f printable pe le l i x r) as P. rewrite H in P. cbn [snd] in P. auto.
Qed.
Lemma objective_raising : forall X Y (f : X -> res Y) printable s x s' e,
  obj_step f printable s (Eval x) = (s', Some (Err e)) -> s' = s.
Proof.
  intros X Y f printable s x s' e. cbn [obj_step]. destruct (f x) as [y|]; [|congruence].
  destruct (due (o_print s) (o_count s) && negb (printable y)); congruence.
Qed.

(** ** aliasing *)
Lemma nth_upd_ne : forall A (l : list A) i j x d, j <> i -> nth j (upd l i x) d = nth j l d.
Proof. induction l; intros [|i] [|j] x d H; simpl; auto; try lia. Qed.
Lemma log_aliasing : forall Y (f : list num -> res Y) printable l used s,
  (forall i a y, In (i, a, y) (o_entries (snd s)) -> In a used) ->
  log_consistent f s -> no_late_writes used l ->
  log_consistent f (fold_left (alias_step f printable) l s).
Proof.
  induction l as [|o l IH]; intros used s Hu Hs Hl; [exact Hs|]. cbn [fold_left].
  destruct o as [c|a v].
  - assert (forall o', o_entries o' = o_entries (snd s) \/ o_entries o' = [] ->
      (forall i a y, In (i, a, y) (o_entries (snd (fst s, o'))) -> In a used) /\ log_consistent f (fst s, o')) as K.
    { intros o' [E|E]; unfold log_consistent; cbn [fst snd]; rewrite E; split; auto;
        intros i a y []. }
    destruct c as [x| | | | |]; cbn [no_late_writes] in Hl; cbn [alias_step obj_step].
    2-6: (eapply IH; [| |exact Hl]; apply K; cbn [fst snd o_entries]; auto).
    assert ((forall i a y, In (i, a, y) (o_entries (snd s)) -> In a (x :: used)) /\ log_consistent f s) as K'.
    { split; auto. intros. right. eauto. }
    destruct (f (nth x (fst s) [])) as [y|e] eqn:Ef; cbn [fst snd].
    + destruct (due (o_print (snd s)) (o_count (snd s)) && negb (printable y)) eqn:Ed; cbn [fst snd].
      * destruct s. apply (IH (x :: used)); auto; apply K'.
      * apply (IH (x :: used)); auto.
        -- cbn [snd o_entries]. intros i a z H. apply in_app_iff in H. destruct H as [H|H].
           ++ right. eauto.
           ++ destruct (due (o_log (snd s)) (o_count (snd s))); [|destruct H]. destruct H as [H|[]].
              injection H as _ -> _. left. auto.
        -- intros i a z H. cbn [fst snd o_entries] in *. apply in_app_iff in H. destruct H as [H|H].
           ++ eapply Hs; eauto.
           ++ destruct (due (o_log (snd s)) (o_count (snd s))); [|destruct H]. destruct H as [H|[]].
              injection H as _ <- <-. auto.
    + destruct s. apply (IH (x :: used)); auto; apply K'.
  - destruct Hl as (Hn & Hl). apply (IH used); auto.
    intros i b y H. cbn [alias_step fst snd] in *. rewrite nth_upd_ne; [eapply Hs; eauto|].
    intros ->. apply Hn. eauto.
Qed.
Lemma log_values : forall Y (f : list num -> res Y) printable h pe le l,
  no_late_writes [] l -> log_consistent f (alias_run f printable h pe le l).
Proof.
  intros. unfold alias_run. apply (log_aliasing Y f printable l []); auto; intros i a y [].
Qed.
Lemma log_late_write : exists (f : list num -> res num) printable h pe le l,
  ~ log_consistent f (alias_run f printable h pe le l).
Proof.
  exists (fun v => Ok (nth 0 v NaN)), (fun _ => true), [[Fin 1]], 0%Z, 1%Z,
    [Call (Eval 0); Write 0 [Fin 2]].
  intro H. specialize (H 0 0 (Fin 1)). cbn in H.
  assert (Ok (Fin 2) = Ok (Fin 1)) as E by (apply H; auto). injection E as E. lra.
Qed.
