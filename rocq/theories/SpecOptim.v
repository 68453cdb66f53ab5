(** * Specification vocabulary for preconditioners and objectives: real matrices as
    functions, and facts about call histories. *)
From Coq Require Import Reals NArith.
From Verif Require Import Base Num Nd Spec SpecValid Jac Optim.
Local Open Scope list_scope.
Local Open Scope nat_scope.

(** ** Linear algebra over the reals *)

(** Product of a matrix with [n] columns and a vector. *)
Definition Rmatvec (n : nat) (m : nat -> nat -> R) (x : nat -> R) : nat -> R :=
  fun i => Rsum n (fun j => m i j * x j)%R.
(** Product with inner dimension [n]. *)
Definition Rmatmul (n : nat) (a b : nat -> nat -> R) : nat -> nat -> R :=
  fun i j => Rsum n (fun k => a i k * b k j)%R.
Definition Rtrans (a : nat -> nat -> R) : nat -> nat -> R := fun i j => a j i.
Definition Rid (i j : nat) : R := if i =? j then 1%R else 0%R.
Definition Rdiag (w : nat -> R) : nat -> nat -> R := fun i j => if i =? j then w i else 0%R.
(** Equality on the first [n] rows and columns. *)
Definition Rmat_eq (n : nat) (a b : nat -> nat -> R) : Prop :=
  forall i j, i < n -> j < n -> a i j = b i j.
(** The first [n] entries of [x], as a list of finite numbers. *)
Definition fvec (n : nat) (x : nat -> R) : list num := map (fun i => Fin (x i)) (seq 0 n).
(** The [n] by [n] matrix [m] as an array. *)
Definition fmat (n : nat) (m : nat -> nat -> R) : matrix := mkMat n n (fun i j => Fin (m i j)).
(** [f] is multiplication by the [n] by [n] matrix [m] on finite vectors. *)
Definition is_matvec (n : nat) (f : vop) (m : nat -> nat -> R) : Prop :=
  forall x, f (fvec n x) = Ok (fvec n (Rmatvec n m x)).
(** [f] and [g] undo each other on finite vectors of length [n]. *)
Definition mutually_inverse (n : nat) (f g : vop) : Prop :=
  forall x, (y <- f (fvec n x) ;; g y) = Ok (fvec n x) /\ (y <- g (fvec n x) ;; f y) = Ok (fvec n x).
Definition inverse_matrices (n : nat) (a b : nat -> nat -> R) : Prop :=
  Rmat_eq n (Rmatmul n a b) Rid /\ Rmat_eq n (Rmatmul n b a) Rid.

(** ** Histories of preconditioner changes *)

(** [s] is what the last call of [l] that did not raise installed; the identity if
    there was none. *)
Inductive installed (t : tools) : list pre_op -> precond -> Prop :=
| installed_none : forall l, Forall (fun o => exists e, set_op t o = Err e) l ->
    installed t l (mkPre (fun x => Ok x) (fun x => Ok x))
| installed_last : forall l o r s, set_op t o = Ok s ->
    Forall (fun o => exists e, set_op t o = Err e) r -> installed t (l ++ o :: r) s.

(** ** Histories of an objective *)

(** A trace: the calls made so far with what they returned.  The part of a trace
    after the last call satisfying [p]. *)
Fixpoint after_last {A} (p : A -> bool) (l : list A) : list A :=
  match l with
  | [] => []
  | a :: r => if existsb p r then after_last p r else if p a then r else l
  end.
Definition trace (X Y : Type) : Type := list (obj_op X * option (res Y)).
Definition resets_count {X Y} (c : obj_op X * option (res Y)) : bool :=
  match fst c with Reset | ResetCount => true | _ => false end.
Definition resets_log {X Y} (c : obj_op X * option (res Y)) : bool :=
  match fst c with Reset | ResetLog => true | _ => false end.
Definition succeeded {X Y} (c : obj_op X * option (res Y)) : bool :=
  match c with (Eval _, Some (Ok _)) => true | _ => false end.

(** The number of successful evaluations since the counter was last reset. *)
Definition evaluations {X Y} (t : trace X Y) : nat :=
  length (filter succeeded (after_last resets_count t)).
(** The log interval after a trace: the last one set, else the initial one. *)
Fixpoint log_every {X Y} (init : Z) (t : trace X Y) : Z :=
  match t with
  | [] => init
  | (SetLog n, _) :: r => log_every n r
  | _ :: r => log_every init r
  end.
Fixpoint print_every {X Y} (init : Z) (t : trace X Y) : Z :=
  match t with
  | [] => init
  | (SetPrint n, _) :: r => print_every n r
  | _ :: r => print_every init r
  end.
(** Whether something that happens every [every] evaluations happens at number [n]. *)
Definition happens (every : Z) (n : nat) : Prop := (0 < every)%Z /\ (every | Z.of_nat n)%Z.

(** Call number [i] of the trace is a successful evaluation at [x] with value [y],
    due under the intervals [every] (a function of the trace so far). *)
Definition made_at {X Y} (every : trace X Y -> Z) (t : trace X Y) (i : nat) (e : nat * X * Y) : Prop :=
  exists x y, nth_error t i = Some (Eval x, Some (Ok y)) /\
    happens (every (firstn i t)) (evaluations (firstn i t)) /\
    e = (evaluations (firstn i t), x, y).
(** [es] are the entries made by the calls number [from] and later, in order. *)
Inductive entries_from {X Y} (every : trace X Y -> Z) (t : trace X Y) : nat -> list (nat * X * Y) -> Prop :=
| entries_end : entries_from every t (length t) []
| entries_yes : forall i e es, made_at every t i e -> entries_from every t (S i) es ->
    entries_from every t i (e :: es)
| entries_no : forall i es, i < length t -> (forall e, ~ made_at every t i e) ->
    entries_from every t (S i) es -> entries_from every t i es.
(** The number of calls up to and including the last reset of the log. *)
Definition log_start {X Y} (t : trace X Y) : nat := length t - length (after_last resets_log t).

(** Every log entry pairs an array with the value of [f] at it. *)
Definition log_consistent {Y} (f : list num -> res Y) (s : heap * objective nat Y) : Prop :=
  forall i a y, In (i, a, y) (o_entries (snd s)) -> f (nth a (fst s) []) = Ok y.
(** No array is written to after it has been passed to the objective. *)
Fixpoint no_late_writes (used : list nat) (l : list alias_op) : Prop :=
  match l with
  | [] => True
  | Call (Eval a) :: r => no_late_writes (a :: used) r
  | Call _ :: r => no_late_writes used r
  | Write a _ :: r => ~ In a used /\ no_late_writes used r
  end.

(** ** Clamping *)

(** A missing bound, or a NaN, bounds nothing. *)
Definition lower_bound (b : option num) : num :=
  match b with None | Some NaN => NInf | Some x => x end.
Definition upper_bound (b : option num) : num :=
  match b with None | Some NaN => PInf | Some x => x end.
(** The entry [e'] that [e] is clamped to. *)
Definition clamped (lo hi e e' : num) : Prop :=
  (e = NaN -> e' = NaN) /\
  (e <> NaN -> nle lo hi ->
     nle lo e' /\ nle e' hi /\
     (nle lo e -> nle e hi -> e' = e) /\ (nlt e lo -> e' = lo) /\ (nlt hi e -> e' = hi)) /\
  (e <> NaN -> nlt hi lo -> e' = hi).

(** ** Operators *)

(** [f] maps finite vectors of length [n] to finite vectors of length [m], as the
    linear map [L] does. *)
Definition linear_operator (n m : nat) (f : vop) (L : (nat -> R) -> nat -> R) : Prop :=
  (forall x, f (fvec n x) = Ok (fvec m (L x))) /\
  (forall a b x y i, i < m -> L (fun k => a * x k + b * y k)%R i = (a * L x i + b * L y i)%R).

(** [s] is the finite [r] by [c] array of [m]. *)
Definition is_array (r c : nat) (m : nat -> nat -> R) (s : matrix) : Prop :=
  m_rows s = r /\ m_cols s = c /\ forall i j, i < r -> j < c -> m_at s i j = Fin (m i j).
Definition orthonormal (n : nat) (V : nat -> nat -> R) : Prop :=
  Rmat_eq n (Rmatmul n (Rtrans V) V) Rid.
(** The symmetric part. *)
Definition sym_part (H : nat -> nat -> R) : nat -> nat -> R := fun i j => (1 / 2 * (H i j + H j i))%R.
(** The arrays that stand for the [n] by [n] matrix [H]: its rows; its only entry.
    A vector, a row or a column stands for the matrix of the pairwise means. *)
Inductive hessian_array (n : nat) : nd num -> (nat -> nat -> R) -> Prop :=
| array_rows : forall H, hessian_array n (mkNd [n; n] (rows_of n H)) H
| array_number : forall x, n = 1 -> hessian_array n (mkNd [] [Fin x]) (fun _ _ => x)
| array_vector : forall s v, In s [[n]; [1; n]; [n; 1]] ->
    hessian_array n (mkNd s (fvec n v)) (fun i j => (v i + v j) / 2)%R.
(** The bounds of [truncate_eigenvalues] applied to a real eigenvalue. *)
Definition rclamp (lo hi : option R) (x : R) : R :=
  let y := match lo with Some l => Rmax l x | None => x end in
  match hi with Some h => Rmin h y | None => y end.
Definition rbound (b : option R) : option bound := option_map (fun x => BNum (Fin x)) b.
(** The matrix with eigenvectors [V] and eigenvalues [w]. *)
Definition with_spectrum (n : nat) (V : nat -> nat -> R) (w : nat -> R) : nat -> nat -> R :=
  Rmatmul n V (Rmatmul n (Rdiag w) (Rtrans V)).
