(** * Concrete calls of wrapped functions. *)
From Coq Require Import Reals NArith Ascii String.
From Verif Require Import Base Num Nd Numeric Simplex Psd Pattern Spec Demo FunWrap SpecWrap.
Local Open Scope list_scope.
Local Open Scope nat_scope.

(** A pattern object on numbers: folding multiplies by ten or adds a hundred,
    flattening undoes it and refuses what it cannot undo. *)
Definition toy : patobj nat :=
  mkPat
    (fun fr x => match fr with
                 | Some true => Ok (10 * x)
                 | Some false => Ok (100 + x)
                 | None => Err ValueError
                 end)
    (fun fr x => match fr with
                 | Some true => if x mod 10 =? 0 then Ok (x / 10) else Err ValueError
                 | Some false => if 100 <=? x then Ok (x - 100) else Err ValueError
                 | None => Err ValueError
                 end).

(** A function that returns its arguments and keeps a log of its calls. *)
Definition calls := list (list nat * list (pystr * nat)).
Definition logged : callable nat calls :=
  mkFun (fun args kw s => (Ok (RTuple args), s ++ [(args, kw)])) true.
(** A function that returns its first argument. *)
Definition first_arg : callable nat calls :=
  mkFun (fun args kw s => (Ok (ROne (hd 0 args)), s ++ [(args, kw)])) true.

Definition two_free : nd (option bool) := vec [Some true; Some false].
Definition kw1 : list (pystr * nat) := [(str "k", 9)].

Lemma input_case :
  given (vec [toy; toy]) (Some (vec [2; 0]%Z)) two_free [toy; toy] [2; 0]%Z [Some true; Some false] /\
  NoDup [2; 0]%Z /\
  placed p_fold [toy; toy] [2; 0]%Z [Some true; Some false] [1; 2; 3; 4] [101; 2; 30; 4] /\
  (g <- transform_input logged (vec [toy; toy]) two_free false (Some (vec [2; 0]%Z)) ;;
   Ok (c_call g [1; 2; 3; 4] kw1 [])) =
  Ok (Ok (RTuple [101; 2; 30; 4]), [([101; 2; 30; 4], kw1)]).
Proof.
  split; [|split; [|split]].
  - split; [split; [cbn; lia | reflexivity]|]. split; [split; [cbn; lia | reflexivity]|].
    exists [Some true; Some false]. split; [split; [cbn; lia | reflexivity]|]. right. auto.
  - repeat constructor; cbn; intuition discriminate.
  - split; [reflexivity|]. split; [repeat constructor|].
    intros [|[|[|[|j]]]] x E; cbn in E; try discriminate; try (destruct j; discriminate).
    + injection E as <-. exists 101. split; [reflexivity|]. left. exists toy, (Some false).
      split; [exists 1; auto | reflexivity].
    + injection E as <-. exists 2. split; [reflexivity|]. right. cbn. intuition discriminate.
    + injection E as <-. exists 30. split; [reflexivity|]. left. exists toy, (Some true).
      split; [exists 0; auto | reflexivity].
    + injection E as <-. exists 4. split; [reflexivity|]. right. cbn. intuition discriminate.
  - vm_compute. reflexivity.
Qed.

(** Too few arguments: an [IndexError], and the function is not called. *)
Lemma few_case :
  first_failure p_fold [toy; toy] [2; 0]%Z [Some true; Some false] [1; 2] IndexError IndexError /\
  (g <- transform_input logged (vec [toy; toy]) two_free false (Some (vec [2; 0]%Z)) ;;
   Ok (c_call g [1; 2] kw1 [])) = Ok (Err IndexError, []).
Proof.
  split; [|vm_compute; reflexivity].
  exists 2%Z. split.
  - exists toy, (Some true). split; [exists 0; auto|]. left. cbn. split; [lia | reflexivity].
  - intros z' e' Hz (p & fr & ([|[|[|i]]] & E1 & E2 & E3) & HF); cbn in *; try discriminate.
    + injection E1 as <-. lia.
    + injection E1 as <-. injection E2 as <-. injection E3 as <-.
      destruct HF as [(H & _) | (x & Hx & Hm)]; [lia|]. injection Hx as <-. discriminate.
Qed.

(** [argnums=-1] and [argnums=-2] with three arguments. *)
Lemma negative_case :
  (g <- transform_input logged (mkNd [] [toy]) (mkNd [] [Some true]) false (Some (mkNd [] [-1]%Z)) ;;
   Ok (c_call g [1; 2; 3] kw1 [])) =
  Ok (Ok (RTuple [1; 2; 30; 1; 2; 3]), [([1; 2; 30; 1; 2; 3], kw1)]) /\
  (g <- transform_input logged (mkNd [] [toy]) (mkNd [] [Some true]) false (Some (mkNd [] [-2]%Z)) ;;
   Ok (c_call g [1; 2; 3] kw1 [])) =
  Ok (Ok (RTuple [1; 20; 3]), [([1; 20; 3], kw1)]).
Proof. split; vm_compute; reflexivity. Qed.

(** Repeated positions, too many positions and too many flags are refused; one
    flag serves several patterns, and without positions the first ones are meant. *)
Lemma checks_case :
  (forall g, transform_input logged (vec [toy; toy]) two_free false (Some (vec [1; 1]%Z)) <> Ok g) /\
  transform_input logged (vec [toy; toy]) two_free false (Some (vec [1; 2; 3]%Z)) = Err ValueError /\
  transform_input logged (vec [toy]) two_free false (Some (vec [1]%Z)) = Err ValueError /\
  transform_output logged (mkNd [1; 2] [toy; toy]) two_free false None = Err ValueError /\
  (g <- transform_input logged (vec [toy; toy]) (mkNd [] [Some true]) false None ;;
   Ok (c_call g [1; 2; 3] [] [])) = Ok (Ok (RTuple [10; 20; 3]), [([10; 20; 3], [])]).
Proof. split; [intros g E; vm_compute in E; discriminate|]. repeat split; vm_compute; reflexivity. Qed.

Lemma output_case :
  (g <- transform_output logged (vec [toy; toy]) two_free true (Some (vec [2; 0]%Z)) ;;
   Ok (c_call g [1; 2; 3; 4] kw1 [])) =
  Ok (Ok (RTuple [101; 2; 30; 4]), [([1; 2; 3; 4], kw1)]) /\
  (g <- transform_output first_arg (vec [toy]) (mkNd [] [Some true]) true None ;;
   Ok (c_call g [1; 2; 3; 4] kw1 [])) =
  Ok (Ok (ROne 10), [([1; 2; 3; 4], kw1)]) /\
  (g <- transform_output logged (vec [toy; toy]) two_free true (Some (vec [2; 0]%Z)) ;;
   Ok (c_call g [1; 2] kw1 [])) =
  Ok (Err ValueError, [([1; 2], kw1)]) /\
  (g <- transform_output first_arg (vec [toy]) (mkNd [] [Some true]) true (Some (vec [1]%Z)) ;;
   Ok (c_call g [1; 2] kw1 [])) =
  Ok (Err ValueError, [([1; 2], kw1)]).
Proof. repeat split; vm_compute; reflexivity. Qed.

(** An output wrapper around an input wrapper: the latter has no [__name__]. *)
Lemma unnamed_case :
  (g <- transform_input first_arg (vec [toy]) (mkNd [] [Some true]) false None ;;
   h <- transform_output g (vec [toy]) (mkNd [] [Some true]) true (Some (vec [1]%Z)) ;;
   Ok (c_call h [1; 2] kw1 [])) =
  Ok (Err AttributeError, [([10; 2], kw1)]).
Proof. vm_compute; reflexivity. Qed.

Lemma combined_case :
  (h <- flatten_input_output logged (vec [toy]) (mkNd [] [Some true]) (Some (vec [1]%Z))
          (vec [toy]) (mkNd [] [Some false]) (Some (vec [2]%Z)) ;;
   Ok (c_call h [1; 2; 300] kw1 [])) =
  Ok (Ok (RTuple [1; 20; 200]), [([1; 20; 300], kw1)]) /\
  (h <- fold_input_output logged (vec [toy]) (mkNd [] [Some true]) (Some (vec [1]%Z))
          (vec [toy]) (mkNd [] [Some false]) (Some (vec [2]%Z)) ;;
   Ok (c_call h [1; 20; 300] kw1 [])) =
  Ok (Ok (RTuple [1; 2; 400]), [([1; 2; 300], kw1)]).
Proof. repeat split; vm_compute; reflexivity. Qed.

(** The nested pattern of Demo.v at position 1, with [free=None] (its default is
    [True]). *)
Lemma round_case :
  given (mkNd [] [@pat_obj nat demo]) (Some (mkNd [] [1%Z])) (mkNd [] [None])
        (map pat_obj [demo]) [1%Z] [None] /\
  convertible [demo] [1%Z] [None] [OOther 5; OVal demo_value; OOther 7] /\
  canonical_at [demo] [1%Z] [OOther 5; OVal demo_value; OOther 7]
                            [OOther 5; OVal (canon demo demo_value); OOther 7].
Proof.
  split; [|split].
  - split; [split; [cbn; lia | reflexivity]|]. split; [split; [cbn; lia | reflexivity]|].
    exists [None]. split; [split; [cbn; lia | reflexivity]|]. left. exists None. auto.
  - intros [|i] q z fr E1 E2 E3; cbn in *; [|destruct i; discriminate].
    injection E1 as <-. injection E2 as <-. injection E3 as <-.
    exists demo_value, true. split; [reflexivity|]. split; [reflexivity|].
    split; [exact demo_usable | exact demo_interior].
  - split; [reflexivity|].
    intros [|[|[|j]]] o E; cbn in E; try (destruct j; discriminate); injection E as <-.
    + exists (OOther 5). split; [reflexivity|]. right. cbn. split; [intuition discriminate | reflexivity].
    + exists (OVal (canon demo demo_value)). split; [reflexivity|]. left.
      exists 0, demo, demo_value. repeat split.
    + exists (OOther 7). split; [reflexivity|]. right. cbn. split; [intuition discriminate | reflexivity].
Qed.

Lemma flat_round_case :
  flat_at [demo] [1%Z] [None]
    [OOther 5; OVal (FArr (vec (map Fin [1; -2; 3; 4; 5; 6; 7; -8; 9; 10]%R)))].
Proof.
  intros [|i] q z fr E1 E2 E3; cbn in *; [|destruct i; discriminate].
  injection E1 as <-. injection E2 as <-. injection E3 as <-.
  eexists. exists true. split; [reflexivity|]. split; [reflexivity|].
  split; [exact demo_usable|].
  exists [1; -2; 3; 4; 5; 6; 7; -8; 9; 10]%R. split; reflexivity.
Qed.

(** Mixed positions over three values: -3 before 1 works; -2 behind 0 repeats; -1
    repeats everything; -3 and 0 are the same position. *)
Lemma mixed_case :
  mixed_at [-3; 1]%Z 3 0 1 /\ mixed_at [0; -2]%Z 3 1 0 /\
  replaced p_fold [toy; toy] (from_end 3 [0; -2]%Z) [Some true; Some false] [1; 2; 3] [1; 102; 3] /\
  replaced p_fold [toy; toy] [0; -2]%Z [Some true; Some false] [1; 2; 3] [10; 2; 3] /\
  map (fun ns => g <- transform_input logged (vec [toy; toy]) two_free false (Some (vec ns)) ;;
                 Ok (fst (c_call g [1; 2; 3] [] []))) [[-3; 1]; [0; -2]; [1; -1]; [-3; 0]]%Z =
  [Ok (Ok (RTuple [10; 102; 3])); Ok (Ok (RTuple [1; 102; 10; 2; 3]));
   Ok (Ok (RTuple [1; 2; 103; 1; 20; 3])); Ok (Ok (RTuple [10; 101; 2; 3]))].
Proof.
  split; [|split; [|split; [|split]]].
  - repeat split; try lia; cbn; auto. repeat constructor; lia.
  - repeat split; try lia; cbn; auto. repeat constructor; lia.
  - split; [reflexivity|]. intros [|[|[|j]]] x E; cbn in E; try discriminate; try (destruct j; discriminate); injection E as <-.
    + exists 1. split; [reflexivity|]. right. cbn. intuition discriminate.
    + exists 102. split; [reflexivity|]. left. exists toy, (Some false). split; [exists 1; auto | reflexivity].
    + exists 3. split; [reflexivity|]. right. cbn. intuition discriminate.
  - split; [reflexivity|]. intros [|[|[|j]]] x E; cbn in E; try discriminate; try (destruct j; discriminate); injection E as <-.
    + exists 10. split; [reflexivity|]. left. exists toy, (Some true). split; [exists 0; auto | reflexivity].
    + exists 2. split; [reflexivity|]. right. cbn. intuition discriminate.
    + exists 3. split; [reflexivity|]. right. cbn. intuition discriminate.
  - vm_compute. reflexivity.
Qed.
(** An output wrapper around an output wrapper. *)
Lemma unnamed_output_case :
  (g <- transform_output first_arg (vec [toy]) (mkNd [] [Some true]) false None ;;
   h <- transform_output g (vec [toy]) (mkNd [] [Some true]) true (Some (vec [1]%Z)) ;;
   Ok (c_call h [10; 2] kw1 [])) =
  Ok (Err AttributeError, [([10; 2], kw1)]).
Proof. vm_compute; reflexivity. Qed.
