(** * Property theorems C35-C40: function wrappers. *)
From Coq Require Import Reals NArith String.
From Verif Require Import Base Num Nd Pattern Spec FunWrap SpecWrap WrapProps WrapOdd WrapMix WrapRound
  Demo DemoWrap.
Local Open Scope list_scope.
Local Open Scope nat_scope.

Theorem C35_inputs : forall V S (f : callable V S) patterns nums free flat ps ns fs,
  arrays_ok patterns nums free -> given patterns nums free ps ns fs ->
  NoDup ns -> length ns = length ps -> Forall (fun z => (0 <= z)%Z) ns ->
  exists g, transform_input f patterns free flat nums = Ok g /\
    forall args kw s, no_self kw ->
      ((exists args', placed (arg_conv flat) ps ns fs args args') \/
       (exists e, first_failure (arg_conv flat) ps ns fs args IndexError e)) /\
      (forall args', placed (arg_conv flat) ps ns fs args args' ->
         c_call g args kw s = c_call f args' kw s) /\
      (forall e, first_failure (arg_conv flat) ps ns fs args IndexError e ->
         c_call g args kw s = (Err e, s)).
Proof. exact input_calls. Qed.
Print Assumptions C35_inputs.

Example C35_case : given (vec [toy; toy]) (Some (vec [2; 0]%Z)) two_free [toy; toy] [2; 0]%Z [Some true; Some false] /\
  NoDup [2; 0]%Z /\
  placed p_fold [toy; toy] [2; 0]%Z [Some true; Some false] [1; 2; 3; 4] [101; 2; 30; 4] /\
  (g <- transform_input logged (vec [toy; toy]) two_free false (Some (vec [2; 0]%Z)) ;;
   Ok (c_call g [1; 2; 3; 4] kw1 [])) =
  Ok (Ok (RTuple [101; 2; 30; 4]), [([101; 2; 30; 4], kw1)]).
Proof. exact input_case. Qed.

Example C35_few_case : first_failure p_fold [toy; toy] [2; 0]%Z [Some true; Some false] [1; 2] IndexError IndexError /\
  (g <- transform_input logged (vec [toy; toy]) two_free false (Some (vec [2; 0]%Z)) ;;
   Ok (c_call g [1; 2] kw1 [])) = Ok (Err IndexError, []).
Proof. exact few_case. Qed.

(** A keyword argument called [self] is refused. *)
Theorem C35_self : forall V S (f : callable V S) patterns nums free flat g args kw s,
  transform_input f patterns free flat nums = Ok g -> ~ no_self kw ->
  c_call g args kw s = (Err TypeError, s).
Proof. exact input_self. Qed.
Print Assumptions C35_self.

(** The converted list of arguments is unique. *)
Theorem C35_unique : forall V meth (ps : list (patobj V)) ns fs vals v1 v2,
  NoDup ns -> placed meth ps ns fs vals v1 -> placed meth ps ns fs vals v2 -> v1 = v2.
Proof. exact placed_unique. Qed.
Print Assumptions C35_unique.

Theorem C36_negative_inputs : forall V S (f : callable V S) patterns nums free flat ps ns fs,
  arrays_ok patterns nums free -> given patterns nums free ps ns fs ->
  NoDup ns -> length ns = length ps ->
  exists g, transform_input f patterns free flat nums = Ok g /\
    forall args kw s, no_self kw ->
      (forall args', Forall (fun z => (- Z.of_nat (length args) <= z < 0)%Z) ns ->
         placed (arg_conv flat) ps (from_end (length args) ns) fs args args' ->
         (~ In (-1)%Z ns -> c_call g args kw s = c_call f args' kw s) /\
         (In (-1)%Z ns -> c_call g args kw s = c_call f (args' ++ args) kw s /\
                          length (args' ++ args) = 2 * length args)) /\
      (Exists (fun z => (z < - Z.of_nat (length args))%Z) ns ->
         c_call g args kw s = (Err IndexError, s)).
Proof. exact negative_inputs. Qed.
Print Assumptions C36_negative_inputs.

Theorem C36_negative_outputs : forall V S (f : callable V S) patterns nums free flat ps ns fs,
  arrays_ok patterns nums free -> given patterns nums free ps ns fs ->
  NoDup ns -> length ns = length ps ->
  exists g, transform_output f patterns free flat nums = Ok g /\
    forall args kw s rets s', no_self kw -> c_call f args kw s = (Ok (RTuple rets), s') ->
      (forall rets', Forall (fun z => (- Z.of_nat (length rets) <= z < 0)%Z) ns ->
         placed (ret_conv flat) ps (from_end (length rets) ns) fs rets rets' ->
         (~ In (-1)%Z ns -> c_call g args kw s = (Ok (RTuple rets'), s')) /\
         (In (-1)%Z ns -> c_call g args kw s = (Ok (RTuple (rets' ++ rets)), s') /\
                          length (rets' ++ rets) = 2 * length rets)) /\
      (Exists (fun z => (z < - Z.of_nat (length rets))%Z) ns ->
         c_call g args kw s = (Err IndexError, s')).
Proof. exact negative_outputs. Qed.
Print Assumptions C36_negative_outputs.

Example C36_case : (g <- transform_input logged (mkNd [] [toy]) (mkNd [] [Some true]) false (Some (mkNd [] [-1]%Z)) ;;
   Ok (c_call g [1; 2; 3] kw1 [])) =
  Ok (Ok (RTuple [1; 2; 30; 1; 2; 3]), [([1; 2; 30; 1; 2; 3], kw1)]) /\
  (g <- transform_input logged (mkNd [] [toy]) (mkNd [] [Some true]) false (Some (mkNd [] [-2]%Z)) ;;
   Ok (c_call g [1; 2; 3] kw1 [])) =
  Ok (Ok (RTuple [1; 20; 3]), [([1; 20; 3], kw1)]).
Proof. exact negative_case. Qed.

Theorem C36_mixed_inputs : forall V S (f : callable V S) patterns nums free flat ps ns fs,
  arrays_ok patterns nums free -> given patterns nums free ps ns fs ->
  NoDup ns -> length ns = length ps ->
  exists g, transform_input f patterns free flat nums = Ok g /\
    forall args kw s k q at_end at_start, no_self kw -> mixed_at ns (length args) k q ->
      replaced (arg_conv flat) ps (from_end (length args) ns) fs args at_end ->
      replaced (arg_conv flat) ps ns fs args at_start ->
      c_call g args kw s = c_call f (mixed (length args) k q at_end at_start) kw s.
Proof. exact mixed_inputs. Qed.
Print Assumptions C36_mixed_inputs.

Theorem C36_mixed_outputs : forall V S (f : callable V S) patterns nums free flat ps ns fs,
  arrays_ok patterns nums free -> given patterns nums free ps ns fs ->
  NoDup ns -> length ns = length ps ->
  exists g, transform_output f patterns free flat nums = Ok g /\
    forall args kw s rets s' k q at_end at_start, no_self kw -> c_call f args kw s = (Ok (RTuple rets), s') ->
      mixed_at ns (length rets) k q ->
      replaced (ret_conv flat) ps (from_end (length rets) ns) fs rets at_end ->
      replaced (ret_conv flat) ps ns fs rets at_start ->
      c_call g args kw s = (Ok (RTuple (mixed (length rets) k q at_end at_start)), s').
Proof. exact mixed_outputs. Qed.
Print Assumptions C36_mixed_outputs.

Theorem C36_mixed_length : forall V n k q (a b : list V), k < n -> q < n -> length a = n -> length b = n ->
  (S k = n -> length (mixed n k q a b) = 2 * n) /\
  (S k < n -> length (mixed n k q a b) = n + (S k - q)) /\
  (length (mixed n k q a b) = n <-> S k < n /\ k < q).
Proof. exact mixed_length. Qed.
Print Assumptions C36_mixed_length.

Example C36_mixed_case : mixed_at [-3; 1]%Z 3 0 1 /\ mixed_at [0; -2]%Z 3 1 0 /\
  replaced p_fold [toy; toy] (from_end 3 [0; -2]%Z) [Some true; Some false] [1; 2; 3] [1; 102; 3] /\
  replaced p_fold [toy; toy] [0; -2]%Z [Some true; Some false] [1; 2; 3] [10; 2; 3] /\
  map (fun ns => g <- transform_input logged (vec [toy; toy]) two_free false (Some (vec ns)) ;;
                 Ok (fst (c_call g [1; 2; 3] [] []))) [[-3; 1]; [0; -2]; [1; -1]; [-3; 0]]%Z =
  [Ok (Ok (RTuple [10; 102; 3])); Ok (Ok (RTuple [1; 102; 10; 2; 3]));
   Ok (Ok (RTuple [1; 2; 103; 1; 20; 3])); Ok (Ok (RTuple [10; 101; 2; 3]))].
Proof. exact mixed_case. Qed.

Theorem C37_checks : forall V S (f : callable V S) patterns nums free flat,
  arrays_ok patterns nums free ->
  ((exists g, transform_input f patterns free flat nums = Ok g) <-> accepted patterns nums free) /\
  (~ accepted patterns nums free -> transform_input f patterns free flat nums = Err ValueError) /\
  ((exists g, transform_output f patterns free flat nums = Ok g) <-> accepted patterns nums free) /\
  (~ accepted patterns nums free -> transform_output f patterns free flat nums = Err ValueError).
Proof. exact wrap_checks. Qed.
Print Assumptions C37_checks.

Example C37_case : (forall g, transform_input logged (vec [toy; toy]) two_free false (Some (vec [1; 1]%Z)) <> Ok g) /\
  transform_input logged (vec [toy; toy]) two_free false (Some (vec [1; 2; 3]%Z)) = Err ValueError /\
  transform_input logged (vec [toy]) two_free false (Some (vec [1]%Z)) = Err ValueError /\
  transform_output logged (mkNd [1; 2] [toy; toy]) two_free false None = Err ValueError /\
  (g <- transform_input logged (vec [toy; toy]) (mkNd [] [Some true]) false None ;;
   Ok (c_call g [1; 2; 3] [] [])) = Ok (Ok (RTuple [10; 20; 3]), [([10; 20; 3], [])]).
Proof. exact checks_case. Qed.

Theorem C38_inputs : forall X S (f : callable (obj X) S) patterns nums free qs ns fs,
  arrays_ok patterns nums free -> given patterns nums free (map pat_obj qs) ns fs ->
  NoDup ns -> length ns = length qs -> Forall (fun z => (0 <= z)%Z) ns ->
  exists g h, flatten_input f patterns free nums = Ok g /\ fold_input g patterns free nums = Ok h /\
    forall args args' kw s, no_self kw -> convertible qs ns fs args ->
      canonical_at qs ns args args' -> c_call h args kw s = c_call f args' kw s.
Proof. exact inputs_round. Qed.
Print Assumptions C38_inputs.

Theorem C38_inputs_flat : forall X S (f : callable (obj X) S) patterns nums free qs ns fs,
  arrays_ok patterns nums free -> given patterns nums free (map pat_obj qs) ns fs ->
  NoDup ns -> length ns = length qs -> Forall (fun z => (0 <= z)%Z) ns ->
  exists g h, fold_input f patterns free nums = Ok g /\ flatten_input g patterns free nums = Ok h /\
    forall args kw s, no_self kw -> flat_at qs ns fs args ->
      c_call h args kw s = c_call f args kw s.
Proof. exact inputs_round_flat. Qed.
Print Assumptions C38_inputs_flat.

Theorem C38_outputs : forall X S (f : callable (obj X) S) patterns nums free qs ns fs,
  arrays_ok patterns nums free -> given patterns nums free (map pat_obj qs) ns fs ->
  NoDup ns -> length ns = length qs -> Forall (fun z => (0 <= z)%Z) ns ->
  exists g h, flatten_output f patterns free nums = Ok g /\ fold_output g patterns free nums = Ok h /\
    (forall args kw s rets rets' s', no_self kw -> c_call f args kw s = (Ok (RTuple rets), s') ->
       convertible qs ns fs rets -> canonical_at qs ns rets rets' ->
       c_call h args kw s = (Ok (RTuple rets'), s')) /\
    (forall args kw s q v s', no_self kw -> c_call f args kw s = (Ok (ROne (OVal v)), s') ->
       ns = [0%Z] -> qs = [q] -> convertible qs ns fs [OVal v : obj X] ->
       c_call h args kw s = (Ok (ROne (OVal (canon q v))), s')).
Proof. exact outputs_round. Qed.
Print Assumptions C38_outputs.

Theorem C38_outputs_flat : forall X S (f : callable (obj X) S) patterns nums free qs ns fs,
  arrays_ok patterns nums free -> given patterns nums free (map pat_obj qs) ns fs ->
  NoDup ns -> length ns = length qs -> Forall (fun z => (0 <= z)%Z) ns ->
  exists g h, fold_output f patterns free nums = Ok g /\ flatten_output g patterns free nums = Ok h /\
    (forall args kw s rets s', no_self kw -> c_call f args kw s = (Ok (RTuple rets), s') ->
       flat_at qs ns fs rets -> c_call h args kw s = (Ok (RTuple rets), s')) /\
    (forall args kw s v s', no_self kw -> c_call f args kw s = (Ok (ROne v), s') ->
       ns = [0%Z] -> flat_at qs ns fs [v] -> c_call h args kw s = (Ok (ROne v), s')).
Proof. exact outputs_round_flat. Qed.
Print Assumptions C38_outputs_flat.

Example C38_case : given (mkNd [] [@pat_obj nat demo]) (Some (mkNd [] [1%Z])) (mkNd [] [None])
        (map pat_obj [demo]) [1%Z] [None] /\
  convertible [demo] [1%Z] [None] [OOther 5; OVal demo_value; OOther 7] /\
  canonical_at [demo] [1%Z] [OOther 5; OVal demo_value; OOther 7]
                            [OOther 5; OVal (canon demo demo_value); OOther 7].
Proof. exact round_case. Qed.

Example C38_flat_case : flat_at [demo] [1%Z] [None]
    [OOther 5; OVal (FArr (vec (map Fin [1; -2; 3; 4; 5; 6; 7; -8; 9; 10]%R)))].
Proof. exact flat_round_case. Qed.

Theorem C39_outputs : forall V S (f : callable V S) patterns nums free flat ps ns fs,
  arrays_ok patterns nums free -> given patterns nums free ps ns fs ->
  NoDup ns -> length ns = length ps -> Forall (fun z => (0 <= z)%Z) ns ->
  exists g, transform_output f patterns free flat nums = Ok g /\
    forall args kw s r s', no_self kw -> c_call f args kw s = (r, s') ->
      exists r', c_call g args kw s = (r', s') /\
        converted (ret_conv flat) ps ns fs (missing_result f) r r'.
Proof. exact output_calls. Qed.
Print Assumptions C39_outputs.

Example C39_case : (g <- transform_output logged (vec [toy; toy]) two_free true (Some (vec [2; 0]%Z)) ;;
   Ok (c_call g [1; 2; 3; 4] kw1 [])) =
  Ok (Ok (RTuple [101; 2; 30; 4]), [([1; 2; 3; 4], kw1)]) /\
  (g <- transform_output first_arg (vec [toy]) (mkNd [] [Some true]) true None ;;
   Ok (c_call g [1; 2; 3; 4] kw1 [])) =
  Ok (Ok (ROne 10), [([1; 2; 3; 4], kw1)]) /\
  (g <- transform_output logged (vec [toy; toy]) two_free true (Some (vec [2; 0]%Z)) ;;
   Ok (c_call g [1; 2] kw1 [])) =
  Ok (Err ValueError, [([1; 2], kw1)]) /\
  (g <- transform_output first_arg (vec [toy]) (mkNd [] [Some true]) true (Some (vec [1]%Z)) ;;
   Ok (c_call g [1; 2] kw1 [])) =
  Ok (Err ValueError, [([1; 2], kw1)]).
Proof. exact output_case. Qed.

Example C39_unnamed_case : (g <- transform_input first_arg (vec [toy]) (mkNd [] [Some true]) false None ;;
   h <- transform_output g (vec [toy]) (mkNd [] [Some true]) true (Some (vec [1]%Z)) ;;
   Ok (c_call h [1; 2] kw1 [])) =
  Ok (Err AttributeError, [([10; 2], kw1)]).
Proof. exact unnamed_case. Qed.

Theorem C39_wrappers_unnamed : forall V S (f g : callable V S) patterns free flat nums,
  transform_input f patterns free flat nums = Ok g \/ transform_output f patterns free flat nums = Ok g ->
  missing_result g = AttributeError.
Proof. exact wrappers_unnamed. Qed.
Print Assumptions C39_wrappers_unnamed.

Example C39_wrappers_unnamed_case : (g <- transform_output first_arg (vec [toy]) (mkNd [] [Some true]) false None ;;
   h <- transform_output g (vec [toy]) (mkNd [] [Some true]) true (Some (vec [1]%Z)) ;;
   Ok (c_call h [10; 2] kw1 [])) =
  Ok (Err AttributeError, [([10; 2], kw1)]).
Proof. exact unnamed_output_case. Qed.

Theorem C40_combined : forall V S (f : callable V S) ip inum ifr ips ins ifs op onum ofr ops ons ofs,
  arrays_ok ip inum ifr -> given ip inum ifr ips ins ifs ->
  NoDup ins -> length ins = length ips -> Forall (fun z => (0 <= z)%Z) ins ->
  arrays_ok op onum ofr -> given op onum ofr ops ons ofs ->
  NoDup ons -> length ons = length ops -> Forall (fun z => (0 <= z)%Z) ons ->
  (exists h, flatten_input_output f ip ifr inum op ofr onum = Ok h /\
    forall args kw s, no_self kw ->
      (forall args' r s', placed p_fold ips ins ifs args args' -> c_call f args' kw s = (r, s') ->
         exists r', c_call h args kw s = (r', s') /\
           converted p_flatten ops ons ofs (missing_result f) r r') /\
      (forall e, first_failure p_fold ips ins ifs args IndexError e ->
         c_call h args kw s = (Err e, s))) /\
  (exists h, fold_input_output f ip ifr inum op ofr onum = Ok h /\
    forall args kw s, no_self kw ->
      (forall args' r s', placed p_flatten ips ins ifs args args' -> c_call f args' kw s = (r, s') ->
         exists r', c_call h args kw s = (r', s') /\
           converted p_fold ops ons ofs (missing_result f) r r') /\
      (forall e, first_failure p_flatten ips ins ifs args IndexError e ->
         c_call h args kw s = (Err e, s))).
Proof. exact combined_calls. Qed.
Print Assumptions C40_combined.

Example C40_case : (h <- flatten_input_output logged (vec [toy]) (mkNd [] [Some true]) (Some (vec [1]%Z))
          (vec [toy]) (mkNd [] [Some false]) (Some (vec [2]%Z)) ;;
   Ok (c_call h [1; 2; 300] kw1 [])) =
  Ok (Ok (RTuple [1; 20; 200]), [([1; 20; 300], kw1)]) /\
  (h <- fold_input_output logged (vec [toy]) (mkNd [] [Some true]) (Some (vec [1]%Z))
          (vec [toy]) (mkNd [] [Some false]) (Some (vec [2]%Z)) ;;
   Ok (c_call h [1; 20; 300] kw1 [])) =
  Ok (Ok (RTuple [1; 2; 400]), [([1; 2; 300], kw1)]).
Proof. exact combined_case. Qed.
