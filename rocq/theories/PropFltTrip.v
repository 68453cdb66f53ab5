(** * C92: free vectors folded and flattened in float64. *)
From Coq Require Import Reals ZArith Floats.SpecFloat.
From Verif Require Import Base Num Nd Pattern Spec Flt SpecFlt FltMat SpecFltMat FltChol SpecFltChol FltPat SpecFltPat SpecFltTrip
  FltInst DemoFlt DemoFltMat DemoFltChol DemoFltPat FltTripTree DemoFltTrip.
Local Open Scope R_scope.

Theorem C92_round_trip : forall np, np_contract np -> forall gram, gram_contract gram -> forall chol, chol_contract chol ->
  forall p x e vv, usable p -> modest p -> flat_length p (Some true) = Ok (plint (length x)) -> small64 x -> allows p x e ->
  exists v y, pfold64 np gram p x = Ok v /\ pvalid64 np p v vv = Ok None /\ pflatten64 np chol p v vv = Ok y /\ within e x y.
Proof. exact free_trip. Qed.
Print Assumptions C92_round_trip.

(** A dictionary of an array of numbers in [0, 1], a simplex, a 2 x 2 matrix and a number above 1:
    every entry comes back up to 1e-8. *)
Example C92_round_trip_case : np_contract np_inst /\ gram_contract gram_inst /\ chol_contract chol_inst /\ usable q92 /\ modest q92 /\
  flat_length q92 (Some true) = Ok (plint (length x92)) /\ small64 x92 /\ allows q92 x92 (repeat (/ 100000000) 7).
Proof. exact trip_case. Qed.

(** Without [allows] no error bound holds: with the lower bound 1, -40 comes back as -inf. *)
Theorem C92_round_trip_refuted : forall np, np_contract np -> forall gram chol vv,
  usable above1 /\ modest above1 /\ flat_length above1 (Some true) = Ok (plint (length [fint (-40)])) /\ small64 [fint (-40)] /\
  forall e v y, pfold64 np gram above1 [fint (-40)] = Ok v -> pflatten64 np chol above1 v vv = Ok y -> ~ within e [fint (-40)] y.
Proof. exact no_trip. Qed.
Print Assumptions C92_round_trip_refuted.
