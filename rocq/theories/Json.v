(** Model of source/serialization.cc: conversion of NLSSolverOutputs to and from JSON.

    nlohmann::json itself is modelled by the type [json] below (objects are finite maps, written as
    association lists; the order of keys has no meaning) and by the documented behaviour of the accessors
    used: const operator[], at(), contains(), get<T>().  Arguments of constructors are read in the order
    written; C++ leaves the order unspecified, which can only change which of several errors is reported.
    Conversions between integers and floating point numbers in get<double>() / get<int>() are the parameters
    [of_int] and [trunc]. *)
From Coq Require Import String List Bool ZArith.
From Verif Require Import Scalar Outcome Structs.
Import ListNotations.
Local Open Scope outcome_scope.
Local Open Scope string_scope.
Local Open Scope list_scope.

Section JsonType.
  Context {F : Type}.
  Inductive json : Type :=
  | JNull | JBool (b : bool) | JInt (z : Z) | JFloat (f : F) | JStr (s : string)
  | JArr (l : list json) | JObj (l : list (string * json)).
End JsonType.
Arguments json F : clear implicits.

Section Json.
  Context {F : Type} {O : Ops F}.
  Variable of_int : Z -> F.
  Variable trunc : F -> Z.

  Fixpoint lookup (k : string) (l : list (string * json F)) : option (json F) :=
    match l with
    | [] => None
    | (k', v) :: l' => if String.eqb k k' then Some v else lookup k l'
    end.

  (** const operator[](key): a missing key is undefined behaviour, a non-object throws type_error.305 *)
  Definition jindex (k : string) (j : json F) : outcome (json F) :=
    match j with
    | JObj l => match lookup k l with Some v => Ok v | None => UB "operator[] const: key not found" end
    | _ => Throw (JsonError "type_error.305")
    end.
  (** at(key): out_of_range.403 for a missing key, type_error.304 for a non-object *)
  Definition jat (k : string) (j : json F) : outcome (json F) :=
    match j with
    | JObj l => match lookup k l with Some v => Ok v | None => Throw (JsonError "out_of_range.403") end
    | _ => Throw (JsonError "type_error.304")
    end.
  (** contains(key) *)
  Definition jcontains (k : string) (j : json F) : bool :=
    match j with JObj l => match lookup k l with Some _ => true | None => false end | _ => false end.

  (** get<double>() *)
  Definition get_double (j : json F) : outcome F :=
    match j with
    | JFloat f => Ok f
    | JInt z => Ok (of_int z)
    | _ => Throw (JsonError "type_error.302")
    end.
  (** get<int>() *)
  Definition get_int (j : json F) : outcome Z :=
    match j with
    | JInt z => Ok z
    | JFloat f => Ok (trunc f)
    | JBool b => Ok (if b then 1 else 0)%Z
    | _ => Throw (JsonError "type_error.302")
    end.
  (** get<std::vector<T>>() *)
  Definition get_vector {A : Type} (get : json F -> outcome A) (j : json F) : outcome (list A) :=
    match j with
    | JArr l => ofold (fun acc x => do a <- get x ; Ok (acc ++ [a])) l []
    | _ => Throw (JsonError "type_error.302")
    end.

  (** to_json / from_json for std::optional, serialization.cc:14-30 *)
  Definition opt_to_json {A : Type} (to : A -> json F) (x : option A) : json F :=
    match x with Some a => to a | None => JNull end.
  Definition get_opt {A : Type} (get : json F -> outcome A) (j : json F) : outcome (option A) :=
    match j with JNull => Ok None | _ => do a <- get j ; Ok (Some a) end.

  (** NLOHMANN_JSON_SERIALIZE_ENUM: both directions fall back to the first entry of the table. *)
  Definition enum_to_json {E : Type} (eqb : E -> E -> bool) (d : E * string) (t : list (E * string)) (e : E) : json F :=
    JStr (snd (match find (fun p => eqb (fst p) e) (d :: t) with Some p => p | None => d end)).
  Definition enum_from_json {E : Type} (d : E * string) (t : list (E * string)) (j : json F) : E :=
    fst (match find (fun p => match j with JStr s => String.eqb (snd p) s | _ => false end) (d :: t) with
         | Some p => p | None => d end).

  (** serialization.cc:32-34 *)
  Definition OptimizerState_eqb (a b : OptimizerState) : bool :=
    match a, b with NOMINAL, NOMINAL | ATTEMPTING_RESTORE_LM, ATTEMPTING_RESTORE_LM => true | _, _ => false end.
  Definition OptimizerState_d := (ATTEMPTING_RESTORE_LM, "ATTEMPTING_RESTORE_LM").
  Definition OptimizerState_t := [(NOMINAL, "NOMINAL")].
  Definition OptimizerState_to_json := enum_to_json OptimizerState_eqb OptimizerState_d OptimizerState_t.
  Definition OptimizerState_from_json := enum_from_json OptimizerState_d OptimizerState_t.

  (** serialization.cc:36-43 *)
  Definition StepSizeSelectionResult_eqb (a b : StepSizeSelectionResult) : bool :=
    match a, b with
    | SS_SUCCESS, SS_SUCCESS | SS_MAX_ITERATIONS, SS_MAX_ITERATIONS | FIRST_ORDER_SATISFIED, FIRST_ORDER_SATISFIED
    | POSITIVE_DERIVATIVE, POSITIVE_DERIVATIVE | FAILURE_NON_FINITE_COST, FAILURE_NON_FINITE_COST
    | FAILURE_INVALID_ALPHA, FAILURE_INVALID_ALPHA => true
    | _, _ => false
    end.
  Definition StepSizeSelectionResult_d := (SS_SUCCESS, "SUCCESS").
  Definition StepSizeSelectionResult_t :=
    [(SS_MAX_ITERATIONS, "MAX_ITERATIONS"); (FIRST_ORDER_SATISFIED, "FIRST_ORDER_SATISFIED");
     (POSITIVE_DERIVATIVE, "POSITIVE_DERIVATIVE"); (FAILURE_NON_FINITE_COST, "FAILURE_NON_FINITE_COST");
     (FAILURE_INVALID_ALPHA, "FAILURE_INVALID_ALPHA")].
  Definition StepSizeSelectionResult_to_json :=
    enum_to_json StepSizeSelectionResult_eqb StepSizeSelectionResult_d StepSizeSelectionResult_t.
  Definition StepSizeSelectionResult_from_json :=
    enum_from_json StepSizeSelectionResult_d StepSizeSelectionResult_t.

  (** serialization.cc:45-53 *)
  Definition NLSTerminationState_eqb (a b : NLSTerminationState) : bool :=
    match a, b with
    | NLS_MAX_ITERATIONS, NLS_MAX_ITERATIONS | SATISFIED_ABSOLUTE_TOL, SATISFIED_ABSOLUTE_TOL
    | SATISFIED_RELATIVE_TOL, SATISFIED_RELATIVE_TOL | SATISFIED_FIRST_ORDER_TOL, SATISFIED_FIRST_ORDER_TOL
    | MAX_LAMBDA, MAX_LAMBDA | QP_INDEFINITE, QP_INDEFINITE | USER_CALLBACK, USER_CALLBACK => true
    | _, _ => false
    end.
  Definition NLSTerminationState_d := (NLS_MAX_ITERATIONS, "MAX_ITERATIONS").
  Definition NLSTerminationState_t :=
    [(SATISFIED_ABSOLUTE_TOL, "SATISFIED_ABSOLUTE_TOL"); (SATISFIED_RELATIVE_TOL, "SATISFIED_RELATIVE_TOL");
     (SATISFIED_FIRST_ORDER_TOL, "SATISFIED_FIRST_ORDER_TOL"); (MAX_LAMBDA, "MAX_LAMBDA");
     (QP_INDEFINITE, "QP_INDEFINITE"); (USER_CALLBACK, "USER_CALLBACK")].
  Definition NLSTerminationState_to_json :=
    enum_to_json NLSTerminationState_eqb NLSTerminationState_d NLSTerminationState_t.
  Definition NLSTerminationState_from_json := enum_from_json NLSTerminationState_d NLSTerminationState_t.

  (** serialization.cc:55-58 *)
  Definition QPIPState_eqb (a b : QPInteriorPointTerminationState) : bool :=
    match a, b with
    | SATISFIED_KKT_TOL, SATISFIED_KKT_TOL | QPIP_MAX_ITERATIONS, QPIP_MAX_ITERATIONS => true
    | _, _ => false
    end.
  Definition QPIPState_d := (QPIP_MAX_ITERATIONS, "MAX_ITERATIONS").
  Definition QPIPState_t := [(SATISFIED_KKT_TOL, "SATISFIED_KKT_TOL")].
  Definition QPIPState_to_json := enum_to_json QPIPState_eqb QPIPState_d QPIPState_t.
  Definition QPIPState_from_json := enum_from_json QPIPState_d QPIPState_t.

  (** serialization.cc:60-63 *)
  Definition QPNSState_eqb (a b : QPNullSpaceTerminationState) : bool :=
    match a, b with
    | NS_SUCCESS, NS_SUCCESS | NOT_POSITIVE_DEFINITE, NOT_POSITIVE_DEFINITE => true
    | _, _ => false
    end.
  Definition QPNSState_d := (NS_SUCCESS, "SUCCESS").
  Definition QPNSState_t := [(NOT_POSITIVE_DEFINITE, "NOT_POSITIVE_DEFINITE")].
  Definition QPNSState_to_json := enum_to_json QPNSState_eqb QPNSState_d QPNSState_t.
  Definition QPNSState_from_json := enum_from_json QPNSState_d QPNSState_t.

  (** NLOHMANN_DEFINE_TYPE_NON_INTRUSIVE, serialization.cc:65-79: an object with one key per field; reading
      uses at(). *)
  Definition get_at {A : Type} (k : string) (get : json F -> outcome A) (j : json F) : outcome A :=
    do v <- jat k j ; get v.

  Definition Errors_to_json (e : Errors F) : json F :=
    JObj [("f", JFloat (err_f e)); ("equality", JFloat (err_equality e))].
  Definition Errors_from_json (j : json F) : outcome (Errors F) :=
    do f <- get_at "f" get_double j ; do e <- get_at "equality" get_double j ; Ok (MkErrors f e).

  Definition QPEigenvalues_to_json (e : QPEigenvalues F) : json F :=
    JObj [("min", JFloat (eig_min e)); ("max", JFloat (eig_max e)); ("abs_min", JFloat (eig_abs_min e))].
  Definition QPEigenvalues_from_json (j : json F) : outcome (QPEigenvalues F) :=
    do a <- get_at "min" get_double j ; do b <- get_at "max" get_double j ; do c <- get_at "abs_min" get_double j ;
    Ok (MkEig a b c).

  Definition DirectionalDerivatives_to_json (d : DirectionalDerivatives F) : json F :=
    JObj [("d_f", JFloat (d_f d)); ("d_equality", JFloat (d_equality d))].
  Definition DirectionalDerivatives_from_json (j : json F) : outcome (DirectionalDerivatives F) :=
    do a <- get_at "d_f" get_double j ; do b <- get_at "d_equality" get_double j ; Ok (MkDD a b).

  Definition LineSearchStep_to_json (s : LineSearchStep F) : json F :=
    JObj [("alpha", JFloat (step_alpha s)); ("errors", Errors_to_json (step_errors s))].
  Definition LineSearchStep_from_json (j : json F) : outcome (LineSearchStep F) :=
    do a <- get_at "alpha" get_double j ; do e <- get_at "errors" Errors_from_json j ; Ok (MkStep a e).

  Definition AlphaValues_to_json (a : AlphaValues F) : json F :=
    JObj [("primal", JFloat (primal a)); ("dual", JFloat (dual a))].
  Definition AlphaValues_from_json (j : json F) : outcome (AlphaValues F) :=
    do a <- get_at "primal" get_double j ; do b <- get_at "dual" get_double j ; Ok (MkAlpha a b).

  Definition IPIterationOutputs_to_json (o : IPIterationOutputs F) : json F :=
    JObj [("mu", JFloat (ip_mu o)); ("alpha", AlphaValues_to_json (ip_alpha o));
          ("alpha_probe", AlphaValues_to_json (ip_alpha_probe o)); ("mu_affine", JFloat (ip_mu_affine o))].
  Definition IPIterationOutputs_from_json (j : json F) : outcome (IPIterationOutputs F) :=
    do m <- get_at "mu" get_double j ; do a <- get_at "alpha" AlphaValues_from_json j ;
    do p <- get_at "alpha_probe" AlphaValues_from_json j ; do q <- get_at "mu_affine" get_double j ;
    Ok (MkIPOut m a p q).

  Definition KKTError_to_json (k : KKTError F) : json F :=
    JObj [("r_dual", JFloat (r_dual k)); ("r_comp", JFloat (r_comp k));
          ("r_primal_eq", JFloat (r_primal_eq k)); ("r_primal_ineq", JFloat (r_primal_ineq k))].
  Definition KKTError_from_json (j : json F) : outcome (KKTError F) :=
    do a <- get_at "r_dual" get_double j ; do b <- get_at "r_comp" get_double j ;
    do c <- get_at "r_primal_eq" get_double j ; do d <- get_at "r_primal_ineq" get_double j ; Ok (MkKKT a b c d).

  Definition QPIter_to_json (i : QPInteriorPointIteration F) : json F :=
    JObj [("kkt_initial", KKTError_to_json (kkt_initial i)); ("kkt_final", KKTError_to_json (kkt_final i));
          ("ip_outputs", IPIterationOutputs_to_json (ip_outputs i))].
  Definition QPIter_from_json (j : json F) : outcome (QPInteriorPointIteration F) :=
    do a <- get_at "kkt_initial" KKTError_from_json j ; do b <- get_at "kkt_final" KKTError_from_json j ;
    do c <- get_at "ip_outputs" IPIterationOutputs_from_json j ; Ok (MkQPIter a b c).

  Definition LM_to_json (l : QPLagrangeMultipliers F) : json F :=
    JObj [("min", JFloat (lm_min l)); ("l_infinity", JFloat (lm_l_infinity l))].
  Definition LM_from_json (j : json F) : outcome (QPLagrangeMultipliers F) :=
    do a <- get_at "min" get_double j ; do b <- get_at "l_infinity" get_double j ; Ok (MkLM a b).

  Definition QPIPOut_to_json (o : QPInteriorPointSolverOutputs F) : json F :=
    JObj [("termination_state", QPIPState_to_json (qp_termination_state o));
          ("iterations", JArr (map QPIter_to_json (qp_iterations o)));
          ("lagrange_multipliers", opt_to_json LM_to_json (qp_lagrange_multipliers o))].
  Definition QPIPOut_from_json (j : json F) : outcome (QPInteriorPointSolverOutputs F) :=
    do t <- get_at "termination_state" (fun v => Ok (QPIPState_from_json v)) j ;
    do i <- get_at "iterations" (get_vector QPIter_from_json) j ;
    do l <- get_at "lagrange_multipliers" (get_opt LM_from_json) j ; Ok (MkIPSolverOut t i l).

  (** The variant, serialization.cc:81-93 *)
  Definition QPOutputs_to_json (o : QPOutputs F) : json F :=
    match o with NullSpaceOut t => QPNSState_to_json t | InteriorPointOut ip => QPIPOut_to_json ip end.
  Definition QPOutputs_from_json (j : json F) : outcome (QPOutputs F) :=
    if jcontains "termination_state" j && jcontains "iterations" j
    then do o <- QPIPOut_from_json j ; Ok (InteriorPointOut o)
    else Ok (NullSpaceOut (QPNSState_from_json j)).

  Definition get_index {A : Type} (k : string) (get : json F -> outcome A) (j : json F) : outcome A :=
    do v <- jindex k j ; get v.

  (** adl_serializer<NLSIteration>, serialization.cc:100-128 *)
  Definition NLSIteration_to_json (i : NLSIteration F) : json F :=
    JObj [("iteration", JInt (it_iteration i));
          ("optimizer_state", OptimizerState_to_json (it_optimizer_state i));
          ("lambda", JFloat (it_lambda i));
          ("errors_initial", Errors_to_json (it_errors_initial i));
          ("qp_outputs", QPOutputs_to_json (it_qp_outputs i));
          ("qp_eigenvalues", opt_to_json QPEigenvalues_to_json (it_qp_eigenvalues i));
          ("directional_derivatives", DirectionalDerivatives_to_json (it_directional_derivatives i));
          ("penalty", JFloat (it_penalty i));
          ("step_result", StepSizeSelectionResult_to_json (it_step_result i));
          ("line_search_steps", JArr (map LineSearchStep_to_json (it_line_search_steps i)))].
  Definition NLSIteration_from_json (j : json F) : outcome (NLSIteration F) :=
    do n <- get_index "iteration" get_int j ;
    do os <- get_index "optimizer_state" (fun v => Ok (OptimizerState_from_json v)) j ;
    do la <- get_index "lambda" get_double j ;
    do e <- get_index "errors_initial" Errors_from_json j ;
    do q <- get_index "qp_outputs" QPOutputs_from_json j ;
    do ev <- get_index "qp_eigenvalues" (get_opt QPEigenvalues_from_json) j ;
    do dd <- get_index "directional_derivatives" DirectionalDerivatives_from_json j ;
    do p <- get_index "penalty" get_double j ;
    do sr <- get_index "step_result" (fun v => Ok (StepSizeSelectionResult_from_json v)) j ;
    do ls <- get_index "line_search_steps" (get_vector LineSearchStep_from_json) j ;
    Ok (MkNLSIter n os la e q ev dd p sr ls).

  (** adl_serializer<NLSSolverOutputs>, serialization.cc:130-138 *)
  Definition outputs_to_json (o : NLSSolverOutputs F) : json F :=
    JObj [("termination_state", NLSTerminationState_to_json (out_termination_state o));
          ("iterations", JArr (map NLSIteration_to_json (out_iterations o)))].
  Definition outputs_from_json (j : json F) : outcome (NLSSolverOutputs F) :=
    do t <- get_index "termination_state" (fun v => Ok (NLSTerminationState_from_json v)) j ;
    do i <- get_index "iterations" (get_vector NLSIteration_from_json) j ;
    Ok (MkNLSOut t i).

  (** json::parse(j.dump()): nlohmann prints finite numbers so that they are read back exactly, and
      non-finite numbers as null. *)
  Fixpoint through_text (j : json F) : json F :=
    match j with
    | JFloat f => if ffinite f then JFloat f else JNull
    | JArr l => JArr (map through_text l)
    | JObj l => JObj (map (fun kv => (fst kv, through_text (snd kv))) l)
    | _ => j
    end.
End Json.
