(** Model of include/mini_opt/structs.hpp and source/structs.cc. *)
From Coq Require Import String List Bool ZArith QArith.
From Verif Require Import Scalar.
Import ListNotations.
Local Open Scope string_scope.
Local Open Scope list_scope.

(** structs.hpp:24-31 *)
Inductive BarrierStrategy := COMPLEMENTARITY | FIXED_DECREASE | PREDICTOR_CORRECTOR.
(** structs.hpp:34-41 *)
Inductive InitialGuessMethod := NAIVE | SOLVE_EQUALITY_CONSTRAINED | USER_PROVIDED.
(** structs.hpp:97-102 *)
Inductive QPInteriorPointTerminationState := SATISFIED_KKT_TOL | QPIP_MAX_ITERATIONS.
(** structs.hpp:137-142 *)
Inductive QPNullSpaceTerminationState := NS_SUCCESS | NOT_POSITIVE_DEFINITE.
(** structs.hpp:148-153 *)
Inductive LineSearchStrategy := ARMIJO_BACKTRACK | POLYNOMIAL_APPROXIMATION.
(** structs.hpp:159-164 *)
Inductive OptimizerState := NOMINAL | ATTEMPTING_RESTORE_LM.
(** structs.hpp:215-228 *)
Inductive StepSizeSelectionResult :=
| SS_SUCCESS | SS_MAX_ITERATIONS | FIRST_ORDER_SATISFIED | POSITIVE_DERIVATIVE
| FAILURE_NON_FINITE_COST | FAILURE_INVALID_ALPHA.
(** structs.hpp:233-248 *)
Inductive NLSTerminationState :=
| NLS_MAX_ITERATIONS | SATISFIED_ABSOLUTE_TOL | SATISFIED_RELATIVE_TOL
| SATISFIED_FIRST_ORDER_TOL | MAX_LAMBDA | QP_INDEFINITE | USER_CALLBACK.

(** structs.cc:8-21 *)
Definition InitialGuessMethod_str (m : InitialGuessMethod) : string :=
  match m with
  | NAIVE => "NAIVE"
  | SOLVE_EQUALITY_CONSTRAINED => "SOLVE_EQUALITY_CONSTRAINED"
  | USER_PROVIDED => "USER_PROVIDED"
  end.
(** structs.cc:23-33 *)
Definition QPInteriorPointTerminationState_str (s : QPInteriorPointTerminationState) : string :=
  match s with
  | SATISFIED_KKT_TOL => "SATISFIED_KKT_TOL"
  | QPIP_MAX_ITERATIONS => "MAX_ITERATIONS"
  end.
(** structs.cc:35-45 *)
Definition QPNullSpaceTerminationState_str (s : QPNullSpaceTerminationState) : string :=
  match s with
  | NS_SUCCESS => "SUCCESS"
  | NOT_POSITIVE_DEFINITE => "NOT_POSITIVE_DEFINITE"
  end.
(** structs.cc:47-57 *)
Definition LineSearchStrategy_str (s : LineSearchStrategy) : string :=
  match s with
  | ARMIJO_BACKTRACK => "ARMIJO_BACKTRACK"
  | POLYNOMIAL_APPROXIMATION => "POLYNOMIAL_APPROXIMATION"
  end.
(** structs.cc:59-69 *)
Definition OptimizerState_str (s : OptimizerState) : string :=
  match s with
  | NOMINAL => "NOMINAL"
  | ATTEMPTING_RESTORE_LM => "ATTEMPTING_RESTORE_LM"
  end.
(** structs.cc:71-93 *)
Definition StepSizeSelectionResult_str (s : StepSizeSelectionResult) : string :=
  match s with
  | SS_SUCCESS => "SUCCESS"
  | SS_MAX_ITERATIONS => "MAX_ITERATIONS"
  | POSITIVE_DERIVATIVE => "POSITIVE_DERIVATIVE"
  | FIRST_ORDER_SATISFIED => "FIRST_ORDER_SATISFIED"
  | FAILURE_NON_FINITE_COST => "FAILURE_NON_FINITE_COST"
  | FAILURE_INVALID_ALPHA => "FAILURE_INVALID_ALPHA"
  end.
(** structs.cc:95-120 *)
Definition NLSTerminationState_str (s : NLSTerminationState) : string :=
  match s with
  | NLS_MAX_ITERATIONS => "MAX_ITERATIONS"
  | SATISFIED_ABSOLUTE_TOL => "SATISFIED_ABSOLUTE_TOL"
  | SATISFIED_RELATIVE_TOL => "SATISFIED_RELATIVE_TOL"
  | SATISFIED_FIRST_ORDER_TOL => "SATISFIED_FIRST_ORDER_TOL"
  | MAX_LAMBDA => "MAX_LAMBDA"
  | QP_INDEFINITE => "QP_INDEFINITE"
  | USER_CALLBACK => "USER_CALLBACK"
  end.

(** structs.hpp:250-261 *)
Definition TerminationStateIndicatesSatisfiedTol (s : NLSTerminationState) : bool :=
  match s with
  | SATISFIED_ABSOLUTE_TOL | SATISFIED_RELATIVE_TOL | SATISFIED_FIRST_ORDER_TOL => true
  | _ => false
  end.

Section Records.
  Context {F : Type}.

  (** structs.hpp:45-50 *)
  Record AlphaValues := MkAlpha { primal : F; dual : F }.

  (** structs.hpp:53-64 *)
  Record IPIterationOutputs := MkIPOut {
    ip_mu : F; ip_alpha : AlphaValues; ip_alpha_probe : AlphaValues; ip_mu_affine : F }.

  (** structs.hpp:68-73 *)
  Record KKTError := MkKKT {
    r_dual : F; r_comp : F; r_primal_eq : F; r_primal_ineq : F }.

  (** structs.hpp:81-90 *)
  Record QPInteriorPointIteration := MkQPIter {
    kkt_initial : KKTError; kkt_final : KKTError; ip_outputs : IPIterationOutputs }.

  (** structs.hpp:108-113 *)
  Record QPLagrangeMultipliers := MkLM { lm_min : F; lm_l_infinity : F }.

  (** structs.hpp:116-134 *)
  Record QPInteriorPointSolverOutputs := MkIPSolverOut {
    qp_termination_state : QPInteriorPointTerminationState;
    qp_iterations : list QPInteriorPointIteration;
    qp_lagrange_multipliers : option QPLagrangeMultipliers }.

  (** structs.hpp:169-174 *)
  Record Errors := MkErrors { err_f : F; err_equality : F }.

  (** structs.hpp:189-194 *)
  Record DirectionalDerivatives := MkDD { d_f : F; d_equality : F }.

  (** structs.hpp:206-212 *)
  Record LineSearchStep := MkStep { step_alpha : F; step_errors : Errors }.

  (** structs.hpp:267-274 *)
  Record QPEigenvalues := MkEig { eig_min : F; eig_max : F; eig_abs_min : F }.

  (** std::variant<QPNullSpaceTerminationState, QPInteriorPointSolverOutputs>,
      structs.hpp:307 *)
  Inductive QPOutputs :=
  | NullSpaceOut (t : QPNullSpaceTerminationState)
  | InteriorPointOut (o : QPInteriorPointSolverOutputs).

  (** structs.hpp:277-322 *)
  Record NLSIteration := MkNLSIter {
    it_iteration : Z;
    it_optimizer_state : OptimizerState;
    it_lambda : F;
    it_errors_initial : Errors;
    it_qp_outputs : QPOutputs;
    it_qp_eigenvalues : option QPEigenvalues;
    it_directional_derivatives : DirectionalDerivatives;
    it_penalty : F;
    it_step_result : StepSizeSelectionResult;
    it_line_search_steps : list LineSearchStep }.

  (** structs.hpp:329-334 *)
  Record NLSSolverOutputs := MkNLSOut {
    out_termination_state : NLSTerminationState;
    out_iterations : list NLSIteration }.
End Records.
Arguments AlphaValues F : clear implicits.
Arguments IPIterationOutputs F : clear implicits.
Arguments KKTError F : clear implicits.
Arguments QPInteriorPointIteration F : clear implicits.
Arguments QPLagrangeMultipliers F : clear implicits.
Arguments QPInteriorPointSolverOutputs F : clear implicits.
Arguments Errors F : clear implicits.
Arguments DirectionalDerivatives F : clear implicits.
Arguments LineSearchStep F : clear implicits.
Arguments QPEigenvalues F : clear implicits.
Arguments QPOutputs F : clear implicits.
Arguments NLSIteration F : clear implicits.
Arguments NLSSolverOutputs F : clear implicits.

Section Methods.
  Context {F : Type} {O : Ops F}.

  (** KKTError::Max, structs.hpp:75-77 *)
  Definition KKT_Max (k : KKTError F) : F :=
    fmax_list (r_dual k) [r_comp k; r_primal_eq k; r_primal_ineq k].

  (** Errors::Total, structs.hpp:177 *)
  Definition Errors_Total (e : Errors F) (penalty : F) : F :=
    fadd (err_f e) (fmul penalty (err_equality e)).
  (** Errors::LInfinity, structs.hpp:180 *)
  Definition Errors_LInfinity (e : Errors F) : F := fmax (err_f e) (err_equality e).
  (** Errors::ContainsInvalidValues, structs.hpp:183-185 *)
  Definition Errors_ContainsInvalidValues (e : Errors F) : bool :=
    negb (ffinite (err_f e)) || negb (ffinite (err_equality e)).

  (** DirectionalDerivatives::Total, structs.hpp:197 *)
  Definition DD_Total (d : DirectionalDerivatives F) (penalty : F) : F :=
    fadd (d_f d) (fmul penalty (d_equality d)).
  (** DirectionalDerivatives::LInfinity, structs.hpp:200-202 *)
  Definition DD_LInfinity (d : DirectionalDerivatives F) : F :=
    fmax (fabs (d_f d)) (fabs (d_equality d)).

  (** Default member initialisers of AlphaValues, structs.hpp:45-50 *)
  Definition default_alpha : AlphaValues F := MkAlpha f1 f1.

  (** NLSSolverOutputs::NumQPIterations, structs.cc:208-219 (std::accumulate;
      std::size_t wrap-around is not modelled) *)
  Definition NumQPIterations (o : NLSSolverOutputs F) : nat :=
    fold_left (fun total (it : NLSIteration F) =>
                 match it_qp_outputs it with
                 | InteriorPointOut ip => total + List.length (qp_iterations ip)
                 | NullSpaceOut _ => total + 1
                 end%nat) (out_iterations o) 0%nat.

  (** NLSSolverOutputs::NumLineSearchSteps, structs.cc:221-226 *)
  Definition NumLineSearchSteps (o : NLSSolverOutputs F) : nat :=
    fold_left (fun total (it : NLSIteration F) => total + List.length (it_line_search_steps it))%nat
              (out_iterations o) 0%nat.

  (** NLSSolverOutputs::NumFailedLineSearches, structs.cc:228-236 *)
  Definition NumFailedLineSearches (o : NLSSolverOutputs F) : nat :=
    fold_left (fun total (it : NLSIteration F) =>
                 total + match it_step_result it with
                         | SS_SUCCESS | FIRST_ORDER_SATISFIED => 0
                         | _ => 1
                         end)%nat
              (out_iterations o) 0%nat.
End Methods.
