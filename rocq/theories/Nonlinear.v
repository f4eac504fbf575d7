(** Model of ConstrainedNonlinearLeastSquares: include/mini_opt/nonlinear.hpp and
    source/nonlinear.cc.

    Simplifications:
    - the Problem is not modified between construction and Solve, so the sizes computed by the
      constructor (nonlinear.cc:19-46) are those of the problem being solved;
    - members that are rewritten in every iteration before being read (qp_, dx_, candidate_vars_,
      steps_, error_buffer_, solver_) are local values;
    - the user exit callback is a deterministic state machine with state type [S];
    - tracing macros have no effect here (see Tracing.v);
    - int overflow of the line search counter (max_line_search_iterations = INT_MAX) is ignored. *)
From Coq Require Import String List Bool ZArith Arith QArith.
From Verif Require Import Scalar Outcome LinAlg Structs Constraint QPModel NullSpace Residual.
Import ListNotations.
Local Open Scope outcome_scope.
Local Open Scope string_scope.
Local Open Scope list_scope.
Local Open Scope nat_scope.

(** Problem, nonlinear.hpp:33-52 *)
Record Problem (F : Type) : Type := MkProblem {
  pr_dimension : Z;
  pr_costs : list (residual F);
  pr_ineq : list (lic F);
  pr_eq : list (residual F) }.
Arguments MkProblem {F} _ _ _ _.
Arguments pr_dimension {F} _.
Arguments pr_costs {F} _.
Arguments pr_ineq {F} _.
Arguments pr_eq {F} _.

(** Params, nonlinear.hpp:64-124 *)
Record NLSParams (F : Type) : Type := MkNLSParams {
  n_max_iterations : Z;
  n_max_qp_iterations : Z;
  n_termination_kkt_tolerance : F;
  n_absolute_exit_tol : F;
  n_relative_exit_tol : F;
  n_absolute_first_derivative_tol : F;
  n_max_line_search_iterations : Z;
  n_line_search_strategy : LineSearchStrategy;
  n_armijo_search_tau : F;
  n_equality_penalty_initial : F;
  n_equality_penalty_scale_factor : F;
  n_equality_penalty_rho : F;
  n_lambda_initial : F;
  n_lambda_failure_init : F;
  n_lambda_decrease_on_success : F;
  n_lambda_decrease_on_restore : F;
  n_max_lambda : F;
  n_min_lambda : F;
  n_log_qp_eigenvalues : bool }.
Arguments MkNLSParams {F}.
Arguments n_max_iterations {F} _.
Arguments n_max_qp_iterations {F} _.
Arguments n_termination_kkt_tolerance {F} _.
Arguments n_absolute_exit_tol {F} _.
Arguments n_relative_exit_tol {F} _.
Arguments n_absolute_first_derivative_tol {F} _.
Arguments n_max_line_search_iterations {F} _.
Arguments n_line_search_strategy {F} _.
Arguments n_armijo_search_tau {F} _.
Arguments n_equality_penalty_initial {F} _.
Arguments n_equality_penalty_scale_factor {F} _.
Arguments n_equality_penalty_rho {F} _.
Arguments n_lambda_initial {F} _.
Arguments n_lambda_failure_init {F} _.
Arguments n_lambda_decrease_on_success {F} _.
Arguments n_lambda_decrease_on_restore {F} _.
Arguments n_max_lambda {F} _.
Arguments n_min_lambda {F} _.
Arguments n_log_qp_eigenvalues {F} _.

(** Default member initialisers, nonlinear.hpp:66-123 *)
Definition default_NLSParams {F : Type} {O : Ops F} : NLSParams F :=
  MkNLSParams 10%Z 10%Z (flit lit_1em6) (flit (1 # 1000000000000)) (flit (1 # 100000))
    (flit lit_1em6) 2%Z POLYNOMIAL_APPROXIMATION (flit (8 # 10)) f1 (flit (101 # 100))
    (flit lit_0_1) f0 (flit (1 # 100)) (flit lit_0_1) (flit (8 # 10)) f1 f0 false.

(** The part of the optimizer state carried between iterations of Solve: variables_, the locals
    [lambda] and [penalty] (nonlinear.cc:92-93) and state_. *)
Record nls_state (F : Type) : Type := MkNS {
  ns_vars : list F; ns_lambda : F; ns_penalty : F; ns_opt : OptimizerState }.
Arguments MkNS {F} _ _ _ _.
Arguments ns_vars {F} _.
Arguments ns_lambda {F} _.
Arguments ns_penalty {F} _.
Arguments ns_opt {F} _.

Section Nonlinear.
  Context {F : Type} {O : Ops F}.
  Variable ldlt : mat F -> option (mat F).
  Variable qr : mat F -> QRResult F.
  Variable llt : mat F -> option (list F -> list F).
  (** QP::ComputeEigenvalueStats, qp.cc:12-16 (SelfAdjointEigenSolver) *)
  Variable eigs : mat F -> QPEigenvalues F.

  (** CheckParams, nonlinear.cc:49-73 *)
  Definition NLS_CheckParams (pa : NLSParams F) : outcome unit :=
    f_assert (0 <=? n_max_iterations pa)%Z "max_iterations >= 0" ;;
    f_assert (1 <=? n_max_qp_iterations pa)%Z "max_qp_iterations >= 1" ;;
    f_assert (fgtb (n_termination_kkt_tolerance pa) f0) "termination_kkt_tolerance > 0" ;;
    f_assert (fgtb (n_absolute_exit_tol pa) f0) "absolute_exit_tol > 0" ;;
    f_assert (0 <=? n_max_line_search_iterations pa)%Z "max_line_search_iterations >= 0" ;;
    f_assert (fgeb (n_relative_exit_tol pa) f0) "relative_exit_tol >= 0" ;;
    f_assert (fleb (n_relative_exit_tol pa) f1) "relative_exit_tol <= 1" ;;
    f_assert (fgeb (n_absolute_first_derivative_tol pa) f0) "absolute_first_derivative_tol >= 0" ;;
    f_assert (fgtb (n_armijo_search_tau pa) f0) "armijo_search_tau > 0" ;;
    f_assert (fltb (n_armijo_search_tau pa) f1) "armijo_search_tau < 1" ;;
    f_assert (fgeb (n_equality_penalty_initial pa) f0) "equality_penalty_initial >= 0" ;;
    f_assert (fgeb (n_equality_penalty_scale_factor pa) f1) "equality_penalty_scale_factor >= 1" ;;
    f_assert (fgeb (n_equality_penalty_rho pa) f0) "equality_penalty_rho >= 0" ;;
    f_assert (fltb (n_equality_penalty_rho pa) f1) "equality_penalty_rho < 1" ;;
    f_assert (fgeb (n_max_lambda pa) f0) "max_lambda >= 0" ;;
    f_assert (fleb (n_min_lambda pa) (n_max_lambda pa)) "min_lambda <= max_lambda" ;;
    f_assert (fgeb (n_lambda_initial pa) (n_min_lambda pa)) "lambda_initial >= min_lambda" ;;
    f_assert (fleb (n_lambda_initial pa) (n_max_lambda pa)) "lambda_initial <= max_lambda" ;;
    f_assert (fgeb (n_lambda_failure_init pa) f0) "lambda_failure_init >= 0" ;;
    f_assert (fgeb (n_lambda_decrease_on_success pa) f0) "lambda_decrease_on_success >= 0" ;;
    f_assert (fltb (n_lambda_decrease_on_success pa) f1) "lambda_decrease_on_success < 1" ;;
    f_assert (fgeb (n_lambda_decrease_on_restore pa) f0) "lambda_decrease_on_restore >= 0" ;;
    f_assert (fltb (n_lambda_decrease_on_restore pa) f1) "lambda_decrease_on_restore < 1".

  (** Constructor, nonlinear.cc:13-47: the assert on the dimension. The buffers it sizes are
      represented by the sizes used in the functions below. *)
  Definition NLS_construct (pr : option (Problem F)) : outcome (Problem F) :=
    match pr with
    | None => Throw (AssertFailed "p_ != nullptr")
    | Some p => f_assert (0 <? pr_dimension p)%Z "Need at least one variable" ;; Ok p
    end.

  Definition pdim (pr : Problem F) : nat := Z.to_nat (pr_dimension pr).

  (** total_eq_size, nonlinear.cc:24-29 *)
  Definition total_eq_size (pr : Problem F) : nat :=
    fold_left (fun n r => n + res_dim r) (pr_eq pr) 0.

  (** Costs part of LinearizeAndFillQP, nonlinear.cc:182-189 *)
  Definition linearize_costs (vars : list F) (lambda : F) (pr : Problem F)
    : outcome (mat F * list F * F) :=
    let n := pdim pr in
    do '(G, c, f) <-
      ofold (fun (acc : mat F * list F * F) (r : residual F) =>
        let '(G, c, f) := acc in
        do '(G', c', e) <- UpdateHessian r vars G c ;
        Ok (G', c', fadd f e)) (pr_costs pr) (mzero n n, vzero n, f0) ;
    let G' := if fgtb lambda f0
              then mkmat n n (fun i j => if i =? j then fadd (mget G i j) lambda else mget G i j)
              else G in
    Ok (G', c, f).

  (** Equality part of LinearizeAndFillQP, nonlinear.cc:191-206. The accumulator holds the rows of
      A_eq and b_eq written so far and the L1 error. *)
  Definition linearize_eq (vars : list F) (pr : Problem F)
    : outcome (list (list F) * list F * F) :=
    let n := pdim pr in
    ofold (fun (acc : list (list F) * list F * F) (r : residual F) =>
      let '(rows, b, e) := acc in
      f_assert (List.length rows + res_dim r <=? total_eq_size pr) "row + dim <= A_eq.rows()" ;;
      do '(J, br) <- UpdateJacobian r vars n ;
      Ok (rows ++ mdata J, b ++ br, fadd e (fl1 br))) (pr_eq pr) ([], [], f0).

  (** LinearizeAndFillQP, nonlinear.cc:170-214 *)
  Definition LinearizeAndFillQP (vars : list F) (lambda : F) (pr : Problem F)
    : outcome (Errors F * QP F) :=
    let n := pdim pr in
    do '(G, c, f) <- linearize_costs vars lambda pr ;
    do '(rows, b, e) <- linearize_eq vars pr ;
    do cons <- ofold (fun acc c => do c' <- ShiftToVec c vars ; Ok (acc ++ [c'])) (pr_ineq pr) [] ;
    Ok (MkErrors f e, MkQP G c (Mat (total_eq_size pr) n rows) b cons).

  (** EvaluateNonlinearErrors, nonlinear.cc:279-293 *)
  Definition EvaluateNonlinearErrors (pr : Problem F) (vars : list F) : outcome (Errors F) :=
    do f <- ofold (fun f r =>
        do e <- ErrorVector r vars (res_dim r) ;
        Ok (fadd f (fmul (flit lit_half) (fsqnorm e)))) (pr_costs pr) f0 ;
    do q <- ofold (fun q r =>
        do e <- ErrorVector r vars (res_dim r) ;
        Ok (fadd q (fl1 e))) (pr_eq pr) f0 ;
    Ok (MkErrors f q).

  (** Which member of the [solver_] variant is used, nonlinear.cc:83-89 *)
  Definition use_null_space (pr : Problem F) : bool :=
    match pr_ineq pr, pr_eq pr with
    | [], _ :: _ => true
    | _, _ => false
    end.

  (** Parameters of the inner solver, nonlinear.cc:226-239 *)
  Definition inner_qp_params (pa : NLSParams F) (pr : Problem F) : IPParams F :=
    MkIPParams f1 (flit lit_0_1) (n_termination_kkt_tolerance pa) (flit lit_1em6)
      (n_max_qp_iterations pa) COMPLEMENTARITY false
      (match pr_eq pr with [] => NAIVE | _ => SOLVE_EQUALITY_CONSTRAINED end) false.

  (** ComputeStepDirection, nonlinear.cc:216-259. Returns the outputs and dx_. *)
  Definition ComputeStepDirection (g : garbage F) (pa : NLSParams F) (pr : Problem F) (qp : QP F)
    : outcome (QPOutputs F * list F) :=
    if use_null_space pr then
      do '(t, x) <- NS_Solve qr llt qp (vzero (pdim pr)) ;
      match t with
      | NS_SUCCESS => Ok (NullSpaceOut t, x)
      | NOT_POSITIVE_DEFINITE => Ok (NullSpaceOut t, vzero (pdim pr))
      end
    else
      do st <- Setup g (Some qp) ;
      do '(st', outs) <- IP_Solve ldlt (inner_qp_params pa pr) st ;
      Ok (InteriorPointOut outs, x_block st').

  (** QPWasIndefinite, nonlinear.cc:270-277 *)
  Definition QPWasIndefinite (o : QPOutputs F) : bool :=
    match o with NullSpaceOut NOT_POSITIVE_DEFINITE => true | _ => false end.

  (** MaybeGetLagrangeMultipliers, nonlinear.cc:261-268 *)
  Definition MaybeGetLagrangeMultipliers (o : QPOutputs F) : option (QPLagrangeMultipliers F) :=
    match o with InteriorPointOut ip => qp_lagrange_multipliers ip | NullSpaceOut _ => None end.

  (** Sign, nonlinear.cc:445-455 *)
  Definition Sign (x : F) : F :=
    if fgtb x f0 then f1 else if fltb x f0 then fneg f1 else f0.

  (** ComputeQPCostDerivative, nonlinear.cc:457-482 *)
  Definition ComputeQPCostDerivative (qp : QP F) (dx : list F) : outcome (DirectionalDerivatives F) :=
    f_assert (List.length (qc qp) =? List.length dx) "Mismatch between dx and c" ;;
    f_assert (mcols (qA qp) =? List.length dx) "Mismatch between dx and A_eq" ;;
    Ok (MkDD (fdot (qc qp) dx)
             (fold_left (fun acc i => fadd acc (fmul (Sign (vget (qb qp) i)) (fdot (mrow (qA qp) i) dx)))
                        (seq 0 (mrows (qA qp))) f0)).

  (** SelectPenalty, nonlinear.cc:484-502 *)
  Definition SelectPenalty (qp : QP F) (dx : list F) (lm : option (QPLagrangeMultipliers F)) (rho : F) : F :=
    match lm with
    | Some l => lm_l_infinity l
    | None =>
      let l1_eq := fmax (fl1 (qb qp)) (flit lit_eps) in
      let quad := fadd (fdot (qc qp) dx)
                       (fmul (flit lit_half) (fmax f0 (fdot dx (smvmul (qG qp) dx)))) in
      fdiv quad (fmul (fsub f1 rho) l1_eq)
    end.

  (** The penalty update in Solve, nonlinear.cc:111-118 *)
  Definition update_penalty (pa : NLSParams F) (pr : Problem F) (qp : QP F) (dx : list F)
             (o : QPOutputs F) (penalty : F) : F :=
    match pr_eq pr with
    | [] => penalty
    | _ => let np := SelectPenalty qp dx (MaybeGetLagrangeMultipliers o) (n_equality_penalty_rho pa) in
           if fgtb np penalty then fmul np (n_equality_penalty_scale_factor pa) else penalty
    end.

  (** QuadraticApproxMinimum, nonlinear.cc:531-538 *)
  Definition QuadraticApproxMinimum (phi_0 phi_prime_0 alpha_0 phi_alpha_0 : F) : option F :=
    let numerator := fsub (fsub phi_alpha_0 (fmul phi_prime_0 alpha_0)) phi_0 in
    if fgtb phi_prime_0 f0 || fleb numerator f0 then None
    else Some (fdiv (fmul (fmul (fneg phi_prime_0) alpha_0) alpha_0) (fmul (flit lit_2) numerator)).

  (** CubicApproxCoeffs, nonlinear.cc:563-578; the inverse of a Matrix2d is Eigen's closed formula. *)
  Definition CubicApproxCoeffs (phi_0 phi_prime_0 alpha_0 phi_alpha_0 alpha_1 phi_alpha_1 : F)
    : outcome (F * F) :=
    f_assert (fgtb alpha_1 f0) "alpha_1 > 0" ;;
    f_assert (fgtb alpha_0 alpha_1) "This must be satisfied for the system to be solvable" ;;
    let m00 := fmul (fmul alpha_0 alpha_0) alpha_0 in
    let m01 := fmul alpha_0 alpha_0 in
    let m10 := fmul (fmul alpha_1 alpha_1) alpha_1 in
    let m11 := fmul alpha_1 alpha_1 in
    let rhs0 := fsub (fsub phi_alpha_0 phi_0) (fmul phi_prime_0 alpha_0) in
    let rhs1 := fsub (fsub phi_alpha_1 phi_0) (fmul phi_prime_0 alpha_1) in
    let invdet := fdiv f1 (fsub (fmul m00 m11) (fmul m10 m01)) in
    let i00 := fmul m11 invdet in
    let i01 := fmul (fneg m01) invdet in
    let i10 := fmul (fneg m10) invdet in
    let i11 := fmul m00 invdet in
    Ok (fadd (fmul i00 rhs0) (fmul i01 rhs1), fadd (fmul i10 rhs0) (fmul i11 rhs1)).

  (** CubicApproxMinimum, nonlinear.cc:594-605 *)
  Definition CubicApproxMinimum (phi_prime_0 : F) (ab : F * F) : option F :=
    let (a, b) := ab in
    let arg_sqrt := fsub (fmul b b) (fmul (fmul (flit lit_3) a) phi_prime_0) in
    if feqb a f0 || fltb arg_sqrt (flit lit_m1em12) then None
    else Some (fdiv (fadd (fneg b) (fsqrt (fmax arg_sqrt f0))) (fmul (flit lit_3) a)).

  (** ComputeAlphaPolynomialApproximation, nonlinear.cc:418-443; [steps] is steps_. *)
  Definition ComputeAlphaPolynomialApproximation (iteration : nat) (steps : list (LineSearchStep F))
      (errors_pre : Errors F) (dd : DirectionalDerivatives F) (penalty : F) : outcome (option F) :=
    f_assert (1 <=? iteration) "iteration >= 1" ;;
    let dflt := MkStep f0 (MkErrors f0 f0) in
    let n := List.length steps in
    if iteration =? 1 then
      f_assert (n =? 1) "steps_.size() == 1" ;;
      let prev := nth (n - 1) steps dflt in
      Ok (QuadraticApproxMinimum (Errors_Total errors_pre penalty) (DD_Total dd penalty)
            (step_alpha prev) (Errors_Total (step_errors prev) penalty))
    else
      f_assert (2 <=? n) "steps_.size() >= 2" ;;
      let second := nth (n - 2) steps dflt in
      let last := nth (n - 1) steps dflt in
      do ab <- CubicApproxCoeffs (Errors_Total errors_pre penalty) (DD_Total dd penalty)
                 (step_alpha second) (Errors_Total (step_errors second) penalty)
                 (step_alpha last) (Errors_Total (step_errors last) penalty) ;
      Ok (CubicApproxMinimum (DD_Total dd penalty) ab).

  (** Custom retraction: void(VectorXd& x, ConstVectorBlock dx, double alpha), nonlinear.hpp:127,
      as a function returning the new x. *)
  Variable retract : option (list F -> list F -> F -> list F).

  (** RetractCandidateVars, nonlinear.cc:160-168 *)
  Definition RetractCandidateVars (vars dx : list F) (alpha : F) : outcome (list F) :=
    match retract with
    | Some f => Ok (f vars dx alpha)
    | None =>
      ub_unless (List.length vars =? List.length dx) "candidate_vars_ += dx_ * alpha: size mismatch" ;;
      Ok (vadd vars (vscale dx alpha))
    end.

  (** The new step size at line search iteration [iter], nonlinear.cc:367-386. [None] is the early
      return of FAILURE_INVALID_ALPHA. *)
  Definition next_alpha (strategy : LineSearchStrategy) (tau : F) (iter : nat) (alpha : F)
      (steps : list (LineSearchStep F)) (errors_pre : Errors F) (dd : DirectionalDerivatives F)
      (penalty : F) : outcome (option F) :=
    if iter =? 0 then Ok (Some alpha)
    else match strategy with
    | POLYNOMIAL_APPROXIMATION =>
      do na <- ComputeAlphaPolynomialApproximation iter steps errors_pre dd penalty ;
      match na with
      | None => Ok None
      | Some a => if negb (ffinite a) || fleb a f0 || fgeb a alpha then Ok None else Ok (Some a)
      end
    | ARMIJO_BACKTRACK => Ok (Some (fmul alpha tau))
    end.

  (** Loop of SelectStepSize, nonlinear.cc:366-415; [n] evaluations remain. Returns the result,
      steps_ and candidate_vars_. *)
  Fixpoint ls_loop (n : nat) (iter : nat) (alpha : F) (steps : list (LineSearchStep F)) (cand : list F)
      (pr : Problem F) (vars dx : list F) (abs_tol : F) (errors_pre : Errors F)
      (dd : DirectionalDerivatives F) (penalty c1 : F) (strategy : LineSearchStrategy) (tau : F)
    : outcome (StepSizeSelectionResult * list (LineSearchStep F) * list F) :=
    match n with
    | 0 => Ok (SS_MAX_ITERATIONS, steps, cand)
    | S n' =>
      do oa <- next_alpha strategy tau iter alpha steps errors_pre dd penalty ;
      match oa with
      | None => Ok (FAILURE_INVALID_ALPHA, steps, cand)
      | Some a =>
        do cand' <- RetractCandidateVars vars dx a ;
        do es <- EvaluateNonlinearErrors pr cand' ;
        let steps' := steps ++ [MkStep a es] in
        if Errors_ContainsInvalidValues es then Ok (FAILURE_NON_FINITE_COST, steps', cand')
        else if fltb (DD_LInfinity dd) abs_tol then Ok (FIRST_ORDER_SATISFIED, steps', cand')
        else if fgtb (DD_Total dd penalty) f0 then Ok (POSITIVE_DERIVATIVE, steps', cand')
        else if fleb (Errors_Total es penalty)
                     (fadd (Errors_Total errors_pre penalty) (fmul (fmul (DD_Total dd penalty) a) c1))
        then Ok (SS_SUCCESS, steps', cand')
        else ls_loop n' (S iter) a steps' cand' pr vars dx abs_tol errors_pre dd penalty c1 strategy tau
      end
    end.

  (** SelectStepSize, nonlinear.cc:351-416 *)
  Definition SelectStepSize (max_iterations : Z) (abs_tol : F) (pr : Problem F) (vars dx : list F)
      (errors_pre : Errors F) (dd : DirectionalDerivatives F) (penalty c1 : F)
      (strategy : LineSearchStrategy) (tau : F)
    : outcome (StepSizeSelectionResult * list (LineSearchStep F) * list F) :=
    f_assert (fgtb penalty f0) "penalty > 0" ;;
    f_assert (negb (Errors_ContainsInvalidValues errors_pre)) "errors_pre is finite" ;;
    ls_loop (Z.to_nat (max_iterations + 1)) 0 f1 [] vars pr vars dx abs_tol errors_pre dd penalty c1
            strategy tau.

  (** UpdateLambdaAndCheckExitConditions, nonlinear.cc:296-343. [cand] is candidate_vars_. *)
  Definition UpdateLambdaAndCheckExitConditions (pa : NLSParams F) (sr : StepSizeSelectionResult)
      (initial_errors : Errors F) (penalty : F) (steps : list (LineSearchStep F)) (cand : list F)
      (vars : list F) (lambda : F) (opt : OptimizerState)
    : outcome (option NLSTerminationState * nls_state F) :=
    match sr with
    | SS_SUCCESS =>
      f_assert (0 <? List.length steps) "Must have logged a step" ;;
      let lambda' :=
        match opt with
        | ATTEMPTING_RESTORE_LM => fmax (fmul lambda (n_lambda_decrease_on_restore pa)) (n_min_lambda pa)
        | NOMINAL => fmax (fmul lambda (n_lambda_decrease_on_success pa)) (n_min_lambda pa)
        end in
      let st' := MkNS cand lambda' penalty NOMINAL in
      let final_step := nth (List.length steps - 1) steps (MkStep f0 (MkErrors f0 f0)) in
      if fltb (Errors_LInfinity (step_errors final_step)) (n_absolute_exit_tol pa)
      then Ok (Some SATISFIED_ABSOLUTE_TOL, st')
      else if fgtb (Errors_Total (step_errors final_step) penalty)
                   (fmul (Errors_Total initial_errors penalty) (fsub f1 (n_relative_exit_tol pa)))
      then Ok (Some SATISFIED_RELATIVE_TOL, st')
      else Ok (None, st')
    | FIRST_ORDER_SATISFIED => Ok (Some SATISFIED_FIRST_ORDER_TOL, MkNS vars lambda penalty opt)
    | SS_MAX_ITERATIONS | POSITIVE_DERIVATIVE =>
      let lambda' :=
        match opt with
        | NOMINAL => fmax (n_lambda_failure_init pa) (fmul lambda (flit lit_10))
        | ATTEMPTING_RESTORE_LM => fmul lambda (flit lit_10)
        end in
      let st' := MkNS vars lambda' penalty ATTEMPTING_RESTORE_LM in
      if fgtb lambda' (n_max_lambda pa) then Ok (Some MAX_LAMBDA, st') else Ok (None, st')
    | FAILURE_NON_FINITE_COST | FAILURE_INVALID_ALPHA => Ok (None, MkNS vars lambda penalty opt)
    end.

  (** What one pass through the body of the main loop produces (nonlinear.cc:97-143): either the
      early QP_INDEFINITE return, or the new state, the logged iteration and maybe_exit. *)
  Inductive iter_result : Type :=
  | IterIndefinite
  | IterDone (st : nls_state F) (info : NLSIteration F) (maybe_exit : option NLSTerminationState).

  Definition nls_iterate (pa : NLSParams F) (pr : Problem F) (g : garbage F) (iter : Z) (st : nls_state F)
    : outcome iter_result :=
    do '(errors_pre, qp) <- LinearizeAndFillQP (ns_vars st) (ns_lambda st) pr ;
    do '(qpo, dx) <- ComputeStepDirection g pa pr qp ;
    if QPWasIndefinite qpo then Ok IterIndefinite
    else
      do dd <- ComputeQPCostDerivative qp dx ;
      let penalty := update_penalty pa pr qp dx qpo (ns_penalty st) in
      do '(sr, steps, cand) <-
        SelectStepSize (n_max_line_search_iterations pa) (n_absolute_first_derivative_tol pa) pr
          (ns_vars st) dx errors_pre dd penalty (flit lit_1em4) (n_line_search_strategy pa)
          (n_armijo_search_tau pa) ;
      do '(ex, st') <-
        UpdateLambdaAndCheckExitConditions pa sr errors_pre penalty steps cand
          (ns_vars st) (ns_lambda st) (ns_opt st) ;
      Ok (IterDone st'
            (MkNLSIter iter (ns_opt st') (ns_lambda st) errors_pre qpo
               (if n_log_qp_eigenvalues pa then Some (eigs (qG qp)) else None)
               dd penalty sr steps) ex).

  (** The user exit callback (nonlinear.hpp:154-157, nonlinear.cc:146-151) with its own state. *)
  Context {S : Type}.
  Variable cb : option (S -> NLSIteration F -> S * bool).

  Definition call_cb (s : S) (it : NLSIteration F) : S * bool :=
    match cb with Some f => f s it | None => (s, true) end.

  (** Result of Solve: the returned outputs, variables() afterwards and the final callback state. *)
  Record nls_result := MkNLSResult {
    res_out : NLSSolverOutputs F; res_vars : list F; res_cb : S }.

  (** Main loop, nonlinear.cc:96-157; [n] iterations remain, [iter] is the loop counter. [g] gives
      the uninitialised storage contents met by the inner solver in each iteration. *)
  Fixpoint nls_loop (n : nat) (pa : NLSParams F) (pr : Problem F) (g : nat -> garbage F) (iter : nat)
      (log : list (NLSIteration F)) (st : nls_state F) (cs : S) : outcome nls_result :=
    match n with
    | 0 => Ok (MkNLSResult (MkNLSOut NLS_MAX_ITERATIONS log) (ns_vars st) cs)
    | Datatypes.S n' =>
      do r <- nls_iterate pa pr (g iter) (Z.of_nat iter) st ;
      match r with
      | IterIndefinite => Ok (MkNLSResult (MkNLSOut QP_INDEFINITE log) (ns_vars st) cs)
      | IterDone st' info ex =>
        let log' := log ++ [info] in
        let (cs', proceed) := call_cb cs info in
        match ex with
        | Some t => Ok (MkNLSResult (MkNLSOut t log') (ns_vars st') cs')
        | None =>
          if proceed then nls_loop n' pa pr g (Datatypes.S iter) log' st' cs'
          else Ok (MkNLSResult (MkNLSOut USER_CALLBACK log') (ns_vars st') cs')
        end
      end
    end.

  (** Solve, nonlinear.cc:75-158 *)
  Definition NLS_Solve (pa : NLSParams F) (pr : Problem F) (g : nat -> garbage F) (vars : list F) (cs : S)
    : outcome nls_result :=
    NLS_CheckParams pa ;;
    nls_loop (Z.to_nat (n_max_iterations pa)) pa pr g 0 []
      (MkNS vars (n_lambda_initial pa) (n_equality_penalty_initial pa) NOMINAL) cs.
End Nonlinear.
Arguments IterIndefinite {F}.
Arguments IterDone {F} _ _ _.
Arguments MkNLSResult {F S} _ _ _.
Arguments res_out {F S} _.
Arguments res_vars {F S} _.
Arguments res_cb {F S} _.
