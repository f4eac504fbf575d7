(** Model of a ConstrainedNonlinearLeastSquares object as a piece of mutable state (include/mini_opt/nonlinear.hpp:
    163-236, source/nonlinear.cc): the members survive between calls and are updated in place, user supplied functions
    may throw at any of their invocations, and every MINI_OPT_FUNCTION_TRACE scope (tracing.hpp:23-24) records its end.

    Nonlinear.v models Solve as a function in which the members that are rewritten before being read are local values;
    this file does not make that simplification. The theorems relating the two are in NLSObjectProps.v.

    Simplifications:
    - the pure steps inside one residual (scattering J into H) and inside the QP solvers are those of Residual.v,
      QPModel.v and NullSpace.v: an exception in their middle leaves qp_ as it was before that residual was added;
      what the interior point solver's storage contains at Setup is an arbitrary function of the time ([junk]);
    - which invocations of user functions throw is an arbitrary set of invocation numbers ([throws]);
    - a scope that ends normally appends its name to [o_trace]; its times and ids are in Tracing.v. *)
From Coq Require Import String List Bool ZArith Arith QArith.
From Verif Require Import Scalar Outcome LinAlg Structs Constraint QPModel NullSpace Residual Nonlinear.
Import ListNotations.
Local Open Scope string_scope.
Local Open Scope list_scope.
Local Open Scope nat_scope.

(** How a call can end: normally, with an exception of the library, with the exception thrown by invocation number [k]
    of a user function, or in undefined behaviour. *)
Inductive mres (A : Type) : Type :=
| Ret (a : A)
| LibExn (e : exn)
| UserExn (k : nat)
| Undef (w : string).
Arguments Ret {A} _.
Arguments LibExn {A} _.
Arguments UserExn {A} _.
Arguments Undef {A} _.

(** The alternative held by [solver_], nonlinear.hpp:212; the null space solver owns its last solution x_. *)
Inductive qp_solver (F : Type) : Type :=
| HoldsInteriorPoint
| HoldsNullSpace (x : list F).
Arguments HoldsInteriorPoint {F}.
Arguments HoldsNullSpace {F} _.

(** The members, nonlinear.hpp:202-233, and what can be observed from outside: the state of the user callback, the
    number of user function invocations so far, the trace, and what variables() returned whenever the callback was
    invoked. *)
Record nls_object (F S : Type) : Type := MkObj {
  o_qp : QP F;                              (* qp_ *)
  o_solver : qp_solver F;                   (* solver_ *)
  o_vars : list F;                          (* variables_ *)
  o_cand : list F;                          (* candidate_vars_ *)
  o_dx : list F;                            (* dx_ *)
  o_errbuf : list F;                        (* error_buffer_ *)
  o_steps : list (LineSearchStep F);        (* steps_ *)
  o_state : OptimizerState;                 (* state_ *)
  o_cs : S;                                 (* state of the user's callback object *)
  o_calls : nat;
  o_trace : list string;
  o_seen : list (list F) }.
Arguments MkObj {F S}.
Arguments o_qp {F S} _.
Arguments o_solver {F S} _.
Arguments o_vars {F S} _.
Arguments o_cand {F S} _.
Arguments o_dx {F S} _.
Arguments o_errbuf {F S} _.
Arguments o_steps {F S} _.
Arguments o_state {F S} _.
Arguments o_cs {F S} _.
Arguments o_calls {F S} _.
Arguments o_trace {F S} _.
Arguments o_seen {F S} _.

Section Object.
  Context {F : Type} {O : Ops F} {S : Type}.
  Variable ldlt : mat F -> option (mat F).
  Variable qr : mat F -> QRResult F.
  Variable llt : mat F -> option (list F -> list F).
  Variable eigs : mat F -> QPEigenvalues F.
  Variable retract : option (list F -> list F -> F -> list F).   (* custom_retraction_ *)
  Variable throws : nat -> bool.
  Variable junk : nat -> garbage F.
  Variable pr : Problem F.                                      (* *p_ *)
  Notation obj := (nls_object F S).

  (** ** State and exceptions *)
  Definition M (A : Type) : Type := obj -> obj * mres A.
  Definition mret {A : Type} (a : A) : M A := fun o => (o, Ret a).
  Definition mbind {A B : Type} (m : M A) (k : A -> M B) : M B := fun o =>
    let (o', r) := m o in
    match r with
    | Ret a => k a o'
    | LibExn e => (o', LibExn e)
    | UserExn n => (o', UserExn n)
    | Undef w => (o', Undef w)
    end.
  Definition embed {A : Type} (x : outcome A) : mres A :=
    match x with Ok a => Ret a | Throw e => LibExn e | UB w => Undef w end.
  Definition lift {A : Type} (x : outcome A) : M A := fun o => (o, embed x).
  Definition get {A : Type} (f : obj -> A) : M A := fun o => (o, Ret (f o)).
  Definition modify (f : obj -> obj) : M unit := fun o => (f o, Ret tt).
  Fixpoint mfold {A B : Type} (f : A -> B -> M A) (l : list B) (a : A) : M A :=
    match l with
    | [] => mret a
    | b :: l' => mbind (f a b) (mfold f l')
    end.
  Notation "'doM' x <- m ; k" := (mbind m (fun x => k)) (at level 200, x name, m at level 100, k at level 200).
  Notation "'doM' ' p <- m ; k" := (mbind m (fun x => match x with p => k end)) (at level 200, p pattern, m at level 100, k at level 200).
  Notation "m ;;; k" := (mbind m (fun _ => k)) (at level 100, k at level 200, right associativity).

  Definition set_qp (q : QP F) (o : obj) : obj :=
    MkObj q (o_solver o) (o_vars o) (o_cand o) (o_dx o) (o_errbuf o) (o_steps o) (o_state o) (o_cs o) (o_calls o) (o_trace o) (o_seen o).
  Definition set_solver (s : qp_solver F) (o : obj) : obj :=
    MkObj (o_qp o) s (o_vars o) (o_cand o) (o_dx o) (o_errbuf o) (o_steps o) (o_state o) (o_cs o) (o_calls o) (o_trace o) (o_seen o).
  Definition set_vars_cand (v c : list F) (o : obj) : obj :=
    MkObj (o_qp o) (o_solver o) v c (o_dx o) (o_errbuf o) (o_steps o) (o_state o) (o_cs o) (o_calls o) (o_trace o) (o_seen o).
  Definition set_dx (d : list F) (o : obj) : obj :=
    MkObj (o_qp o) (o_solver o) (o_vars o) (o_cand o) d (o_errbuf o) (o_steps o) (o_state o) (o_cs o) (o_calls o) (o_trace o) (o_seen o).
  Definition set_errbuf (b : list F) (o : obj) : obj :=
    MkObj (o_qp o) (o_solver o) (o_vars o) (o_cand o) (o_dx o) b (o_steps o) (o_state o) (o_cs o) (o_calls o) (o_trace o) (o_seen o).
  Definition set_steps (s : list (LineSearchStep F)) (o : obj) : obj :=
    MkObj (o_qp o) (o_solver o) (o_vars o) (o_cand o) (o_dx o) (o_errbuf o) s (o_state o) (o_cs o) (o_calls o) (o_trace o) (o_seen o).
  Definition set_state (s : OptimizerState) (o : obj) : obj :=
    MkObj (o_qp o) (o_solver o) (o_vars o) (o_cand o) (o_dx o) (o_errbuf o) (o_steps o) s (o_cs o) (o_calls o) (o_trace o) (o_seen o).
  Definition set_cs (s : S) (o : obj) : obj :=
    MkObj (o_qp o) (o_solver o) (o_vars o) (o_cand o) (o_dx o) (o_errbuf o) (o_steps o) (o_state o) s (o_calls o) (o_trace o) (o_seen o).
  Definition count_call (o : obj) : obj :=
    MkObj (o_qp o) (o_solver o) (o_vars o) (o_cand o) (o_dx o) (o_errbuf o) (o_steps o) (o_state o) (o_cs o)
      (o_calls o + 1) (o_trace o) (o_seen o).
  Definition push_trace (name : string) (o : obj) : obj :=
    MkObj (o_qp o) (o_solver o) (o_vars o) (o_cand o) (o_dx o) (o_errbuf o) (o_steps o) (o_state o) (o_cs o) (o_calls o)
      (o_trace o ++ [name]) (o_seen o).
  Definition note_seen (o : obj) : obj :=
    MkObj (o_qp o) (o_solver o) (o_vars o) (o_cand o) (o_dx o) (o_errbuf o) (o_steps o) (o_state o) (o_cs o) (o_calls o)
      (o_trace o) (o_seen o ++ [o_vars o]).

  (** MINI_OPT_FUNCTION_TRACE() at the top of a function body, tracing.hpp:24, tracing.cc:118-132: the destructor
      submits the event unless an exception is propagating. *)
  Definition scope {A : Type} (name : string) (m : M A) : M A := fun o =>
    let (o', r) := m o in
    match r with Ret a => (push_trace name o', Ret a) | _ => (o', r) end.

  (** An invocation of a function supplied by the user. *)
  Definition user_call : M unit := fun o =>
    (count_call o, if throws (o_calls o) then UserExn (o_calls o) else Ret tt).

  (** ** Construction *)

  (** max_error_size, nonlinear.cc:25-29, 42-45 *)
  Definition max_error_size : nat :=
    fold_left (fun m r => Nat.max m (res_dim r)) (pr_costs pr)
      (fold_left (fun m r => Nat.max m (res_dim r)) (pr_eq pr) 0).

  (** The constructor for a problem it accepts, nonlinear.cc:19-46. Contents left uninitialised are those of [q], [v],
      [c], [e]. *)
  Definition construct (q : QP F) (v c e : list F) (cs : S) : obj :=
    let n := pdim pr in
    MkObj (MkQP (mkmat n n (mget (qG q))) (mkvec n (vget (qc q)))
                (mkmat (total_eq_size pr) n (mget (qA q))) (mkvec (total_eq_size pr) (vget (qb q))) [])
          HoldsInteriorPoint (mkvec n (vget v)) (mkvec n (vget c)) (vzero n) (mkvec max_error_size (vget e)) [] NOMINAL
          cs 0 [] [].

  (** ** Residuals *)

  (** UpdateHessian, residual.hpp:185-226, on qp_.G and qp_.c: the checks before the user function is invoked, the
      invocation, and the rest. *)
  Definition UpdateHessian_o (r : residual F) (vars : list F) : M F :=
    doM qp <- get o_qp ;
    lift (bind (f_assert (mrows (qG qp) =? mcols (qG qp)) "H->rows() == H->cols()") (fun _ =>
          bind (f_assert (List.length (qc qp) =? mrows (qG qp)) "b->rows() == H->rows()") (fun _ =>
          bind (GatherValues vars (res_index r)) (fun _ => Ok tt)))) ;;;
    user_call ;;;
    doM '(G', c', e) <- lift (UpdateHessian r vars (qG qp) (qc qp)) ;
    modify (set_qp (MkQP G' c' (qA qp) (qb qp) (qcons qp))) ;;;
    mret e.

  (** The columns of J written by UpdateJacobian, residual.hpp:245-249, over what the block J_out contained. *)
  Definition scatter_columns (r : residual F) (J : mat F) (J_out : mat F) : outcome (mat F) :=
    ofold (fun (Jo : mat F) col_local =>
      let cgz := nth col_local (res_index r) 0%Z in
      bind (f_assert (cgz <? Z.of_nat (mcols J_out))%Z "Index exceeds the size of the Jacobian") (fun _ =>
      Ok (mkmat (res_dim r) (mcols J_out) (fun i j =>
            if j =? Z.to_nat cgz then mget J i col_local else mget Jo i j))))
      (seq 0 (List.length (res_index r))) J_out.

  (** UpdateJacobian, residual.hpp:229-250, on rows row..row+dim-1 of qp_.A_eq and qp_.b_eq. Returns b_seg. *)
  Definition UpdateJacobian_o (r : residual F) (vars : list F) (row : nat) : M (list F) :=
    doM p <- lift (GatherValues vars (res_index r)) ;
    user_call ;;;
    doM qp <- get o_qp ;
    let dim := res_dim r in
    let e := res_errJ r p in
    let block := mkmat dim (mcols (qA qp)) (fun i j => mget (qA qp) (row + i) j) in
    doM block' <- lift (scatter_columns r (res_J r p) block) ;
    modify (set_qp (MkQP (qG qp) (qc qp)
      (Mat (mrows (qA qp)) (mcols (qA qp))
           (firstn row (mdata (qA qp)) ++ mdata block' ++ skipn (row + dim) (mdata (qA qp))))
      (firstn row (qb qp) ++ e ++ skipn (row + dim) (qb qp)) (qcons qp))) ;;;
    mret e.

  (** ** Members *)

  (** LinearizeAndFillQP(variables_, lambda, *p_, &qp_), nonlinear.cc:170-214 *)
  Definition LinearizeAndFillQP_o (lambda : F) : M (Errors F) :=
    scope "LinearizeAndFillQP" (
      let n := pdim pr in
      doM qp <- get o_qp ;
      lift (f_assert (mrows (qG qp) =? n) "qp->G.rows() == problem.dimension") ;;;
      lift (f_assert (mcols (qG qp) =? n) "qp->G.cols() == problem.dimension") ;;;
      lift (f_assert (List.length (qc qp) =? n) "qp->c.rows() == problem.dimension") ;;;
      lift (f_assert (mrows (qA qp) =? List.length (qb qp)) "qp->A_eq.rows() == qp->b_eq.rows()") ;;;
      doM vars <- get o_vars ;
      (* G.setZero(), c.setZero(), 181-183 *)
      modify (fun o => let q := o_qp o in
        set_qp (MkQP (mzero (mrows (qG q)) (mcols (qG q))) (vzero (List.length (qc q))) (qA q) (qb q) (qcons q)) o) ;;;
      doM f <- mfold (fun f r => doM e <- UpdateHessian_o r vars ; mret (fadd f e)) (pr_costs pr) f0 ;
      (* 187-189 *)
      modify (fun o => let q := o_qp o in
        if fgtb lambda f0
        then set_qp (MkQP (mkmat (mrows (qG q)) (mcols (qG q))
               (fun i j => if i =? j then fadd (mget (qG q) i j) lambda else mget (qG q) i j))
               (qc q) (qA q) (qb q) (qcons q)) o
        else o) ;;;
      (* A_eq.setZero(), b_eq.setZero(), 192-193 *)
      modify (fun o => let q := o_qp o in
        set_qp (MkQP (qG q) (qc q) (mzero (mrows (qA q)) (mcols (qA q))) (vzero (List.length (qb q))) (qcons q)) o) ;;;
      doM '(_, e) <- mfold (fun (acc : nat * F) r =>
          let (row, e) := acc in
          doM rows <- get (fun o => mrows (qA (o_qp o))) ;
          lift (f_assert (row + res_dim r <=? rows) "row + dim <= A_eq.rows()") ;;;
          doM br <- UpdateJacobian_o r vars row ;
          mret (row + res_dim r, fadd e (fl1 br))) (pr_eq pr) (0, f0) ;
      (* constraints.clear() and push_back, 208-211 *)
      modify (fun o => let q := o_qp o in set_qp (MkQP (qG q) (qc q) (qA q) (qb q) []) o) ;;;
      mfold (fun (_ : unit) c =>
          doM c' <- lift (ShiftToVec c vars) ;
          modify (fun o => let q := o_qp o in set_qp (MkQP (qG q) (qc q) (qA q) (qb q) (qcons q ++ [c'])) o))
        (pr_ineq pr) tt ;;;
      mret (MkErrors f e)).

  (** ComputeStepDirection, nonlinear.cc:216-259 *)
  Definition ComputeStepDirection_o (pa : NLSParams F) : M (QPOutputs F) :=
    scope "ComputeStepDirection" (
      modify (fun o => set_dx (vzero (List.length (o_dx o))) o) ;;;
      doM s <- get o_solver ;
      doM qp <- get o_qp ;
      match s with
      | HoldsInteriorPoint =>
        doM k <- get o_calls ;
        doM st <- lift (Setup (junk k) (Some qp)) ;
        doM '(st', outs) <- lift (IP_Solve ldlt (inner_qp_params pa pr) st) ;
        modify (set_dx (x_block st')) ;;;
        mret (InteriorPointOut outs)
      | HoldsNullSpace x =>
        doM '(t, x') <- lift (NS_Solve qr llt qp x) ;
        modify (set_solver (HoldsNullSpace x')) ;;;
        modify (fun o => match t with
                         | NS_SUCCESS => set_dx x' o
                         | NOT_POSITIVE_DEFINITE => set_dx (vzero (List.length (o_dx o))) o
                         end) ;;;
        mret (NullSpaceOut t)
      end).

  (** EvaluateNonlinearErrors, nonlinear.cc:279-293. error_buffer_.head(dim) needs a large enough buffer. *)
  Definition eval_residual_o (r : residual F) (vars : list F) : M (list F) :=
    doM buf <- get o_errbuf ;
    lift (ub_unless (res_dim r <=? List.length buf) "error_buffer_.head(dim)") ;;;
    lift (bind (GatherValues vars (res_index r)) (fun _ => Ok tt)) ;;;
    user_call ;;;
    doM e <- lift (ErrorVector r vars (res_dim r)) ;
    modify (fun o => set_errbuf (e ++ skipn (res_dim r) (o_errbuf o)) o) ;;;
    get (fun o => firstn (res_dim r) (o_errbuf o)).

  Definition EvaluateNonlinearErrors_o (vars : list F) : M (Errors F) :=
    scope "EvaluateNonlinearErrors" (
      doM f <- mfold (fun f r => doM e <- eval_residual_o r vars ; mret (fadd f (fmul (flit lit_half) (fsqnorm e))))
                     (pr_costs pr) f0 ;
      doM q <- mfold (fun q r => doM e <- eval_residual_o r vars ; mret (fadd q (fl1 e))) (pr_eq pr) f0 ;
      mret (MkErrors f q)).

  (** RetractCandidateVars, nonlinear.cc:160-168 *)
  Definition RetractCandidateVars_o (alpha : F) : M unit :=
    modify (fun o => set_vars_cand (o_vars o) (o_vars o) o) ;;;
    match retract with
    | Some f =>
      user_call ;;;
      modify (fun o => set_vars_cand (o_vars o) (f (o_cand o) (o_dx o) alpha) o)
    | None =>
      doM v <- get o_cand ;
      doM dx <- get o_dx ;
      lift (ub_unless (List.length v =? List.length dx) "candidate_vars_ += dx_ * alpha: size mismatch") ;;;
      modify (fun o => set_vars_cand (o_vars o) (vadd (o_cand o) (vscale (o_dx o) alpha)) o)
    end.

  (** Loop of SelectStepSize, nonlinear.cc:366-415 *)
  Fixpoint ls_loop_o (n : nat) (iter : nat) (alpha : F) (abs_tol : F) (errors_pre : Errors F)
      (dd : DirectionalDerivatives F) (penalty c1 : F) (strategy : LineSearchStrategy) (tau : F)
    : M StepSizeSelectionResult :=
    match n with
    | 0 => mret SS_MAX_ITERATIONS
    | Datatypes.S n' =>
      doM steps <- get o_steps ;
      doM oa <- lift (next_alpha strategy tau iter alpha steps errors_pre dd penalty) ;
      match oa with
      | None => mret FAILURE_INVALID_ALPHA
      | Some a =>
        RetractCandidateVars_o a ;;;
        doM cand <- get o_cand ;
        doM es <- EvaluateNonlinearErrors_o cand ;
        modify (fun o => set_steps (o_steps o ++ [MkStep a es]) o) ;;;
        if Errors_ContainsInvalidValues es then mret FAILURE_NON_FINITE_COST
        else if fltb (DD_LInfinity dd) abs_tol then mret FIRST_ORDER_SATISFIED
        else if fgtb (DD_Total dd penalty) f0 then mret POSITIVE_DERIVATIVE
        else if fleb (Errors_Total es penalty)
                     (fadd (Errors_Total errors_pre penalty) (fmul (fmul (DD_Total dd penalty) a) c1))
        then mret SS_SUCCESS
        else ls_loop_o n' (Datatypes.S iter) a abs_tol errors_pre dd penalty c1 strategy tau
      end
    end.

  (** SelectStepSize, nonlinear.cc:351-416 *)
  Definition SelectStepSize_o (max_iterations : Z) (abs_tol : F) (errors_pre : Errors F)
      (dd : DirectionalDerivatives F) (penalty c1 : F) (strategy : LineSearchStrategy) (tau : F)
    : M StepSizeSelectionResult :=
    scope "SelectStepSize" (
      lift (f_assert (fgtb penalty f0) "penalty > 0") ;;;
      lift (f_assert (negb (Errors_ContainsInvalidValues errors_pre)) "errors_pre is finite") ;;;
      modify (set_steps []) ;;;
      ls_loop_o (Z.to_nat (max_iterations + 1)) 0 f1 abs_tol errors_pre dd penalty c1 strategy tau).

  (** UpdateLambdaAndCheckExitConditions, nonlinear.cc:296-343. Returns the result and the new lambda. *)
  Definition UpdateLambda_o (pa : NLSParams F) (sr : StepSizeSelectionResult) (initial_errors : Errors F)
      (penalty lambda : F) : M (option NLSTerminationState * F) :=
    match sr with
    | SS_SUCCESS =>
      doM steps <- get o_steps ;
      lift (f_assert (0 <? List.length steps) "Must have logged a step") ;;;
      modify (fun o => set_vars_cand (o_cand o) (o_vars o) o) ;;;      (* swap *)
      doM s <- get o_state ;
      let lambda' :=
        match s with
        | ATTEMPTING_RESTORE_LM => fmax (fmul lambda (n_lambda_decrease_on_restore pa)) (n_min_lambda pa)
        | NOMINAL => fmax (fmul lambda (n_lambda_decrease_on_success pa)) (n_min_lambda pa)
        end in
      modify (set_state NOMINAL) ;;;
      let final_step := nth (List.length steps - 1) steps (MkStep f0 (MkErrors f0 f0)) in
      if fltb (Errors_LInfinity (step_errors final_step)) (n_absolute_exit_tol pa)
      then mret (Some SATISFIED_ABSOLUTE_TOL, lambda')
      else if fgtb (Errors_Total (step_errors final_step) penalty)
                   (fmul (Errors_Total initial_errors penalty) (fsub f1 (n_relative_exit_tol pa)))
      then mret (Some SATISFIED_RELATIVE_TOL, lambda')
      else mret (None, lambda')
    | FIRST_ORDER_SATISFIED => mret (Some SATISFIED_FIRST_ORDER_TOL, lambda)
    | SS_MAX_ITERATIONS | POSITIVE_DERIVATIVE =>
      doM s <- get o_state ;
      let lambda' :=
        match s with
        | NOMINAL => fmax (n_lambda_failure_init pa) (fmul lambda (flit lit_10))
        | ATTEMPTING_RESTORE_LM => fmul lambda (flit lit_10)
        end in
      modify (set_state ATTEMPTING_RESTORE_LM) ;;;
      if fgtb lambda' (n_max_lambda pa) then mret (Some MAX_LAMBDA, lambda') else mret (None, lambda')
    | FAILURE_NON_FINITE_COST | FAILURE_INVALID_ALPHA => mret (None, lambda)
    end.

  (** user_exit_callback_, set by SetUserExitCallback *)
  Variable cb : option (S -> NLSIteration F -> S * bool).

  (** The invocation of the callback, nonlinear.cc:146-147; [true] when there is none. *)
  Definition call_cb_o (info : NLSIteration F) : M bool :=
    match cb with
    | None => mret true
    | Some f =>
      modify note_seen ;;;
      user_call ;;;
      doM cs <- get o_cs ;
      let (cs', proceed) := f cs info in
      modify (set_cs cs') ;;;
      mret proceed
    end.

  (** The main loop, nonlinear.cc:96-157 *)
  Fixpoint loop_o (n : nat) (pa : NLSParams F) (iter : nat) (lambda penalty : F) (iterations : list (NLSIteration F))
    : M (NLSSolverOutputs F) :=
    match n with
    | 0 => mret (MkNLSOut NLS_MAX_ITERATIONS iterations)
    | Datatypes.S n' =>
      doM errors_pre <- LinearizeAndFillQP_o lambda ;
      doM qpo <- ComputeStepDirection_o pa ;
      if QPWasIndefinite qpo then mret (MkNLSOut QP_INDEFINITE iterations)
      else
        doM qp <- get o_qp ;
        doM dx <- get o_dx ;
        doM dd <- scope "ComputeQPCostDerivative" (lift (ComputeQPCostDerivative qp dx)) ;
        let penalty' := update_penalty pa pr qp dx qpo penalty in
        doM sr <- SelectStepSize_o (n_max_line_search_iterations pa) (n_absolute_first_derivative_tol pa) errors_pre dd
                    penalty' (flit lit_1em4) (n_line_search_strategy pa) (n_armijo_search_tau pa) ;
        doM '(maybe_exit, lambda') <- UpdateLambda_o pa sr errors_pre penalty' lambda ;
        doM s <- get o_state ;
        doM steps <- get o_steps ;
        modify (set_steps []) ;;;                                      (* std::move(steps_) *)
        let info := MkNLSIter (Z.of_nat iter) s lambda errors_pre qpo
                      (if n_log_qp_eigenvalues pa then Some (eigs (qG qp)) else None) dd penalty' sr steps in
        let iterations' := iterations ++ [info] in
        doM proceed <- call_cb_o info ;
        match maybe_exit with
        | Some t => mret (MkNLSOut t iterations')
        | None =>
          if proceed then loop_o n' pa (Datatypes.S iter) lambda' penalty' iterations'
          else mret (MkNLSOut USER_CALLBACK iterations')
        end
    end.

  (** The choice of the alternative of solver_, nonlinear.cc:83-89 *)
  Definition select_solver (o : obj) : obj :=
    if use_null_space pr
    then match o_solver o with HoldsNullSpace _ => o | HoldsInteriorPoint => set_solver (HoldsNullSpace []) o end
    else match o_solver o with HoldsInteriorPoint => o | HoldsNullSpace _ => set_solver HoldsInteriorPoint o end.

  (** Solve, nonlinear.cc:75-158 *)
  Definition Solve_o (pa : NLSParams F) (vars : list F) : M (NLSSolverOutputs F) :=
    scope "Solve" (
      lift (NLS_CheckParams pa) ;;;
      modify (fun o => set_vars_cand vars (o_cand o) o) ;;;
      modify (set_state NOMINAL) ;;;
      modify select_solver ;;;
      loop_o (Z.to_nat (n_max_iterations pa)) pa 0 (n_lambda_initial pa) (n_equality_penalty_initial pa) []).
End Object.
