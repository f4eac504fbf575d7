(** Concrete executions of the nonlinear solver, in binary64, that meet the hypotheses of the theorems about
    whole solves (those stated for any arithmetic, and those stated for binary64) and exercise every branch
    of their conclusions.  They are computed by the kernel with the factorisations of FloatRun.v. *)
From Coq Require Import String List Bool Arith ZArith QArith Lia.
From Flocq Require Import Core BinarySingleNaN.
From Verif Require Import Scalar Outcome LinAlg Structs Constraint QPModel NullSpace Residual Nonlinear Json
  LinProps NLSTrace NLSProps FloatInst FloatRun FloatCases JsonProps.
Import ListNotations.
Local Open Scope list_scope.
Local Open Scope nat_scope.

(** A callback that counts its invocations and returns false at the [n]-th one. *)
Definition counting (n : nat) : option (nat -> NLSIteration double -> nat * bool) :=
  Some (fun c _ => (Datatypes.S c, negb (Nat.eqb (Datatypes.S c) n))).
Definition run_n (n : nat) (pa : NLSParams double) (pr : Problem double) (x0 : list double) : outcome (@nls_result double nat) :=
  NLSTrace.solve inverse qr_d llt_d eig_d None (counting n) pa pr g_d x0 0.

(** Problems.  [two]: residual (x - 1, x + 1), whose cost never vanishes.  [away]: f(x) = x with Jacobian -1, a
    wrong derivative.  [root]: f(x) = sqrt x + 1, whose first step leaves the domain.  [indef]: nothing
    constrains the second variable. *)
Definition two : Problem double := MkProblem 1%Z [let e p := [fsub (vget p 0) f1; fadd (vget p 0) f1] in
   MkRes 2 [0]%Z e (fun p => (e p, Mat 2 1 [[f1]; [f1]]))] [] [].
Definition away : Problem double := MkProblem 1%Z [MkRes 1 [0]%Z (fun p => p) (fun p => (p, Mat 1 1 [[fneg f1]]))] [] [].
Definition root : Problem double := MkProblem 1%Z [let e p := [fadd (fsqrt (vget p 0)) f1] in
   MkRes 1 [0]%Z e (fun p => (e p, Mat 1 1 [[fdiv f1 (fmul (d 2) (fsqrt (vget p 0)))]]))] [] [].
Definition one_var (i : Z) : residual double := MkRes 1 [i]%Z (fun p => p) (fun p => (p, Mat 1 1 [[f1]])).
Definition indef : Problem double := MkProblem 3%Z [one_var 0] [] [one_var 2].

Definition log_of {S : Type} (r : @nls_result double S) : list (StepSizeSelectionResult * nat) :=
  map (fun i => (it_step_result i, length (it_line_search_steps i))) (out_iterations (res_out r)).

Ltac by_run t := match goal with |- exists r, ?o = Ok r /\ _ =>
  destruct (ok_of_test _ o (fun r => t r)) as (r & E & T); [vm_compute; reflexivity|exists r; split; [exact E|]] end.

Definition ssr_eqb (a b : StepSizeSelectionResult) : bool :=
  match a, b with
  | SS_SUCCESS, SS_SUCCESS | SS_MAX_ITERATIONS, SS_MAX_ITERATIONS | FIRST_ORDER_SATISFIED, FIRST_ORDER_SATISFIED
  | POSITIVE_DERIVATIVE, POSITIVE_DERIVATIVE | FAILURE_NON_FINITE_COST, FAILURE_NON_FINITE_COST
  | FAILURE_INVALID_ALPHA, FAILURE_INVALID_ALPHA => true
  | _, _ => false
  end.
Lemma ssr_eqb_eq : forall a b, ssr_eqb a b = true -> a = b.
Proof. intros [] []; intro H; try discriminate; reflexivity. Qed.
Fixpoint log_eqb (l m : list (StepSizeSelectionResult * nat)) : bool :=
  match l, m with
  | [], [] => true
  | (a, i) :: l, (b, j) :: m => ssr_eqb a b && Nat.eqb i j && log_eqb l m
  | _, _ => false
  end.
Lemma log_eqb_eq : forall l m, log_eqb l m = true -> l = m.
Proof.
  induction l as [|[a i] l IH]; intros [|[b j] m] H; try discriminate; [reflexivity|].
  cbn in H. rewrite !andb_true_iff in H. destruct H as [[H1 H2] H3].
  apply ssr_eqb_eq in H1. apply Nat.eqb_eq in H2. apply IH in H3. congruence.
Qed.
Definition state_eqb (a b : NLSTerminationState) : bool :=
  match a, b with
  | NLS_MAX_ITERATIONS, NLS_MAX_ITERATIONS | SATISFIED_ABSOLUTE_TOL, SATISFIED_ABSOLUTE_TOL
  | SATISFIED_RELATIVE_TOL, SATISFIED_RELATIVE_TOL | SATISFIED_FIRST_ORDER_TOL, SATISFIED_FIRST_ORDER_TOL
  | MAX_LAMBDA, MAX_LAMBDA | USER_CALLBACK, USER_CALLBACK | QP_INDEFINITE, QP_INDEFINITE => true
  | _, _ => false
  end.
Lemma state_eqb_eq : forall a b, state_eqb a b = true -> a = b.
Proof. intros [] []; intro H; try discriminate; reflexivity. Qed.
Definition outcome_test {S : Type} (t : NLSTerminationState) (l : list (StepSizeSelectionResult * nat)) (r : @nls_result double S) : bool :=
  state_eqb (out_termination_state (res_out r)) t && log_eqb (log_of r) l.
Lemma outcome_test_ok : forall (S : Type) t l (r : @nls_result double S), outcome_test t l r = true ->
  out_termination_state (res_out r) = t /\ log_of r = l.
Proof. intros S t l r H. unfold outcome_test in H. apply andb_true_iff in H. destruct H as [A B]. split; [apply state_eqb_eq|apply log_eqb_eq]; assumption. Qed.
Ltac run_ends t l := by_run (@outcome_test nat t l); apply outcome_test_ok; match goal with T : outcome_test _ _ _ = true |- _ => exact T end.

Definition pa0 (iters : Z) : NLSParams double := params iters 1 2 (d lit_1em6).


(** C31, C35, C36, C37: each of the seven termination states is the outcome of some solve. *)
Example C35_case_absolute : exists r, run_n 0 (pa0 5) ros_pr (pt (-5) (-3)) = Ok r /\
  out_termination_state (res_out r) = SATISFIED_ABSOLUTE_TOL /\ log_of r = [(SS_SUCCESS, 2); (SS_SUCCESS, 1); (SS_SUCCESS, 1)].
Proof. run_ends SATISFIED_ABSOLUTE_TOL [(SS_SUCCESS, 2); (SS_SUCCESS, 1); (SS_SUCCESS, 1)]. Qed.
Example C35_case_relative : exists r, run_n 0 (pa0 5) two [d (1 # 1000)] = Ok r /\
  out_termination_state (res_out r) = SATISFIED_RELATIVE_TOL /\ log_of r = [(SS_SUCCESS, 1)].
Proof. run_ends SATISFIED_RELATIVE_TOL [(SS_SUCCESS, 1)]. Qed.
Example C35_case_first_order : exists r, run_n 0 (pa0 5) two [d 3] = Ok r /\
  out_termination_state (res_out r) = SATISFIED_FIRST_ORDER_TOL /\ log_of r = [(SS_SUCCESS, 1); (FIRST_ORDER_SATISFIED, 1)].
Proof. run_ends SATISFIED_FIRST_ORDER_TOL [(SS_SUCCESS, 1); (FIRST_ORDER_SATISFIED, 1)]. Qed.
Example C35_case_max_iterations : exists r, run_n 0 (pa0 2) ros_pr (pt (-5) (-3)) = Ok r /\
  out_termination_state (res_out r) = NLS_MAX_ITERATIONS /\ log_of r = [(SS_SUCCESS, 2); (SS_SUCCESS, 1)].
Proof. run_ends NLS_MAX_ITERATIONS [(SS_SUCCESS, 2); (SS_SUCCESS, 1)]. Qed.
Example C35_case_indefinite : exists r, run_n 0 (pa0 5) indef (map d [1; 1; 1]%Q) = Ok r /\
  out_termination_state (res_out r) = QP_INDEFINITE /\ log_of r = [].
Proof. run_ends QP_INDEFINITE (@nil (StepSizeSelectionResult * nat)). Qed.
(** C37: the callback is invoked twice, and its second answer stops the solve. *)
Example C37_case : exists r, run_n 2 (pa0 5) ros_pr (pt (-5) (-3)) = Ok r /\
  out_termination_state (res_out r) = USER_CALLBACK /\ log_of r = [(SS_SUCCESS, 2); (SS_SUCCESS, 1)] /\ res_cb r = 2.
Proof.
  by_run (fun r : @nls_result double nat => outcome_test USER_CALLBACK [(SS_SUCCESS, 2); (SS_SUCCESS, 1)] r && Nat.eqb (res_cb r) 2).
  apply andb_true_iff in T. destruct T as [T1 T2]. apply outcome_test_ok in T1. apply Nat.eqb_eq in T2. tauto.
Qed.
(** C31 (no success keeps the initial guess), C34, C40: a wrong derivative makes every line search fail; lambda
    is 0, 0.01, 0.1, 1 and then exceeds max_lambda; the variables do not move. *)
Definition lambdas {S : Type} (r : @nls_result double S) : list double := map it_lambda (out_iterations (res_out r)).
Definition listb_eq (l m : list double) : bool := Nat.eqb (length l) (length m) && forallb (fun p => Beqb (fst p) (snd p)) (combine l m).
Definition failing : list (StepSizeSelectionResult * nat) := repeat (SS_MAX_ITERATIONS, 3) 4.
Example C31_C34_C40_case : exists r, run_n 0 (pa0 20) away [f1] = Ok r /\
  out_termination_state (res_out r) = MAX_LAMBDA /\ log_of r = failing /\
  listb_eq (lambdas r) [f0; d (1 # 100); d (1 # 10); f1] = true /\ listb_eq (res_vars r) [f1] = true.
Proof.
  by_run (fun r : @nls_result double nat => outcome_test MAX_LAMBDA failing r && listb_eq (lambdas r) [f0; d (1 # 100); d (1 # 10); f1] && listb_eq (res_vars r) [f1]).
  rewrite !andb_true_iff in T. destruct T as [[T1 T2] T3]. apply outcome_test_ok in T1. tauto.
Qed.
(** C40 finding: with lambda_failure_init = 0 the same problem runs to max_iterations with lambda = 0 throughout. *)
Definition no_failure_init (iters : Z) : NLSParams double := let q := pa0 iters in
  MkNLSParams iters 1 (n_termination_kkt_tolerance q) (n_absolute_exit_tol q) (n_relative_exit_tol q) (n_absolute_first_derivative_tol q)
    2 (n_line_search_strategy q) (n_armijo_search_tau q) (n_equality_penalty_initial q) (n_equality_penalty_scale_factor q)
    (n_equality_penalty_rho q) f0 f0 (n_lambda_decrease_on_success q) (n_lambda_decrease_on_restore q) (n_max_lambda q) f0 false.
Example C40_zero_case : exists r, run_n 0 (no_failure_init 12) away [f1] = Ok r /\
  out_termination_state (res_out r) = NLS_MAX_ITERATIONS /\ log_of r = repeat (SS_MAX_ITERATIONS, 3) 12 /\
  listb_eq (lambdas r) (repeat f0 12) = true.
Proof.
  by_run (fun r : @nls_result double nat => outcome_test NLS_MAX_ITERATIONS (repeat (SS_MAX_ITERATIONS, 3) 12) r && listb_eq (lambdas r) (repeat f0 12)).
  rewrite !andb_true_iff in T. destruct T as [T1 T2]. apply outcome_test_ok in T1. tauto.
Qed.
(** C39: the first step leaves the domain of sqrt, the cost is NaN, and the solver repeats that step until
    max_iterations. *)
Example C39_case : pr_eq root = [] /\ exists r, run_n 0 (pa0 6) root [f1] = Ok r /\
  out_termination_state (res_out r) = NLS_MAX_ITERATIONS /\ log_of r = repeat (FAILURE_NON_FINITE_COST, 1) 6.
Proof. split; [reflexivity|]. run_ends NLS_MAX_ITERATIONS (repeat (FAILURE_NON_FINITE_COST, 1) 6). Qed.

(** C49: with equality_penalty_initial = 0, a problem with equality constraints is solved (the first QP step raises the penalty),
    while one without throws. *)
Definition zero_penalty (iters : Z) : NLSParams double := let q := params_sph in
  MkNLSParams iters 1 (n_termination_kkt_tolerance q) (n_absolute_exit_tol q) (n_relative_exit_tol q) (n_absolute_first_derivative_tol q)
    2 (n_line_search_strategy q) (n_armijo_search_tau q) f0 (n_equality_penalty_scale_factor q)
    (n_equality_penalty_rho q) (n_lambda_initial q) (n_lambda_failure_init q) (n_lambda_decrease_on_success q)
    (n_lambda_decrease_on_restore q) (n_max_lambda q) (n_min_lambda q) false.
Definition at_one : Problem double := MkProblem 1%Z [one_var 0] []
  [let e p := [fsub (vget p 0) f1] in MkRes 1 [0]%Z e (fun p => (e p, Mat 1 1 [[f1]]))].
Example C49_zero_penalty_case :
  NLS_CheckParams (zero_penalty 3) = Ok tt /\
  (exists r, run_n 0 (zero_penalty 3) at_one [f0] = Ok r /\
     length (out_iterations (res_out r)) = 2 /\
     forallb (fun i => fgtb (it_penalty i) (d (1 # 10))) (out_iterations (res_out r)) = true) /\
  run_n 0 (zero_penalty 3) two [d 3] = Throw (AssertFailed "penalty > 0"%string).
Proof.
  splits; [vm_compute; reflexivity| |vm_compute; reflexivity].
  by_run (fun r : @nls_result double nat => Nat.eqb (length (out_iterations (res_out r))) 2 &&
            forallb (fun i => fgtb (it_penalty i) (d (1 # 10))) (out_iterations (res_out r))).
  apply andb_true_iff in T. destruct T as [T1 T2]. split; [apply Nat.eqb_eq; exact T1|exact T2].
Qed.

(** C25, C38: successful and failed iterations; both inner solvers are used. *)
Definition uses_ns {S : Type} (r : @nls_result double S) : bool :=
  forallb (fun i => match it_qp_outputs i with NullSpaceOut _ => true | _ => false end) (out_iterations (res_out r)).
Definition uses_ip {S : Type} (r : @nls_result double S) : bool :=
  forallb (fun i => match it_qp_outputs i with InteriorPointOut o => 2 <=? length (qp_iterations o) | _ => false end) (out_iterations (res_out r)).
Example C38_case_null_space : exists r, run_n 0 params_sph sph (map d [5; 7; -3; -8; 2; -1]%Q) = Ok r /\
  out_iterations (res_out r) <> [] /\ uses_ns r = true.
Proof.
  by_run (fun r : @nls_result double nat => negb (Nat.eqb (length (out_iterations (res_out r))) 0) && uses_ns r).
  apply andb_true_iff in T. destruct T as [T1 T2]. split; [|exact T2]. intro X. rewrite X in T1. discriminate.
Qed.
Example C38_case_interior_point : exists r, run_n 0 params_him him (pt (-15 # 10) (-45 # 10)) = Ok r /\
  out_iterations (res_out r) <> [] /\ uses_ip r = true.
Proof.
  by_run (fun r : @nls_result double nat => negb (Nat.eqb (length (out_iterations (res_out r))) 0) && uses_ip r).
  apply andb_true_iff in T. destruct T as [T1 T2]. split; [|exact T2]. intro X. rewrite X in T1. discriminate.
Qed.
Example C25_case : value_consistent ros_pr /\ value_consistent away /\ value_consistent him /\ value_consistent sph.
Proof.
  repeat split; intros r H p; cbn in H; repeat (destruct H as [H|H] || destruct H); subst; reflexivity.
Qed.

(** C46: a null space log consists of finite numbers only, so it survives printing and parsing; an interior
    point log does not, whatever the outcome of the solve. *)
Example C46_case_null_space : exists r, run_n 0 params_sph sph (map d [5; 7; -3; -8; 2; -1]%Q) = Ok r /\
  forall x, In x (numbers_of_outputs (res_out r)) -> ffinite x = true.
Proof.
  by_run (fun r : @nls_result double nat => forallb ffinite (numbers_of_outputs (res_out r))).
  apply forallb_forall. exact T.
Qed.
Example C46_case_interior_point : exists r, run_n 0 (pa0 5) ros_pr (pt (-5) (-3)) = Ok r /\
  out_iterations (res_out r) <> [] /\ pr_eq ros_pr = [] /\ ffinite (@fnan double DO) = false /\
  exists x, In x (numbers_of_outputs (res_out r)) /\ ffinite x = false.
Proof.
  by_run (fun r : @nls_result double nat => negb (Nat.eqb (length (out_iterations (res_out r))) 0) && existsb (fun x => negb (ffinite x)) (numbers_of_outputs (res_out r))).
  apply andb_true_iff in T. destruct T as [T1 T2]. split; [intro X; rewrite X in T1; discriminate|].
  split; [reflexivity|]. split; [reflexivity|]. apply existsb_exists in T2. destruct T2 as (x & X1 & X2). exists x.
  split; [exact X1|]. apply negb_true_iff in X2. exact X2.
Qed.
