(** Claims refuted by executions in binary64, computed by the kernel: C82 (near a minimum), and C42, C81, which hold in exact arithmetic. *)
From Coq Require Import String List Bool Arith ZArith QArith Lia.
From Flocq Require Import Core BinarySingleNaN.
From Verif Require Import Scalar Outcome LinAlg Structs Constraint QPModel NullSpace Residual Nonlinear Json
  LinProps NLSTrace NLSProps FloatInst FloatRun FloatCases JsonProps CasesRun.
Import ListNotations.
Local Open Scope list_scope.
Local Open Scope nat_scope.

(** f(x) = 1 - x + 1000 x^20, f'(x) = 20000 x^19 - 1. *)
Definition fpow (x : double) (n : nat) : double := Nat.iter n (fmul x) f1.
Definition wall_f (x : double) : double := fadd (fsub f1 x) (fmul (d 1000) (fpow x 20)).
Definition wall_j (x : double) : double := fsub (fmul (d 20000) (fpow x 19)) f1.
Definition wall : Problem double := MkProblem 1%Z [let e p := [wall_f (vget p 0)] in
   MkRes 1 [0]%Z e (fun p => (e p, Mat 1 1 [[wall_j (vget p 0)]]))] [] [].
Definition wall_test (v : list double) : bool :=
  match v, EvaluateNonlinearErrors wall v, EvaluateNonlinearErrors wall [d (1 # 2)] with
  | [x], Ok e, Ok e' => fgtb (err_f e) (d (49 # 100)) && fltb (wall_j x) (d (-9 # 10)) && fltb (err_f e') (d (13 # 100))
  | _, _, _ => false
  end.
Lemma wall_test_ok : forall v, wall_test v = true ->
  exists x e e', v = [x] /\ EvaluateNonlinearErrors wall [x] = Ok e /\ fgtb (err_f e) (d (49 # 100)) = true /\
    fltb (wall_j x) (d (-9 # 10)) = true /\
    EvaluateNonlinearErrors wall [d (1 # 2)] = Ok e' /\ fltb (err_f e') (d (13 # 100)) = true.
Proof.
  unfold wall_test. generalize (EvaluateNonlinearErrors wall [d (1 # 2)]), (d (49 # 100)), (d (-9 # 10)), (d (13 # 100)), wall_j.
  generalize (EvaluateNonlinearErrors wall). intros ev o a b c j v.
  destruct v as [|x [|y l]]; try discriminate. destruct (ev [x]) as [e|w|w] eqn:E1; try discriminate.
  destruct o as [e'|w|w]; try discriminate. intro T. apply andb_true_iff in T. destruct T as [T T3]. apply andb_true_iff in T. destruct T as [T1 T2].
  exists x, e, e'. repeat split; assumption.
Qed.

(** The default parameters, from x = 0: the full step 1 is rejected, the quadratic model proposes a step of about 1e-6, which is accepted
    and changes the cost by 2 parts in a million; Solve reports SATISFIED_RELATIVE_TOL.  The cost is still above 0.49 and f' is below
    -0.9 there, while the cost at 1/2 is below 0.13. *)
Theorem C82_relative_tol_near_minimum_refuted : exists r, run_n 0 default_NLSParams wall [f0] = Ok r /\
  out_termination_state (res_out r) = SATISFIED_RELATIVE_TOL /\
  exists x e e', res_vars r = [x] /\ EvaluateNonlinearErrors wall [x] = Ok e /\ fgtb (err_f e) (d (49 # 100)) = true /\
    fltb (wall_j x) (d (-9 # 10)) = true /\
    EvaluateNonlinearErrors wall [d (1 # 2)] = Ok e' /\ fltb (err_f e') (d (13 # 100)) = true.
Proof.
  by_run (fun r : @nls_result double nat => state_eqb (out_termination_state (res_out r)) SATISFIED_RELATIVE_TOL && wall_test (res_vars r)).
  apply andb_true_iff in T. destruct T as [T1 T2]. split; [apply state_eqb_eq; exact T1|]. exact (wall_test_ok _ T2).
Qed.

(** ** C81 in binary64 *)
(** f(x) = 1 - x + 1000 x^2 / (x^2 + 1e-14), with its derivative; f(0) = 1 and f'(0) = -1, so that the first step, 1, is a descent direction. *)
Definition pit_f (x : double) : double := fadd (fsub f1 x) (fmul (d 1000) (fdiv (fmul x x) (fadd (fmul x x) (d (1 # 100000000000000))))).
Definition pit_j (x : double) : double :=
  let q := fadd (fmul x x) (d (1 # 100000000000000)) in
  fsub (fmul (d 1000) (fdiv (fmul (fmul (d 2) x) (d (1 # 100000000000000))) (fmul q q))) f1.
Definition pit : Problem double := MkProblem 1%Z [let e p := [pit_f (vget p 0)] in
   MkRes 1 [0]%Z e (fun p => (e p, Mat 1 1 [[pit_j (vget p 0)]]))] [] [].
Definition slopes_negative {S : Type} (r : @nls_result double S) : bool :=
  forallb (fun i => fltb (d_f (it_directional_derivatives i)) (d (-9 # 10))) (out_iterations (res_out r)).

(** With the default parameters, in binary64: the slope of the cost along the step is -1, but -b + sqrt(b^2 - 3 a phi') cancels to zero in
    CubicApproxMinimum, and the line search reports FAILURE_INVALID_ALPHA; as neither x nor lambda changes, all ten iterations are alike.
    In exact arithmetic this cannot happen (C81_invalid_alpha_only_if_flat). *)
Theorem C81_binary64_cancellation_refuted : exists r, run_n 0 default_NLSParams pit [f0] = Ok r /\
  out_termination_state (res_out r) = NLS_MAX_ITERATIONS /\ log_of r = repeat (FAILURE_INVALID_ALPHA, 2) 10 /\
  slopes_negative r = true /\ listb_eq (res_vars r) [f0] = true.
Proof.
  by_run (fun r : @nls_result double nat => outcome_test NLS_MAX_ITERATIONS (repeat (FAILURE_INVALID_ALPHA, 2) 10) r && slopes_negative r && listb_eq (res_vars r) [f0]).
  apply andb_true_iff in T. destruct T as [T T3]. apply andb_true_iff in T. destruct T as [T1 T2]. apply outcome_test_ok in T1. tauto.
Qed.

(** ** C42 in binary64 *)
(** f(x) = x + 1e12 with the constraint 0.7 x + 1e9 >= 0. *)
Definition far : Problem double := MkProblem 1%Z [let e p := [fadd (vget p 0) (d 1000000000000)] in
   MkRes 1 [0]%Z e (fun p => (e p, Mat 1 1 [[f1]]))] [LIC 0%Z (d (7 # 10)) (d 1000000000)] [].
Definition outside_by (c : lic double) (tol : double) (v : list double) : bool :=
  match v with [x] => negb (IsFeasible c x) && fltb (fadd (fmul (la c) x) (lb c)) (fneg tol) | _ => false end.
Lemma outside_by_ok : forall c tol v, outside_by c tol v = true ->
  exists x, v = [x] /\ IsFeasible c x = false /\ fltb (fadd (fmul (la c) x) (lb c)) (fneg tol) = true.
Proof.
  intros c tol v H. unfold outside_by in H. destruct v as [|x [|y l]]; try discriminate. apply andb_true_iff in H. destruct H as [A B].
  exists x. split; [reflexivity|]. split; [apply negb_true_iff; exact A|exact B].
Qed.
(** The default parameters, from the feasible point x = 0: the rounding of the last step carries x across the bound; Solve succeeds at a point
    for which IsFeasible is false and the constraint function (computed in binary64) is below -1e-9, the bound that holds in exact arithmetic. *)
Theorem C42_binary64_rounding_refuted :
  forallb (fun c => IsFeasible c (@f0 double _)) (pr_ineq far) = true /\
  exists r, run_n 0 default_NLSParams far [f0] = Ok r /\
    out_termination_state (res_out r) = SATISFIED_RELATIVE_TOL /\
    exists x, res_vars r = [x] /\ IsFeasible (LIC 0%Z (d (7 # 10)) (d 1000000000)) x = false /\
      fltb (fadd (fmul (d (7 # 10)) x) (d 1000000000)) (fneg (d lit_1em9)) = true.
Proof.
  split; [vm_compute; reflexivity|].
  by_run (fun r : @nls_result double nat => state_eqb (out_termination_state (res_out r)) SATISFIED_RELATIVE_TOL &&
    outside_by (LIC 0%Z (d (7 # 10)) (d 1000000000)) (d lit_1em9) (res_vars r)).
  apply andb_true_iff in T. destruct T as [T1 T2]. split; [apply state_eqb_eq; exact T1|]. exact (outside_by_ok _ _ _ T2).
Qed.
