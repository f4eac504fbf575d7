(** Concrete cases for theorems on residuals, linearisation, line search and penalty whose hypotheses are not met by a case
    elsewhere (see the index in DESIGN.md, section 4.3). *)
From Coq Require Import String List Bool Arith ZArith QArith Reals Lra Lia.
From Verif Require Import Scalar Outcome LinAlg Structs Constraint QPModel NullSpace Residual Nonlinear RInst Spec
  Props_Constraint QPBlocks QPAlgebra ResProps LinProps MeritProps LSProps InterpProps NSProps NLSTrace NLSProps NLSReal NLSBox Penalty NLSTotal
  Optimality Examples Examples2.
Import ListNotations.
Local Open Scope outcome_scope.
Local Open Scope string_scope.
Local Open Scope list_scope.
Local Open Scope R_scope.

(** C23: for a problem of two variables, [ros] is accepted and a residual on variable 2 is not. *)
Definition outside : residual R := MkRes 1 [2]%Z (fun p => p) (fun p => (p, Mat 1 1 [[1]])).
Example C23_case : forall H b params, mrows H = 2%nat -> mcols H = 2%nat -> length b = 2%nat -> length params = 2%nat ->
  (exists H' b' cost, UpdateHessian ros params H b = Ok (H', b', cost)) /\
  (exists w, UpdateHessian outside params H b = Throw (AssertFailed w)) /\
  (exists J e, UpdateJacobian ros params 2 = Ok (J, e)).
Proof.
  intros H b params HR HC HB HP.
  assert (IX : idx_ok ros (length params)) by (rewrite HP; intros i Hi; exact (ros_index i Hi)).
  assert (IO : ~ idx_ok outside (length params)).
  { rewrite HP. intro X. specialize (X 2%Z (or_introl eq_refl)). lia. }
  destruct (C23_UpdateHessian ros params H b) as [A _]; try congruence.
  destruct (C23_UpdateHessian outside params H b) as [_ B]; try congruence.
  destruct (C23_UpdateJacobian ros params 2 (eq_sym HP)) as [C _]. destruct (C IX) as [J E].
  splits; [exact (A IX)|exact (B IO)|eauto].
Qed.

(** C23: with three parameters, [outside] is accepted by a 3 x 3 Hessian and by a Jacobian of three columns, and refused by
    smaller ones, although its index is a valid index of the parameters. *)
Example C23_any_size_case : forall x y z,
  (exists H' b' cost, UpdateHessian outside [x; y; z] (mzero 3 3) [0; 0; 0] = Ok (H', b', cost)) /\
  (exists w, UpdateHessian outside [x; y; z] (mzero 2 2) [0; 0] = Throw (AssertFailed w)) /\
  (exists w, UpdateHessian outside [x; y; z] (mzero 3 3) [0; 0] = Throw (AssertFailed w)) /\
  (exists J, UpdateJacobian outside [x; y; z] 4 = Ok (J, [z])) /\
  (exists w, UpdateJacobian outside [x; y; z] 2 = Throw (AssertFailed w)).
Proof.
  intros x y z.
  assert (I3 : forall n, (3 <= n)%nat -> idx_ok outside n) by (intros n Hn i [<-|[]]; lia).
  assert (I2 : ~ idx_ok outside 2) by (intro X; specialize (X 2%Z (or_introl eq_refl)); lia).
  splits.
  - apply (proj1 (C23_UpdateHessian_any_size outside [x; y; z] (mzero 3 3) [0; 0; 0])).
    splits; try reflexivity; apply I3; cbn; lia.
  - apply (proj2 (C23_UpdateHessian_any_size outside [x; y; z] (mzero 2 2) [0; 0])). intros (_ & _ & _ & K). exact (I2 K).
  - apply (proj2 (C23_UpdateHessian_any_size outside [x; y; z] (mzero 3 3) [0; 0])). intros (_ & K & _). discriminate K.
  - apply (proj1 (C23_UpdateJacobian_any_size outside [x; y; z] 4)). split; apply I3; cbn; lia.
  - apply (proj2 (C23_UpdateJacobian_any_size outside [x; y; z] 2)). intros (_ & K). exact (I2 K).
Qed.

(** C24, C26, C41: [ex_ns] (Rosenbrock, subject to x0 = 1) can be linearised anywhere with any damping; the step
    dx = (1 - a, w) satisfies the linearised constraint, and its directional derivatives are computed; a step that does not satisfy
    it has them too. *)
Example C24_C26_C41_case : forall a b lambda w,
  distinct_indices ex_ns /\
  exists errs qp, LinearizeAndFillQP [a; b] lambda ex_ns = Ok (errs, qp) /\
    eq_feasible qp [1 - a; w] /\ (a <> 1 -> ~ eq_feasible qp [0; w]) /\ eq_l1 qp = Rabs (a - 1) /\
    (exists dd, ComputeQPCostDerivative qp [1 - a; w] = Ok dd) /\ (exists dd, ComputeQPCostDerivative qp [0; w] = Ok dd) /\
    (forall u r, length u = 2%nat -> In r (pr_costs ex_ns) \/ In r (pr_eq ex_ns) -> jac_correct r [a; b] u).
Proof.
  intros a b lambda w. split; [exact ex_ns_distinct|].
  pose proof (ex_ns_well_posed [a; b] eq_refl) as WP.
  destruct (linearise_total ex_ns [a; b] lambda eq_refl (wp_index _ _ _ WP) (fun k Hc => proj1 (wp_cons _ _ _ WP k Hc)) eq_refl)
    as (errs & qp & HL & GR & GC & CL & AR & AC & BL & QC).
  exists errs, qp. split; [exact HL|].
  destruct (C24_linearised_qp _ _ _ _ _ ex_ns_distinct HL) as (_ & _ & _ & _ & LE & EQ & _).
  change (eq_rows ex_ns) with 1%nat in BL.
  assert (K : forall dx, kkt_eq qp dx 0 = a - 1 + vget dx 0).
  { intro dx. specialize (LE dx). rewrite BL in LE. unfold mkvec in LE. cbn [seq map] in LE.
    unfold lin_equalities in LE. cbn [ex_ns pr_eq flat_map fix0 res_dim seq map app] in LE. injection LE as LE. rewrite LE.
    unfold lin_residual, gathered, gidx. cbn [fix0 res_index res_fJ fst snd map length Rsum nth Z.to_nat].
    cbv [vget mget mdata nth f0 R_ops]. ring. }
  assert (NE : neq qp = 1%nat) by (unfold neq; exact BL).
  splits.
  - intros k Hk. assert (k = 0%nat) by lia. subst k. rewrite K. cbv [vget nth]. ring.
  - intros NA X. specialize (X 0%nat ltac:(lia)). rewrite K in X. cbv [vget nth] in X. apply NA. lra.
  - unfold eq_l1. rewrite NE. cbn [Rsum]. specialize (K []). unfold kkt_eq in K.
    replace (Rsum (nv qp) (fun j => Ae qp 0 j * vget [] j)) with 0 in K
      by (symmetry; apply Rsum_0; intros [|j] _; cbv [vget nth f0 R_ops]; ring).
    change (vget [] 0) with 0 in K. replace (vget (qb qp) 0) with (a - 1) by lra. ring.
  - unfold ComputeQPCostDerivative. rewrite CL, AC. change (pdim ex_ns) with 2%nat. cbn [length Nat.eqb f_assert bind]. eexists. reflexivity.
  - unfold ComputeQPCostDerivative. rewrite CL, AC. change (pdim ex_ns) with 2%nat. cbn [length Nat.eqb f_assert bind]. eexists. reflexivity.
  - intros u r LU [[<-|[]]|[<-|[]]]; [apply ros_correct|apply fix0_correct]; auto.
Qed.

(** C27, C28: f(x) = x - 1 at x = 0 with the overlong step 3: the full step is rejected and half of it accepted. *)
Definition off1 : residual R := MkRes 1 [0]%Z (fun p => [vget p 0 - 1]) (fun p => ([vget p 0 - 1], Mat 1 1 [[1]])).
Definition ls_ex : ls_input (F := R) :=
  LSIn 2%Z (1 / 1000000) (MkProblem 1%Z [off1] [] []) [0] [3] (MkErrors (1 / 2) 0) (MkDD (-3) 0) 1 (1 / 10000) ARMIJO_BACKTRACK (1 / 2).
Lemma ls_ex_eval : forall x, EvaluateNonlinearErrors (MkProblem 1%Z [off1] [] []) [x] = Ok (MkErrors (/ 2 * ((x - 1) * (x - 1))) 0).
Proof.
  intro x. rewrite eval_errors_R.
  - unfold cost_at, eq_l1_at; cbn [pr_costs pr_eq map Rlsum]. f_equal. f_equal.
    cbn [off1 res_dim Rsum]. unfold gathered. cbn [off1 res_index res_f map nth Z.to_nat]. cbv [vget nth]. ring.
  - intros r [[<-|[]]|[]] i [<-|[]]. cbn. lia.
Qed.
Example C27_C28_case : exists e1 e2, run_line_search None ls_ex = Ok (SS_SUCCESS, [MkStep 1 e1; MkStep (1 * (1 / 2)) e2], [0 + 3 * (1 * (1 / 2))]).
Proof.
  unfold run_line_search, SelectStepSize. cbn [ls_ex li_max li_tol li_pr li_vars li_dx li_pre li_dd li_penalty li_c1 li_strategy li_tau].
  destruct (R_fgtb 1 f0) as [X|X]; [|exfalso; apply X; cbn [f0 R_ops]; lra].
  change (Errors_ContainsInvalidValues (MkErrors (1 / 2) 0)) with false. cbn [f_assert negb bind].
  assert (RT : forall a, RetractCandidateVars None [0] [3] a = Ok [0 + 3 * a]) by reflexivity.
  assert (LI : fltb (DD_LInfinity (MkDD (-3) 0)) (1 / 1000000) = false).
  { unfold DD_LInfinity. rewrite R_fmax. cbn [d_f d_equality fabs R_ops].
    pose proof (Rmax_l (Rabs (-3)) (Rabs 0)) as M. rewrite (Rabs_left (-3)) in M by lra.
    match goal with |- fltb ?a ?b = false => destruct (R_fltb a b) as [Y|Y]; [exfalso; rewrite (Rabs_left (-3)) in Y by lra; lra|reflexivity] end. }
  assert (DT : fgtb (DD_Total (MkDD (-3) 0) 1) f0 = false).
  { unfold DD_Total. cbn [d_f d_equality fadd fmul f0 R_ops].
    match goal with |- fgtb ?a ?b = false => destruct (R_fgtb a b) as [Y|Y]; [exfalso; lra|reflexivity] end. }
  assert (FIN : forall e : Errors R, Errors_ContainsInvalidValues e = false) by (intros [e1 e2]; reflexivity).
  change (Z.to_nat (2 + 1)) with 3%nat.
  cbn [ls_loop next_alpha Nat.eqb bind]. rewrite RT. cbn [bind]. rewrite ls_ex_eval. cbn [bind]. rewrite FIN, LI, DT.
  match goal with |- context[fleb ?a ?b] => destruct (R_fleb a b) as [Y|Y] end.
  { exfalso. revert Y. unfold Errors_Total, DD_Total. cbn [err_f err_equality d_f d_equality fadd fmul f1 R_ops]. lra. }
  cbn [app fmul f1 R_ops]. rewrite ?RT. cbn [bind]. rewrite ?ls_ex_eval. cbn [bind]. rewrite ?FIN, ?LI, ?DT. cbn [fmul f1 R_ops].
  match goal with |- context[fleb ?a ?b] => destruct (R_fleb a b) as [Z|Z] end.
  - cbn [app]. eexists _, _. reflexivity.
  - exfalso. apply Z. unfold Errors_Total, DD_Total. cbn [err_f err_equality d_f d_equality fadd fmul f1 R_ops]. lra.
Qed.
(** These inputs satisfy the other hypotheses of C27_sufficient_decrease and C28_step_sizes. *)
Example C27_C28_case_inputs : (0 <= li_max ls_ex)%Z /\ 0 < li_tau ls_ex < 1 /\ 0 <= li_c1 ls_ex.
Proof. cbn [ls_ex li_max li_tau li_c1]. split; [lia|]. lra. Qed.

(** C30: phi(0) = 1, phi'(0) = -1, phi(1) = 3/2, phi(1/5) = 9/10; c1 = 1/2 makes both values too large. *)
Example C30_case : exists m a b,
  QuadraticApproxMinimum 1 (-1) 1 (3 / 2) = Some m /\ m = 1 / 3 /\
  CubicApproxCoeffs 1 (-1) 1 (3 / 2) (1 / 5) (91 / 100) = Ok (a, b) /\
  91 / 100 > 1 + -1 * (1 / 5) * (1 / 2).
Proof.
  destruct (C30_quadratic_backtracks 1 (-1) 1 (3 / 2) (1 / 2)) as (m & E & _); try lra.
  destruct (proj1 (C29_cubic_interpolates 1 (-1) 1 (3 / 2) (1 / 5) (91 / 100))) as (a & b & C & _); [lra|].
  exists m, a, b. splits; [exact E| |exact C|lra].
  pose proof (C29_quadratic (3 / 2) (-1) 1 1 1 (-1) (3 / 2)) as Q. cbv zeta in Q. rewrite E in Q.
  destruct Q as (_ & _ & D & _); try lra.
  { apply (poly_slope _ 1 (-1) (3 / 2)). intro t. ring. }
  assert (D2 : derivable_pt_lim (fun t : R => 3 / 2 * t ^ 2 + -1 * t + 1) m (3 * m - 1)).
  { replace (3 * m - 1) with (3 / 2 * (INR 2 * m ^ pred 2) + -1 * 1 + 0) by (simpl; field).
    apply derivable_pt_lim_plus; [apply derivable_pt_lim_plus|apply derivable_pt_lim_const].
    - apply (derivable_pt_lim_scal (fun t => t ^ 2)). apply derivable_pt_lim_pow.
    - apply (derivable_pt_lim_scal (fun t => t)). apply derivable_pt_lim_id. }
  pose proof (uniqueness_limite _ _ _ _ D D2). lra.
Qed.

(** C33_penalty_exactly: [ex_ns] has an equality constraint and is solved from everywhere. *)
Example C33_case : forall (S : Type) (cb : option (S -> NLSIteration R -> S * bool)) eigs g a b cs,
  distinct_indices ex_ns /\ pr_eq ex_ns <> [] /\
  exists r, NLS_Solve ldlt2 ns_ex_qr ns_ex_llt eigs None cb default_NLSParams ex_ns g [a; b] cs = Ok r.
Proof. intros. splits; [exact ex_ns_distinct|discriminate|]. apply ex_ns_solved. reflexivity. Qed.
