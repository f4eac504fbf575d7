(** Concrete cases for C83: the Rosenbrock function and a linear problem, both with the constraint x0 = 1
    (see the index in DESIGN.md, section 4.3). *)
From Coq Require Import String List Bool Arith ZArith QArith Reals Lra Lia.
From Verif Require Import Scalar Outcome LinAlg Structs Constraint QPModel NullSpace Residual Nonlinear RInst Spec
  Props_Constraint QPBlocks QPAlgebra ResProps LinProps MeritProps LSProps NSProps NLSTrace NLSProps NLSReal NLSBox Penalty NLSTotal
  Optimality QPRegular Examples Examples2 NLSRate NLSConstrained Factorisations NLSRegular CasesMore QPStep RateCases.
Import ListNotations.
Local Open Scope outcome_scope.
Local Open Scope string_scope.
Local Open Scope list_scope.
Local Open Scope R_scope.

(** The multiplier of a problem in two variables with the constraint x0 = 1 is the derivative of the QP's objective by x0; its
    derivative by x1 vanishes. *)
Lemma eq_multiplier : forall c v lambda errs qp dx (f : R -> R -> R), ex_cost c ->
  LinearizeAndFillQP v lambda (eq_pr c) = Ok (errs, qp) -> length v = 2%nat -> length dx = nv qp -> eq_feasible qp dx ->
  (forall x', length x' = nv qp -> eq_feasible qp x' -> objective qp dx <= objective qp x') ->
  (forall p q, err_f errs + objective qp [p; q] = f p q) ->
  let p := vget dx 0 in let q := vget dx 1 in
  p = 1 - vget v 0 /\ (f p (q + 1) - f p (q - 1)) / 2 = 0 /\
  exists y : nat -> R, y 0%nat = (f (p + 1) q - f (p - 1) q) / 2 /\
    (forall k, (k < neq qp)%nat -> k = 0%nat) /\
    forall i, (i < nv qp)%nat ->
      Rsum (nv qp) (fun j => Gs qp i j * vget dx j) + vget (qc qp) i = Rsum (neq qp) (fun k => Ae qp k i * y k).
Proof.
  intros c v lambda errs qp dx f HC HL LV LD FE MIN HF p q.
  destruct (C24_linearised_qp _ _ _ _ _ (eq_distinct c HC) HL) as ((_ & _ & CL & _ & AR) & _ & _ & _ & LE & _ & _).
  pose proof (eq_matrix c _ _ _ _ HL) as EA.
  assert (N2 : nv qp = 2%nat) by (unfold nv; rewrite CL; reflexivity).
  assert (N1 : neq qp = 1%nat) by (unfold neq; rewrite <- AR, EA; reflexivity).
  pose proof (minimiser_stationary qp dx FE MIN) as ST.
  rewrite N2 in LD. destruct (len2 dx LD) as (d0 & d1 & ->). unfold p, q. change (vget [d0; d1] 0) with d0. change (vget [d0; d1] 1) with d1.
  destruct (len2 v LV) as (a & b & ->). change (vget [a; b] 0) with a.
  assert (POL : forall u0 u1, (f (d0 + u0) (d1 + u1) - f (d0 - u0) (d1 - u1)) / 2 = bform qp [d0; d1] [u0; u1] + gdot qp [u0; u1]).
  { intros u0 u1. rewrite <- !HF.
    pose proof (objective_along qp [d0; d1] [u0; u1] 1) as O1. pose proof (objective_along qp [d0; d1] [u0; u1] (-1)) as O2. rewrite N2 in O1, O2.
    replace (along 2 [d0; d1] [u0; u1] 1) with [d0 + u0; d1 + u1] in O1
      by (unfold along, mkvec; cbn [seq map]; unfold vget; cbn [nth]; f_equal; [ring|f_equal; ring]).
    replace (along 2 [d0; d1] [u0; u1] (-1)) with [d0 - u0; d1 - u1] in O2
      by (unfold along, mkvec; cbn [seq map]; unfold vget; cbn [nth]; f_equal; [ring|f_equal; ring]).
    rewrite O1, O2. field. }
  assert (A00 : Ae qp 0 0 = 1) by (unfold Ae; rewrite EA; reflexivity).
  assert (A01 : Ae qp 0 1 = 0) by (unfold Ae; rewrite EA; reflexivity).
  splits.
  - specialize (FE 0%nat ltac:(rewrite N1; lia)). specialize (LE [d0; d1]).
    assert (X : kkt_eq qp [d0; d1] 0 = a - 1 + d0).
    { unfold neq in N1. rewrite N1 in LE. unfold mkvec in LE. cbn [seq map] in LE. unfold lin_equalities in LE. cbn [pr_eq eq_pr flat_map fix0 res_dim app] in LE.
      unfold mkvec in LE. cbn [seq map] in LE. injection LE as LE. rewrite LE. unfold lin_residual. peval. ring. }
    lra.
  - replace d1 with (d1 + 0) at 1 by ring.
    replace (f d0 (d1 + 0 + 1)) with (f (d0 + 0) (d1 + 1)) by (f_equal; ring). replace (f d0 (d1 - 1)) with (f (d0 - 0) (d1 - 1)) by (f_equal; ring).
    rewrite POL. apply ST. intros k Hk. rewrite N1 in Hk. replace k with 0%nat by lia. rewrite N2. cbn [Rsum]. rewrite A00, A01. unfold vget. cbn [nth]. ring.
  - exists (fun _ => bform qp [d0; d1] [1; 0] + gdot qp [1; 0]). splits.
    + rewrite <- POL. f_equal. f_equal; f_equal; ring.
    + intros k Hk. lia.
    + assert (S1 : bform qp [d0; d1] [0; 1] + gdot qp [0; 1] = 0).
      { apply ST. intros k Hk. rewrite N1 in Hk. replace k with 0%nat by lia. rewrite N2. cbn [Rsum]. rewrite A00, A01. unfold vget. cbn [nth]. ring. }
      unfold bform, gdot in *. rewrite N1, N2 in *. cbn [Rsum] in *.
      intros i Hi. assert (K : i = 0%nat \/ i = 1%nat) by lia.
      unfold vget in *. cbn [nth] in *. rewrite (Gs_sym qp 0 1) in *.
      destruct K as [-> | ->]; rewrite ?A00, ?A01, ?(Gs_sym qp 0 1); [ring|]. apply Rminus_diag_uniq. refine (eq_trans _ S1). ring.
Qed.

(** C83: from every start, with the default parameters or with back-tracking, Solve on the Rosenbrock function with x0 = 1
    ends with one of the SATISFIED_* states when it is allowed enough iterations and line search steps, and the penalty
    never exceeds 1.01 * 2 / 0.9 (the multiplier is -2 everywhere). *)
Lemma ros_multiplier : forall v errs qp, LinearizeAndFillQP v 0 (eq_pr ros) = Ok (errs, qp) -> length v = 2%nat -> multipliers_within qp 2.
Proof.
  intros v errs qp HL LV dx LD FE MIN. assert (HC : ex_cost ros) by (left; reflexivity).
  destruct (C24_linearised_qp _ _ _ _ _ (eq_distinct ros HC) HL) as (_ & OBJ & _).
  pose proof LV as LV'. destruct (len2 v LV') as (a & b & ->).
  destruct (eq_multiplier ros _ _ _ _ dx (fun p q => / 2 * ((a - 3 + p) * (a - 3 + p) + (10 * (b - a * a) - 20 * a * p + 10 * q) * (10 * (b - a * a) - 20 * a * p + 10 * q)))
              HC HL LV LD FE MIN) as (P0 & Q0 & y & Y0 & K0 & KKT).
  { intros p q. rewrite OBJ, Rmax_left by lra. unfold lin_cost, eq_pr. cbn [pr_costs map Rlsum ros res_dim Rsum]. unfold lin_residual. peval. field. }
  exists y. split; [|exact KKT]. intros k Hk. rewrite (K0 k Hk), Y0.
  change (vget [a; b] 0) with a in P0. set (p := vget dx 0) in *. set (q := vget dx 1) in *.
  assert (R1 : 10 * (b - a * a) - 20 * a * p + 10 * q = 0) by lra.
  replace (_ / 2) with ((a - 3 + p) - 20 * a * (10 * (b - a * a) - 20 * a * p + 10 * q)) by field. rewrite R1, P0.
  apply Rabs_le. lra.
Qed.

Lemma ros_start : forall pa vars, length vars = 2%nat -> pa = armijo_params \/ pa = default_NLSParams -> well_posed pa (eq_pr ros) vars.
Proof.
  intros pa vars LV HPA. assert (HC : ex_cost ros) by (left; reflexivity).
  destruct HPA as [->| ->]; apply eq_well_posed; auto; [exact armijo_valid|cbn [armijo_params n_equality_penalty_initial]; lra|exact ex_params_valid|
    cbn [default_NLSParams n_equality_penalty_initial f1 R_ops]; lra].
Qed.
Lemma ros_params : forall pa, pa = armijo_params \/ pa = default_NLSParams ->
  1 / 4503599627370496 * 3 <= n_absolute_first_derivative_tol pa /\ 0 < n_relative_exit_tol pa /\ 0 < n_equality_penalty_rho pa /\
  n_min_lambda pa = 0 /\ n_lambda_initial pa = 0.
Proof.
  intros pa HPA. destruct HPA as [->| ->];
    cbn [armijo_params default_NLSParams n_absolute_first_derivative_tol n_relative_exit_tol n_equality_penalty_rho n_lambda_initial n_min_lambda flit f0 R_ops];
    [|unfold lit_1em6, lit_0_1, Q2R; cbn [Qnum Qden]]; repeat split; try lra.
Qed.

Example C83_case : forall eigs g vars pa, length vars = 2%nat -> pa = armijo_params \/ pa = default_NLSParams ->
  exists K, forall m, (K < m)%Z -> exists L, forall l, (L <= l)%Z ->
    exists r, NLS_Solve ldlt2 ns_ex_qr ns_ex_llt eigs None (@None (unit -> NLSIteration R -> unit * bool))
                (with_ls l (with_max_iterations m pa)) (eq_pr ros) g vars tt = Ok r /\
      satisfied (out_termination_state (res_out r)) /\
      forall info, In info (out_iterations (res_out r)) -> good_step (it_step_result info) /\ it_penalty info <= penalty_limit pa 2.
Proof.
  intros eigs g vars pa LV HPA. assert (HC : ex_cost ros) by (left; reflexivity).
  pose proof (ros_start pa vars LV HPA) as WP. pose proof (ros_params pa HPA) as POS.
  destruct POS as (P1 & P2 & P3 & P4 & P5).
  apply C83_equality_constrained_solve_satisfied; try assumption; try lra.
  - reflexivity.
  - discriminate.
  - cbv; lia.
  - apply eq_distinct; exact HC.
  - apply (eq_exact ros). discriminate.
  - apply eq_derivatives; exact HC.
  - apply eq_consistent; exact HC.
  - intros v lambda errs qp (Hv & _) HLam HL. rewrite P4, P5, Rmax_left in HLam by lra. assert (lambda = 0) by lra. subst lambda.
    rewrite (eq_matrix ros _ _ _ _ HL). splits.
    + reflexivity.
    + apply (ros_curved (eq_pr ros) v 0 errs qp); auto; [apply eq_distinct; exact HC|lra].
    + apply (ros_multiplier v errs); assumption.
Qed.

(** C83: the linear problem (x0 - 1, 2 x1 - x0) with x0 = 1, from (2, 1/2), back-tracking: with any damping up to max_lambda = 1
    the multipliers are at most 4 at all points no worse than the start. *)
Lemma lin_multiplier : forall v lambda errs qp, no_worse (eq_pr lin) 1 (penalty_limit armijo_params 4) [2; / 2] v -> 0 <= lambda <= 1 ->
  LinearizeAndFillQP v lambda (eq_pr lin) = Ok (errs, qp) -> multipliers_within qp 4.
Proof.
  intros v lambda errs qp (LV & VB & CB) HLam HL dx LD FE MIN. assert (HC : ex_cost lin) by (right; reflexivity).
  destruct (C24_linearised_qp _ _ _ _ _ (eq_distinct lin HC) HL) as (_ & OBJ & _).
  change (pdim (eq_pr lin)) with 2%nat in LV. pose proof LV as LV'. destruct (len2 v LV') as (a & b & ->).
  destruct (eq_multiplier lin _ _ _ _ dx (fun p q => / 2 * ((a - 1 + p) * (a - 1 + p) + (2 * b - a - p + 2 * q) * (2 * b - a - p + 2 * q)) + / 2 * lambda * (p * p + q * q))
              HC HL LV LD FE MIN) as (P0 & Q0 & y & Y0 & K0 & KKT).
  { intros p q. rewrite OBJ, Rmax_left by lra. change (Z.to_nat (pr_dimension (eq_pr lin))) with 2%nat.
    unfold lin_cost, eq_pr. cbn [pr_costs map Rlsum lin res_dim Rsum]. unfold lin_residual. peval. field. }
  exists y. split; [|exact KKT]. intros k Hk. rewrite (K0 k Hk), Y0.
  change (vget [a; b] 0) with a in P0. set (p := vget dx 0) in *. set (q := vget dx 1) in *. clearbody p q.
  assert (M0 : cost_at (eq_pr lin) [2; / 2] / 1 + eq_l1_at (eq_pr lin) [2; / 2] = 2).
  { unfold cost_at, eq_l1_at, eq_pr. cbn [pr_costs pr_eq map Rlsum lin fix0 res_dim Rsum]. peval. rewrite (Rabs_pos_eq) by lra. field. }
  assert (PL : penalty_limit armijo_params 4 <= 9 / 2).
  { unfold penalty_limit. cbn [armijo_params n_equality_penalty_initial n_equality_penalty_scale_factor n_equality_penalty_rho]. apply Rmax_lub; lra. }
  rewrite M0 in VB, CB.
  assert (AB : Rabs (a - 1) <= 2).
  { revert VB. unfold eq_l1_at, eq_pr. cbn [pr_eq map Rlsum fix0 res_dim Rsum]. peval. intro. lra. }
  assert (CC : (2 * b - a) * (2 * b - a) <= 18).
  { assert (X : cost_at (eq_pr lin) [a; b] = / 2 * ((a - 1) * (a - 1)) + / 2 * ((2 * b - a) * (2 * b - a))).
    { unfold cost_at, eq_pr. cbn [pr_costs map Rlsum lin res_dim Rsum]. peval. field. }
    rewrite X in CB. pose proof (sq_nonneg (a - 1)). nra. }
  assert (BB : -5 <= 2 * b - a <= 5) by (split; nra).
  replace (_ / 2) with ((a - 1 + p) - (2 * b - a - p + 2 * q) + lambda * p) by field.
  assert (R1 : 2 * (2 * b - a - p + 2 * q) + lambda * q = 0) by lra.
  set (r := 2 * b - a - p + 2 * q) in *.
  assert (RB : (4 + lambda) * r = lambda * (2 * b - a - p)) by (unfold r in *; nra).
  assert (- 2 <= a - 1 <= 2) by (revert AB; unfold Rabs; destruct (Rcase_abs (a - 1)); lra).
  assert (R2 : - 7 / 5 <= r <= 7 / 5).
  { rewrite P0 in RB. assert (-7 <= 2 * b - a - (1 - a) <= 7) by lra. split; nra. }
  rewrite P0. apply Rabs_le. assert (-2 <= lambda * (1 - a) <= 2) by (split; nra). lra.
Qed.

Example C83_bounded_case : exists K, forall m l ldlt eigs retract (S : Type) (cb : option (S -> NLSIteration R -> S * bool)) g cs r,
  retraction_ok retract ->
  NLS_Solve ldlt ns_ex_qr ns_ex_llt eigs retract cb (with_ls l (with_max_iterations m armijo_params)) (eq_pr lin) g [2; / 2] cs = Ok r ->
  (length (out_iterations (res_out r)) <= K)%nat /\ ((Z.of_nat K < m)%Z -> out_termination_state (res_out r) <> NLS_MAX_ITERATIONS).
Proof.
  assert (HC : ex_cost lin) by (right; reflexivity).
  apply (C83_enough_iterations ns_ex_qr ns_ex_llt (eq_pr lin) armijo_params [2; / 2] 4); try reflexivity;
    try (cbn [armijo_params n_relative_exit_tol n_lambda_failure_init]; lra).
  - apply eq_well_posed; auto; [exact armijo_valid|cbn [armijo_params n_equality_penalty_initial]; lra].
  - discriminate.
  - apply eq_distinct; exact HC.
  - apply (eq_exact lin). discriminate.
  - apply eq_consistent; exact HC.
  - intros v lambda errs qp NW HLam HL. apply (lin_multiplier v lambda errs qp NW); [exact HLam|exact HL].
Qed.
(** Such a Solve does return. *)
Example C83_bounded_case_runs : forall eigs g m, (0 <= m)%Z -> exists r,
  NLS_Solve ldlt2 ns_ex_qr ns_ex_llt eigs None (@None (unit -> NLSIteration R -> unit * bool)) (with_ls 2 (with_max_iterations m armijo_params)) (eq_pr lin) g [2; / 2] tt = Ok r.
Proof.
  intros eigs g m Hm. apply eq_returns; [right; reflexivity| |cbn [with_ls with_max_iterations armijo_params n_equality_penalty_initial]; lra|reflexivity].
  destruct armijo_valid. constructor; assumption.
Qed.

(** C84: the equality constrained Rosenbrock function again, with factorisations that do not depend on the problem. *)
Example C84_case : exists ldlt qr llt, forall eigs g vars pa, length vars = 2%nat -> pa = armijo_params \/ pa = default_NLSParams ->
  exists K, forall m, (K < m)%Z -> exists L, forall l, (L <= l)%Z ->
    exists r, NLS_Solve ldlt qr llt eigs None (@None (unit -> NLSIteration R -> unit * bool))
                (with_ls l (with_max_iterations m pa)) (eq_pr ros) g vars tt = Ok r /\
      satisfied (out_termination_state (res_out r)).
Proof.
  destruct C84_every_regular_equality_problem_solved as (ldlt & qr & llt & ALL). exists ldlt, qr, llt. intros eigs g vars pa LV HPA.
  assert (HC : ex_cost ros) by (left; reflexivity). destruct (ros_params pa HPA) as (P1 & P2 & P3 & P4 & P5).
  apply (ALL eigs (eq_pr ros) g pa vars 2); try assumption; try lra.
  - apply ros_start; assumption.
  - reflexivity.
  - discriminate.
  - cbv; lia.
  - apply eq_distinct; exact HC.
  - apply eq_derivatives; exact HC.
  - apply eq_consistent; exact HC.
  - intros v lambda errs qp (Hv & _) HLam HL. rewrite P4, P5, Rmax_left in HLam by lra. assert (lambda = 0) by lra. subst lambda.
    rewrite (eq_matrix ros _ _ _ _ HL). splits.
    + intros y HY k Hk. cbn [mrows] in Hk. replace k with 0%nat by lia. specialize (HY 0%nat ltac:(cbn; lia)). revert HY. unfold mget. cbn [mdata mrows Rsum nth]. lra.
    + apply (ros_curved (eq_pr ros) v 0 errs qp); auto; [apply eq_distinct; exact HC|lra].
    + apply (ros_multiplier v errs); assumption.
Qed.
Example C84_unconstrained_case : exists ldlt qr llt, forall eigs g vars pa, length vars = 2%nat -> pa = armijo_params \/ pa = default_NLSParams ->
  exists K, forall m, (K < m)%Z -> exists L, forall l, (L <= l)%Z ->
    exists r, NLS_Solve ldlt qr llt eigs None (@None (unit -> NLSIteration R -> unit * bool))
                (with_ls l (with_max_iterations m pa)) (free_pr ros) g vars tt = Ok r /\
      satisfied (out_termination_state (res_out r)).
Proof.
  destruct C84_every_unconstrained_problem_solved as (ldlt & qr & llt & ALL). exists ldlt, qr, llt. intros eigs g vars pa LV HPA.
  assert (HC : ex_cost ros) by (left; reflexivity). destruct (ros_params pa HPA) as (P1 & P2 & P3 & P4 & P5).
  assert (LF : 0 < n_lambda_failure_init pa).
  { destruct HPA as [->| ->]; cbn [armijo_params default_NLSParams n_lambda_failure_init flit R_ops]; [lra|unfold Q2R; cbn [Qnum Qden]; lra]. }
  apply (ALL eigs (free_pr ros) g pa vars); try assumption; try lra.
  - destruct HPA as [->| ->]; [apply armijo_free_posed; exact LV|].
    apply free_well_posed; auto; [exact ex_params_valid|cbn [default_NLSParams n_equality_penalty_initial f1 R_ops]; lra].
  - reflexivity.
  - reflexivity.
  - apply free_distinct; exact HC.
  - apply free_derivatives; exact HC.
  - apply free_consistent; exact HC.
  - right. intros v lambda errs qp Hv HLam HL. apply (ros_curved (free_pr ros) v lambda errs qp); auto; [apply free_distinct; exact HC|lra].
Qed.

(** C85: on the Rosenbrock function with x0 = 1 the step (1, 2 x0) changes the constraint by 1 and only the first residual. *)
Lemma ros_controllable : forall v lambda errs qp kappa, length v = 2%nat -> LinearizeAndFillQP v lambda (eq_pr ros) = Ok (errs, qp) ->
  1 + Rmax lambda 0 * (1 + 4 * (vget v 0 * vget v 0)) <= kappa -> constraints_controllable qp kappa.
Proof.
  intros v lambda errs qp kappa LV HL HK. assert (HC : ex_cost ros) by (left; reflexivity).
  destruct (C24_linearised_qp _ _ _ _ _ (eq_distinct ros HC) HL) as ((_ & _ & CL & _ & AR) & _ & _ & QF & _).
  pose proof (eq_matrix ros _ _ _ _ HL) as EA. destruct (len2 v LV) as (a & b & ->). change (vget [a; b] 0) with a in HK.
  assert (N2 : nv qp = 2%nat) by (unfold nv; rewrite CL; reflexivity).
  assert (N1 : neq qp = 1%nat) by (unfold neq; rewrite <- AR, EA; reflexivity).
  exists (fun _ => [1; 2 * a]). intros l Hl. rewrite N1 in *. assert (l = 0%nat) by lia. subst l. splits.
  - rewrite N2. reflexivity.
  - intros k Hk. assert (k = 0%nat) by lia. subst k. rewrite N2. unfold Ae. rewrite EA. unfold mget, vget. cbn [mdata Rsum nth Nat.eqb]. ring.
  - rewrite QF, curvature_jac. change (Z.to_nat (pr_dimension (eq_pr ros))) with 2%nat. cbn [pr_costs eq_pr map Rlsum res_dim ros Rsum].
    eapply Rle_trans; [|exact HK]. right. peval. ring.
Qed.

Lemma ros_start_merit : start_merit (eq_pr ros) armijo_params [2; 4] = 3 / 2.
Proof.
  unfold start_merit, cost_at, eq_l1_at, eq_pr. cbn [pr_costs pr_eq map Rlsum ros fix0 res_dim Rsum armijo_params n_equality_penalty_initial]. peval.
  rewrite (Rabs_pos_eq) by lra. field.
Qed.

Example C85_case : forall eigs g,
  exists K, forall m, (K < m)%Z -> exists L, forall l, (L <= l)%Z ->
    exists r, NLS_Solve ldlt2 ns_ex_qr ns_ex_llt eigs None (@None (unit -> NLSIteration R -> unit * bool))
                (with_ls l (with_max_iterations m armijo_params)) (eq_pr ros) g [2; 4] tt = Ok r /\
      satisfied (out_termination_state (res_out r)) /\
      forall info, In info (out_iterations (res_out r)) -> good_step (it_step_result info) /\ it_penalty info <= penalty_limit armijo_params 10.
Proof.
  intros eigs g. assert (HC : ex_cost ros) by (left; reflexivity). assert (HPA : armijo_params = armijo_params \/ armijo_params = default_NLSParams) by (left; reflexivity).
  destruct (ros_params _ HPA) as (P1 & P2 & P3 & P4 & P5).
  apply (C85_controllable_solve_satisfied ldlt2 ns_ex_qr ns_ex_llt eigs (eq_pr ros) g armijo_params [2; 4] 1 10); try assumption; try lra.
  - apply ros_start; [reflexivity|exact HPA].
  - reflexivity.
  - discriminate.
  - cbv; lia.
  - apply eq_distinct; exact HC.
  - apply (eq_exact ros). discriminate.
  - apply eq_derivatives; exact HC.
  - apply eq_consistent; exact HC.
  - rewrite ros_start_merit. unfold multiplier_bound. rewrite sqrt_1.
    assert (PL : penalty_limit armijo_params 10 <= 12).
    { unfold penalty_limit. cbn [armijo_params n_equality_penalty_initial n_equality_penalty_scale_factor n_equality_penalty_rho]. apply Rmax_lub; lra. }
    assert (SQ : sqrt (2 * (penalty_limit armijo_params 10 * (3 / 2))) <= sqrt (6 * 6)) by (apply sqrt_le_1_alt; lra).
    rewrite sqrt_square in SQ by lra. lra.
  - cbn [armijo_params n_absolute_first_derivative_tol]. lra.
  - intros v lambda errs qp LV _ HLam HL. rewrite P4, P5, Rmax_left in HLam by lra. assert (lambda = 0) by lra. subst lambda.
    rewrite (eq_matrix ros _ _ _ _ HL). splits.
    + reflexivity.
    + apply (ros_curved (eq_pr ros) v 0 errs qp); auto; [apply eq_distinct; exact HC|lra].
    + apply (ros_controllable v 0 errs); [exact LV|exact HL|]. rewrite Rmax_left by lra. lra.
Qed.

(** C85: from every start. *)
Example C85_every_start_case : forall vars, length vars = 2%nat ->
  exists K, forall m l ldlt eigs retract (S : Type) (cb : option (S -> NLSIteration R -> S * bool)) g cs r,
  retraction_ok retract ->
  NLS_Solve ldlt ns_ex_qr ns_ex_llt eigs retract cb (with_ls l (with_max_iterations m armijo_params)) (eq_pr ros) g vars cs = Ok r ->
  (length (out_iterations (res_out r)) <= K)%nat /\ ((Z.of_nat K < m)%Z -> out_termination_state (res_out r) <> NLS_MAX_ITERATIONS).
Proof.
  intros vars LV. assert (HC : ex_cost ros) by (left; reflexivity). assert (HPA : armijo_params = armijo_params \/ armijo_params = default_NLSParams) by (left; reflexivity).
  destruct (ros_params _ HPA) as (P1 & P2 & P3 & P4 & P5). set (m0 := start_merit (eq_pr ros) armijo_params vars).
  assert (M0 : 0 <= m0) by (apply start_merit_nonneg; cbn [armijo_params n_equality_penalty_initial]; lra).
  assert (SQ : 0 <= (1 + m0) * (1 + m0)) by apply Rle_0_sqr.
  apply (C85_controllable_enough_iterations ns_ex_qr ns_ex_llt (eq_pr ros) armijo_params vars (2 + 4 * ((1 + m0) * (1 + m0)))); try reflexivity; try lra.
  - apply ros_start; assumption.
  - discriminate.
  - apply eq_distinct; exact HC.
  - apply (eq_exact ros). discriminate.
  - apply eq_consistent; exact HC.
  - cbn [armijo_params n_lambda_failure_init]. lra.
  - fold m0. intros v lambda errs qp LVv VB HLam HL. apply (ros_controllable v lambda errs); [exact LVv|exact HL|].
    change (pdim (eq_pr ros)) with 2%nat in LVv. destruct (len2 v LVv) as (a & b & ->). change (vget [a; b] 0) with a.
    assert (AB : Rabs (a - 1) <= m0).
    { revert VB. unfold eq_l1_at, eq_pr. cbn [pr_eq map Rlsum fix0 res_dim Rsum]. peval. intro. lra. }
    assert (A2 : - m0 <= a - 1 <= m0) by (revert AB; unfold Rabs; destruct (Rcase_abs (a - 1)); lra).
    assert (AA : a * a <= (1 + m0) * (1 + m0)) by nra.
    cbn [armijo_params n_min_lambda n_max_lambda] in HLam. rewrite Rmax_left by lra.
    assert (lambda * (1 + 4 * (a * a)) <= 1 * (1 + 4 * (a * a))) by (apply Rmult_le_compat_r; [pose proof (Rle_0_sqr a); unfold Rsqr in *; lra|lra]). lra.
Qed.

(** C85: a linear least squares problem with a linear constraint, from every start. *)
Example C85_affine_case : forall vars, length vars = 2%nat ->
  exists K, forall m l ldlt eigs retract (S : Type) (cb : option (S -> NLSIteration R -> S * bool)) g cs r,
  retraction_ok retract ->
  NLS_Solve ldlt ns_ex_qr ns_ex_llt eigs retract cb (with_ls l (with_max_iterations m armijo_params)) (eq_pr lin) g vars cs = Ok r ->
  (length (out_iterations (res_out r)) <= K)%nat /\ ((Z.of_nat K < m)%Z -> out_termination_state (res_out r) <> NLS_MAX_ITERATIONS).
Proof.
  intros vars LV. assert (HC : ex_cost lin) by (right; reflexivity).
  apply (C85_affine_enough_iterations ns_ex_qr ns_ex_llt (eq_pr lin) armijo_params vars); try reflexivity;
    try (cbn [armijo_params n_relative_exit_tol n_lambda_failure_init]; lra).
  - apply eq_well_posed; auto; [exact armijo_valid|cbn [armijo_params n_equality_penalty_initial]; lra].
  - discriminate.
  - apply eq_distinct; exact HC.
  - apply (eq_exact lin). discriminate.
  - apply eq_consistent; exact HC.
  - apply lin_affine.
  - intros lambda errs qp HL. rewrite (eq_matrix lin _ _ _ _ HL). intros y HY k Hk. cbn [mrows] in Hk. replace k with 0%nat by lia.
    specialize (HY 0%nat ltac:(cbn; lia)). revert HY. unfold mget. cbn [mdata mrows Rsum nth]. lra.
Qed.
