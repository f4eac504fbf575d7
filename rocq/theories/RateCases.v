(** Concrete cases for C80 (and C81): the Rosenbrock function without constraints (see the index in DESIGN.md, section 4.3). *)
From Coq Require Import String List Bool Arith ZArith QArith Reals Lra Lia.
From Verif Require Import Scalar Outcome LinAlg Structs Constraint QPModel NullSpace Residual Nonlinear RInst Spec
  Props_Constraint QPBlocks QPAlgebra ResProps LinProps MeritProps LSProps LSSuccess LSPoly InterpProps NSProps NLSTrace NLSProps NLSReal NLSBox Penalty NLSTotal
  Optimality QPRegular Examples Examples2 NLSRate NLSRelTol CasesMore QPStep.
Import ListNotations.
Local Open Scope outcome_scope.
Local Open Scope string_scope.
Local Open Scope list_scope.
Local Open Scope R_scope.

Lemma armijo_free_posed : forall vars, length vars = 2%nat -> well_posed armijo_params (free_pr ros) vars.
Proof.
  intros. apply free_well_posed; auto; [left; reflexivity|exact armijo_valid|].
  cbn [armijo_params n_equality_penalty_initial]; lra.
Qed.

(** C80, C81: from every start, with armijo backtracking or with the default parameters (polynomial line search; [min_lambda] = 0
    in both), Solve on the Rosenbrock function returns with one of the SATISFIED_* states when it is allowed enough
    iterations and line search steps. *)
Example C80_case : forall eigs g vars pa, length vars = 2%nat -> pa = armijo_params \/ pa = default_NLSParams ->
  exists K, forall m, (K < m)%Z -> exists L, forall l, (L <= l)%Z ->
    exists r, NLS_Solve ldlt2 ns_ex_qr ns_ex_llt eigs None (@None (unit -> NLSIteration R -> unit * bool))
                (with_ls l (with_max_iterations m pa)) (free_pr ros) g vars tt = Ok r /\
      satisfied (out_termination_state (res_out r)).
Proof.
  intros eigs g vars pa LV HPA. assert (HC : ex_cost ros) by (left; reflexivity).
  assert (WP : well_posed pa (free_pr ros) vars).
  { destruct HPA as [->| ->]; [apply armijo_free_posed; exact LV|].
    apply free_well_posed; auto; [exact ex_params_valid|cbn [default_NLSParams n_equality_penalty_initial f1 R_ops]; lra]. }
  assert (POS : 0 < n_absolute_first_derivative_tol pa /\ 0 < n_relative_exit_tol pa /\ 0 < n_lambda_failure_init pa /\ 0 <= n_min_lambda pa).
  { destruct HPA as [->| ->];
      cbn [armijo_params default_NLSParams n_absolute_first_derivative_tol n_relative_exit_tol n_lambda_failure_init n_min_lambda flit f0 R_ops];
      [|unfold lit_1em6, Q2R; cbn [Qnum Qden]]; repeat split; lra. }
  destruct POS as (P1 & P2 & P3 & P4).
  apply C80_unconstrained_solve_satisfied; try assumption.
  - reflexivity.
  - reflexivity.
  - apply free_distinct; exact HC.
  - exact ldlt2_inverse.
  - exact ldlt2_singular.
  - apply free_derivatives; exact HC.
  - apply free_consistent; exact HC.
  - intros v lambda errs qp Hv HLam HL. apply (ros_curved (free_pr ros) v lambda errs qp); auto; [apply free_distinct; exact HC|lra].
Qed.

(** C81: f(x) = x - 1 at x = 0 with the overlong step 3: the merit function along the step is (3 t - 1)^2 / 2, its slope -3; the
    full step is rejected, and the polynomial line search succeeds. *)
Definition ls_poly : ls_input (F := R) :=
  LSIn 2%Z (1 / 1000000) (MkProblem 1%Z [off1] [] []) [0] [3] (MkErrors (1 / 2) 0) (MkDD (-3) 0) 1 (1 / 10000) POLYNOMIAL_APPROXIMATION (1 / 2).
Lemma ls_poly_at : forall t, bind (RetractCandidateVars None [0] [3] t) (EvaluateNonlinearErrors (MkProblem 1%Z [off1] [] [])) = Ok (MkErrors (/ 2 * ((0 + 3 * t - 1) * (0 + 3 * t - 1))) 0).
Proof. intro t. change (RetractCandidateVars None [0] [3] t) with (Ok (A := list R) [0 + 3 * t]). cbn [bind]. apply ls_ex_eval. Qed.
Example C81_case : exists n : Z, (0 <= n)%Z /\ forall m, (n <= m)%Z ->
  exists res steps cand, run_line_search None (with_max m ls_poly) = Ok (res, steps, cand) /\
    (res = SS_SUCCESS \/ res = FIRST_ORDER_SATISFIED) /\ (length steps <= Z.to_nat n + 1)%nat.
Proof.
  apply (C81_line_search_succeeds None ls_poly (fun t => MkErrors (/ 2 * ((0 + 3 * t - 1) * (0 + 3 * t - 1))) 0));
    cbn [ls_poly li_tau li_c1 li_penalty li_vars li_dx li_pr li_pre li_dd err_f err_equality d_f d_equality]; try lra.
  - exact ls_poly_at.
  - f_equal. field.
  - intros eps He. exists (eps / 9). split; [lra|]. intros t Ht.
    replace ((/ 2 * ((0 + 3 * t - 1) * (0 + 3 * t - 1)) + 1 * 0 - (/ 2 * ((0 + 3 * 0 - 1) * (0 + 3 * 0 - 1)) + 1 * 0)) / t - (-3 + 1 * 0)) with (9 / 2 * t) by (field; lra).
    rewrite Rabs_pos_eq by lra. lra.
Qed.
Example C81_case_rejected : rejected ls_poly (MkStep 1 (MkErrors 2 0)) /\ errors_at None ls_poly 1 = Ok (MkErrors 2 0).
Proof.
  split.
  - split; [reflexivity|]. unfold armijo. match goal with |- fleb ?a ?b = false => destruct (R_fleb a b) as [X|X]; [exfalso|reflexivity] end.
    revert X. unfold merit, slope. cbn [ls_poly li_penalty li_pre li_dd li_c1 err_f err_equality d_f d_equality step_errors step_alpha fadd fmul R_ops]. lra.
  - unfold errors_at, point_at. cbn [ls_poly li_vars li_dx li_pr]. rewrite ls_poly_at. f_equal. f_equal. field.
Qed.

(** C81: if the two derivatives cancel (slope exactly 0), the polynomial line search does give up. *)
Example C81_flat_case : exists e, run_line_search None
  (LSIn 2%Z (1 / 1000000) (MkProblem 1%Z [off1] [] []) [0] [3] (MkErrors (1 / 2) 0) (MkDD (-3) 3) 1 (1 / 10000) POLYNOMIAL_APPROXIMATION (1 / 2))
  = Ok (FAILURE_INVALID_ALPHA, [MkStep 1 e], [0 + 3 * 1]).
Proof.
  unfold run_line_search, SelectStepSize. cbn [li_max li_tol li_pr li_vars li_dx li_pre li_dd li_penalty li_c1 li_strategy li_tau].
  destruct (R_fgtb 1 f0) as [X|X]; [|exfalso; apply X; cbn [f0 R_ops]; lra].
  rewrite R_valid. cbn [f_assert negb bind].
  assert (LI : fltb (DD_LInfinity (MkDD (-3) 3)) (1 / 1000000) = false).
  { unfold DD_LInfinity. rewrite R_fmax. cbn [d_f d_equality fabs R_ops]. rewrite (Rabs_left (-3)), (Rabs_pos_eq 3), Rmax_left by lra.
    match goal with |- fltb ?a ?b = false => destruct (R_fltb a b) as [Y|Y]; [exfalso; lra|reflexivity] end. }
  assert (DT : DD_Total (MkDD (-3) 3) 1 = 0) by (unfold DD_Total; cbn [d_f d_equality fadd fmul R_ops]; lra).
  assert (D0 : fgtb 0 f0 = false) by (destruct (R_fgtb 0 f0) as [Y|Y]; [cbn [f0 R_ops] in Y; lra|reflexivity]).
  change (Z.to_nat (2 + 1)) with 3%nat. cbn [ls_loop]. unfold next_alpha at 1. cbn [Nat.eqb bind].
  change (RetractCandidateVars None [0] [3] f1) with (Ok (A := list R) [0 + 3 * 1]). cbn [bind]. rewrite ls_ex_eval. cbn [bind].
  rewrite R_valid, LI, DT, D0.
  set (e := MkErrors (/ 2 * ((0 + 3 * 1 - 1) * (0 + 3 * 1 - 1))) 0).
  assert (ET : Errors_Total e 1 = 2) by (unfold Errors_Total, e; cbn [err_f err_equality fadd fmul R_ops]; field).
  assert (E0 : Errors_Total (MkErrors (1 / 2) 0) 1 = 1 / 2) by (unfold Errors_Total; cbn [err_f err_equality fadd fmul R_ops]; lra).
  rewrite ET, E0.
  match goal with |- context[fleb ?a ?b] => destruct (R_fleb a b) as [Y|Y]; [exfalso; revert Y; cbn [fadd fmul f1 R_ops]; lra|] end.
  unfold next_alpha. cbn [Nat.eqb app]. unfold ComputeAlphaPolynomialApproximation. cbn [Nat.leb Nat.eqb f_assert bind length Nat.sub nth step_alpha step_errors].
  rewrite DT, ET, E0. unfold QuadraticApproxMinimum. rewrite D0. cbn [orb].
  match goal with |- context[fleb ?a f0] => destruct (R_fleb a f0) as [Z|Z]; [exfalso; revert Z; cbn [fsub fmul f0 f1 R_ops]; lra|] end.
  cbn [bind ffinite R_ops negb orb].
  match goal with |- context[fleb ?a f0] => destruct (R_fleb a f0) as [W|W] end.
  - cbn [orb bind]. exists e. reflexivity.
  - exfalso. apply W. cbn [fsub fmul fneg fdiv f0 f1 R_ops]. rewrite Ropp_0, !Rmult_0_l. unfold Rdiv. rewrite Rmult_0_l. lra.
Qed.

(** C82: the linear problem with an additional constant residual 2, from (1.002, 0.501): the cost is 2 + 2e-6, its minimum 2. *)
Definition const2 : residual R := MkRes 1 [0]%Z (fun _ => [2]) (fun _ => ([2], Mat 1 1 [[0]])).
Definition floor_pr : Problem R := MkProblem 2%Z [lin; const2] [] [].
Definition floor_x0 : list R := [1 + / 500; (1 + / 500) / 2].
Lemma floor_cost : forall a b, cost_at floor_pr [a; b] = / 2 * ((a - 1) * (a - 1)) + / 2 * ((2 * b - a) * (2 * b - a)) + 2.
Proof. intros. unfold cost_at, floor_pr. cbn [pr_costs map Rlsum lin const2 res_dim Rsum]. unfold gathered. cbn [res_index res_f const2 lin map]. peval. field. Qed.
Lemma floor_distinct : distinct_indices floor_pr.
Proof. split; [|intros r []]. intros r [<-|[<-|[]]]; [exact ros_nodup|constructor; [intros []|constructor]]. Qed.
Lemma floor_consistent : value_consistent floor_pr.
Proof. intros r [[<-|[<-|[]]]|[]] p; reflexivity. Qed.
Lemma floor_posed : forall vars, length vars = 2%nat -> well_posed default_NLSParams floor_pr vars.
Proof.
  intros vars LV.
  assert (PP : 0 < n_equality_penalty_initial (default_NLSParams : NLSParams R)) by (cbn [n_equality_penalty_initial default_NLSParams f1 R_ops]; lra).
  constructor; try exact ex_params_valid; try exact PP; try exact LV.
  - reflexivity.
  - intros r [[<-|[<-|[]]]|[]] i Hi; cbn [pr_dimension floor_pr]; [destruct Hi as [<-|[<-|[]]]|destruct Hi as [<-|[]]]; lia.
  - intros l [].
Qed.
Lemma floor_derivatives : derivatives_correct floor_pr.
Proof.
  intros r [[<-|[<-|[]]]|[]] x u LX LU; [exact (lin_correct x u LX LU)|].
  destruct (len2 x LX) as (a & b & ->). destruct (len2 u LU) as (c & d & ->).
  intros k Hk. split; [reflexivity|]. cbn [const2 res_dim] in Hk. assert (k = 0%nat) by lia. subst k.
  eapply (poly_slope _ 2 _ 0). intro t. unfold jac_dx. cbn [const2 res_index res_f res_fJ]. peval. ring.
Qed.
Lemma floor_affine : affine_problem floor_pr.
Proof.
  intros r [[<-|[<-|[]]]|[]] x u t k Hk LU; [exact (proj2 lin_affine lin (or_introl (or_introl eq_refl)) x u t k Hk LU)|].
  cbn [const2 res_dim] in Hk. assert (k = 0%nat) by lia. subst k. unfold jac_dx. cbn [const2 res_index res_f res_fJ]. peval. ring.
Qed.
Lemma floor_curved : forall v lambda errs qp, LinearizeAndFillQP v lambda floor_pr = Ok (errs, qp) -> curved_on_null_space qp.
Proof.
  intros v lambda errs qp HL d LD (i & Hi & NZ) _.
  destruct (C24_linearised_qp _ _ _ _ _ floor_distinct HL) as ((_ & _ & CL & _) & _ & _ & QF & _).
  assert (N2 : nv qp = 2%nat) by (unfold nv; rewrite CL; reflexivity).
  rewrite QF. rewrite N2 in *. destruct (len2 d LD) as (a & b & ->).
  assert (DM : 0 <= Rmax lambda 0 * Rsum (Z.to_nat (pr_dimension floor_pr)) (fun i => vget [a; b] i ^ 2)).
  { apply Rmult_le_pos; [apply Rmax_r|]. apply Rsum_nonneg. intros. apply pow2_ge_0. }
  unfold lin_curvature. cbn [pr_costs floor_pr map Rlsum res_dim lin const2 Rsum]. rewrite !lin_residual_diff.
  cbv [gidx Rsum vget mget lin const2 lin_J res_index length nth Z.to_nat res_fJ snd mdata Pos.to_nat Pos.iter_op] in *.
  assert (NN : a <> 0 \/ b <> 0) by (destruct i as [|[|i]]; [left; exact NZ|right; exact NZ|lia]).
  match goal with |- 0 < ?e + _ => assert (X : 0 < e); [|revert DM X; generalize e; intros; simpl in *; lra] end.
  simpl. destruct (Req_dec a 0) as [Z|Z].
  - assert (b <> 0) by tauto. subst a. assert (0 < b * b) by (apply Rsqr_pos_lt; assumption). nra.
  - assert (0 < a * a) by (apply Rsqr_pos_lt; assumption).
    pose proof (sq_nonneg (- a + 2 * b)). nra.
Qed.
Lemma floor_exact : forall qr llt, exact_factorizations ldlt2 qr llt floor_pr.
Proof. intros qr llt. split; [intros _; exact ldlt2_inverse|]. intro E. destruct (E eq_refl). Qed.
Lemma floor_returns : forall eigs g, exists r, NLS_Solve ldlt2 ns_ex_qr ns_ex_llt eigs None (@None (unit -> NLSIteration R -> unit * bool))
  default_NLSParams floor_pr g floor_x0 tt = Ok r.
Proof.
  intros eigs g. apply C52_regular_solve_always_returns.
  - exact ldlt2_singular.
  - apply floor_posed. reflexivity.
  - intros f E. discriminate.
  - intros _ E. destruct (E eq_refl).
  - intros _ v lambda errs qp Hv HLam HL. split; [|exact (floor_curved _ _ _ _ HL)].
    intros y _ k Hk. exfalso. unfold neq in Hk. pose proof (floor_posed v Hv) as WP.
    destruct (linearise_total floor_pr v lambda Hv (wp_index _ _ _ WP)
                (fun k Hc => proj1 (wp_cons _ _ _ WP k Hc)) eq_refl) as (e' & q' & HL' & _ & _ & _ & _ & _ & BL & _).
    rewrite HL in HL'. apply Ok_inj in HL'. apply pair_inj in HL'. destruct HL' as [_ <-]. rewrite BL in Hk. cbv in Hk. lia.
Qed.

(** Its solve ends with SATISFIED_RELATIVE_TOL. *)
Example C82_case : forall eigs g, exists r, NLS_Solve ldlt2 ns_ex_qr ns_ex_llt eigs None (@None (unit -> NLSIteration R -> unit * bool))
    default_NLSParams floor_pr g floor_x0 tt = Ok r /\
  out_termination_state (res_out r) = SATISFIED_RELATIVE_TOL /\
  (forall info, In info (out_iterations (res_out r)) -> length (it_line_search_steps info) = 1%nat).
Proof.
  intros eigs g. destruct (floor_returns eigs g) as [r Hr]. exists r. split; [exact Hr|].
  assert (WP : well_posed default_NLSParams floor_pr floor_x0) by (apply floor_posed; reflexivity).
  assert (RTOL : n_relative_exit_tol (default_NLSParams : NLSParams R) = / 100000) by (cbn [n_relative_exit_tol default_NLSParams flit R_ops]; unfold Q2R; cbn [Qnum Qden]; lra).
  assert (FTOL : n_absolute_first_derivative_tol (default_NLSParams : NLSParams R) = / 1000000) by (cbn [n_absolute_first_derivative_tol default_NLSParams flit R_ops]; unfold lit_1em6, Q2R; cbn [Qnum Qden]; lra).
  assert (ATOL : n_absolute_exit_tol (default_NLSParams : NLSParams R) < 1) by (cbn [n_absolute_exit_tol default_NLSParams flit R_ops]; unfold Q2R; cbn [Qnum Qden]; lra).
  destruct (C57_linear_least_squares_solved ldlt2 ns_ex_qr ns_ex_llt eigs None None floor_pr g default_NLSParams floor_x0 tt r eq_refl WP eq_refl
    floor_distinct (floor_exact _ _) floor_affine floor_consistent) as (ST & _ & _); auto.
  { cbn [n_lambda_initial default_NLSParams f0 R_ops]. lra. }
  { cbn [n_max_iterations default_NLSParams]. lia. }
  assert (HN : forall v e, length v = 2%nat -> EvaluateNonlinearErrors floor_pr v = Ok e -> err_f e = cost_at floor_pr v /\ err_equality e = 0).
  { intros v e LV HE. rewrite eval_errors_R in HE; [apply Ok_inj in HE; subst e; split; reflexivity|].
    intros q [[<-|[<-|[]]]|[]] i Hi; rewrite LV; [destruct Hi as [<-|[<-|[]]]|destruct Hi as [<-|[]]]; lia. }
  assert (RN0 : retraction_ok None) by (intros f E; discriminate).
  assert (LAM : forall a, nth_error (out_iterations (res_out r)) 0 = Some a -> it_lambda a = 0).
  { intros a Ha. destruct (solve_history _ _ _ _ _ _ _ _ _ _ _ _ Hr) as (sts & css & exs & A & _ & _ & _ & _ & HH & _).
    destruct (HH 0%nat a Ha) as (HI & _). apply iterate_spec in HI. destruct HI as [_ (qp & dx & cand & _ & _ & _ & _ & _ & _ & _ & X & _)].
    rewrite X, A. reflexivity. }
  destruct (C35_termination_states _ _ _ _ _ _ _ _ _ _ _ _ Hr) as (NE & EX & _ & T). cbv zeta in NE, EX, T.
  pose proof (logged_step _ _ _ _ _ _ _ _ _ _ _ _ floor_consistent Hr) as LST. cbv zeta in LST.
  destruct (C31_variables_move_only_on_success _ _ _ _ _ _ _ _ _ _ _ _ Hr) as (xs & X0 & XF & XS). cbv zeta in XF, XS.
  destruct (out_iterations (res_out r)) as [|info rest] eqn:EL.
  { exfalso. destruct (out_termination_state (res_out r)); try (destruct T as (ini & inf & E & _); destruct ini; discriminate E).
    - cbn [length n_max_iterations default_NLSParams] in T. discriminate.
    - destruct T as (_ & E & _). apply E. reflexivity.
    - destruct T as (f & ini & inf & s & E & _). discriminate E. }
  assert (I0 : nth_error (info :: rest) 0 = Some info) by reflexivity.
  destruct (ST info (or_introl eq_refl)) as [FO|[SU [e ES]]].
  - exfalso. assert (RN : rest = []).
    { destruct rest as [|b rest']; [reflexivity|]. exfalso. destruct (LST 0%nat info b eq_refl eq_refl) as (_ & Y & _). exact (Y FO). }
    subst rest.
    assert (RX : res_vars r = floor_x0).
    { rewrite <- XF. cbn [length]. destruct (XS 0%nat info I0) as (_ & Y & _). rewrite Y by congruence. exact X0. }
    assert (TF : out_termination_state (res_out r) = SATISFIED_FIRST_ORDER_TOL).
    { destruct (out_termination_state (res_out r)); auto; exfalso;
        try (destruct T as (ini & inf & E & Y); destruct ini as [|? [|? ?]]; try discriminate E; injection E as <-; cbn [exit_condition] in Y; rewrite FO in Y; destruct Y as [Y _]; try discriminate; destruct Y; discriminate).
      - cbn [length n_max_iterations default_NLSParams] in T. discriminate.
      - destruct T as (_ & E & _). apply E. reflexivity.
      - destruct T as (f & ini & inf & s & E & _). discriminate E. }
    destruct (C55_first_order_tol_means_stationary ldlt2 ns_ex_qr ns_ex_llt eigs None None floor_pr g default_NLSParams floor_x0 tt r WP
      RN0 eq_refl floor_distinct (floor_exact _ _) floor_derivatives floor_consistent Hr TF)
      as (_ & ini & inf & E & C).
    rewrite RX in C. specialize (C eq_refl [1; / 2] (/ 500) eq_refl).
    assert (LI : it_lambda inf = 0).
    { apply LAM. rewrite EL in E. destruct ini as [|? [|? ?]]; try discriminate E. injection E as <-. reflexivity. }
    rewrite LI, Rmax_left in C by lra.
    assert (TG : tangent floor_pr floor_x0 [1; / 2]) by (intros q []).
    specialize (C TG). assert (CS : cost_slope floor_pr floor_x0 [1; / 2] (/ 500)).
    { apply (poly_slope _ (2 + / 2 * (/ 500 * / 500)) _ (/ 2)). intro t.
      replace (ray floor_x0 [1; / 2] t) with [1 + / 500 + t; (1 + / 500) / 2 + t / 2].
      - rewrite floor_cost. field.
      - unfold ray, floor_x0, vadd, vscale. cbn [combine map fst snd fadd fmul R_ops]. f_equal; [ring|]. f_equal. field. }
    specialize (C CS). rewrite FTOL in C. unfold lin_curvature in C. cbn [pr_costs floor_pr map Rlsum res_dim lin const2 Rsum] in C. rewrite !lin_residual_diff in C.
    cbv [gidx Rsum vget mget lin const2 lin_J res_index length nth Z.to_nat res_fJ snd mdata Pos.to_nat Pos.iter_op floor_x0 gathered] in C.
    simpl in C. lra.
  - destruct (XS 0%nat info I0) as ((l & q & HL) & _ & V). destruct (V SU) as (dx & ini & lst & E1 & RV & E2).
    rewrite ES in E1. destruct ini as [|? [|? ?]]; try discriminate E1. injection E1 as <-. cbn [step_errors] in E2.
    apply C25_linearisation_errors in HL; [|exact floor_consistent]. rewrite X0 in HL.
    destruct (HN floor_x0 _ eq_refl HL) as [F0 Q0].
    assert (L1 : length (xs 1%nat) = 2%nat).
    { unfold RetractCandidateVars in RV. inv_bind RV. apply ub_unless_ok_inv in Hm. apply Nat.eqb_eq in Hm. apply Ok_inj in RV.
      rewrite <- RV, vadd_length, vscale_length, X0. rewrite X0 in Hm. change (length floor_x0) with 2%nat in *. lia. }
    destruct (HN _ _ L1 E2) as [F1 Q1]. destruct (len2 _ L1) as (a & b & EV). rewrite EV, floor_cost in F1.
    unfold floor_x0 in F0. rewrite floor_cost in F0.
    assert (B1 : 2 <= err_f e). { rewrite F1. pose proof (sq_nonneg (a - 1)). pose proof (sq_nonneg (2 * b - a)). lra. }
    assert (EXC : exit_condition default_NLSParams (opt_before (info :: rest) 0) info SATISFIED_RELATIVE_TOL).
    { split; [exact SU|]. exists [], (MkStep 1 e). split; [exact ES|]. cbn [step_errors]. split.
      - rewrite R_fmax. match goal with |- fltb ?x ?y = false => destruct (R_fltb x y) as [Y|]; [exfalso|reflexivity] end.
        pose proof (Rmax_l (err_f e) (err_equality e)). lra.
      - match goal with |- fgtb ?x ?y = true => destruct (R_fgtb x y) as [|Y]; [reflexivity|exfalso; apply Y] end.
        unfold Errors_Total. cbn [fadd fmul fsub f1 R_ops]. rewrite RTOL, Q0, Q1, F0. lra. }
    destruct rest as [|b' rest']; [|exfalso; apply (NE 0%nat info eq_refl ltac:(cbn [length]; lia) _ EXC)].
    split; [symmetry; apply (EX 0%nat info eq_refl eq_refl); exact EXC|].
    intros inf [<-|[]]. rewrite ES. reflexivity.
Qed.
