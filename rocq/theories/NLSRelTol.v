(** C82: what SATISFIED_RELATIVE_TOL certifies. Exact arithmetic. (The refutation of the stronger claim is in RelTolCases.v.) *)
From Coq Require Import String List Bool Arith ZArith QArith Reals Lra Lia.
From Verif Require Import Scalar Outcome LinAlg Structs Constraint QPModel NullSpace Residual Nonlinear RInst Spec
  Props_Constraint QPBlocks QPAlgebra QPNewton QPAlpha QPStep QPTrace QPInit QPSolve QPDirect NSProps ResProps LinProps
  MeritProps LSProps NLSTrace NLSProps NLSReal NLSBox Penalty NLSTotal Optimality NLSRate.
Import ListNotations.
Local Open Scope outcome_scope.
Local Open Scope string_scope.
Local Open Scope list_scope.
Local Open Scope R_scope.

(** Armijo backtracking: the k-th step tried is tau^k. *)
Theorem C28_armijo_steps : forall retract (i : ls_input (F := R)), (0 <= li_max i)%Z -> li_strategy i = ARMIJO_BACKTRACK ->
  forall res steps cand, run_line_search retract i = Ok (res, steps, cand) ->
  forall k s, nth_error steps k = Some s -> step_alpha s = li_tau i ^ k /\ (k <= Z.to_nat (li_max i))%nat.
Proof.
  intros retract i HM HA res steps cand H k s Hk.
  destruct (C28_line_search_log retract i HM _ _ _ H) as (_ & CH & _ & LE & _). split.
  - clear - HA CH Hk. revert k s Hk. induction CH as [|x E|l p s' CH IH SF]; intros k s Hk.
    + destruct k; discriminate.
    + destruct k as [|k]; [|destruct k; discriminate]. injection Hk as <-. exact E.
    + rewrite app_assoc in Hk. destruct (Nat.lt_ge_cases k (length (l ++ [p]))) as [L|L].
      * rewrite nth_error_app1 in Hk by exact L. exact (IH k s Hk).
      * rewrite nth_error_app2 in Hk by exact L. destruct (k - length (l ++ [p]))%nat as [|m] eqn:EK; [|destruct m; discriminate].
        injection Hk as <-. unfold step_follows in SF. rewrite HA in SF. rewrite SF. cbn [fmul R_ops].
        rewrite (IH (length l) p) by (rewrite nth_error_app2, Nat.sub_diag by lia; reflexivity).
        rewrite app_length in L, EK. cbn [length] in L, EK. replace k with (Datatypes.S (length l)) by lia. cbn [pow]. ring.
  - assert (k < length steps)%nat by (apply nth_error_Some; congruence). lia.
Qed.

Section RelTol.
  Variable ldlt : mat R -> option (mat R).
  Variable qr : mat R -> QRResult R.
  Variable llt : mat R -> option (list R -> list R).
  Variable eigs : mat R -> QPEigenvalues R.
  Variable retract : option (list R -> list R -> R -> list R).
  Context {S : Type}.
  Variable cb : option (S -> NLSIteration R -> S * bool).
  Variable pr : Problem R.
  Variable g : nat -> garbage R.
  Notation exact_factorizations := (exact_factorizations ldlt qr llt pr).
  Notation solve pa := (solve ldlt qr llt eigs retract cb pa pr g).

  (** The merit function f + penalty |c|_1 of logged errors. *)
  Definition merit_of (e : Errors R) (penalty : R) : R := err_f e + penalty * err_equality e.

  Lemma rel_tol_iteration : forall pa vars cs r,
    solve pa vars cs = Ok r -> out_termination_state (res_out r) = SATISFIED_RELATIVE_TOL ->
    exists init info steps last st gk ex st', out_iterations (res_out r) = init ++ [info] /\
      iteration_spec ldlt qr llt eigs retract pa pr gk st info ex st' /\
      (exists dx, RetractCandidateVars retract (ns_vars st) dx (step_alpha last) = Ok (res_vars r)) /\
      (exists sts css exs, sts 0%nat = init_state pa vars /\ history ldlt qr llt eigs retract cb pa pr g (Z.to_nat (n_max_iterations pa)) 0
         (out_iterations (res_out r)) (out_termination_state (res_out r)) sts css exs /\ st = sts (length init)) /\
      it_step_result info = SS_SUCCESS /\ it_line_search_steps info = steps ++ [last] /\
      EvaluateNonlinearErrors pr (res_vars r) = Ok (step_errors last) /\
      0 < step_alpha last <= 1 /\ (steps = [] -> step_alpha last = 1) /\
      (n_line_search_strategy pa = ARMIJO_BACKTRACK -> n_armijo_search_tau pa ^ Z.to_nat (n_max_line_search_iterations pa) <= step_alpha last) /\
      let m0 := merit_of (it_errors_initial info) (it_penalty info) in
      let slope := d_f (it_directional_derivatives info) + it_penalty info * d_equality (it_directional_derivatives info) in
      m0 * (1 - n_relative_exit_tol pa) < merit_of (step_errors last) (it_penalty info) <= m0 /\
      slope <= 0 /\ / 10000 * step_alpha last * - slope < n_relative_exit_tol pa * m0.
  Proof.
    intros pa vars cs r H HT. pose proof (solve_valid _ _ _ _ _ _ _ _ _ _ _ _ H) as PV.
    destruct (solve_history _ _ _ _ _ _ _ _ _ _ _ _ H) as (sts & css & exs & A & B & C & D & HY). pose proof HY as HY0.
    destruct HY as (_ & HH & TT). rewrite HT in TT. destruct TT as (j & info & EL & EN & EE).
    destruct (HH j info EN) as (HI & _). apply iterate_spec in HI. destruct HI as [_ HI]. pose proof HI as HI0.
    destruct HI as (qp & dx & cand & HL & HD & HQ & HC & HP & HS & HU & _). rewrite EE in HU.
    assert (SN : exists init, out_iterations (res_out r) = init ++ [info] /\ length init = j).
    { destruct (nth_error_split _ _ EN) as (l1 & l2 & E & El). exists l1. destruct l2; [split; [exact E|exact El]|]. rewrite E, app_length in EL. simpl in EL. lia. }
    destruct SN as (init & SN & LI).
    unfold UpdateLambdaAndCheckExitConditions in HU. destruct (it_step_result info) eqn:SR;
      try (exfalso; repeat match type of HU with (if ?b then _ else _) = _ => destruct b end; discriminate).
    inv_bind HU. match type of HU with (if ?b then _ else _) = _ => destruct b end; [discriminate|].
    match type of HU with (if ?b then _ else _) = _ => destruct b eqn:RT end; [|discriminate].
    apply Ok_inj in HU. apply pair_inj in HU. destruct HU as [_ HU].
    assert (C1 : 0 <= li_c1 (ls_of pa pr (sts j) info dx)).
    { cbn [ls_of li_c1 flit R_ops]. unfold lit_1em4, Q2R. cbn [Qnum Qden]. lra. }
    destruct (C27_sufficient_decrease retract (ls_of pa pr (sts j) info dx) (npv_ls _ PV) (npv_tau _ PV) C1 _ _ HS)
      as (steps & last & E1 & A1 & A2 & A3 & A4 & A5 & A6).
    destruct (C28_line_search_log retract (ls_of pa pr (sts j) info dx) (npv_ls _ PV) _ _ _ HS) as (_ & CH & _).
    exists init, info, steps, last, (sts j), (g j), (exs j), (sts (Datatypes.S j)).
    cbn [ls_of li_pre li_penalty li_dd li_c1 li_pr li_vars li_dx] in *.
    assert (XV : res_vars r = cand). { rewrite <- C, EL, <- HU. reflexivity. }
    rewrite E1, app_length in RT. cbn [length] in RT. replace (length steps + 1 - 1)%nat with (length steps) in RT by lia.
    rewrite app_nth2, Nat.sub_diag in RT by lia. cbn [nth] in RT.
    match type of RT with fgtb ?x ?y = true => destruct (R_fgtb x y) as [RL|]; [|discriminate] end.
    unfold Errors_Total in RL. cbn [fadd fmul fsub f1 R_ops] in RL.
    unfold merit_of. cbn [flit R_ops] in A2. replace (Q2R lit_1em4) with (/ 10000) in A2 by (unfold lit_1em4, Q2R; cbn [Qnum Qden]; lra).
    set (sl := d_f (it_directional_derivatives info) + it_penalty info * d_equality (it_directional_derivatives info)) in *.
    splits; auto; try lra.
    - exists dx. rewrite XV. exact A5.
    - exists sts, css, exs. rewrite LI. splits; auto.
    - rewrite XV. exact A6.
    - intros ->. cbn [app] in E1. rewrite E1 in CH. inversion CH as [|s Hs EQ|l s t HCH HF EQ].
      + exact Hs.
      + exfalso. apply (f_equal (@length _)) in EQ. rewrite !app_length in EQ. cbn [length] in EQ. lia.
    - intro ST. destruct (C28_armijo_steps retract (ls_of pa pr (sts j) info dx) (npv_ls _ PV) ST _ _ _ HS (length steps) last) as [EA LK].
      { rewrite E1, nth_error_app2, Nat.sub_diag by lia. reflexivity. }
      cbn [ls_of li_tau li_max] in EA, LK. rewrite EA. pose proof (npv_tau _ PV) as TA. remember (n_armijo_search_tau pa) as tau.
      clear - LK TA. replace (Z.to_nat (n_max_line_search_iterations pa)) with (Z.to_nat (n_max_line_search_iterations pa) - length steps + length steps)%nat by lia.
      rewrite pow_add. assert (0 < tau ^ length steps) by (apply pow_lt; lra).
      assert (P : forall n, tau ^ n <= 1) by (induction n as [|n IH]; cbn [pow]; [lra|]; assert (0 < tau ^ n) by (apply pow_lt; lra); nra).
      specialize (P (Z.to_nat (n_max_line_search_iterations pa) - length steps)%nat). nra.
  Qed.

  (** Any problem, any factorisation: the last step was accepted, the merit function fell by less than the fraction
      relative_exit_tol, and therefore its slope times the step length is that small; if the full step was accepted, the slope
      itself is. *)
  Theorem C82_relative_tol_bounds_slope : forall pa vars cs r,
    solve pa vars cs = Ok r -> out_termination_state (res_out r) = SATISFIED_RELATIVE_TOL ->
    exists init info steps last, out_iterations (res_out r) = init ++ [info] /\
      it_step_result info = SS_SUCCESS /\ it_line_search_steps info = steps ++ [last] /\
      EvaluateNonlinearErrors pr (res_vars r) = Ok (step_errors last) /\
      0 < step_alpha last <= 1 /\ (steps = [] -> step_alpha last = 1) /\
      (n_line_search_strategy pa = ARMIJO_BACKTRACK -> n_armijo_search_tau pa ^ Z.to_nat (n_max_line_search_iterations pa) <= step_alpha last) /\
      let m0 := merit_of (it_errors_initial info) (it_penalty info) in
      let slope := d_f (it_directional_derivatives info) + it_penalty info * d_equality (it_directional_derivatives info) in
      m0 * (1 - n_relative_exit_tol pa) < merit_of (step_errors last) (it_penalty info) <= m0 /\
      slope <= 0 /\ / 10000 * step_alpha last * - slope < n_relative_exit_tol pa * m0.
  Proof.
    intros pa vars cs r H HT.
    destruct (rel_tol_iteration _ _ _ _ H HT) as (init & info & steps & last & st & gk & ex & st' & A & _ & _ & _ & B).
    exists init, info, steps, last. split; [exact A|exact B].
  Qed.

  (** No inequality constraints, exact factorisations: the last step of length alpha started at a point x; if x satisfies the equality
      constraints, the slope s of the cost at x along any direction u tangent to them obeys
      c1 alpha s^2 <= relative_exit_tol f(x) (|J u|^2 + lambda |u|^2). *)
  Theorem C82_relative_tol_means_stationary : forall pa vars cs r,
    well_posed pa pr vars -> retraction_ok retract -> pr_ineq pr = [] -> distinct_indices pr -> exact_factorizations ->
    derivatives_correct pr -> value_consistent pr ->
    solve pa vars cs = Ok r -> out_termination_state (res_out r) = SATISFIED_RELATIVE_TOL ->
    exists x dx alpha init info, out_iterations (res_out r) = init ++ [info] /\
      RetractCandidateVars retract x dx alpha = Ok (res_vars r) /\ 0 < alpha <= 1 /\
      (length (it_line_search_steps info) = 1%nat -> alpha = 1) /\
      (n_line_search_strategy pa = ARMIJO_BACKTRACK -> n_armijo_search_tau pa ^ Z.to_nat (n_max_line_search_iterations pa) <= alpha) /\
      (eq_l1_at pr x = 0 -> forall u s, length u = length x -> tangent pr x u -> cost_slope pr x u s ->
        / 10000 * alpha * (s * s) <= n_relative_exit_tol pa * cost_at pr x *
          (lin_curvature pr x (vget u) + Rmax (it_lambda info) 0 * Rsum (length x) (fun i => vget u i ^ 2))).
  Proof.
    intros pa vars cs r WP RO NI DI EX DC VC H HT. pose proof (solve_valid _ _ _ _ _ _ _ _ _ _ _ _ H) as PV.
    destruct (rel_tol_iteration _ _ _ _ H HT) as (init & info & steps & last & st & gk & ex & st' & SN & HI & (dx0 & RV) & (sts & css & exs & A & HY & ES) & SR & E1 & _ & A1 & AF & AB & MM & SL & BD).
    exists (ns_vars st), dx0, (step_alpha last), init, info. splits; auto; try lra.
    { intro L. apply AF. rewrite E1, app_length in L. cbn [length] in L. apply length_zero_iff_nil. lia. }
    intros Z u s LU TU CS.
    assert (LX : length (ns_vars st) = pdim pr).
    { rewrite ES, (vars_length _ _ _ _ _ _ _ _ pa vars r sts css exs (npv_ls _ PV) RO A HY); [apply (wp_vars _ _ _ WP)|]. rewrite SN, app_length. lia. }
    assert (IX : forall r, In r (pr_costs pr) \/ In r (pr_eq pr) -> idx_ok r (length (ns_vars st)))
      by (apply (wp_idx _ pa vars); [exact WP|]; rewrite LX; symmetry; apply (wp_vars _ _ _ WP)).
    assert (IL : it_lambda info = ns_lambda st) by (destruct HI as (qp & dx & cand & _ & _ & _ & _ & _ & _ & _ & X & _); exact X).
    destruct (iteration_exact _ _ _ _ _ _ _ _ _ _ _ _ NI DI EX HI)
      as (qp & dx & cand & HL & HC & HS & _ & LD & NV & FE & PSD & ST & DF & DE & EV & QF & _).
    pose proof (C25_linearisation_errors _ _ _ _ _ VC HL) as CE. rewrite (eval_errors_R _ _ IX) in CE. apply Ok_inj in CE.
    assert (EC : err_f (it_errors_initial info) = cost_at pr (ns_vars st)) by (rewrite <- CE; reflexivity).
    assert (EE : err_equality (it_errors_initial info) = 0) by (rewrite <- Z, <- CE; reflexivity).
    assert (ZQ : eq_l1 qp = 0) by lra.
    unfold merit_of in BD. rewrite DF, DE, ZQ, EE, EC in BD.
    pose proof (slope_gdot _ _ _ _ _ u DI DC HL LU LX IX) as SG. rewrite (uniqueness_limite _ _ _ _ CS SG).
    assert (TG : qp_tangent qp u) by (apply (tangent_qp _ _ _ _ _ u DI HL); exact TU).
    assert (TD : qp_tangent qp dx) by (apply feasible_tangent; assumption).
    pose proof (ST u TG) as S1. pose proof (ST dx TD) as S2. change (bform qp dx dx) with (qform qp dx) in S2.
    replace (gdot qp u) with (- bform qp dx u) by lra. replace (- bform qp dx u * - bform qp dx u) with (bform qp dx u * bform qp dx u) by ring.
    rewrite IL, LX, <- QF. pose proof (psd_CS qp dx u PSD) as CSI.
    assert (PU : 0 <= qform qp u) by apply PSD.
    apply (Rle_trans _ (/ 10000 * step_alpha last * (qform qp dx * qform qp u))).
    - apply Rmult_le_compat_l; [lra|exact CSI].
    - rewrite <- Rmult_assoc. apply Rmult_le_compat_r; [exact PU|]. replace (qform qp dx) with (- gdot qp dx) by lra. lra.
  Qed.
End RelTol.
