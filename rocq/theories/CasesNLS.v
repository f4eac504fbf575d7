(** Concrete problems over the reals that meet the hypotheses of the theorems about whole nonlinear solves.
    See also Examples.v, Examples2.v (C41, C42, C52, C54-C57), CasesQP.v (the interior point solver), CasesRun.v and
    FloatCases.v (executions in binary64), HistoryCases.v (C59-C62). *)
From Coq Require Import String List Bool Arith ZArith QArith Reals Lra Lia Permutation.
From Verif Require Import Scalar Outcome LinAlg Structs Constraint QPModel NullSpace Residual Nonlinear RInst Spec
  Props_Constraint QPBlocks QPAlgebra QPNewton QPAlpha QPStep QPTrace QPInit QPSolve QPDirect ResProps LinProps MeritProps
  LSProps NSProps LSSuccess NLSTrace NLSProps NLSReal NLSBox Penalty NLSTotal QPRegular QPBarrier QPIter Optimality NLSSame NLSPerm Examples Examples2.
Import ListNotations.
Local Open Scope outcome_scope.
Local Open Scope string_scope.
Local Open Scope list_scope.
Local Open Scope R_scope.

(** A user error: the residual f(p) = p with the Jacobian -I.  Every step goes uphill. *)
Definition away : residual R := MkRes 2 [0; 1]%Z (fun p => p) (fun p => (p, Mat 2 2 [[-1; 0]; [0; -1]])).
Definition away_pr : Problem R := free_pr away.
Definition away_params : NLSParams R :=
  MkNLSParams 10%Z 10%Z (1 / 1000000) (1 / 1000000000000) (1 / 100000) 0 2%Z ARMIJO_BACKTRACK (8 / 10) 1 (101 / 100)
    (1 / 10) 0 (1 / 100) (1 / 10) (8 / 10) 1 0 false.
Ltac away_red := cbn [away_params n_max_iterations n_max_qp_iterations n_termination_kkt_tolerance n_absolute_exit_tol n_relative_exit_tol
         n_absolute_first_derivative_tol n_max_line_search_iterations n_armijo_search_tau n_equality_penalty_initial
         n_equality_penalty_scale_factor n_equality_penalty_rho n_lambda_initial n_lambda_failure_init
         n_lambda_decrease_on_success n_lambda_decrease_on_restore n_max_lambda n_min_lambda].
Lemma away_valid : nls_params_valid away_params.
Proof. constructor; away_red; try lia; try lra. Qed.
Lemma away_well_posed : forall vars, length vars = 2%nat -> well_posed away_params away_pr vars.
Proof.
  intros vars LV. constructor; try exact away_valid; try exact LV; away_red; try lra.
  - reflexivity.
  - intros r [[<-|[]]|[]] i Hi. destruct Hi as [<-|[<-|[]]]; cbn [pr_dimension away_pr free_pr]; lia.
  - intros l [].
Qed.
Lemma away_distinct : distinct_indices away_pr.
Proof. split; [intros r [<-|[]]; repeat constructor; cbn; intuition discriminate|intros r []]. Qed.
Lemma away_consistent : value_consistent away_pr.
Proof. intros r [[<-|[]]|[]] p. reflexivity. Qed.

Lemma away_cost : forall a b, cost_at away_pr [a; b] = / 2 * (a * a + b * b).
Proof. intros. cbv [cost_at away_pr free_pr pr_costs map Rlsum]. cbn [away res_dim Rsum]. unfold gathered. cbn [away res_index res_f map nth Z.to_nat]. change (Pos.to_nat 1) with 1%nat. cbv [vget nth]. ring. Qed.
Lemma away_lin_residual : forall a b u k, (k < 2)%nat -> lin_residual away [a; b] u k = vget [a; b] k - u k.
Proof.
  intros a b u k Hk. unfold lin_residual, gathered, gidx. cbn [away res_index res_fJ fst snd map length Rsum nth Z.to_nat].
  change (Pos.to_nat 1) with 1%nat. destruct k as [|[|k]]; [| |lia]; cbv [vget mget mdata nth f0 R_ops]; ring.
Qed.

Section Away.
  Variable eigs : mat R -> QPEigenvalues R.
  Variable g : nat -> garbage R.
  Notation Solve := (NLS_Solve ldlt2 ns_ex_qr ns_ex_llt eigs None (@None (unit -> NLSIteration R -> unit * bool)) away_params away_pr g).

  Lemma away_returns : forall vars cs, length vars = 2%nat -> exists r, Solve vars cs = Ok r.
  Proof.
    intros vars cs LV. apply C52_regular_solve_always_returns.
    - exact ldlt2_singular.
    - exact (away_well_posed vars LV).
    - intros f E. discriminate.
    - intros _ E. destruct (E eq_refl).
    - intros _ v lambda errs qp Hv HLam HL. change (n_min_lambda away_params) with 0 in HLam.
      destruct (len2 v Hv) as (a & b & ->).
      destruct (C24_linearised_qp _ _ _ _ _ away_distinct HL) as ((_ & _ & CL & _) & _ & _ & QF & _).
      assert (N2 : nv qp = 2%nat) by (unfold nv; rewrite CL; reflexivity). split.
      + intros y _ k Hk. exfalso. unfold neq in Hk.
        destruct (linearise_total away_pr [a; b] lambda Hv (wp_index _ _ _ (away_well_posed _ Hv))
                    (fun k Hc => proj1 (wp_cons _ _ _ (away_well_posed _ Hv) k Hc)) eq_refl) as (e' & q' & HL' & _ & _ & _ & _ & _ & BL & _).
        rewrite HL in HL'. apply Ok_inj in HL'. apply pair_inj in HL'. destruct HL' as [_ <-]. rewrite BL in Hk. cbv in Hk. lia.
      + intros d LD (i & Hi & NZ) _. rewrite QF. rewrite N2 in *. destruct (len2 d LD) as (u & w & ->).
        assert (DM : 0 <= Rmax lambda 0 * Rsum (Z.to_nat (pr_dimension away_pr)) (fun i => vget [u; w] i ^ 2)).
        { apply Rmult_le_pos; [apply Rmax_r|]. apply Rsum_nonneg. intros. apply pow2_ge_0. }
        unfold lin_curvature. cbn [pr_costs away_pr free_pr map Rlsum]. change (res_dim away) with 2%nat. cbn [Rsum].
        rewrite !away_lin_residual by lia.
        assert (NN : 0 < u * u + w * w).
        { destruct i as [|[|i]]; [| |lia]; cbv [vget nth] in NZ; [assert (0 < u * u) by (apply Rsqr_pos_lt; exact NZ); pose proof (Rle_0_sqr w)|
            assert (0 < w * w) by (apply Rsqr_pos_lt; exact NZ); pose proof (Rle_0_sqr u)]; unfold Rsqr in *; lra. }
        revert DM. generalize (Rmax lambda 0 * Rsum (Z.to_nat (pr_dimension away_pr)) (fun i => vget [u; w] i ^ 2)). intros.
        cbv [vget nth]. nra.
  Qed.

  (** One iteration anywhere but at the origin fails. *)
  Lemma away_iteration : forall gk st info ex st' a b, ns_vars st = [a; b] -> 0 < a * a + b * b ->
    NLSTrace.iteration_spec ldlt2 ns_ex_qr ns_ex_llt eigs None away_params away_pr gk st info ex st' ->
    failed info /\ ns_vars st' = [a; b].
  Proof.
    intros gk st info ex st' a b XV NZ HI.
    assert (EX : exact_factorizations ldlt2 ns_ex_qr ns_ex_llt away_pr) by (split; [intros _; exact ldlt2_inverse|intro E; destruct (E eq_refl)]).
    pose proof (iteration_vars _ _ _ _ _ _ _ _ _ _ _ _ (npv_ls _ away_valid) HI) as [V1 _].
    destruct (iteration_exact ldlt2 ns_ex_qr ns_ex_llt eigs None away_pr away_params gk st info ex st' eq_refl away_distinct EX HI)
      as (qp & dx & cand & HL & HC & HS & _ & LD & NV & FE & PSD & ST & DF & DE & EV & QF & OBJ).
    rewrite XV in *. set (l := ns_lambda st) in *.
    assert (LV : length [a; b] = 2%nat) by reflexivity.
    pose proof (wp_idx away_pr away_params [a; b] [a; b] (away_well_posed _ LV) eq_refl) as IX.
    pose proof (C25_linearisation_errors _ _ _ _ _ away_consistent HL) as CE. rewrite (eval_errors_R _ _ IX) in CE. apply Ok_inj in CE.
    assert (CF : err_f (it_errors_initial info) = / 2 * (a * a + b * b)) by (rewrite <- CE; apply away_cost).
    assert (E0 : eq_l1_at away_pr [a; b] = 0) by reflexivity.
    assert (EE : err_equality (it_errors_initial info) = 0) by (rewrite <- CE; reflexivity).
    change (pdim away_pr) with 2%nat in *. rewrite NV in LD. destruct (len2 dx LD) as (p & q & ->).
    set (L := Rmax l 0) in *. assert (L0 : 0 <= L) by apply Rmax_r.
    assert (QV : forall u w, qform qp [u; w] = (1 + L) * (u * u + w * w)).
    { intros u w. rewrite QF. unfold lin_curvature. cbn [pr_costs away_pr free_pr map Rlsum]. change (res_dim away) with 2%nat. cbn [Rsum].
      rewrite !away_lin_residual by lia. cbv [vget nth]. ring. }
    assert (GV : forall u w, gdot qp [u; w] = - (a * u + b * w)).
    { intros u w. specialize (OBJ [u; w]). unfold objective in OBJ. fold (gdot qp [u; w]) in OBJ. rewrite QV, CF in OBJ.
      unfold lin_cost in OBJ. cbn [pr_costs away_pr free_pr map Rlsum] in OBJ. change (res_dim away) with 2%nat in OBJ. cbn [Rsum] in OBJ.
      rewrite !away_lin_residual in OBJ by lia. cbv [vget nth] in OBJ. nra. }
    assert (NE : neq qp = 0%nat).
    { destruct (linearise_total away_pr [a; b] l LV (wp_index _ _ _ (away_well_posed _ LV))
                    (fun k Hc => proj1 (wp_cons _ _ _ (away_well_posed _ LV) k Hc)) eq_refl) as (e' & q' & HL' & _ & _ & _ & _ & _ & BL & _).
      rewrite HL in HL'. apply Ok_inj in HL'. apply pair_inj in HL'. destruct HL' as [_ <-]. unfold neq. exact BL. }
    assert (TG : forall u, qp_tangent qp u) by (intros u k Hk; rewrite NE in Hk; lia).
    pose proof (ST [p; q] (TG _)) as S1. change (bform qp [p; q] [p; q]) with (qform qp [p; q]) in S1. rewrite QV, GV in S1.
    assert (ND : 0 < p * p + q * q).
    { pose proof (Rle_0_sqr p) as P1. pose proof (Rle_0_sqr q) as P2. unfold Rsqr in *.
      destruct (Req_dec (p * p + q * q) 0) as [Z|Z]; [exfalso|lra].
      assert (p = 0) by (apply Rsqr_0_uniq; unfold Rsqr; lra). assert (q = 0) by (apply Rsqr_0_uniq; unfold Rsqr; lra). subst p q.
      pose proof (ST [a; b] (TG _)) as S2. rewrite GV in S2. unfold bform in S2. rewrite NV in S2. cbn [Rsum] in S2.
      cbv [vget nth] in S2. lra. }
    assert (KEY : a * p + b * q >= p * p + q * q) by nra.
    assert (F : failed info).
    { destruct (C28_line_search_log None (ls_of away_params away_pr st info [p; q]) (npv_ls _ away_valid) _ _ _ HS)
        as (_ & _ & _ & _ & ini & lst & _ & _ & _ & RS).
      unfold failed. destruct (it_step_result info) eqn:ER; auto; exfalso.
      - destruct (C27_sufficient_decrease None (ls_of away_params away_pr st info [p; q]) (npv_ls _ away_valid) (npv_tau _ away_valid)
                    ltac:(cbn [li_c1 ls_of]; rewrite R_1em4; lra) _ _ HS)
          as (ini' & last & _ & AL & DEC & DN & DEC0 & RT & EVL).
        cbn [ls_of li_pre li_penalty li_dd li_vars li_dx li_pr] in *. rewrite XV in *.
        assert (CD : cand = [a + p * step_alpha last; b + q * step_alpha last]).
        { unfold RetractCandidateVars in RT. inv_bind RT. apply Ok_inj in RT. rewrite <- RT. reflexivity. }
        assert (LC : length cand = 2%nat) by (rewrite CD; reflexivity).
        pose proof (wp_idx away_pr away_params [a; b] cand (away_well_posed _ LV) LC) as IC.
        rewrite (eval_errors_R _ _ IC) in EVL. apply Ok_inj in EVL. rewrite <- EVL in *. cbn [err_f err_equality] in DEC0.
        rewrite CF, EE in DEC0. change (eq_l1_at away_pr cand) with 0 in DEC0. rewrite CD, away_cost in DEC0.
        set (al := step_alpha last) in *. clearbody al.
        assert (X : 0 < al * (a * p + b * q)) by (apply Rmult_lt_0_compat; lra).
        assert (Y : 0 <= (p * al) * (p * al) + (q * al) * (q * al)) by (pose proof (Rle_0_sqr (p * al)); pose proof (Rle_0_sqr (q * al)); unfold Rsqr in *; lra).
        nra.
      - destruct RS as (_ & _ & X). apply stationary_test in X. change (n_absolute_first_derivative_tol away_params) with 0 in X.
        pose proof (Rabs_pos (d_f (it_directional_derivatives info))) as Y. pose proof (Rmax_l (Rabs (d_f (it_directional_derivatives info))) (Rabs (d_equality (it_directional_derivatives info)))). lra.
      - discriminate RS.
      - destruct RS as (_ & _ & _ & X & _). discriminate X. }
    split; [exact F|]. apply V1. destruct F as [X|X]; rewrite X; discriminate.
  Qed.

  (** C31 (no success), C34, C35 (MAX_LAMBDA), C36, C40: the solve ends with MAX_LAMBDA after at least two and at most four
      iterations, all of which failed, at the initial guess. *)
  Example C31_C34_C40_real_case : forall a b cs, 0 < a * a + b * b ->
    exists r, Solve [a; b] cs = Ok r /\ out_termination_state (res_out r) = MAX_LAMBDA /\
      (forall info, In info (out_iterations (res_out r)) -> failed info) /\
      (2 <= length (out_iterations (res_out r)) <= 4)%nat /\ res_vars r = [a; b].
  Proof.
    intros a b cs NZ. destruct (away_returns [a; b] cs eq_refl) as [r H]. exists r. split; [exact H|].
    destruct (solve_history _ _ _ _ _ _ _ _ _ _ _ _ H) as (sts & css & exs & A & _ & C & _ & HLn & HH & _).
    set (log := out_iterations (res_out r)) in *.
    assert (G : forall k, (k <= length log)%nat -> ns_vars (sts k) = [a; b] /\
              forall j info, (j < k)%nat -> nth_error log j = Some info -> failed info).
    { induction k as [|k IH]; intro Hk; [split; [rewrite A; reflexivity|intros j info Hj; lia]|].
      destruct (IH ltac:(lia)) as [IV IF]. destruct (nth_error log k) as [info|] eqn:E; [|apply nth_error_None in E; lia].
      destruct (HH k info E) as (HI & _). apply iterate_spec in HI. destruct HI as [_ HI].
      destruct (away_iteration _ _ _ _ _ a b IV NZ HI) as [F V]. split; [exact V|].
      intros j info' Hj Hn. destruct (Nat.eq_dec j k) as [->|]; [congruence|]. apply (IF j); [lia|exact Hn]. }
    destruct (G (length log) (le_n _)) as [GV GF].
    assert (AF : forall info, In info log -> failed info).
    { intros info Hin. apply In_nth_error in Hin. destruct Hin as [k Hk]. apply (GF k); [apply nth_error_Some; congruence|exact Hk]. }
    assert (L4 : (length log <= 4)%nat).
    { destruct (le_lt_dec (length log) 4) as [|X]; [assumption|exfalso].
      destruct (C40_consecutive_failures_bounded _ _ _ _ _ _ _ _ _ _ _ _ H 0 3) as [_ Y]; [exact X| |].
      - intros j info _ Hn. apply AF. apply nth_error_In in Hn. exact Hn.
      - cbn [away_params n_lambda_failure_init n_max_lambda] in Y. lra. }
    destruct (C35_termination_states _ _ _ _ _ _ _ _ _ _ _ _ H) as (_ & _ & _ & T). cbv zeta in T. fold log in T.
    destruct (C34_lambda_update _ _ _ _ _ _ _ _ _ _ _ _ H) as [LI _]. fold log in LI.
    assert (ST : out_termination_state (res_out r) = MAX_LAMBDA).
    { destruct (out_termination_state (res_out r)) eqn:ET; auto; exfalso.
      - cbn [away_params n_max_iterations] in T. lia.
      - destruct T as (init & info & EL & SR & _). assert (X : failed info) by (apply AF; rewrite EL; apply in_or_app; right; left; reflexivity).
        unfold failed in X. destruct X; congruence.
      - destruct T as (init & info & EL & SR & _). assert (X : failed info) by (apply AF; rewrite EL; apply in_or_app; right; left; reflexivity).
        unfold failed in X. destruct X; congruence.
      - destruct T as (init & info & EL & SR & _). assert (X : failed info) by (apply AF; rewrite EL; apply in_or_app; right; left; reflexivity).
        unfold failed in X. destruct X; congruence.
      - destruct T as (_ & X & _). apply X. reflexivity.
      - destruct T as (f & init & info & s & X & _). discriminate X. }
    split; [exact ST|]. split; [exact AF|]. split; [|rewrite <- C; exact GV].
    rewrite ST in T. destruct T as (init & info & EL & _ & X). split; [|exact L4].
    destruct init as [|i0 init]; [exfalso|rewrite EL, app_length; simpl; lia].
    rewrite EL in LI. specialize (LI info eq_refl). rewrite EL in X. cbn [length opt_before app] in X. rewrite LI in X.
    unfold raised_lambda in X. cbn [away_params n_lambda_failure_init n_lambda_initial n_max_lambda] in X.
    rewrite R_fmax in X. cbn [fmul R_ops] in X. rewrite Rmult_0_l in X. rewrite Rmax_left in X by lra.
    destruct (R_fgtb (1 / 100) 1); [lra|discriminate].
  Qed.
End Away.

(** ** C65: the two dimensional residual of [ex_ip] as two scalar residuals, in either order, with a vanishing term. *)
Definition ros_a : residual R := MkRes 1 [0; 1]%Z (fun p => [vget p 0 - 3]) (fun p => ([vget p 0 - 3], Mat 1 2 [[1; 0]])).
Definition ros_b : residual R := MkRes 1 [0; 1]%Z (fun p => [10 * (vget p 1 - vget p 0 * vget p 0)])
  (fun p => ([10 * (vget p 1 - vget p 0 * vget p 0)], Mat 1 2 [[- 20 * vget p 0; 10]])).
Definition nothing : residual R := MkRes 1 [1]%Z (fun _ => [0]) (fun _ => ([0], Mat 1 1 [[0]])).

Example C65_case : forall (S : Type) (cb : option (S -> NLSIteration R -> S * bool)) eigs g vars cs, length vars = 2%nat ->
  stacks ros ros_a ros_b /\ indices_ok ex_ip /\
  exists r, NLS_Solve ldlt2 ns_ex_qr ns_ex_llt eigs None cb default_NLSParams ex_ip g vars cs = Ok r /\
    NLS_Solve ldlt2 ns_ex_qr ns_ex_llt eigs None cb default_NLSParams (MkProblem 2%Z [nothing; ros_b; ros_a] ros_box []) g vars cs = Ok r.
Proof.
  intros S cb eigs g vars cs LV.
  assert (ST : stacks ros ros_a ros_b).
  { unfold stacks. splits; try reflexivity.
    - intros p [|k] Hk; [|cbn in Hk; lia]. split; [reflexivity|]. split; [reflexivity|]. intros [|[|a]]; reflexivity.
    - intros p [|k] Hk; [|cbn in Hk; lia]. split; [reflexivity|]. split; [reflexivity|]. intros [|[|a]]; reflexivity. }
  assert (BX : forall c, In c ros_box -> (0 <= lvar c < 2)%Z) by (intros c [<-|[<-|[]]]; cbn; lia).
  assert (I1 : indices_ok ex_ip).
  { constructor; [reflexivity|exact ex_ip_distinct| |exact BX].
    intros r [[<-|[]]|[]] i Hi. exact (ros_index i Hi). }
  assert (ND : NoDup [0; 1]%Z) by exact ros_nodup.
  assert (I2 : indices_ok (MkProblem 2%Z [nothing; ros_b; ros_a] ros_box [])).
  { constructor; [reflexivity| | |exact BX].
    - split; [|intros r []]. intros r [<-|[<-|[<-|[]]]]; cbn [nothing ros_a ros_b res_index]; try exact ND. constructor; [intros []|constructor].
    - intros r [[<-|[<-|[<-|[]]]]|[]] i Hi; cbn in Hi; cbn; lia. }
  splits; [exact ST|exact I1|].
  destruct (ex_ip_solved cb eigs g vars cs LV) as [r E]. exists r. split; [exact E|].
  assert (KL : keeps_length (F := R) None) by (intros f X; discriminate).
  pose proof (C65_zero_term_irrelevant ldlt2 ns_ex_qr ns_ex_llt eigs None S cb 2%Z [] [ros_b; ros_a] nothing ros_box [] default_NLSParams g vars cs KL) as ZT.
  cbn [app] in ZT.
  pose proof (C65_cost_order_irrelevant ldlt2 ns_ex_qr ns_ex_llt eigs None S cb 2%Z [ros_b; ros_a] [ros_a; ros_b] ros_box [] default_NLSParams g vars cs KL
               (perm_swap ros_a ros_b [])) as CO.
  destruct (C65_stacking_irrelevant ldlt2 ns_ex_qr ns_ex_llt eigs None S cb 2%Z [] [] [] [] ros ros_a ros_b ros_box default_NLSParams g vars cs KL ST LV) as [A _].
  cbn [app] in A. fold ex_ip in A.
  assert (I3 : indices_ok (MkProblem 2%Z [ros_b; ros_a] ros_box [])).
  { destruct I2 as [X1 [X2 X3] X4 X5]. constructor.
    - exact X1.
    - split; [intros q Hq; apply X2; right; exact Hq|exact X3].
    - intros q [Hq|Hq]; apply X4; [left; right|right]; exact Hq.
    - exact X5. }
  refine (eq_trans (ZT _ I2 LV) (eq_trans (CO I3 LV) (eq_trans (eq_sym (A I1)) E))).
  intros p k. split; [|split].
  - destruct k as [|[|k]]; reflexivity.
  - destruct k as [|[|k]]; reflexivity.
  - intro a. destruct k as [|[|k]]; destruct a as [|[|a]]; reflexivity.
Qed.

(** ** C76: the box constraints of [ex_ip] in the other order; the Solve returns. *)
Example C76_case : forall (S : Type) (cb : option (S -> NLSIteration R -> S * bool)) eigs g vars cs, length vars = 2%nat ->
  ros_box <> rev ros_box /\ indices_ok ex_ip /\
  exists r, NLS_Solve ldlt2 ns_ex_qr ns_ex_llt eigs None cb default_NLSParams ex_ip g vars cs = Ok r /\
    NLS_Solve ldlt2 ns_ex_qr ns_ex_llt eigs None cb default_NLSParams (MkProblem 2%Z [ros] (rev ros_box) []) g vars cs = Ok r.
Proof.
  intros S cb eigs g vars cs LV.
  assert (I1 : indices_ok ex_ip).
  { constructor; [reflexivity|exact ex_ip_distinct| |].
    - intros r [[<-|[]]|[]] i Hi. exact (ros_index i Hi).
    - intros c [<-|[<-|[]]]; cbn; lia. }
  split; [discriminate|]. split; [exact I1|].
  destruct (ex_ip_solved cb eigs g vars cs LV) as [r E]. exists r. split; [exact E|].
  assert (KL : keeps_length (F := R) None) by (intros f X; discriminate).
  rewrite <- E. symmetry. apply (C76_inequality_order_irrelevant ldlt2 ns_ex_qr ns_ex_llt eigs None S cb 2%Z [ros] ros_box (rev ros_box) []); auto.
  - apply Permutation_rev.
  - exists [0; 0]. intros c [<-|[<-|[]]]; [|change (1 * 0 + - (-1) >= 0)]; unfold vget; cbn; lra.
Qed.
