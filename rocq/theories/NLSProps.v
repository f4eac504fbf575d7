(** C25 (second part), C32-C36, C39, C40, C49: the nonlinear solver's main loop. *)
From Coq Require Import String List Bool Arith ZArith QArith Reals Lra Lia.
From Verif Require Import Scalar Outcome LinAlg Structs Constraint QPModel NullSpace Residual Nonlinear RInst
  LinProps QPReuse LSProps NLSTrace.
Import ListNotations.
Local Open Scope outcome_scope.
Local Open Scope string_scope.
Local Open Scope list_scope.
Local Open Scope nat_scope.

Section AnyArith.
  Context {F : Type} {O : Ops F}.
  Variable ldlt : mat F -> option (mat F).
  Variable qr : mat F -> QRResult F.
  Variable llt : mat F -> option (list F -> list F).
  Variable eigs : mat F -> QPEigenvalues F.
  Variable retract : option (list F -> list F -> F -> list F).
  Context {S : Type}.
  Variable cb : option (S -> NLSIteration F -> S * bool).
  Variable pa : NLSParams F.
  Variable pr : Problem F.
  Variable g : nat -> garbage F.

  Notation solve := (solve ldlt qr llt eigs retract cb pa pr g).
  Notation iteration_spec := (iteration_spec ldlt qr llt eigs retract pa pr).
  Notation iterate := (iterate ldlt qr llt eigs retract pa pr g).

  (** ** C25: errors carried from one iteration to the next *)
  Theorem C25_errors_carried_over : forall vars cs r, value_consistent pr -> solve vars cs = Ok r ->
    forall k a b, nth_error (out_iterations (res_out r)) k = Some a ->
    nth_error (out_iterations (res_out r)) (Datatypes.S k) = Some b ->
    (it_step_result a = SS_SUCCESS ->
       exists init last, it_line_search_steps a = init ++ [last] /\ it_errors_initial b = step_errors last) /\
    (it_step_result a <> SS_SUCCESS -> it_errors_initial b = it_errors_initial a).
  Proof.
    intros vars cs r VC H k a b Ha Hb.
    destruct (C31_variables_move_only_on_success _ _ _ _ _ _ _ _ _ _ _ _ H) as (xs & _ & _ & X).
    destruct (X k a Ha) as ((l1 & q1 & L1) & V1 & V2). destruct (X (Datatypes.S k) b Hb) as ((l2 & q2 & L2) & _ & _).
    apply C25_linearisation_errors in L1; [|exact VC]. apply C25_linearisation_errors in L2; [|exact VC].
    split; intro E.
    - destruct (V2 E) as (dx & init & last & E1 & _ & E2). exists init, last. split; [exact E1|].
      rewrite L2 in E2. apply Ok_inj in E2. exact E2.
    - rewrite (V1 E) in L2. rewrite L1 in L2. apply Ok_inj in L2. congruence.
  Qed.

  (** ** C35 *)

  (** The damping parameter tried after a failed line search. *)
  Definition raised_lambda (before : OptimizerState) (lambda : F) : F :=
    match before with
    | NOMINAL => fmax (n_lambda_failure_init pa) (fmul lambda (flit lit_10))
    | ATTEMPTING_RESTORE_LM => fmul lambda (flit lit_10)
    end.

  (** The optimizer state after an iteration with the given step result. *)
  Definition next_opt (before : OptimizerState) (sr : StepSizeSelectionResult) : OptimizerState :=
    match sr with
    | SS_SUCCESS => NOMINAL
    | SS_MAX_ITERATIONS | POSITIVE_DERIVATIVE => ATTEMPTING_RESTORE_LM
    | FIRST_ORDER_SATISFIED | FAILURE_NON_FINITE_COST | FAILURE_INVALID_ALPHA => before
    end.

  (** The documented exit conditions of an iteration. *)
  Definition exit_condition (before : OptimizerState) (info : NLSIteration F) (t : NLSTerminationState) : Prop :=
    match t with
    | SATISFIED_ABSOLUTE_TOL => it_step_result info = SS_SUCCESS /\
        exists init last, it_line_search_steps info = init ++ [last] /\
          fltb (fmax (err_f (step_errors last)) (err_equality (step_errors last))) (n_absolute_exit_tol pa) = true
    | SATISFIED_RELATIVE_TOL => it_step_result info = SS_SUCCESS /\
        exists init last, it_line_search_steps info = init ++ [last] /\
          fltb (fmax (err_f (step_errors last)) (err_equality (step_errors last))) (n_absolute_exit_tol pa) = false /\
          fgtb (Errors_Total (step_errors last) (it_penalty info))
               (fmul (Errors_Total (it_errors_initial info) (it_penalty info)) (fsub f1 (n_relative_exit_tol pa))) = true
    | SATISFIED_FIRST_ORDER_TOL => it_step_result info = FIRST_ORDER_SATISFIED /\
        fltb (fmax (fabs (d_f (it_directional_derivatives info))) (fabs (d_equality (it_directional_derivatives info))))
             (n_absolute_first_derivative_tol pa) = true
    | MAX_LAMBDA => (it_step_result info = SS_MAX_ITERATIONS \/ it_step_result info = POSITIVE_DERIVATIVE) /\
        fgtb (raised_lambda before (it_lambda info)) (n_max_lambda pa) = true
    | NLS_MAX_ITERATIONS | QP_INDEFINITE | USER_CALLBACK => False
    end.

  Lemma last_nth : forall (A : Type) (init : list A) (x d : A), nth (length (init ++ [x]) - 1) (init ++ [x]) d = x.
  Proof.
    intros. rewrite app_length. simpl. replace (length init + 1 - 1) with (length init) by lia.
    rewrite app_nth2, Nat.sub_diag by lia. reflexivity.
  Qed.

  Lemma ls_nonempty : forall st info dx cand, (0 <= n_max_line_search_iterations pa)%Z ->
    run_line_search retract (ls_of pa pr st info dx) = Ok (it_step_result info, it_line_search_steps info, cand) ->
    exists init last, it_line_search_steps info = init ++ [last].
  Proof.
    intros st info dx cand HM HS.
    destruct (C28_line_search_log retract (ls_of pa pr st info dx) HM _ _ _ HS) as (_ & _ & _ & _ & init & last & E & _). eauto.
  Qed.

  (** An iteration requests exit [t] iff the corresponding condition holds. *)
  Lemma iteration_exit : forall gk st info ex st', (0 <= n_max_line_search_iterations pa)%Z ->
    iteration_spec gk st info ex st' ->
    forall t, ex = Some t <-> exit_condition (ns_opt st) info t.
  Proof.
    intros gk st info ex st' HM (qp & dx & cand & HL & HD & HI & HC & HP & HS & HU & HLam & _) t.
    destruct (ls_nonempty _ _ _ _ HM HS) as (init & last & EL).
    assert (FO : it_step_result info = FIRST_ORDER_SATISFIED ->
      fltb (fmax (fabs (d_f (it_directional_derivatives info))) (fabs (d_equality (it_directional_derivatives info))))
             (n_absolute_first_derivative_tol pa) = true).
    { intro E. rewrite E in HS. destruct (C28_line_search_log retract (ls_of pa pr st info dx) HM _ _ _ HS) as (_ & _ & _ & _ & i & l & _ & _ & _ & _ & _ & X).
      exact X. }
    unfold UpdateLambdaAndCheckExitConditions in HU. rewrite EL in HU. unfold exit_condition. rewrite EL, HLam.
    assert (LI : forall i l, init ++ [last] = i ++ [l] -> l = last).
    { intros i l E. apply app_inj_tail in E. symmetry. tauto. }
    destruct (it_step_result info) eqn:ER.
    - rewrite last_nth in HU. inv_bind HU. clear Hm a. unfold Errors_LInfinity in HU.
      destruct (fltb (fmax _ _) (n_absolute_exit_tol pa)) eqn:E1;
      [|destruct (fgtb (Errors_Total (step_errors last) _) _) eqn:E2];
      apply Ok_inj in HU; apply pair_inj in HU; destruct HU as [HU _]; subst ex;
      (split; [intro X; first [discriminate X | injection X as <-; split; [reflexivity|]; exists init, last; auto]|]);
      destruct t; try (intros []; fail); try (intros [X _]; discriminate X); try (intros [[X|X] _]; discriminate X);
      try (intros [_ (i & l & El & X)]; apply LI in El; subst l; try congruence; try (destruct X; congruence); reflexivity).
    - set (l' := raised_lambda (ns_opt st) (ns_lambda st)) in *.
      change (match ns_opt st with NOMINAL => _ | ATTEMPTING_RESTORE_LM => _ end) with l' in HU.
      destruct (fgtb l' (n_max_lambda pa)) eqn:E1; apply Ok_inj in HU; apply pair_inj in HU; destruct HU as [HU _]; subst ex;
      (split; [intro X; first [discriminate X | injection X as <-; auto]|]);
      destruct t; try (intros []; fail); try (intros [X _]; discriminate X); try (intros [_ X]; congruence).
    - apply Ok_inj in HU; apply pair_inj in HU; destruct HU as [HU _]; subst ex.
      split; [intro X; injection X as <-; auto|]. destruct t; try (intros []; fail); try (intros [X _]; discriminate X); try (intros [[X|X] _]; discriminate X); try (intros [X _]; discriminate X); auto.
    - set (l' := raised_lambda (ns_opt st) (ns_lambda st)) in *.
      change (match ns_opt st with NOMINAL => _ | ATTEMPTING_RESTORE_LM => _ end) with l' in HU.
      destruct (fgtb l' (n_max_lambda pa)) eqn:E1; apply Ok_inj in HU; apply pair_inj in HU; destruct HU as [HU _]; subst ex;
      (split; [intro X; first [discriminate X | injection X as <-; auto]|]);
      destruct t; try (intros []; fail); try (intros [X _]; discriminate X); try (intros [_ X]; congruence).
    - apply Ok_inj in HU; apply pair_inj in HU; destruct HU as [HU _]; subst ex.
      split; [discriminate|]. destruct t; try (intros []; fail); try (intros [X _]; discriminate X); try (intros [[X|X] _]; discriminate X); try (intros [X _]; discriminate X).
    - apply Ok_inj in HU; apply pair_inj in HU; destruct HU as [HU _]; subst ex.
      split; [discriminate|]. destruct t; try (intros []; fail); try (intros [X _]; discriminate X); try (intros [[X|X] _]; discriminate X); try (intros [X _]; discriminate X).
  Qed.

  Lemma iteration_opt : forall gk st info ex st', iteration_spec gk st info ex st' ->
    it_optimizer_state info = next_opt (ns_opt st) (it_step_result info) /\ ns_opt st' = it_optimizer_state info.
  Proof.
    intros gk st info ex st' (qp & dx & cand & _ & _ & _ & _ & _ & _ & HU & _ & HO & _). split; [|congruence].
    rewrite HO. clear HO. unfold UpdateLambdaAndCheckExitConditions in HU. unfold next_opt. destruct (it_step_result info).
    - inv_bind HU. repeat match type of HU with (if ?b then _ else _) = _ => destruct b end;
      apply Ok_inj in HU; apply pair_inj in HU; destruct HU as [_ <-]; reflexivity.
    - try match type of HU with (if ?b then _ else _) = _ => destruct b end;
      apply Ok_inj in HU; apply pair_inj in HU; destruct HU as [_ <-]; reflexivity.
    - try match type of HU with (if ?b then _ else _) = _ => destruct b end;
      apply Ok_inj in HU; apply pair_inj in HU; destruct HU as [_ <-]; reflexivity.
    - try match type of HU with (if ?b then _ else _) = _ => destruct b end;
      apply Ok_inj in HU; apply pair_inj in HU; destruct HU as [_ <-]; reflexivity.
    - try match type of HU with (if ?b then _ else _) = _ => destruct b end;
      apply Ok_inj in HU; apply pair_inj in HU; destruct HU as [_ <-]; reflexivity.
    - try match type of HU with (if ?b then _ else _) = _ => destruct b end;
      apply Ok_inj in HU; apply pair_inj in HU; destruct HU as [_ <-]; reflexivity.
  Qed.

  (** The optimizer state in force when iteration k started: NOMINAL, or the one logged by iteration k-1. *)
  Definition opt_before (log : list (NLSIteration F)) (k : nat) : OptimizerState :=
    match k with 0 => NOMINAL | Datatypes.S j => match nth_error log j with Some i => it_optimizer_state i | None => NOMINAL end end.

  (** C35: the exit conditions, read off the log, hold for the last iteration exactly when the corresponding
      state is returned, and never hold for an earlier iteration; MAX_ITERATIONS, QP_INDEFINITE and
      USER_CALLBACK are returned only when no exit condition held; the optimizer state is logged correctly. *)
  Theorem C35_termination_states : forall vars cs r, solve vars cs = Ok r ->
    let log := out_iterations (res_out r) in
    let t := out_termination_state (res_out r) in
    (forall k info, nth_error log k = Some info -> Datatypes.S k < length log ->
       forall t', ~ exit_condition (opt_before log k) info t') /\
    (forall k info, nth_error log k = Some info -> Datatypes.S k = length log ->
       forall t', exit_condition (opt_before log k) info t' -> t' = t) /\
    (forall k info, nth_error log k = Some info ->
       it_optimizer_state info = next_opt (opt_before log k) (it_step_result info)) /\
    match t with
    | NLS_MAX_ITERATIONS => Z.of_nat (length log) = n_max_iterations pa
    | QP_INDEFINITE => pr_ineq pr = [] /\ pr_eq pr <> [] /\
        exists lambda errs qp, LinearizeAndFillQP (res_vars r) lambda pr = Ok (errs, qp) /\
          exists x, NS_Solve qr llt qp (vzero (pdim pr)) = Ok (NOT_POSITIVE_DEFINITE, x)
    | USER_CALLBACK => exists f init info s, cb = Some f /\ log = init ++ [info] /\ snd (f s info) = false
    | _ => exists init info, log = init ++ [info] /\ exit_condition (opt_before log (length init)) info t
    end.
  Proof.
    intros vars cs r H log t. pose proof (params_ls _ (solve_params _ _ _ _ _ _ _ _ _ _ _ _ H)) as [H0 HM].
    destruct (solve_history _ _ _ _ _ _ _ _ _ _ _ _ H) as (sts & css & exs & A & B & C & D & HL & HH & HT).
    fold log in C, D, HL, HH, HT. fold t in HT.
    assert (SPEC : forall k info, nth_error log k = Some info -> iteration_spec (g k) (sts k) info (exs k) (sts (Datatypes.S k))).
    { intros k info Hk. destruct (HH k info Hk) as (HI & _). apply iterate_spec in HI. exact (proj2 HI). }
    assert (OB : forall k, k <= length log -> ns_opt (sts k) = opt_before log k).
    { intros [|k] Hk; [rewrite A; reflexivity|]. simpl.
      destruct (nth_error log k) as [info|] eqn:E; [|apply nth_error_None in E; lia].
      destruct (iteration_opt _ _ _ _ _ (SPEC k info E)) as [_ X]. exact X. }
    assert (EX : forall k info, nth_error log k = Some info -> forall t', exs k = Some t' <-> exit_condition (opt_before log k) info t').
    { intros k info Hk t'. rewrite <- OB by (apply Nat.lt_le_incl, nth_error_Some; congruence).
      eapply iteration_exit; [exact HM|apply SPEC; exact Hk]. }
    assert (SN : forall j i, length log = Datatypes.S j -> nth_error log j = Some i -> exists init, log = init ++ [i] /\ length init = j).
    { intros j i Hl Hn. destruct (nth_error_split _ _ Hn) as (l1 & l2 & E & El). exists l1.
      destruct l2; [auto|]. rewrite E, app_length in Hl. simpl in Hl. lia. }
    assert (TT : (exists j info, length log = Datatypes.S j /\ nth_error log j = Some info /\ exs j = Some t) ->
        (forall k info, nth_error log k = Some info -> Datatypes.S k = length log -> forall t', exit_condition (opt_before log k) info t' -> t' = t) /\
        exists init info, log = init ++ [info] /\ exit_condition (opt_before log (length init)) info t).
    { intros (j & i & P & Q & W). split.
      - intros k info Hk Hl t' Ht. assert (k = j) by lia. subst k. apply (EX j info Hk) in Ht. congruence.
      - destruct (SN j i P Q) as (init & E1 & E2). exists init, i. split; [exact E1|]. rewrite E2. apply EX; assumption. }
    assert (NN : (forall j info, nth_error log j = Some info -> exs j = None) ->
        forall k info, nth_error log k = Some info -> Datatypes.S k = length log -> forall t', exit_condition (opt_before log k) info t' -> t' = t).
    { intros X k info Hk _ t' Ht. apply (EX k info Hk) in Ht. rewrite (X k info Hk) in Ht. discriminate. }
    assert (P1 : forall k info, nth_error log k = Some info -> Datatypes.S k < length log ->
       forall t', ~ exit_condition (opt_before log k) info t').
    { intros k info Hk Hl t' Ht. apply (EX k info Hk) in Ht. destruct (HH k info Hk) as (_ & _ & X). destruct (X Hl). congruence. }
    assert (P3 : forall k info, nth_error log k = Some info ->
       it_optimizer_state info = next_opt (opt_before log k) (it_step_result info)).
    { intros k info Hk. rewrite <- OB by (apply Nat.lt_le_incl, nth_error_Some; congruence).
      exact (proj1 (iteration_opt _ _ _ _ _ (SPEC k info Hk))). }
    split; [exact P1|].
    destruct t eqn:ET.
      all: try (destruct (TT HT) as [X1 X2]; splits; auto; fail).
      + destruct HT as (X1 & X2 & X3). splits; auto.
        * apply NN. intros j i Hj. exact (proj1 (X1 j i Hj)).
        * specialize (X2 eq_refl). lia.
      + destruct HT as (X1 & X2 & X3). destruct (X3 eq_refl) as [X4 X5]. split; [|split; [exact P3|]].
        * apply NN. intros j i Hj. exact (proj1 (X1 j i Hj)).
        * unfold NLSTrace.iterate, nls_iterate in X5. inv_bind X5. destruct a as [ep qp]. inv_bind X5. destruct a as [qo dx].
          destruct (QPWasIndefinite qo) eqn:EQ; [|inv_bind X5; inv_bind X5; destruct a0 as [[? ?] ?]; inv_bind X5; destruct a0; discriminate].
          unfold ComputeStepDirection, use_null_space in Hm0. destruct (pr_ineq pr).
          -- destruct (pr_eq pr) eqn:EE; [inv_bind Hm0; inv_bind Hm0; destruct a0; apply Ok_inj in Hm0; apply pair_inj in Hm0; destruct Hm0 as [<- _]; discriminate|].
             inv_bind Hm0. destruct a as [tt x]. destruct tt.
             ++ apply Ok_inj in Hm0; apply pair_inj in Hm0; destruct Hm0 as [<- _]. discriminate.
             ++ splits; [reflexivity|discriminate|]. rewrite <- C. eauto 8.
          -- inv_bind Hm0. inv_bind Hm0. destruct a0; apply Ok_inj in Hm0; apply pair_inj in Hm0; destruct Hm0 as [<- _]; discriminate.
      + destruct HT as (j & i & P & Q & W & V). splits; auto.
        * intros k info Hk Hl t' Ht. assert (k = j) by lia. subst k. apply (EX j info Hk) in Ht. congruence.
        * destruct (SN j i P Q) as (init & E1 & E2). unfold call_cb in V. destruct cb as [f|]; [|discriminate].
          exists f, init, i, (css j). auto.
  Qed.

  (** C35: what the satisfied states say about the returned variables: the errors tested are those at variables(). *)
  Theorem C35_tolerance_holds_at_result : forall vars cs r, solve vars cs = Ok r ->
    (out_termination_state (res_out r) = SATISFIED_ABSOLUTE_TOL ->
      exists e, EvaluateNonlinearErrors pr (res_vars r) = Ok e /\
        fltb (fmax (err_f e) (err_equality e)) (n_absolute_exit_tol pa) = true) /\
    (out_termination_state (res_out r) = SATISFIED_RELATIVE_TOL ->
      exists e init info, EvaluateNonlinearErrors pr (res_vars r) = Ok e /\ out_iterations (res_out r) = init ++ [info] /\
        fgtb (Errors_Total e (it_penalty info))
             (fmul (Errors_Total (it_errors_initial info) (it_penalty info)) (fsub f1 (n_relative_exit_tol pa))) = true).
  Proof.
    intros vars cs r H. destruct (C31_variables_move_only_on_success _ _ _ _ _ _ _ _ _ _ _ _ H) as (xs & _ & XF & X).
    destruct (C35_termination_states _ _ _ H) as (_ & _ & _ & T). cbv zeta in *.
    split; intro E; rewrite E in T; destruct T as (init & info & EL & SR & i & l & E1 & E2).
    - destruct (X (length init) info) as (_ & _ & V); [rewrite EL, nth_error_app2, Nat.sub_diag by lia; reflexivity|].
      destruct (V SR) as (dx & i' & l' & E1' & _ & EV). rewrite E1 in E1'. apply app_inj_tail in E1'. destruct E1' as [_ <-].
      rewrite EL, app_length in XF. cbn [length] in XF. rewrite Nat.add_1_r in XF. rewrite XF in EV. eauto.
    - destruct (X (length init) info) as (_ & _ & V); [rewrite EL, nth_error_app2, Nat.sub_diag by lia; reflexivity|].
      destruct (V SR) as (dx & i' & l' & E1' & _ & EV). rewrite E1 in E1'. apply app_inj_tail in E1'. destruct E1' as [_ <-].
      rewrite EL, app_length in XF. cbn [length] in XF. rewrite Nat.add_1_r in XF. rewrite XF in EV. destruct E2 as [_ E2]. eauto 8.
  Qed.

  (** ** C33, any arithmetic: what the penalty is set to *)
  Definition penalty_before (log : list (NLSIteration F)) (k : nat) : F :=
    match k with
    | 0 => n_equality_penalty_initial pa
    | Datatypes.S j => match nth_error log j with Some i => it_penalty i | None => n_equality_penalty_initial pa end
    end.

  Theorem C33_penalty_update : forall vars cs r, solve vars cs = Ok r ->
    let log := out_iterations (res_out r) in
    forall k info, nth_error log k = Some info ->
    it_penalty info = penalty_before log k \/
    (pr_eq pr <> [] /\ exists lower, fgtb lower (penalty_before log k) = true /\
       it_penalty info = fmul lower (n_equality_penalty_scale_factor pa) /\
       match it_qp_outputs info with
       | InteriorPointOut o => forall m, qp_lagrange_multipliers o = Some m -> lower = lm_l_infinity m
       | NullSpaceOut _ => True
       end).
  Proof.
    intros vars cs r H log k info Hk.
    destruct (solve_history _ _ _ _ _ _ _ _ _ _ _ _ H) as (sts & css & exs & A & B & C & D & HL & HH & HT).
    fold log in C, D, HL, HH, HT.
    assert (PB : ns_penalty (sts k) = penalty_before log k).
    { destruct k as [|k]; [rewrite A; reflexivity|]. simpl.
      destruct (nth_error log k) as [i|] eqn:E.
      - destruct (HH k i E) as (HI & _). apply iterate_spec in HI. destruct HI as [_ (qp & dx & cand & _ & _ & _ & _ & _ & _ & _ & _ & _ & X & _)]. congruence.
      - apply nth_error_None in E. assert (Datatypes.S k < length log) by (apply nth_error_Some; congruence). lia. }
    destruct (HH k info Hk) as (HI & _). apply iterate_spec in HI.
    destruct HI as [_ (qp & dx & cand & _ & _ & _ & _ & HP & _)]. rewrite HP. rewrite PB.
    unfold update_penalty. destruct (pr_eq pr); [left; reflexivity|].
    destruct (fgtb (SelectPenalty qp dx (MaybeGetLagrangeMultipliers (it_qp_outputs info)) (n_equality_penalty_rho pa)) (penalty_before log k)) eqn:E;
      [right|left; reflexivity].
    split; [discriminate|]. eexists. splits; [exact E|reflexivity|].
    destruct (it_qp_outputs info); [exact I|]. intros m Em. cbn [MaybeGetLagrangeMultipliers]. rewrite Em. reflexivity.
  Qed.

  (** ** C34, any arithmetic: what lambda is set to *)
  Definition next_lambda (before : OptimizerState) (info : NLSIteration F) : F :=
    match it_step_result info with
    | SS_SUCCESS =>
        fmax (fmul (it_lambda info)
                   match before with ATTEMPTING_RESTORE_LM => n_lambda_decrease_on_restore pa | NOMINAL => n_lambda_decrease_on_success pa end)
             (n_min_lambda pa)
    | SS_MAX_ITERATIONS | POSITIVE_DERIVATIVE => raised_lambda before (it_lambda info)
    | FIRST_ORDER_SATISFIED | FAILURE_NON_FINITE_COST | FAILURE_INVALID_ALPHA => it_lambda info
    end.

  Lemma iteration_lambda : forall gk st info ex st', iteration_spec gk st info ex st' ->
    it_lambda info = ns_lambda st /\ ns_lambda st' = next_lambda (ns_opt st) info.
  Proof.
    intros gk st info ex st' (qp & dx & cand & _ & _ & _ & _ & _ & _ & HU & HL & _). split; [exact HL|].
    unfold next_lambda. rewrite HL. clear HL. unfold UpdateLambdaAndCheckExitConditions in HU. destruct (it_step_result info).
    - inv_bind HU. repeat match type of HU with (if ?b then _ else _) = _ => destruct b end;
      apply Ok_inj in HU; apply pair_inj in HU; destruct HU as [_ <-]; cbn [ns_lambda]; destruct (ns_opt st); reflexivity.
    - try match type of HU with (if ?b then _ else _) = _ => destruct b end;
      apply Ok_inj in HU; apply pair_inj in HU; destruct HU as [_ <-]; reflexivity.
    - try match type of HU with (if ?b then _ else _) = _ => destruct b end;
      apply Ok_inj in HU; apply pair_inj in HU; destruct HU as [_ <-]; reflexivity.
    - try match type of HU with (if ?b then _ else _) = _ => destruct b end;
      apply Ok_inj in HU; apply pair_inj in HU; destruct HU as [_ <-]; reflexivity.
    - try match type of HU with (if ?b then _ else _) = _ => destruct b end;
      apply Ok_inj in HU; apply pair_inj in HU; destruct HU as [_ <-]; reflexivity.
    - try match type of HU with (if ?b then _ else _) = _ => destruct b end;
      apply Ok_inj in HU; apply pair_inj in HU; destruct HU as [_ <-]; reflexivity.
  Qed.

  Theorem C34_lambda_update : forall vars cs r, solve vars cs = Ok r ->
    let log := out_iterations (res_out r) in
    (forall info, nth_error log 0 = Some info -> it_lambda info = n_lambda_initial pa) /\
    (forall k a b, nth_error log k = Some a -> nth_error log (Datatypes.S k) = Some b ->
       it_lambda b = next_lambda (opt_before log k) a).
  Proof.
    intros vars cs r H log.
    destruct (solve_history _ _ _ _ _ _ _ _ _ _ _ _ H) as (sts & css & exs & A & B & C & D & HL & HH & HT).
    fold log in C, D, HL, HH, HT.
    assert (SPEC : forall k info, nth_error log k = Some info -> iteration_spec (g k) (sts k) info (exs k) (sts (Datatypes.S k))).
    { intros k info Hk. destruct (HH k info Hk) as (HI & _). apply iterate_spec in HI. exact (proj2 HI). }
    assert (OB : forall k, k <= length log -> ns_opt (sts k) = opt_before log k).
    { intros [|k] Hk; [rewrite A; reflexivity|]. simpl.
      destruct (nth_error log k) as [info|] eqn:E; [|apply nth_error_None in E; lia].
      destruct (iteration_opt _ _ _ _ _ (SPEC k info E)) as [_ X]. exact X. }
    split.
    - intros info Hk. destruct (iteration_lambda _ _ _ _ _ (SPEC 0 info Hk)) as [X _]. rewrite X, A. reflexivity.
    - intros k a b Ha Hb. destruct (iteration_lambda _ _ _ _ _ (SPEC _ b Hb)) as [X _].
      destruct (iteration_lambda _ _ _ _ _ (SPEC _ a Ha)) as [_ Y]. rewrite X, Y, OB; [reflexivity|].
      apply Nat.lt_le_incl, nth_error_Some; congruence.
  Qed.

  (** ** C39 *)

  (** Two logged iterations agree in everything but their number. *)
  Definition same_but_number (a b : NLSIteration F) : Prop :=
    it_optimizer_state a = it_optimizer_state b /\ it_lambda a = it_lambda b /\
    it_errors_initial a = it_errors_initial b /\ it_qp_outputs a = it_qp_outputs b /\
    it_qp_eigenvalues a = it_qp_eigenvalues b /\
    it_directional_derivatives a = it_directional_derivatives b /\ it_penalty a = it_penalty b /\
    it_step_result a = it_step_result b /\ it_line_search_steps a = it_line_search_steps b.

  Definition stall (sr : StepSizeSelectionResult) : Prop :=
    sr = FAILURE_NON_FINITE_COST \/ sr = FAILURE_INVALID_ALPHA.

  (** A stalled iteration changes nothing but possibly the penalty. *)
  Lemma stall_state : forall gk st info ex st', iteration_spec gk st info ex st' -> stall (it_step_result info) ->
    ex = None /\ st' = MkNS (ns_vars st) (ns_lambda st) (it_penalty info) (ns_opt st).
  Proof.
    intros gk st info ex st' (qp & dx & cand & _ & _ & _ & _ & _ & _ & HU & _) HS.
    unfold UpdateLambdaAndCheckExitConditions in HU. destruct HS as [E|E]; rewrite E in HU;
    apply Ok_inj in HU; apply pair_inj in HU; destruct HU as [<- <-]; auto.
  Qed.

  (** The next iteration repeats it, provided raising the penalty is idempotent (true in exact arithmetic,
      see C39_stall, and whenever there are no equality constraints). *)
  Lemma stall_repeats : forall g1 g2 st info ex st' info2 ex2 st2,
    iteration_spec g1 st info ex st' -> stall (it_step_result info) ->
    iteration_spec g2 st' info2 ex2 st2 ->
    (forall qp dx o, update_penalty pa pr qp dx o (update_penalty pa pr qp dx o (ns_penalty st))
                     = update_penalty pa pr qp dx o (ns_penalty st)) ->
    st2 = st' /\ ex2 = None /\ same_but_number info info2.
  Proof.
    intros g1 g2 st info ex st' info2 ex2 st2 S1 HS S2 HID.
    pose proof (stall_state _ _ _ _ _ S1 HS) as [-> ->].
    destruct S1 as (qp & dx & cand & HL & HD & HI & HC & HPe & HR & HU & HLam & HO & HPn & HE).
    destruct S2 as (qp2 & dx2 & cand2 & HL2 & HD2 & HI2 & HC2 & HPe2 & HR2 & HU2 & HLam2 & HO2 & HPn2 & HE2).
    cbn [ns_vars ns_lambda ns_opt ns_penalty] in *.
    rewrite HL in HL2. apply Ok_inj in HL2. apply pair_inj in HL2. destruct HL2 as [EE <-].
    rewrite (step_direction_storage ldlt qr llt g2 g1) in HD2. rewrite HD in HD2. apply Ok_inj in HD2. apply pair_inj in HD2. destruct HD2 as [EQ <-].
    rewrite HC in HC2. apply Ok_inj in HC2.
    assert (HP : it_penalty info2 = it_penalty info) by (rewrite HPe2, <- EQ, HPe; apply HID).
    assert (LE : ls_of pa pr (MkNS (ns_vars st) (ns_lambda st) (it_penalty info) (ns_opt st)) info2 dx = ls_of pa pr st info dx).
    { unfold ls_of. cbn [ns_vars]. rewrite <- EE, <- HC2, HP. reflexivity. }
    rewrite LE in HR2. rewrite HR in HR2. apply Ok_inj in HR2. apply pair_inj in HR2. destruct HR2 as [HR2 <-].
    apply pair_inj in HR2. destruct HR2 as [ER ES].
    assert (HS2 : stall (it_step_result info2)) by (rewrite <- ER; exact HS).
    assert (ex2 = None /\ st2 = MkNS (ns_vars st) (ns_lambda st) (it_penalty info2) (ns_opt st)) as [-> ->].
    { unfold UpdateLambdaAndCheckExitConditions in HU2. destruct HS2 as [E|E]; rewrite E in HU2;
      apply Ok_inj in HU2; apply pair_inj in HU2; destruct HU2 as [<- <-]; auto. }
    rewrite HP. splits; [reflexivity|reflexivity|]. unfold same_but_number. cbn [ns_opt ns_lambda] in *.
    splits; congruence.
  Qed.
  (** All later iterations repeat a stalled one, provided raising the penalty is idempotent on the penalties
      that occur ([good]). *)
  Lemma stall_forever : forall (good : F -> Prop) vars cs r, solve vars cs = Ok r ->
    good (n_equality_penalty_initial pa) ->
    (forall qp dx o p, good p -> good (update_penalty pa pr qp dx o p) /\
       update_penalty pa pr qp dx o (update_penalty pa pr qp dx o p) = update_penalty pa pr qp dx o p) ->
    let log := out_iterations (res_out r) in
    forall k a, nth_error log k = Some a -> stall (it_step_result a) ->
    (forall j b, (k <= j)%nat -> nth_error log j = Some b -> same_but_number a b) /\
    (out_termination_state (res_out r) = NLS_MAX_ITERATIONS \/ out_termination_state (res_out r) = USER_CALLBACK).
  Proof.
    intros good vars cs r H G0 GS log k a Ha HS.
    destruct (solve_history _ _ _ _ _ _ _ _ _ _ _ _ H) as (sts & css & exs & A & B & C & D & HL & HH & HT).
    fold log in C, D, HL, HH, HT.
    assert (SPEC : forall k info, nth_error log k = Some info -> iteration_spec (g k) (sts k) info (exs k) (sts (Datatypes.S k))).
    { intros k' info Hk. destruct (HH k' info Hk) as (HI & _). apply iterate_spec in HI. exact (proj2 HI). }
    assert (PP : forall j b, nth_error log j = Some b -> good (ns_penalty (sts j))).
    { induction j as [|j IH]; intros b Hb; [rewrite A; exact G0|].
      destruct (nth_error log j) as [c|] eqn:E.
      - destruct (SPEC j c E) as (qp & dx & cand & _ & _ & _ & _ & X1 & _ & _ & _ & _ & X2 & _). rewrite <- X2, X1.
        apply GS. exact (IH c eq_refl).
      - apply nth_error_None in E. assert (Datatypes.S j < length log)%nat by (apply nth_error_Some; congruence). lia. }
    assert (G : forall d b, nth_error log (k + d) = Some b ->
        sts (Datatypes.S (k + d)) = sts (Datatypes.S k) /\ exs (k + d)%nat = None /\ same_but_number a b).
    { induction d as [|d IH]; intros b Hb.
      - rewrite Nat.add_0_r in *. assert (b = a) by congruence. subst b.
        destruct (stall_state _ _ _ _ _ (SPEC k a Ha) HS) as [X _].
        splits; auto. unfold same_but_number. splits; reflexivity.
      - assert (EC : exists c, nth_error log (k + d) = Some c).
        { destruct (nth_error log (k + d)) as [c|] eqn:E; [eauto|]. apply nth_error_None in E.
          assert (k + Datatypes.S d < length log)%nat by (apply nth_error_Some; congruence). lia. }
        destruct EC as [c Hc]. destruct (IH c Hc) as (I1 & I2 & I3).
        replace (k + Datatypes.S d)%nat with (Datatypes.S (k + d)) in * by lia.
        assert (SC : stall (it_step_result c)).
        { destruct I3 as (_ & _ & _ & _ & _ & _ & _ & E & _). rewrite <- E. exact HS. }
        destruct (stall_repeats _ _ _ _ _ _ _ _ _ (SPEC _ c Hc) SC (SPEC _ b Hb)) as (X & Y & Z).
        { intros qp dx o. apply GS. apply (PP _ c Hc). }
        splits; [congruence|exact Y|]. unfold same_but_number in *. splits; try (destruct I3 as (?&?&?&?&?&?&?&?&?); destruct Z as (?&?&?&?&?&?&?&?&?); congruence). }
    assert (LK : (k < length log)%nat) by (apply nth_error_Some; congruence).
    assert (SE : sts (length log) = sts (Datatypes.S k)).
    { destruct (nth_error log (length log - 1)) as [c|] eqn:E; [|apply nth_error_None in E; lia].
      replace (length log - 1)%nat with (k + (length log - 1 - k))%nat in E by lia.
      destruct (G _ c E) as (X & _). replace (Datatypes.S (k + (length log - 1 - k))) with (length log) in X by lia. exact X. }
    destruct (stall_state _ _ _ _ _ (SPEC k a Ha) HS) as [_ SK].
    splits.
    - intros j b Hj Hb. replace j with (k + (j - k))%nat in Hb by lia. destruct (G _ b Hb) as (_ & _ & X). exact X.
    - assert (NX : forall j info, length log = Datatypes.S j -> nth_error log j = Some info -> exs j = None).
      { intros j info Hj Hi. replace j with (k + (j - k))%nat in Hi by lia. destruct (G _ info Hi) as (_ & X & _).
        replace (k + (j - k))%nat with j in X by lia. exact X. }
      destruct (out_termination_state (res_out r)); auto;
        try (destruct HT as (j & info & X & Y & Z); rewrite (NX j info X Y) in Z; discriminate).
      exfalso. destruct HT as (_ & _ & X). destruct (X eq_refl) as [_ Y]. rewrite SE, SK in Y.
      destruct (SPEC k a Ha) as (qp & dx & cand & S1 & S2 & S3 & S4 & _).
      unfold iterate, nls_iterate in Y. cbn [ns_vars ns_lambda] in Y. rewrite S1 in Y. cbn [bind] in Y.
      rewrite (step_direction_storage ldlt qr llt (g (0 + length log)%nat) (g k)) in Y. rewrite S2 in Y. cbn [bind] in Y. rewrite S3 in Y.
      rewrite S4 in Y. cbn [bind] in Y. inv_bind Y. match goal with X : (_ * _ * _)%type |- _ => destruct X as [[? ?] ?] end. inv_bind Y.
      match goal with X : (_ * nls_state F)%type |- _ => destruct X end. discriminate.
  Qed.

  (** Without equality constraints this holds in any arithmetic, whatever NaNs and infinities occur. *)
  Theorem C39_stall_without_equalities : forall vars cs r, pr_eq pr = [] -> solve vars cs = Ok r ->
    let log := out_iterations (res_out r) in
    forall k a, nth_error log k = Some a -> stall (it_step_result a) ->
    (forall j b, (k <= j)%nat -> nth_error log j = Some b -> same_but_number a b) /\
    (out_termination_state (res_out r) = NLS_MAX_ITERATIONS \/ out_termination_state (res_out r) = USER_CALLBACK).
  Proof.
    intros vars cs r HE H. apply (stall_forever (fun _ => True) vars cs r H I).
    intros qp dx o p _. unfold update_penalty. rewrite HE. auto.
  Qed.
End AnyArith.
