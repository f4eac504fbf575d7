(** Executions of the nonlinear solver as traces; C31, C36, C37, C38 and the structural part of C35. *)
From Coq Require Import String List Bool Arith ZArith Lia.
From Verif Require Import Scalar Outcome LinAlg Structs Constraint QPModel NullSpace Residual Nonlinear LSProps.
Import ListNotations.
Local Open Scope outcome_scope.
Local Open Scope string_scope.
Local Open Scope list_scope.
Local Open Scope nat_scope.

Section Trace.
  Context {F : Type} {O : Ops F}.
  Variable ldlt : mat F -> option (mat F).
  Variable qr : mat F -> QRResult F.
  Variable llt : mat F -> option (list F -> list F).
  Variable eigs : mat F -> QPEigenvalues F.
  Variable retract : option (list F -> list F -> F -> list F).
  Context {S : Type}.
  Variable cb : option (S -> NLSIteration F -> S * bool).
  Variable pa : NLSParams F.
  Variable pr : Problem F.
  Variable g : nat -> garbage F.

  Definition iterate (k : nat) (st : nls_state F) : outcome (iter_result (F := F)) :=
    nls_iterate ldlt qr llt eigs retract pa pr (g k) (Z.of_nat k) st.

  (** Executions of the main loop with [n] iterations left, starting with iteration [k]. *)
  Inductive run : nat -> nat -> nls_state F -> S -> list (NLSIteration F) -> nls_state F -> S -> NLSTerminationState -> Prop :=
  | run_max : forall k st cs, run 0 k st cs [] st cs NLS_MAX_ITERATIONS
  | run_indefinite : forall n k st cs, iterate k st = Ok IterIndefinite ->
      run (Datatypes.S n) k st cs [] st cs QP_INDEFINITE
  | run_exit : forall n k st cs st' info t, iterate k st = Ok (IterDone st' info (Some t)) ->
      run (Datatypes.S n) k st cs [info] st' (fst (call_cb cb cs info)) t
  | run_user : forall n k st cs st' info, iterate k st = Ok (IterDone st' info None) ->
      snd (call_cb cb cs info) = false ->
      run (Datatypes.S n) k st cs [info] st' (fst (call_cb cb cs info)) USER_CALLBACK
  | run_next : forall n k st cs st' info log stf csf t, iterate k st = Ok (IterDone st' info None) ->
      snd (call_cb cb cs info) = true ->
      run n (Datatypes.S k) st' (fst (call_cb cb cs info)) log stf csf t ->
      run (Datatypes.S n) k st cs (info :: log) stf csf t.

  Lemma nls_loop_run : forall n k log st cs r,
    nls_loop ldlt qr llt eigs retract cb n pa pr g k log st cs = Ok r ->
    exists log' stf, out_iterations (res_out r) = log ++ log' /\ res_vars r = ns_vars stf /\
      run n k st cs log' stf (res_cb r) (out_termination_state (res_out r)).
  Proof.
    induction n as [|n IH]; intros k log st cs r H; cbn [nls_loop] in H.
    - apply Ok_inj in H. subst r. exists [], st. cbn [res_out res_vars res_cb out_iterations out_termination_state].
      splits; [rewrite app_nil_r; reflexivity|reflexivity|apply run_max].
    - inv_bind H. rename a into ir. change (iterate k st = Ok ir) in Hm. destruct ir as [|st' info ex].
      + apply Ok_inj in H. subst r. exists [], st. cbn [res_out res_vars res_cb out_iterations out_termination_state].
        splits; [rewrite app_nil_r; reflexivity|reflexivity|apply run_indefinite; exact Hm].
      + destruct (call_cb cb cs info) as [cs' pc] eqn:EC.
        assert (E1 : cs' = fst (call_cb cb cs info)) by (rewrite EC; reflexivity).
        assert (E2 : pc = snd (call_cb cb cs info)) by (rewrite EC; reflexivity).
        destruct ex as [t|].
        * apply Ok_inj in H. subst r. exists [info], st'. cbn [res_out res_vars res_cb out_iterations out_termination_state].
          splits; try reflexivity. rewrite E1. apply run_exit. exact Hm.
        * destruct pc.
          -- apply IH in H. destruct H as (log' & stf & A & B & C). exists (info :: log'), stf.
             splits; [rewrite A, <- app_assoc; reflexivity|exact B|]. eapply run_next; [exact Hm|congruence|rewrite <- E1; exact C].
          -- apply Ok_inj in H. subst r. exists [info], st'. cbn [res_out res_vars res_cb out_iterations out_termination_state].
             splits; try reflexivity. rewrite E1. apply run_user; [exact Hm|congruence].
  Qed.

  Definition init_state (vars : list F) : nls_state F :=
    MkNS vars (n_lambda_initial pa) (n_equality_penalty_initial pa) NOMINAL.

  Definition solve (vars : list F) (cs : S) : outcome (nls_result (F := F) (S := S)) :=
    NLS_Solve ldlt qr llt eigs retract cb pa pr g vars cs.

  Lemma solve_params : forall vars cs r, solve vars cs = Ok r -> NLS_CheckParams pa = Ok tt.
  Proof. intros vars cs r H. unfold solve, NLS_Solve in H. inv_bind H. destruct a. exact Hm. Qed.

  Lemma solve_run : forall vars cs r, solve vars cs = Ok r ->
    exists stf, res_vars r = ns_vars stf /\
      run (Z.to_nat (n_max_iterations pa)) 0 (init_state vars) cs (out_iterations (res_out r)) stf
          (res_cb r) (out_termination_state (res_out r)).
  Proof.
    intros vars cs r H. unfold solve, NLS_Solve in H. inv_bind H.
    apply nls_loop_run in H. destruct H as (log' & stf & A & B & C). exists stf. split; [exact B|].
    rewrite A. exact C.
  Qed.

  (** The same as a sequence of states indexed by the iteration number. [sts k] is the solver state
      (variables, lambda, penalty, optimizer state) before iteration k, [css k] the state of the
      callback, [exs k] the exit requested by iteration k. *)
  Definition history (n k : nat) (log : list (NLSIteration F)) (t : NLSTerminationState)
      (sts : nat -> nls_state F) (css : nat -> S) (exs : nat -> option NLSTerminationState) : Prop :=
    length log <= n /\
    (forall j info, nth_error log j = Some info ->
        iterate (k + j) (sts j) = Ok (IterDone (sts (Datatypes.S j)) info (exs j)) /\
        css (Datatypes.S j) = fst (call_cb cb (css j) info) /\
        (Datatypes.S j < length log -> exs j = None /\ snd (call_cb cb (css j) info) = true)) /\
    match t with
    | NLS_MAX_ITERATIONS | QP_INDEFINITE =>
        (forall j info, nth_error log j = Some info -> exs j = None /\ snd (call_cb cb (css j) info) = true) /\
        (t = NLS_MAX_ITERATIONS -> length log = n) /\
        (t = QP_INDEFINITE -> length log < n /\ iterate (k + length log) (sts (length log)) = Ok IterIndefinite)
    | USER_CALLBACK =>
        exists j info, length log = Datatypes.S j /\ nth_error log j = Some info /\ exs j = None /\
                       snd (call_cb cb (css j) info) = false
    | _ => exists j info, length log = Datatypes.S j /\ nth_error log j = Some info /\ exs j = Some t
    end.

  (** Only these states are ever requested as an exit. *)
  Lemma exit_states : forall k st st' info t, iterate k st = Ok (IterDone st' info (Some t)) ->
    t = SATISFIED_ABSOLUTE_TOL \/ t = SATISFIED_RELATIVE_TOL \/ t = SATISFIED_FIRST_ORDER_TOL \/ t = MAX_LAMBDA.
  Proof.
    intros k st st' info t H. unfold iterate, nls_iterate in H.
    inv_bind H. destruct a as [ep qp]. inv_bind H. destruct a as [qo dx]. destruct (QPWasIndefinite qo); [discriminate|].
    inv_bind H. inv_bind H. destruct a0 as [[sr steps] cand]. inv_bind H. destruct a0 as [ex st1].
    apply Ok_inj in H. injection H as E1 E2 E3. subst ex. clear - Hm3.
    unfold UpdateLambdaAndCheckExitConditions in Hm3.
    destruct sr; try (apply Ok_inj in Hm3; apply pair_inj in Hm3; destruct Hm3 as [Hm3 _]; try discriminate; injection Hm3 as <-; auto).
    - inv_bind Hm3. match type of Hm3 with (if ?b then _ else _) = _ => destruct b end;
        [apply Ok_inj in Hm3; apply pair_inj in Hm3; destruct Hm3 as [Hm3 _]; injection Hm3 as <-; auto|].
      match type of Hm3 with (if ?b then _ else _) = _ => destruct b end;
        apply Ok_inj in Hm3; apply pair_inj in Hm3; destruct Hm3 as [Hm3 _]; try discriminate; injection Hm3 as <-; auto.
    - match type of Hm3 with (if ?b then _ else _) = _ => destruct b end;
        apply Ok_inj in Hm3; apply pair_inj in Hm3; destruct Hm3 as [Hm3 _]; try discriminate; injection Hm3 as <-; auto.
    - match type of Hm3 with (if ?b then _ else _) = _ => destruct b end;
        apply Ok_inj in Hm3; apply pair_inj in Hm3; destruct Hm3 as [Hm3 _]; try discriminate; injection Hm3 as <-; auto.
  Qed.

  Lemma run_history : forall n k st cs log stf csf t, run n k st cs log stf csf t ->
    exists sts css exs, sts 0 = st /\ css 0 = cs /\ sts (length log) = stf /\ css (length log) = csf /\
      history n k log t sts css exs.
  Proof.
    induction 1 as [k st cs|n k st cs HI|n k st cs st' info t HI|n k st cs st' info HI HC|n k st cs st' info log stf csf t HI HC HR IH].
    - exists (fun _ => st), (fun _ => cs), (fun _ => None). splits; auto. unfold history. simpl. splits; auto.
      + intros j info H. destruct j; discriminate.
      + intros j info H. destruct j; discriminate.
      + discriminate.
    - exists (fun _ => st), (fun _ => cs), (fun _ => None). splits; auto. unfold history. simpl. splits; auto; try lia.
      + intros j info H. destruct j; discriminate.
      + intros j info H. destruct j; discriminate.
      + discriminate.
      + intros _. split; [lia|]. rewrite Nat.add_0_r. exact HI.
    - exists (fun j => match j with 0 => st | _ => st' end),
             (fun j => match j with 0 => cs | _ => fst (call_cb cb cs info) end), (fun _ => Some t).
      splits; auto. unfold history. cbn [length]. splits; try lia.
      + intros [|j] i H; [|destruct j; discriminate]. injection H as <-. rewrite Nat.add_0_r. splits; auto. lia.
      + assert (G : exists j info0, 1 = Datatypes.S j /\ nth_error [info] j = Some info0 /\ Some t = Some t) by (exists 0, info; auto).
        destruct (exit_states _ _ _ _ _ HI) as [->|[->|[->| ->]]]; exact G.
    - exists (fun j => match j with 0 => st | _ => st' end),
             (fun j => match j with 0 => cs | _ => fst (call_cb cb cs info) end), (fun _ => None).
      splits; auto. unfold history. cbn [length]. splits; try lia.
      + intros [|j] i H; [|destruct j; discriminate]. injection H as <-. rewrite Nat.add_0_r. splits; auto. lia.
      + exists 0, info. auto.
    - destruct IH as (sts & css & exs & A & B & C & D & L & H1 & H2).
      exists (fun j => match j with 0 => st | Datatypes.S j => sts j end),
             (fun j => match j with 0 => cs | Datatypes.S j => css j end),
             (fun j => match j with 0 => None | Datatypes.S j => exs j end).
      splits; auto. unfold history. cbn [length]. splits; [lia| |].
      + intros [|j] i H.
        * injection H as <-. rewrite Nat.add_0_r, A, B. splits; auto.
        * cbn [nth_error] in H. destruct (H1 j i H) as (X & Y & Z). rewrite Nat.add_succ_r. splits; auto.
          intro Hl. apply Z. lia.
      + assert (CN : (forall j info0, nth_error log j = Some info0 -> exs j = None /\ snd (call_cb cb (css j) info0) = true) ->
           forall j info0, nth_error (info :: log) j = Some info0 ->
             match j with 0 => None | Datatypes.S j0 => exs j0 end = None /\
             snd (call_cb cb match j with 0 => cs | Datatypes.S j0 => css j0 end info0) = true).
        { intros HH [|j] i H; [injection H as <-; auto|]. apply HH. exact H. }
        destruct t.
        all: try (destruct H2 as (j & i & X & Y & Z); exists (Datatypes.S j), i; splits; auto; fail).
        * destruct H2 as (X & Y & Z). splits; [apply CN; exact X| |discriminate]. intros _. rewrite Y; reflexivity.
        * destruct H2 as (X & Y & Z). splits; [apply CN; exact X|discriminate|]. intros _. destruct (Z eq_refl) as [Z1 Z2].
          split; [lia|]. rewrite Nat.add_succ_r. exact Z2.
        * destruct H2 as (j & i & X & Y & Z1 & Z2). exists (Datatypes.S j), i. splits; auto.
  Qed.

  (** Every returning solve has a history. *)
  Lemma solve_history : forall vars cs r, solve vars cs = Ok r ->
    exists sts css exs, sts 0 = init_state vars /\ css 0 = cs /\
      ns_vars (sts (length (out_iterations (res_out r)))) = res_vars r /\
      css (length (out_iterations (res_out r))) = res_cb r /\
      history (Z.to_nat (n_max_iterations pa)) 0 (out_iterations (res_out r))
              (out_termination_state (res_out r)) sts css exs.
  Proof.
    intros vars cs r H. apply solve_run in H. destruct H as (stf & A & B). apply run_history in B.
    destruct B as (sts & css & exs & X & Y & Z & W & H). exists sts, css, exs. rewrite Z. splits; auto.
  Qed.

  (** What one iteration did. *)
  Definition ls_of (st : nls_state F) (info : NLSIteration F) (dx : list F) : ls_input (F := F) :=
    LSIn (n_max_line_search_iterations pa) (n_absolute_first_derivative_tol pa) pr (ns_vars st) dx
         (it_errors_initial info) (it_directional_derivatives info) (it_penalty info) (flit lit_1em4)
         (n_line_search_strategy pa) (n_armijo_search_tau pa).

  Definition iteration_spec (gk : garbage F) (st : nls_state F) (info : NLSIteration F)
      (ex : option NLSTerminationState) (st' : nls_state F) : Prop :=
    exists qp dx cand,
      LinearizeAndFillQP (ns_vars st) (ns_lambda st) pr = Ok (it_errors_initial info, qp) /\
      ComputeStepDirection ldlt qr llt gk pa pr qp = Ok (it_qp_outputs info, dx) /\
      QPWasIndefinite (it_qp_outputs info) = false /\
      ComputeQPCostDerivative qp dx = Ok (it_directional_derivatives info) /\
      it_penalty info = update_penalty pa pr qp dx (it_qp_outputs info) (ns_penalty st) /\
      run_line_search retract (ls_of st info dx) = Ok (it_step_result info, it_line_search_steps info, cand) /\
      UpdateLambdaAndCheckExitConditions pa (it_step_result info) (it_errors_initial info) (it_penalty info)
        (it_line_search_steps info) cand (ns_vars st) (ns_lambda st) (ns_opt st) = Ok (ex, st') /\
      it_lambda info = ns_lambda st /\ it_optimizer_state info = ns_opt st' /\ it_penalty info = ns_penalty st' /\
      it_qp_eigenvalues info = (if n_log_qp_eigenvalues pa then Some (eigs (qG qp)) else None).

  Lemma iterate_spec : forall k st st' info ex, iterate k st = Ok (IterDone st' info ex) ->
    it_iteration info = Z.of_nat k /\ iteration_spec (g k) st info ex st'.
  Proof.
    intros k st st' info ex H. unfold iterate, nls_iterate in H.
    inv_bind H. destruct a as [ep qp]. inv_bind H. destruct a as [qo dx]. destruct (QPWasIndefinite qo) eqn:EI; [discriminate|].
    inv_bind H. rename a into dd. inv_bind H. destruct a as [[sr steps] cand]. inv_bind H. destruct a as [ex1 st1].
    apply Ok_inj in H. injection H as E1 E2 E3. subst ex1 st1. subst info. split; [reflexivity|].
    exists qp, dx, cand. cbn [it_errors_initial it_qp_outputs it_directional_derivatives it_penalty it_step_result
      it_line_search_steps it_lambda it_optimizer_state it_qp_eigenvalues].
    splits; auto.
    clear - Hm3. unfold UpdateLambdaAndCheckExitConditions in Hm3.
    destruct sr; try (apply Ok_inj in Hm3; apply pair_inj in Hm3; destruct Hm3 as [_ <-]; reflexivity).
    - inv_bind Hm3. repeat match type of Hm3 with (if ?b then _ else _) = _ => destruct b end;
        apply Ok_inj in Hm3; apply pair_inj in Hm3; destruct Hm3 as [_ <-]; reflexivity.
    - repeat match type of Hm3 with (if ?b then _ else _) = _ => destruct b end;
        apply Ok_inj in Hm3; apply pair_inj in Hm3; destruct Hm3 as [_ <-]; reflexivity.
    - repeat match type of Hm3 with (if ?b then _ else _) = _ => destruct b end;
        apply Ok_inj in Hm3; apply pair_inj in Hm3; destruct Hm3 as [_ <-]; reflexivity.
  Qed.

  (** The parameter ranges. *)
  Lemma params_ls : NLS_CheckParams pa = Ok tt -> (0 <= n_max_iterations pa)%Z /\ (0 <= n_max_line_search_iterations pa)%Z.
  Proof.
    intro H. unfold NLS_CheckParams in H. do 4 inv_bind H. inv_bind H.
    apply f_assert_ok_inv in Hm, Hm3. apply Z.leb_le in Hm, Hm3. auto.
  Qed.

  (** The state after an iteration, by step result. *)
  Lemma iteration_vars : forall gk st info ex st', (0 <= n_max_line_search_iterations pa)%Z ->
    iteration_spec gk st info ex st' ->
    (it_step_result info <> SS_SUCCESS -> ns_vars st' = ns_vars st) /\
    (it_step_result info = SS_SUCCESS ->
      exists dx init last, it_line_search_steps info = init ++ [last] /\
        RetractCandidateVars retract (ns_vars st) dx (step_alpha last) = Ok (ns_vars st') /\
        EvaluateNonlinearErrors pr (ns_vars st') = Ok (step_errors last)).
  Proof.
    intros gk st info ex st' HM (qp & dx & cand & HL & HD & HI & HC & HP & HS & HU & _).
    split; intro E.
    - unfold UpdateLambdaAndCheckExitConditions in HU. destruct (it_step_result info); try congruence;
        try (apply Ok_inj in HU; apply pair_inj in HU; destruct HU as [_ <-]; reflexivity);
        match type of HU with (if ?b then _ else _) = _ => destruct b end;
        apply Ok_inj in HU; apply pair_inj in HU; destruct HU as [_ <-]; reflexivity.
    - rewrite E in *. destruct (C27_success_passed_armijo retract (ls_of st info dx) HM _ _ HS) as (init & last & E1 & _ & _ & _ & E2 & E3).
      exists dx, init, last. split; [exact E1|].
      assert (V : ns_vars st' = cand).
      { unfold UpdateLambdaAndCheckExitConditions in HU. inv_bind HU.
        repeat match type of HU with (if ?b then _ else _) = _ => destruct b end;
        apply Ok_inj in HU; apply pair_inj in HU; destruct HU as [_ <-]; reflexivity. }
      rewrite V. split; [exact E2|exact E3].
  Qed.

  (** ** C31 *)

  (** There is a sequence of points, starting at the initial guess and ending at variables() after the
      solve, one more than there are logged iterations, such that iteration k starts by evaluating the
      problem at point k, and point k+1 differs from point k only if step_result is SUCCESS; it is then the
      retraction of point k by the last logged step size, and the last logged errors are the errors there. *)
  Theorem C31_variables_move_only_on_success : forall vars cs r, solve vars cs = Ok r ->
    let log := out_iterations (res_out r) in
    exists xs : nat -> list F, xs 0 = vars /\ xs (length log) = res_vars r /\
      forall k info, nth_error log k = Some info ->
        (exists lambda qp, LinearizeAndFillQP (xs k) lambda pr = Ok (it_errors_initial info, qp)) /\
        (it_step_result info <> SS_SUCCESS -> xs (Datatypes.S k) = xs k) /\
        (it_step_result info = SS_SUCCESS ->
          exists dx init last, it_line_search_steps info = init ++ [last] /\
            RetractCandidateVars retract (xs k) dx (step_alpha last) = Ok (xs (Datatypes.S k)) /\
            EvaluateNonlinearErrors pr (xs (Datatypes.S k)) = Ok (step_errors last)).
  Proof.
    intros vars cs r H log. pose proof (params_ls (solve_params _ _ _ H)) as [_ HM].
    destruct (solve_history _ _ _ H) as (sts & css & exs & A & _ & C & _ & _ & HH & _). fold log in C, HH.
    exists (fun k => ns_vars (sts k)). splits; [rewrite A; reflexivity|exact C|].
    intros k info Hk. destruct (HH k info Hk) as (HI & _ & _). apply iterate_spec in HI. destruct HI as [_ HI].
    destruct (iteration_vars _ _ _ _ _ HM HI) as [V1 V2]. splits; auto.
    destruct HI as (qp & dx & cand & HL & _). eauto.
  Qed.

  (** With no successful iteration variables() is the initial guess. *)
  Theorem C31_no_success_keeps_initial_guess : forall vars cs r, solve vars cs = Ok r ->
    (forall info, In info (out_iterations (res_out r)) -> it_step_result info <> SS_SUCCESS) -> res_vars r = vars.
  Proof.
    intros vars cs r H HN. destruct (C31_variables_move_only_on_success _ _ _ H) as (xs & X0 & XF & XS).
    rewrite <- XF. assert (G : forall k, k <= length (out_iterations (res_out r)) -> xs k = vars).
    { induction k as [|k IH]; intro Hk; [exact X0|].
      destruct (nth_error (out_iterations (res_out r)) k) as [info|] eqn:E.
      - destruct (XS k info E) as (_ & V & _). rewrite V; [apply IH; lia|]. apply HN. eapply nth_error_In. exact E.
      - apply nth_error_None in E. lia. }
    apply G. lia.
  Qed.

  (** ** C36 *)
  Theorem C36_log_complete_and_ordered : forall vars cs r, solve vars cs = Ok r ->
    let log := out_iterations (res_out r) in
    (forall k info, nth_error log k = Some info -> it_iteration info = Z.of_nat k) /\
    (Z.of_nat (length log) <= n_max_iterations pa)%Z /\
    (out_termination_state (res_out r) = NLS_MAX_ITERATIONS -> Z.of_nat (length log) = n_max_iterations pa) /\
    (out_termination_state (res_out r) = QP_INDEFINITE -> (Z.of_nat (length log) < n_max_iterations pa)%Z) /\
    (out_termination_state (res_out r) <> NLS_MAX_ITERATIONS -> out_termination_state (res_out r) <> QP_INDEFINITE -> log <> []).
  Proof.
    intros vars cs r H log. pose proof (params_ls (solve_params _ _ _ H)) as [H0 _].
    destruct (solve_history _ _ _ H) as (sts & css & exs & A & _ & C & _ & HL & HH & HT). fold log in C, HL, HH, HT.
    splits.
    - intros k info Hk. destruct (HH k info Hk) as (HI & _ & _). apply iterate_spec in HI. exact (proj1 HI).
    - lia.
    - intro E. rewrite E in HT. destruct HT as (_ & X & _). specialize (X eq_refl). lia.
    - intro E. rewrite E in HT. destruct HT as (_ & _ & X). specialize (X eq_refl). lia.
    - intros N1 N2. destruct (out_termination_state (res_out r)); try congruence;
      destruct HT as (j & i & X & _); intro Z; rewrite Z in X; discriminate.
  Qed.

  (** ** C49, any arithmetic: only positive penalties are used *)

  (** C49: when the penalty that results from the QP step is not positive, the iteration throws (unless it had
      already failed), and in a Solve that returned every logged penalty is positive. *)
  Theorem C49_nonpositive_penalty_throws : forall k st e qp o dx dd,
    LinearizeAndFillQP (ns_vars st) (ns_lambda st) pr = Ok (e, qp) ->
    ComputeStepDirection ldlt qr llt (g k) pa pr qp = Ok (o, dx) -> QPWasIndefinite o = false ->
    ComputeQPCostDerivative qp dx = Ok dd ->
    fgtb (update_penalty pa pr qp dx o (ns_penalty st)) f0 = false ->
    exists w, iterate k st = Throw (AssertFailed w).
  Proof.
    intros k st e qp o dx dd HL HD HQ HC HP. unfold iterate, nls_iterate. rewrite HL. cbn [bind]. rewrite HD. cbn [bind].
    rewrite HQ, HC. cbn [bind]. cbn zeta. unfold SelectStepSize. rewrite HP. cbn [f_assert bind]. eauto.
  Qed.

  Theorem C49_logged_penalty_positive : forall vars cs r, solve vars cs = Ok r ->
    (forall info, In info (out_iterations (res_out r)) -> fgtb (it_penalty info) f0 = true) /\
    (forall info, nth_error (out_iterations (res_out r)) 0 = Some info -> fgtb (n_equality_penalty_initial pa) f0 = false ->
       pr_eq pr <> [] /\ it_penalty info <> n_equality_penalty_initial pa).
  Proof.
    intros vars cs r H.
    destruct (solve_history _ _ _ H) as (sts & css & exs & A & _ & _ & _ & HL & HH & HT).
    assert (P : forall k info, nth_error (out_iterations (res_out r)) k = Some info -> fgtb (it_penalty info) f0 = true).
    { intros k info Hk. destruct (HH k info Hk) as (HI & _ & _). apply iterate_spec in HI.
      destruct HI as (_ & qp & dx & cand & _ & _ & _ & _ & _ & HS & _).
      unfold run_line_search, SelectStepSize in HS. inv_bind HS. apply f_assert_ok_inv in Hm. exact Hm. }
    split; [intros info Hin; apply In_nth_error in Hin; destruct Hin as [k Hk]; exact (P k info Hk)|].
    intros info Hk HZ. pose proof (P _ _ Hk) as PP. split; [|congruence].
    destruct (HH _ _ Hk) as (HI & _ & _). apply iterate_spec in HI.
    destruct HI as (_ & qp & dx & cand & _ & _ & _ & _ & HP & _).
    intro HE. unfold update_penalty in HP. rewrite HE, A in HP. cbn [init_state ns_penalty] in HP. congruence.
  Qed.

  (** ** C37 *)

  (** The callback states are obtained by calling the callback once per logged iteration, in order; it
      answered true on all but possibly the last; the solve ends with USER_CALLBACK iff the last call
      answered false and the iteration did not request an exit itself (an exit request wins). *)
  Theorem C37_callback_protocol : forall vars cs r, solve vars cs = Ok r ->
    let log := out_iterations (res_out r) in
    exists css : nat -> S, css 0 = cs /\ css (length log) = res_cb r /\
      (forall k info, nth_error log k = Some info -> css (Datatypes.S k) = fst (call_cb cb (css k) info)) /\
      (forall k info, nth_error log k = Some info -> Datatypes.S k < length log -> snd (call_cb cb (css k) info) = true) /\
      match out_termination_state (res_out r) with
      | USER_CALLBACK => exists k info, length log = Datatypes.S k /\ nth_error log k = Some info /\
                                        snd (call_cb cb (css k) info) = false
      | NLS_MAX_ITERATIONS | QP_INDEFINITE =>
          forall k info, nth_error log k = Some info -> snd (call_cb cb (css k) info) = true
      | _ => True
      end.
  Proof.
    intros vars cs r H log.
    destruct (solve_history _ _ _ H) as (sts & css & exs & A & B & C & D & HL & HH & HT). fold log in C, D, HL, HH, HT.
    exists css. splits; auto.
    - intros k info Hk. destruct (HH k info Hk) as (_ & X & _). exact X.
    - intros k info Hk Hl. destruct (HH k info Hk) as (_ & _ & X). exact (proj2 (X Hl)).
    - destruct (out_termination_state (res_out r)); auto.
      + intros k info Hk. exact (proj2 (proj1 HT k info Hk)).
      + intros k info Hk. exact (proj2 (proj1 HT k info Hk)).
      + destruct HT as (j & i & X & Y & Z & W). eauto.
  Qed.

  (** ** C38 *)
  Theorem C38_solver_selection : forall vars cs r, solve vars cs = Ok r ->
    forall info, In info (out_iterations (res_out r)) ->
    match it_qp_outputs info with
    | NullSpaceOut t => t = NS_SUCCESS /\ pr_ineq pr = [] /\ pr_eq pr <> []
    | InteriorPointOut o => pr_ineq pr <> [] \/ pr_eq pr = []
    end.
  Proof.
    intros vars cs r H info Hin. apply In_nth_error in Hin. destruct Hin as [k Hk].
    destruct (solve_history _ _ _ H) as (sts & css & exs & A & B & C & D & HL & HH & HT).
    destruct (HH k info Hk) as (HI & _). apply iterate_spec in HI. destruct HI as [_ (qp & dx & cand & _ & HC & HQ & _)].
    unfold ComputeStepDirection, use_null_space in HC.
    destruct (pr_ineq pr) as [|c l] eqn:E1.
    - destruct (pr_eq pr) as [|e l] eqn:E2.
      + inv_bind HC. inv_bind HC. destruct a0 as [st' outs]. apply Ok_inj in HC. apply pair_inj in HC. destruct HC as [<- _]. auto.
      + inv_bind HC. destruct a as [t x]. destruct t; apply Ok_inj in HC; apply pair_inj in HC; destruct HC as [E _]; rewrite <- E in *.
        * splits; auto; discriminate.
        * discriminate HQ.
    - inv_bind HC. inv_bind HC. destruct a0 as [st' outs]. apply Ok_inj in HC. apply pair_inj in HC. destruct HC as [<- _].
      left. discriminate.
  Qed.
End Trace.
