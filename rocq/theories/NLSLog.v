(** C46 for the outputs the nonlinear solver really produces, and the part of C38 about what the inner
    interior point solver logs. *)
From Coq Require Import String List Bool Arith ZArith QArith Lia.
From Verif Require Import Scalar Outcome LinAlg Structs Constraint QPModel NullSpace Residual Nonlinear Json
  QPTrace JsonProps LSProps NLSTrace.
Import ListNotations.
Local Open Scope outcome_scope.
Local Open Scope string_scope.
Local Open Scope list_scope.
Local Open Scope nat_scope.

Section Log.
  Context {F : Type} {O : Ops F}.
  Variable ldlt : mat F -> option (mat F).
  Variable qr : mat F -> QRResult F.
  Variable llt : mat F -> option (list F -> list F).
  Variable eigs : mat F -> QPEigenvalues F.
  Variable retract : option (list F -> list F -> F -> list F).
  Context {S : Type}.
  Variable cb : option (S -> NLSIteration F -> S * bool).
  Variable pa : NLSParams F.
  Variable pr : Problem F.
  Variable g : nat -> garbage F.
  Notation solve := (NLS_Solve ldlt qr llt eigs retract cb pa pr g).

  (** Without the predictor-corrector, Iterate leaves the probing step and the affine mu at NaN. *)
  Lemma iterate_probe_nan : forall p mu strategy st st1 outs,
    strategy <> PREDICTOR_CORRECTOR ->
    Iterate ldlt p mu strategy st = Ok (st1, outs) ->
    ip_alpha_probe outs = MkAlpha fnan fnan /\ ip_mu_affine outs = fnan.
  Proof.
    intros p mu strategy st st1 outs N H. unfold Iterate in H.
    apply bind_ok_inv in H. destruct H as (a & _ & H).
    apply bind_ok_inv in H. destruct H as ([[[st2 mu2] probe] muaff] & E & H).
    apply bind_ok_inv in H. destruct H as (al & _ & H).
    apply Ok_inj, pair_inj in H. destruct H as [_ <-]. cbn [ip_alpha_probe ip_mu_affine].
    destruct (negb (HasInequalityConstraints (ip_dims st))).
    - apply Ok_inj in E. injection E; auto.
    - destruct strategy; try contradiction; apply Ok_inj in E; injection E; auto.
  Qed.

  Lemma run_probe_nan : forall params p mu st tr,
    p_barrier_strategy params <> PREDICTOR_CORRECTOR -> ip_run ldlt params p mu st tr ->
    forall e, In e tr -> ip_alpha_probe (ip_outputs (snd (fst e))) = MkAlpha fnan fnan
                         /\ ip_mu_affine (ip_outputs (snd (fst e))) = fnan.
  Proof.
    intros params p mu st tr N R. induction R as [|mu st it mu' st' tr HS R IH]; intros e He; [destruct He|].
    destruct He as [<-|He]; [|exact (IH e He)].
    destruct HS as [mu st st1 outs HI]. cbn [fst snd ip_outputs]. eapply iterate_probe_nan; eauto.
  Qed.

  (** Every QP iteration logged by a solver not using the predictor-corrector has NaN fields. *)
  Theorem C46_probe_fields_are_nan : forall params st st' out,
    IP_Solve ldlt params st = Ok (st', out) -> p_barrier_strategy params <> PREDICTOR_CORRECTOR ->
    qp_iterations out <> [] /\
    forall it, In it (qp_iterations out) ->
      ip_alpha_probe (ip_outputs it) = MkAlpha fnan fnan /\ ip_mu_affine (ip_outputs it) = fnan.
  Proof.
    intros params st st' out H N. apply C12_Solve_run in H.
    destruct H as (p & st1 & mu & tr & _ & _ & _ & _ & HR & HI & _ & _ & HN & _).
    rewrite HI. split.
    - intro E. apply map_eq_nil in E. subst tr. cbn in HN. lia.
    - intros it Hit. apply in_map_iff in Hit. destruct Hit as (e & <- & He).
      exact (run_probe_nan _ _ _ _ _ N HR e He).
  Qed.

  (** C46 finding: the printed log of a nonlinear solve cannot be read back as soon as one iteration used the
      interior point solver (that is, as soon as there is one iteration and the problem has an inequality
      constraint or no equality constraint). *)
  Theorem C46_interior_point_logs_unreadable : forall of_int trunc vars cs r,
    ffinite fnan = false ->
    solve vars cs = Ok r ->
    out_iterations (res_out r) <> [] -> (pr_ineq pr <> [] \/ pr_eq pr = []) ->
    outputs_from_json of_int trunc (through_text (outputs_to_json (res_out r)))
      = Throw (JsonError "type_error.302").
  Proof.
    intros of_int trunc vars cs r FN H HL HP.
    destruct (out_iterations (res_out r)) as [|info log] eqn:EL; [contradiction|]. clear HL.
    assert (Hk : nth_error (out_iterations (res_out r)) 0 = Some info) by (rewrite EL; reflexivity).
    destruct (solve_history _ _ _ _ _ _ _ _ _ _ _ _ H) as (sts & css & exs & _ & _ & _ & _ & _ & HH & _).
    destruct (HH 0 info Hk) as (HI & _). apply iterate_spec in HI.
    destruct HI as [_ (qp & dx & cand & _ & HC & _)].
    unfold ComputeStepDirection in HC.
    assert (EN : use_null_space pr = false)
      by (unfold use_null_space; destruct HP as [HP|HP]; destruct (pr_ineq pr), (pr_eq pr); congruence).
    rewrite EN in HC. apply bind_ok_inv in HC. destruct HC as (st & _ & HC).
    apply bind_ok_inv in HC. destruct HC as ([st' outs] & HS & HC).
    apply Ok_inj, pair_inj in HC. destruct HC as [EQ _].
    destruct (C46_probe_fields_are_nan _ _ _ _ HS) as [NE NAN]; [discriminate|].
    destruct (qp_iterations outs) as [|it its] eqn:EI; [contradiction|]. clear NE.
    destruct (NAN it (or_introl eq_refl)) as [_ MU].
    apply (C46_non_finite_outputs_throw of_int trunc _ fnan); [|exact FN].
    unfold numbers_of_outputs. apply in_flat_map. exists info. split; [rewrite EL; left; reflexivity|].
    unfold numbers_of_iteration. right. apply in_or_app. right. apply in_or_app. left.
    rewrite <- EQ. cbn [numbers_of_qp]. unfold numbers_of_ip_solver. apply in_or_app. left.
    apply in_flat_map. exists it. split; [rewrite EI; left; reflexivity|].
    unfold numbers_of_qp_iteration. apply in_or_app. right. apply in_or_app. right.
    unfold numbers_of_ip. right. apply in_or_app. right. apply in_or_app. right. left. exact MU.
  Qed.

  Lemma inner_solve : forall vars cs r, solve vars cs = Ok r ->
    forall info o, In info (out_iterations (res_out r)) -> it_qp_outputs info = InteriorPointOut o ->
    exists k qp st st', Setup (g k) (Some qp) = Ok st /\ IP_Solve ldlt (inner_qp_params pa pr) st = Ok (st', o).
  Proof.
    intros vars cs r H info o Hin HO. apply In_nth_error in Hin. destruct Hin as [k Hk].
    destruct (solve_history _ _ _ _ _ _ _ _ _ _ _ _ H) as (sts & css & exs & _ & _ & _ & _ & _ & HH & _).
    destruct (HH k info Hk) as (HI & _). apply iterate_spec in HI.
    destruct HI as [_ (qp & dx & cand & _ & HC & _)].
    unfold ComputeStepDirection in HC. rewrite HO in HC.
    destruct (use_null_space pr).
    { apply bind_ok_inv in HC. destruct HC as ([t x] & _ & HC). destruct t; discriminate. }
    apply bind_ok_inv in HC. destruct HC as (st & HS & HC).
    apply bind_ok_inv in HC. destruct HC as ([st' outs] & HI & HC).
    apply Ok_inj, pair_inj in HC. destruct HC as [EQ _]. injection EQ as ->.
    exists k, qp, st, st'. auto.
  Qed.

  (** C38: how the inner interior point solver is configured, and what its log therefore shows: between one and
      max_qp_iterations iterations (exactly max_qp_iterations when it gave up), the first of them with barrier
      parameter one, and, when it reports success, a last iteration within termination_kkt_tolerance. *)
  Theorem C38_inner_solver_settings : forall vars cs r, solve vars cs = Ok r ->
    forall info o, In info (out_iterations (res_out r)) -> it_qp_outputs info = InteriorPointOut o ->
    (exists params k qp st st',
       Setup (g k) (Some qp) = Ok st /\ IP_Solve ldlt params st = Ok (st', o) /\
       p_max_iterations params = n_max_qp_iterations pa /\
       p_termination_kkt_tol params = n_termination_kkt_tolerance pa /\
       p_termination_complementarity_tol params = flit (1 # 1000000)%Q /\
       p_initial_mu params = f1 /\ p_sigma params = flit (1 # 10)%Q /\
       p_initialize_mu_with_complementarity params = false /\
       p_barrier_strategy params = COMPLEMENTARITY /\ p_decrease_mu_only_on_small_error params = false /\
       (pr_eq pr = [] -> p_initial_guess_method params = NAIVE) /\
       (pr_eq pr <> [] -> p_initial_guess_method params = SOLVE_EQUALITY_CONSTRAINED)) /\
    1 <= length (qp_iterations o) <= Z.to_nat (n_max_qp_iterations pa) /\
    (qp_termination_state o = QPIP_MAX_ITERATIONS ->
       length (qp_iterations o) = Z.to_nat (n_max_qp_iterations pa)) /\
    (qp_termination_state o = SATISFIED_KKT_TOL ->
       exists its it, qp_iterations o = its ++ [it] /\
         fltb (KKT_Max (kkt_final it)) (n_termination_kkt_tolerance pa) = true) /\
    (exists it its, qp_iterations o = it :: its /\ ip_mu (ip_outputs it) = f1).
  Proof.
    intros vars cs r H info o Hin HO.
    destruct (inner_solve _ _ _ H _ _ Hin HO) as (k & qp & st & st' & HS & HI).
    split; [|split; [|split; [|split]]].
    - exists (inner_qp_params pa pr), k, qp, st, st'. split; [exact HS|]. split; [exact HI|].
      unfold inner_qp_params; cbn [p_max_iterations p_termination_kkt_tol p_termination_complementarity_tol p_initial_mu
        p_sigma p_initialize_mu_with_complementarity p_barrier_strategy p_decrease_mu_only_on_small_error p_initial_guess_method].
      repeat (split; [reflexivity|]). split; intro E; [rewrite E; reflexivity|destruct (pr_eq pr); congruence].
    - exact (proj1 (C13_iteration_count _ _ _ _ _ HI)).
    - exact (proj2 (C13_iteration_count _ _ _ _ _ HI)).
    - intro T. apply C12_Solve_run in HI.
      destruct HI as (p & st1 & mu & tr & _ & _ & _ & _ & _ & HL & _ & _ & _ & [[T' _]|(_ & tr0 & e & E & [M _] & _)]); [congruence|].
      rewrite HL, E, map_app. exists (map (fun e => snd (fst e)) tr0), (snd (fst e)). split; [reflexivity|exact M].
    - apply C12_Solve_run in HI.
      destruct HI as (p & st1 & mu & tr & _ & _ & _ & (st0 & _ & _ & EM) & HR & HL & _ & _ & HN & _).
      cbn [inner_qp_params p_initialize_mu_with_complementarity p_initial_mu] in EM.
      destruct HR as [mu st1|mu st1 it mu' st2 tr HSt HR]; [cbn in HN; lia|].
      rewrite HL. exists it, (map (fun e => snd (fst e)) tr). split; [reflexivity|]. subst mu.
      inversion HSt as [mu0 st0' st1' outs HIt Emu]. cbn [ip_outputs]. clear - HIt.
      unfold Iterate in HIt.
      apply bind_ok_inv in HIt. destruct HIt as (a & _ & HIt).
      apply bind_ok_inv in HIt. destruct HIt as ([[[st2 mu2] probe] muaff] & E & HIt).
      apply bind_ok_inv in HIt. destruct HIt as (al & _ & HIt).
      apply Ok_inj, pair_inj in HIt. destruct HIt as [_ <-]. cbn [ip_mu].
      cbn [inner_qp_params p_barrier_strategy] in E.
      destruct (negb (HasInequalityConstraints (ip_dims st1))); apply Ok_inj in E; injection E; auto.
  Qed.

End Log.
