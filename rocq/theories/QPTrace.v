(** The interior point Solve as a sequence of iterations, for every arithmetic: C12, C13, and the
    step-by-step form of C16. Also C04 (Setup) and C49-like parameter validation for the QP solver. *)
From Coq Require Import String List Bool Arith ZArith Lia.
From Verif Require Import Scalar Outcome LinAlg Structs Constraint QPModel QPBlocks.
Import ListNotations.
Local Open Scope string_scope.
Local Open Scope list_scope.
Local Open Scope nat_scope.

Lemma last_cons : forall A (l : list A) a b, last l a = last (a :: l) b.
Proof. intros A l. induction l as [|x l IH]; intros a b; [reflexivity|]. destruct l; [reflexivity|].
  change (last (x :: a0 :: l) a) with (last (a0 :: l) a). rewrite (IH a b). reflexivity. Qed.

Section Any.
  Context {F : Type} {O : Ops F}.
  Variable ldlt : mat F -> option (mat F).

  (** ** Parameter validation *)

  (** The documented ranges of QPInteriorPointSolver::Params (qp.hpp:134-164). *)
  Definition ip_params_valid (params : IPParams F) : Prop :=
    fltb f0 (p_initial_mu params) = true /\
    fltb f0 (p_sigma params) = true /\ fleb (p_sigma params) f1 = true /\
    fltb f0 (p_termination_kkt_tol params) = true /\
    (0 < p_max_iterations params)%Z.

  Lemma IP_CheckParams_spec : forall params,
    (ip_params_valid params -> IP_CheckParams params = Ok tt) /\
    (~ ip_params_valid params -> exists w, IP_CheckParams params = Throw (AssertFailed w)).
  Proof.
    intros params. unfold ip_params_valid, IP_CheckParams, fgtb.
    destruct (fltb f0 (p_initial_mu params)); cbn [f_assert bind];
    destruct (fltb f0 (p_sigma params)); cbn [f_assert bind];
    destruct (fleb (p_sigma params) f1); cbn [f_assert bind];
    destruct (fltb f0 (p_termination_kkt_tol params)); cbn [f_assert bind];
    destruct (Z.ltb_spec 0 (p_max_iterations params)); cbn [f_assert bind];
    (split; [intros (? & ? & ? & ? & ?); try discriminate; try lia; auto
            |intros Hn; try (eexists; reflexivity); exfalso; apply Hn; splits; auto]).
  Qed.

  (** ** Setup (C04) *)

  (** The consistency conditions of a QP, read off the documentation of Setup. *)
  Definition setup_consistent (p : QP F) : Prop :=
    mrows (qG p) = mcols (qG p) /\ mrows (qG p) = length (qc p) /\
    mrows (qA p) = length (qb p) /\
    (mrows (qA p) <> 0 -> mcols (qA p) = mrows (qG p) /\ mcols (qA p) <> 0) /\
    (forall c, In c (qcons p) -> (lvar c < Z.of_nat (mrows (qG p)))%Z).

  Theorem C04_Setup_accepts_iff_consistent : forall (g : garbage F) (problem : option (QP F)),
    (forall st, Setup g problem = Ok st ->
       exists p, problem = Some p /\ setup_consistent p /\ ip_p st = Some p /\
         ip_dims st = MkDims (mrows (qG p)) (length (qcons p)) (mrows (qA p)) /\
         length (ip_vars st) = mrows (qG p) + 2 * length (qcons p) + mrows (qA p)) /\
    (forall p, problem = Some p -> setup_consistent p -> exists st, Setup g problem = Ok st) /\
    ((forall p, problem = Some p -> ~ setup_consistent p) ->
       exists w, Setup g problem = Throw (AssertFailed w)).
  Proof.
    intros g [p|].
    - unfold Setup, setup_consistent.
      destruct (Nat.eqb_spec (mrows (qG p)) (mcols (qG p))) as [E1|E1]; cbn [f_assert bind].
      2: { splits; [discriminate| |eauto]. intros p' Hp (Hc & _). inversion Hp; subst. contradiction. }
      destruct (Nat.eqb_spec (mrows (qG p)) (length (qc p))) as [E2|E2]; cbn [f_assert bind].
      2: { splits; [discriminate| |eauto]. intros p' Hp (_ & Hc & _). inversion Hp; subst. contradiction. }
      destruct (Nat.eqb_spec (mrows (qA p)) (length (qb p))) as [E3|E3]; cbn [f_assert bind].
      2: { splits; [discriminate| |eauto]. intros p' Hp (_ & _ & Hc & _). inversion Hp; subst. contradiction. }
      assert (EA : (mrows (qA p) <> 0 -> mcols (qA p) = mrows (qG p) /\ mcols (qA p) <> 0) <->
        (if 0 <? mrows (qA p) * mcols (qA p)
         then f_assert (mcols (qA p) =? mrows (qG p)) "Setup: A_eq.cols() == G.rows()"
         else bind (f_assert (mrows (qA p) =? 0) "Setup: A_eq.rows() == 0")
              (fun _ => f_assert (length (qb p) =? 0) "Setup: b_eq.rows() == 0")) = Ok tt).
      { rewrite <- E3. destruct (Nat.ltb_spec 0 (mrows (qA p) * mcols (qA p))) as [Hp|Hp].
        - assert (mrows (qA p) <> 0 /\ mcols (qA p) <> 0) as [Hr Hc]
            by (split; intro Hz; rewrite Hz in Hp; lia).
          destruct (Nat.eqb_spec (mcols (qA p)) (mrows (qG p))); cbn [f_assert]; split; intros; auto.
          + destruct (H Hr). contradiction.
          + discriminate.
        - destruct (Nat.eqb_spec (mrows (qA p)) 0) as [Hz|Hz]; cbn [f_assert bind]; split; intros; auto.
          + contradiction.
          + destruct (H Hz) as [_ Hc]. exfalso. assert (0 < mrows (qA p) * mcols (qA p)) by (apply Nat.mul_pos_pos; lia). lia.
          + discriminate. }
      set (chk := if 0 <? mrows (qA p) * mcols (qA p) then _ else _) in *.
      assert (Hchk : chk = Ok tt \/ exists w, chk = Throw (AssertFailed w)).
      { unfold chk, f_assert. destruct (0 <? _); [destruct (_ =? _); eauto|].
        destruct (_ =? _); cbn [bind]; eauto. destruct (_ =? _); eauto. }
      destruct Hchk as [Hchk|[w Hchk]]; rewrite Hchk in *; cbn [bind].
      2: { splits; [discriminate| |eauto]. intros p' Hp (_ & _ & _ & Hc & _). inversion Hp; subst.
           apply EA in Hc. discriminate. }
      destruct (forallb (fun c => (lvar c <? Z.of_nat (mrows (qG p)))%Z) (qcons p)) eqn:EF; cbn [f_assert bind].
      + assert (SC : setup_consistent p).
        { unfold setup_consistent. splits; auto. apply EA. reflexivity.
          rewrite forallb_forall in EF. intros c Hc. apply Z.ltb_lt. apply EF. exact Hc. }
        splits.
        * intros st H. apply Ok_inj in H. subst st. exists p. splits; auto; try apply SC.
          cbn [ip_vars]. rewrite mkvec_length. lia.
        * eauto.
        * intros H. exfalso. apply (H p); auto.
      + splits; [discriminate| |eauto]. intros p' Hp (_ & _ & _ & _ & Hc). inversion Hp; subst.
        exfalso. apply Bool.not_true_iff_false in EF. apply EF. apply forallb_forall. intros c Hin.
        apply Z.ltb_lt. apply Hc. exact Hin.
    - simpl. splits; intros; try discriminate. eauto.
  Qed.

  (** ** Runs of Solve *)

  (** One trip around the loop: what is logged and what comes next. *)
  Inductive ip_step (params : IPParams F) (p : QP F) :
    F -> ip_solver F -> QPInteriorPointIteration F -> F -> ip_solver F -> Prop :=
  | ip_step_intro : forall mu st st1 outs,
      Iterate ldlt p mu (p_barrier_strategy params) st = Ok (st1, outs) ->
      let st2 := EvaluateKKTConditions true p st1 in
      ip_step params p mu st
        (MkQPIter (ComputeErrors st mu) (ComputeErrors st2 mu) outs)
        (next_mu params st2 (ComputeErrors st2 mu) mu) st2.

  (** A sequence of trips: (mu used, logged iteration, state reached). *)
  Inductive ip_run (params : IPParams F) (p : QP F) :
    F -> ip_solver F -> list (F * QPInteriorPointIteration F * ip_solver F) -> Prop :=
  | run_nil : forall mu st, ip_run params p mu st []
  | run_cons : forall mu st it mu' st' tr,
      ip_step params p mu st it mu' st' ->
      ip_run params p mu' st' tr ->
      ip_run params p mu st ((mu, it, st') :: tr).

  (** Both tolerances of the termination test hold. *)
  Definition tolerances_met (params : IPParams F) (e : F * QPInteriorPointIteration F * ip_solver F) : Prop :=
    fltb (KKT_Max (kkt_final (snd (fst e)))) (p_termination_kkt_tol params) = true /\
    fltb (ComputeMu (snd e)) (p_termination_complementarity_tol params) = true.

  Lemma ip_loop_run : forall n params p mu its st st' out,
    ip_loop ldlt n params p mu its st = Ok (st', out) ->
    exists tr, ip_run params p mu st tr /\
      qp_iterations out = its ++ map (fun e => snd (fst e)) tr /\
      st' = last (map snd tr) st /\
      qp_lagrange_multipliers out = ComputeLagrangeMultiplierSummary st' /\
      length tr <= n /\
      ((qp_termination_state out = QPIP_MAX_ITERATIONS /\ length tr = n /\
        forall e, In e tr -> ~ tolerances_met params e) \/
       (qp_termination_state out = SATISFIED_KKT_TOL /\
        exists tr0 e, tr = tr0 ++ [e] /\ tolerances_met params e /\
          forall e', In e' tr0 -> ~ tolerances_met params e')).
  Proof.
    induction n as [|n IH]; intros params p mu its st st' out H; cbn [ip_loop] in H.
    - inj_ok H. subst. exists []. cbn. splits; auto using run_nil. rewrite app_nil_r. reflexivity.
    - inv_bind H. destruct a as [st1 outs].
      set (st2 := EvaluateKKTConditions true p st1) in *.
      set (it := MkQPIter (ComputeErrors st mu) (ComputeErrors st2 mu) outs) in *.
      assert (S1 : ip_step params p mu st it (next_mu params st2 (ComputeErrors st2 mu) mu) st2)
        by (apply ip_step_intro; exact Hm).
      destruct (fltb (KKT_Max (ComputeErrors st2 mu)) (p_termination_kkt_tol params)
                && fltb (ComputeMu st2) (p_termination_complementarity_tol params)) eqn:E.
      + inj_ok H. subst. exists [(mu, it, st2)]. cbn. splits; auto.
        * eapply run_cons; [exact S1|apply run_nil].
        * lia.
        * right. split; auto. exists [], (mu, it, st2). splits; auto.
          unfold tolerances_met. cbn [fst snd kkt_final it]. apply andb_true_iff in E. exact E.
      + apply IH in H. destruct H as (tr & HR & HI & HS & HL & HN & HC).
        exists ((mu, it, st2) :: tr). splits.
        * eapply run_cons; eauto.
        * rewrite HI, <- app_assoc. reflexivity.
        * rewrite HS. apply last_cons.
        * exact HL.
        * cbn. lia.
        * assert (NT : ~ tolerances_met params (mu, it, st2)).
          { intros [A B]. cbn [fst snd kkt_final it] in A, B. fold st2 in A. rewrite A, B in E. discriminate. }
          destruct HC as [(T & L & Hall)|(T & tr0 & e & Htr & He & Hall)].
          -- left. splits; auto. cbn. lia. intros e [<-|Hin]; auto.
          -- right. split; auto. exists ((mu, it, st2) :: tr0), e. splits; auto.
             ++ rewrite Htr. reflexivity.
             ++ intros e' [<-|Hin]; auto.
  Qed.

  (** The state and barrier parameter with which the loop is entered. *)
  Definition ip_start (params : IPParams F) (p : QP F) (st st1 : ip_solver F) (mu : F) : Prop :=
    exists st0, ComputeInitialGuess ldlt params p st = Ok st0 /\
      st1 = EvaluateKKTConditions true p st0 /\
      mu = (if p_initialize_mu_with_complementarity params then ComputeMu st1 else p_initial_mu params).

  (** Complete description of a Solve that returns. *)
  Theorem C12_Solve_run : forall params st st' out,
    IP_Solve ldlt params st = Ok (st', out) ->
    exists p st1 mu tr,
      ip_p st = Some p /\ ip_params_valid params /\
      (forall c, In c (qcons p) -> (0 <= lvar c)%Z) /\
      ip_start params p st st1 mu /\
      ip_run params p mu st1 tr /\
      qp_iterations out = map (fun e => snd (fst e)) tr /\
      st' = last (map snd tr) st1 /\
      qp_lagrange_multipliers out = ComputeLagrangeMultiplierSummary st' /\
      1 <= length tr <= Z.to_nat (p_max_iterations params) /\
      ((qp_termination_state out = QPIP_MAX_ITERATIONS /\
        length tr = Z.to_nat (p_max_iterations params) /\
        forall e, In e tr -> ~ tolerances_met params e) \/
       (qp_termination_state out = SATISFIED_KKT_TOL /\
        exists tr0 e, tr = tr0 ++ [e] /\ tolerances_met params e /\
          forall e', In e' tr0 -> ~ tolerances_met params e')).
  Proof.
    intros params st st' out H. unfold IP_Solve in H.
    destruct (ip_p st) as [p|] eqn:Ep; [|discriminate].
    inv_bind H. inv_bind H. inv_bind H. inv_bind H.
    apply ip_loop_run in H. destruct H as (tr & HR & HI & HS & HL & HN & HC).
    assert (PV : ip_params_valid params).
    { destruct (IP_CheckParams_spec params) as [_ A].
      destruct (fltb f0 (p_initial_mu params)) eqn:E1;
      destruct (fltb f0 (p_sigma params)) eqn:E2;
      destruct (fleb (p_sigma params) f1) eqn:E3;
      destruct (fltb f0 (p_termination_kkt_tol params)) eqn:E4;
      destruct (Z.ltb_spec 0 (p_max_iterations params)) as [E5|E5];
      try (unfold ip_params_valid; splits; auto; fail);
      exfalso; destruct A as [w Hw]; try congruence;
      intros (B1 & B2 & B3 & B4 & B5); congruence || lia. }
    exists p, (EvaluateKKTConditions true p a1),
      (if p_initialize_mu_with_complementarity params
       then ComputeMu (EvaluateKKTConditions true p a1) else p_initial_mu params), tr.
    splits; auto.
    - apply ub_unless_ok_inv in Hm2. rewrite forallb_forall in Hm2.
      intros c Hc. apply Z.leb_le. apply Hm2. exact Hc.
    - exists a1. splits; auto.
    - destruct PV as (_ & _ & _ & _ & PM).
      destruct HC as [(_ & L & _)|(_ & tr0 & e & -> & _)]; [|rewrite app_length; cbn]; lia.
  Qed.

  (** C13: Solve returns after at least one and at most max_iterations logged iterations, exactly
      max_iterations when it reports MAX_ITERATIONS. *)
  Theorem C13_iteration_count : forall params st st' out,
    IP_Solve ldlt params st = Ok (st', out) ->
    1 <= length (qp_iterations out) <= Z.to_nat (p_max_iterations params) /\
    (qp_termination_state out = QPIP_MAX_ITERATIONS ->
       length (qp_iterations out) = Z.to_nat (p_max_iterations params)).
  Proof.
    intros params st st' out H. apply C12_Solve_run in H.
    destruct H as (p & st1 & mu & tr & _ & _ & _ & _ & _ & HI & _ & _ & HN & HC).
    rewrite HI, map_length. split; [exact HN|]. intro T.
    destruct HC as [(_ & L & _)|(T' & _)]; [exact L|congruence].
  Qed.

  (** C13: parameters outside the documented ranges make Solve throw, whatever the state. *)
  Theorem C13_bad_parameters_throw : forall params st,
    ~ ip_params_valid params -> exists w, IP_Solve ldlt params st = Throw (AssertFailed w).
  Proof.
    intros params st H. unfold IP_Solve. destruct (ip_p st); [|eauto].
    destruct (IP_CheckParams_spec params) as [_ A]. destruct (A H) as [w E]. rewrite E. cbn. eauto.
  Qed.

  (** C04 finding: a negative constraint index passes Setup, yet no Solve can then return. *)
  Theorem C04_negative_index_never_solves : forall params st p c,
    ip_p st = Some p -> In c (qcons p) -> (lvar c < 0)%Z ->
    forall r, IP_Solve ldlt params st <> Ok r.
  Proof.
    intros params st p c Hp Hc Hneg [st' out] H. apply C12_Solve_run in H.
    destruct H as (p' & st1 & mu & tr & Hp' & _ & Hnn & _). rewrite Hp in Hp'. inversion Hp'; subst p'.
    specialize (Hnn c Hc). lia.
  Qed.
End Any.
