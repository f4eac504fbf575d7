(** C44 (JSON names), C45 (in-memory JSON round trip), C46 (round trip through text).

    Specification side: [numbers_of_outputs] lists every floating point number stored in an
    NLSSolverOutputs value. *)
From Coq Require Import String List Bool Arith ZArith Lia.
From Verif Require Import Scalar Outcome Structs Json Props_Structs.
Import ListNotations.
Local Open Scope outcome_scope.
Local Open Scope string_scope.
Local Open Scope list_scope.

(** ** Specification: the floating point numbers stored in a value *)
Section Numbers.
  Context {F : Type}.
  Definition numbers_of_errors (e : Errors F) : list F := [err_f e; err_equality e].
  Definition numbers_of_eigenvalues (e : QPEigenvalues F) : list F := [eig_min e; eig_max e; eig_abs_min e].
  Definition numbers_of_derivatives (d : DirectionalDerivatives F) : list F := [d_f d; d_equality d].
  Definition numbers_of_step (s : LineSearchStep F) : list F := step_alpha s :: numbers_of_errors (step_errors s).
  Definition numbers_of_alpha (a : AlphaValues F) : list F := [primal a; dual a].
  Definition numbers_of_ip (o : IPIterationOutputs F) : list F :=
    ip_mu o :: numbers_of_alpha (ip_alpha o) ++ numbers_of_alpha (ip_alpha_probe o) ++ [ip_mu_affine o].
  Definition numbers_of_kkt (k : KKTError F) : list F := [r_dual k; r_comp k; r_primal_eq k; r_primal_ineq k].
  Definition numbers_of_qp_iteration (i : QPInteriorPointIteration F) : list F :=
    numbers_of_kkt (kkt_initial i) ++ numbers_of_kkt (kkt_final i) ++ numbers_of_ip (ip_outputs i).
  Definition numbers_of_multipliers (l : QPLagrangeMultipliers F) : list F := [lm_min l; lm_l_infinity l].
  Definition numbers_of_option {A : Type} (f : A -> list F) (o : option A) : list F :=
    match o with Some a => f a | None => [] end.
  Definition numbers_of_ip_solver (o : QPInteriorPointSolverOutputs F) : list F :=
    flat_map numbers_of_qp_iteration (qp_iterations o)
    ++ numbers_of_option numbers_of_multipliers (qp_lagrange_multipliers o).
  Definition numbers_of_qp (q : QPOutputs F) : list F :=
    match q with NullSpaceOut _ => [] | InteriorPointOut o => numbers_of_ip_solver o end.
  Definition numbers_of_iteration (i : NLSIteration F) : list F :=
    it_lambda i :: numbers_of_errors (it_errors_initial i) ++ numbers_of_qp (it_qp_outputs i)
    ++ numbers_of_option numbers_of_eigenvalues (it_qp_eigenvalues i)
    ++ numbers_of_derivatives (it_directional_derivatives i)
    ++ it_penalty i :: flat_map numbers_of_step (it_line_search_steps i).
  Definition numbers_of_outputs (o : NLSSolverOutputs F) : list F :=
    flat_map numbers_of_iteration (out_iterations o).
End Numbers.

Section Proofs.
  Context {F : Type} {O : Ops F}.
  Variable of_int : Z -> F.
  Variable trunc : F -> Z.

  (** ** C44 *)
  (** C44: the name an enumerator gets in JSON is the name operator<< streams, and reading the name gives the
      enumerator back. *)
  Theorem C44_json_names :
    (forall s, OptimizerState_to_json (F:=F) s = JStr (OptimizerState_str s)
               /\ OptimizerState_from_json (F:=F) (JStr (OptimizerState_str s)) = s) /\
    (forall s, StepSizeSelectionResult_to_json (F:=F) s = JStr (StepSizeSelectionResult_str s)
               /\ StepSizeSelectionResult_from_json (F:=F) (JStr (StepSizeSelectionResult_str s)) = s) /\
    (forall s, NLSTerminationState_to_json (F:=F) s = JStr (NLSTerminationState_str s)
               /\ NLSTerminationState_from_json (F:=F) (JStr (NLSTerminationState_str s)) = s) /\
    (forall s, QPIPState_to_json (F:=F) s = JStr (QPInteriorPointTerminationState_str s)
               /\ QPIPState_from_json (F:=F) (JStr (QPInteriorPointTerminationState_str s)) = s) /\
    (forall s, QPNSState_to_json (F:=F) s = JStr (QPNullSpaceTerminationState_str s)
               /\ QPNSState_from_json (F:=F) (JStr (QPNullSpaceTerminationState_str s)) = s).
  Proof. splits; intros []; split; reflexivity. Qed.

  (** C44: a string that is no enumerator's name is not an error: it is read as the first entry of the table
      (for the result of a null-space solve that is SUCCESS, for a line search result too). *)
  Theorem C44_unknown_names_accepted : forall txt : string,
    ((forall s, OptimizerState_str s <> txt) -> OptimizerState_from_json (F:=F) (JStr txt) = ATTEMPTING_RESTORE_LM) /\
    ((forall s, StepSizeSelectionResult_str s <> txt) ->
       StepSizeSelectionResult_from_json (F:=F) (JStr txt) = SS_SUCCESS) /\
    ((forall s, NLSTerminationState_str s <> txt) ->
       NLSTerminationState_from_json (F:=F) (JStr txt) = NLS_MAX_ITERATIONS) /\
    ((forall s, QPInteriorPointTerminationState_str s <> txt) ->
       QPIPState_from_json (F:=F) (JStr txt) = QPIP_MAX_ITERATIONS) /\
    ((forall s, QPNullSpaceTerminationState_str s <> txt) -> QPNSState_from_json (F:=F) (JStr txt) = NS_SUCCESS).
  Proof.
    intro txt. splits; intro H;
      [ pose proof (H NOMINAL); pose proof (H ATTEMPTING_RESTORE_LM)
      | pose proof (H SS_SUCCESS); pose proof (H SS_MAX_ITERATIONS); pose proof (H FIRST_ORDER_SATISFIED);
        pose proof (H POSITIVE_DERIVATIVE); pose proof (H FAILURE_NON_FINITE_COST); pose proof (H FAILURE_INVALID_ALPHA)
      | pose proof (H NLS_MAX_ITERATIONS); pose proof (H SATISFIED_ABSOLUTE_TOL); pose proof (H SATISFIED_RELATIVE_TOL);
        pose proof (H SATISFIED_FIRST_ORDER_TOL); pose proof (H MAX_LAMBDA); pose proof (H QP_INDEFINITE);
        pose proof (H USER_CALLBACK)
      | pose proof (H SATISFIED_KKT_TOL); pose proof (H QPIP_MAX_ITERATIONS)
      | pose proof (H NS_SUCCESS); pose proof (H NOT_POSITIVE_DEFINITE) ];
      clear H;
      unfold OptimizerState_from_json, StepSizeSelectionResult_from_json, NLSTerminationState_from_json,
             QPIPState_from_json, QPNSState_from_json, enum_from_json;
      cbn [find OptimizerState_d OptimizerState_t StepSizeSelectionResult_d StepSizeSelectionResult_t
           NLSTerminationState_d NLSTerminationState_t QPIPState_d QPIPState_t QPNSState_d QPNSState_t snd];
      repeat match goal with
             | N : ?a <> txt |- context [String.eqb ?b txt] =>
                 let E := fresh in assert (E : String.eqb b txt = false) by (apply String.eqb_neq; exact N); rewrite E
             end; reflexivity.
  Qed.

  (** ** C45 *)
  Lemma get_vector_map : forall (A : Type) (to : A -> json F) (get : json F -> outcome A) (l acc : list A),
    (forall a, In a l -> get (to a) = Ok a) ->
    ofold (fun acc x => do a <- get x ; Ok (acc ++ [a])) (map to l) acc = Ok (acc ++ l).
  Proof.
    intros A to get l. induction l as [|a l IH]; intros acc H; cbn [map ofold].
    - rewrite app_nil_r; reflexivity.
    - rewrite (H a (or_introl eq_refl)); cbn [bind]. rewrite IH by (intros b Hb; apply H; right; exact Hb).
      rewrite <- app_assoc; reflexivity.
  Qed.

  Lemma Errors_rt : forall e, Errors_from_json of_int (Errors_to_json e) = Ok e.
  Proof. intros []; reflexivity. Qed.
  Lemma Eig_rt : forall e, QPEigenvalues_from_json of_int (QPEigenvalues_to_json e) = Ok e.
  Proof. intros []; reflexivity. Qed.
  Lemma DD_rt : forall e, DirectionalDerivatives_from_json of_int (DirectionalDerivatives_to_json e) = Ok e.
  Proof. intros []; reflexivity. Qed.
  Lemma Step_rt : forall e, LineSearchStep_from_json of_int (LineSearchStep_to_json e) = Ok e.
  Proof. intros [? []]; reflexivity. Qed.
  Lemma QPIter_rt : forall e, QPIter_from_json of_int (QPIter_to_json e) = Ok e.
  Proof. intros [[] [] [? [] [] ?]]; reflexivity. Qed.

  Lemma QPIPState_rt : forall s, QPIPState_from_json (F:=F) (QPIPState_to_json s) = s.
  Proof. intros []; reflexivity. Qed.
  Lemma QPNSState_rt : forall s, QPNSState_from_json (F:=F) (QPNSState_to_json s) = s.
  Proof. intros []; reflexivity. Qed.
  Lemma OptimizerState_rt : forall s, OptimizerState_from_json (F:=F) (OptimizerState_to_json s) = s.
  Proof. intros []; reflexivity. Qed.
  Lemma SSR_rt : forall s, StepSizeSelectionResult_from_json (F:=F) (StepSizeSelectionResult_to_json s) = s.
  Proof. intros []; reflexivity. Qed.
  Lemma NLST_rt : forall s, NLSTerminationState_from_json (F:=F) (NLSTerminationState_to_json s) = s.
  Proof. intros []; reflexivity. Qed.

  Lemma QPIPOut_rt : forall o, QPIPOut_from_json of_int (QPIPOut_to_json o) = Ok o.
  Proof.
    intros [t its lm]. unfold QPIPOut_from_json, QPIPOut_to_json, get_at, get_vector.
    cbn [jat lookup String.eqb Ascii.eqb Bool.eqb bind qp_termination_state qp_iterations qp_lagrange_multipliers].
    rewrite QPIPState_rt. rewrite get_vector_map by (intros; apply QPIter_rt). cbn [bind app].
    destruct lm as [[a b]|]; reflexivity.
  Qed.

  Lemma QPOutputs_rt : forall q, QPOutputs_from_json of_int (QPOutputs_to_json q) = Ok q.
  Proof.
    intros [t|o]; unfold QPOutputs_from_json, QPOutputs_to_json.
    - destruct t; reflexivity.
    - change (jcontains "termination_state" (QPIPOut_to_json o)) with true.
      change (jcontains "iterations" (QPIPOut_to_json o)) with true. cbn [andb].
      rewrite QPIPOut_rt; reflexivity.
  Qed.

  Lemma NLSIteration_rt : forall i, NLSIteration_from_json of_int trunc (NLSIteration_to_json i) = Ok i.
  Proof.
    intros [n os la e q ev dd p sr ls].
    unfold NLSIteration_from_json, NLSIteration_to_json, get_index, get_vector.
    cbn [jindex lookup String.eqb Ascii.eqb Bool.eqb bind get_int get_double it_iteration it_optimizer_state it_lambda
         it_errors_initial it_qp_outputs it_qp_eigenvalues it_directional_derivatives it_penalty it_step_result
         it_line_search_steps].
    rewrite OptimizerState_rt, Errors_rt; cbn [bind]. rewrite QPOutputs_rt; cbn [bind].
    assert (EV : get_opt (QPEigenvalues_from_json of_int) (opt_to_json QPEigenvalues_to_json ev) = Ok ev)
      by (destruct ev as [[]|]; reflexivity).
    rewrite EV, DD_rt; cbn [bind]. rewrite SSR_rt. rewrite get_vector_map by (intros; apply Step_rt). reflexivity.
  Qed.

  (** C45: every value is read back unchanged from the JSON object made of it, NaN fields included. *)
  Theorem C45_round_trip : forall o : NLSSolverOutputs F,
    outputs_from_json of_int trunc (outputs_to_json o) = Ok o.
  Proof.
    intros [t its]. unfold outputs_from_json, outputs_to_json, get_index, get_vector.
    cbn [jindex lookup String.eqb Ascii.eqb Bool.eqb bind out_termination_state out_iterations].
    rewrite NLST_rt. rewrite get_vector_map by (intros; apply NLSIteration_rt). reflexivity.
  Qed.

  (** Two different values never have the same JSON. *)
  Theorem C45_injective : forall o1 o2 : NLSSolverOutputs F, outputs_to_json o1 = outputs_to_json o2 -> o1 = o2.
  Proof.
    intros o1 o2 H. pose proof (C45_round_trip o1) as E. rewrite H, C45_round_trip in E.
    injection E; auto.
  Qed.

  (** ** C46 *)
  (** Reading back what was printed as text. *)
  Definition reread {A : Type} (numbers : A -> list F) (to : A -> json F) (get : json F -> outcome A) : Prop :=
    forall a, get (through_text (to a)) =
              if forallb ffinite (numbers a) then Ok a else Throw (JsonError "type_error.302").

  Ltac fin := repeat match goal with |- context [ffinite ?x] => destruct (ffinite x) eqn:?; cbn end.

  Lemma Errors_tt : reread numbers_of_errors Errors_to_json (Errors_from_json of_int).
  Proof. intros []; cbn; fin; reflexivity. Qed.
  Lemma Eig_tt : reread numbers_of_eigenvalues QPEigenvalues_to_json (QPEigenvalues_from_json of_int).
  Proof. intros []; cbn; fin; reflexivity. Qed.
  Lemma DD_tt : reread numbers_of_derivatives DirectionalDerivatives_to_json (DirectionalDerivatives_from_json of_int).
  Proof. intros []; cbn; fin; reflexivity. Qed.
  Lemma LM_tt : reread numbers_of_multipliers LM_to_json (LM_from_json of_int).
  Proof. intros []; cbn; fin; reflexivity. Qed.
  Lemma Step_tt : reread numbers_of_step LineSearchStep_to_json (LineSearchStep_from_json of_int).
  Proof. intros [? []]; cbn; fin; reflexivity. Qed.
  Lemma Alpha_tt : reread numbers_of_alpha AlphaValues_to_json (AlphaValues_from_json of_int).
  Proof. intros []; cbn; fin; reflexivity. Qed.
  Lemma KKT_tt : reread numbers_of_kkt KKTError_to_json (KKTError_from_json of_int).
  Proof. intros []; cbn; fin; reflexivity. Qed.
  Lemma IP_tt : reread numbers_of_ip IPIterationOutputs_to_json (IPIterationOutputs_from_json of_int).
  Proof.
    intros [m a p q].
    unfold IPIterationOutputs_from_json, IPIterationOutputs_to_json, numbers_of_ip, get_at.
    cbn [through_text map fst snd jat lookup String.eqb Ascii.eqb Bool.eqb bind ip_mu ip_alpha ip_alpha_probe ip_mu_affine].
    rewrite !Alpha_tt. cbn [forallb]. rewrite !forallb_app.
    destruct (ffinite m); cbn [get_double bind andb]; [|reflexivity].
    destruct (forallb ffinite (numbers_of_alpha a)); cbn [bind andb]; [|reflexivity].
    destruct (forallb ffinite (numbers_of_alpha p)); cbn [bind andb]; [|reflexivity].
    cbn [forallb]. destruct (ffinite q); reflexivity.
  Qed.
  Lemma QPIter_tt : reread numbers_of_qp_iteration QPIter_to_json (QPIter_from_json of_int).
  Proof.
    intros [a b c].
    unfold QPIter_from_json, QPIter_to_json, numbers_of_qp_iteration, get_at.
    cbn [through_text map fst snd jat lookup String.eqb Ascii.eqb Bool.eqb bind kkt_initial kkt_final ip_outputs].
    rewrite !KKT_tt, IP_tt. rewrite !forallb_app.
    destruct (forallb ffinite (numbers_of_kkt a)); cbn [bind andb]; [|reflexivity].
    destruct (forallb ffinite (numbers_of_kkt b)); cbn [bind andb]; [|reflexivity].
    destruct (forallb ffinite (numbers_of_ip c)); reflexivity.
  Qed.

  Lemma get_vector_tt : forall (A : Type) (numbers : A -> list F) to get,
    reread numbers to get -> forall l : list A,
    get_vector get (through_text (JArr (map to l))) =
    if forallb ffinite (flat_map numbers l) then Ok l else Throw (JsonError "type_error.302").
  Proof.
    intros A numbers to get R l. cbn [through_text get_vector]. rewrite map_map.
    assert (G : forall acc, ofold (fun acc x => do a <- get x ; Ok (acc ++ [a])) (map (fun x => through_text (to x)) l) acc
      = if forallb ffinite (flat_map numbers l) then Ok (acc ++ l) else Throw (JsonError "type_error.302")).
    { induction l as [|a l IH]; intro acc; cbn [map ofold flat_map].
      - cbn [forallb]. rewrite app_nil_r; reflexivity.
      - rewrite R, forallb_app. destruct (forallb ffinite (numbers a)); cbn [bind andb]; [|reflexivity].
        rewrite IH, <- app_assoc. reflexivity. }
    apply G.
  Qed.

  Lemma get_opt_tt : forall (A : Type) (numbers : A -> list F) to get,
    reread numbers to get -> (forall a, exists l, to a = JObj l) ->
    reread (numbers_of_option numbers) (opt_to_json to) (get_opt get).
  Proof.
    intros A numbers to get R N [a|]; cbn [opt_to_json numbers_of_option]; [|reflexivity].
    pose proof (R a) as E. destruct (N a) as (l & El). rewrite El in *. cbn [through_text get_opt] in *.
    rewrite E. destruct (forallb ffinite (numbers a)); reflexivity.
  Qed.

  Lemma enum_text : forall (E : Type) eqb d (t : list (E * string)) e,
    through_text (enum_to_json eqb d t e) = enum_to_json (F:=F) eqb d t e.
  Proof. reflexivity. Qed.

  Lemma QPIPOut_tt : reread numbers_of_ip_solver QPIPOut_to_json (QPIPOut_from_json of_int).
  Proof.
    intros [t its lm]. unfold QPIPOut_from_json, QPIPOut_to_json, numbers_of_ip_solver, get_at.
    change (through_text (JObj ?l)) with (JObj (map (fun kv => (fst kv, through_text (snd kv))) l)).
    cbn [map fst snd jat lookup String.eqb Ascii.eqb Bool.eqb bind qp_termination_state qp_iterations qp_lagrange_multipliers].
    change (through_text (QPIPState_to_json t)) with (QPIPState_to_json (F:=F) t).
    rewrite QPIPState_rt, (get_vector_tt _ _ _ _ QPIter_tt).
    rewrite (get_opt_tt _ _ _ _ LM_tt) by (intros []; eexists; reflexivity).
    rewrite forallb_app.
    destruct (forallb ffinite (flat_map numbers_of_qp_iteration its)); cbn [bind andb]; [|reflexivity].
    destruct (forallb ffinite (numbers_of_option numbers_of_multipliers lm)); reflexivity.
  Qed.

  Lemma QPOutputs_tt : reread numbers_of_qp QPOutputs_to_json (QPOutputs_from_json of_int).
  Proof.
    intros [t|o]; unfold QPOutputs_from_json, QPOutputs_to_json, numbers_of_qp.
    - destruct t; reflexivity.
    - change (jcontains "termination_state" (through_text (QPIPOut_to_json o))) with true.
      change (jcontains "iterations" (through_text (QPIPOut_to_json o))) with true. cbn [andb].
      rewrite QPIPOut_tt. destruct (forallb ffinite (numbers_of_ip_solver o)); reflexivity.
  Qed.

  Lemma NLSIteration_tt : reread numbers_of_iteration NLSIteration_to_json (NLSIteration_from_json of_int trunc).
  Proof.
    intros [n os la e q ev dd p sr ls].
    unfold NLSIteration_from_json, NLSIteration_to_json, numbers_of_iteration, get_index.
    change (through_text (JObj ?l)) with (JObj (map (fun kv => (fst kv, through_text (snd kv))) l)).
    cbn [map fst snd jindex lookup String.eqb Ascii.eqb Bool.eqb bind it_iteration it_optimizer_state it_lambda
         it_errors_initial it_qp_outputs it_qp_eigenvalues it_directional_derivatives it_penalty it_step_result
         it_line_search_steps].
    change (through_text (OptimizerState_to_json os)) with (OptimizerState_to_json (F:=F) os).
    change (through_text (StepSizeSelectionResult_to_json sr)) with (StepSizeSelectionResult_to_json (F:=F) sr).
    change (get_int trunc (through_text (JInt n))) with (@Ok Z n).
    rewrite OptimizerState_rt, Errors_tt, QPOutputs_tt, DD_tt, SSR_rt.
    rewrite (get_opt_tt _ _ _ _ Eig_tt) by (intros []; eexists; reflexivity).
    rewrite (get_vector_tt _ _ _ _ Step_tt).
    cbn [forallb]. rewrite !forallb_app. cbn [forallb through_text].
    cbn [bind].
    destruct (ffinite la); cbn [get_double bind andb]; [|reflexivity].
    destruct (forallb ffinite (numbers_of_errors e)); cbn [bind andb]; [|reflexivity].
    destruct (forallb ffinite (numbers_of_qp q)); cbn [bind andb]; [|reflexivity].
    destruct (forallb ffinite (numbers_of_option numbers_of_eigenvalues ev)); cbn [bind andb]; [|reflexivity].
    destruct (forallb ffinite (numbers_of_derivatives dd)); cbn [bind andb]; [|reflexivity].
    destruct (ffinite p); cbn [get_double bind andb]; [|reflexivity].
    destruct (forallb ffinite (flat_map numbers_of_step ls)); reflexivity.
  Qed.

  Lemma outputs_tt : reread numbers_of_outputs outputs_to_json (outputs_from_json of_int trunc).
  Proof.
    intros [t its]. unfold outputs_from_json, outputs_to_json, numbers_of_outputs, get_index.
    change (through_text (JObj ?l)) with (JObj (map (fun kv => (fst kv, through_text (snd kv))) l)).
    cbn [map fst snd jindex lookup String.eqb Ascii.eqb Bool.eqb bind out_termination_state out_iterations].
    change (through_text (NLSTerminationState_to_json t)) with (NLSTerminationState_to_json (F:=F) t).
    rewrite NLST_rt, (get_vector_tt _ _ _ _ NLSIteration_tt).
    destruct (forallb ffinite (flat_map numbers_of_iteration its)); reflexivity.
  Qed.

  (** C46: outputs all of whose numbers are finite survive being printed and parsed. *)
  Theorem C46_finite_outputs_survive : forall o : NLSSolverOutputs F,
    (forall x, In x (numbers_of_outputs o) -> ffinite x = true) ->
    outputs_from_json of_int trunc (through_text (outputs_to_json o)) = Ok o.
  Proof.
    intros o H. rewrite outputs_tt. replace (forallb ffinite (numbers_of_outputs o)) with true; [reflexivity|].
    symmetry; apply forallb_forall; exact H.
  Qed.

  (** C46: one number that is not finite anywhere in the outputs makes deserialisation throw. *)
  Theorem C46_non_finite_outputs_throw : forall (o : NLSSolverOutputs F) x,
    In x (numbers_of_outputs o) -> ffinite x = false ->
    outputs_from_json of_int trunc (through_text (outputs_to_json o)) = Throw (JsonError "type_error.302").
  Proof.
    intros o x H N. rewrite outputs_tt.
    replace (forallb ffinite (numbers_of_outputs o)) with false; [reflexivity|].
    symmetry; apply not_true_is_false; intro E. rewrite forallb_forall in E. rewrite (E x H) in N; discriminate.
  Qed.
End Proofs.
