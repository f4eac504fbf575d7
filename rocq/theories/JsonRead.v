(** C66: reading a JSON document that was not (or not unmodified) written by the library.

    Specification side: [known] lists the keys the library uses; [same_document] relates two documents that agree on those
    keys, whatever the order of the entries and whatever other entries there are. *)
From Coq Require Import String List Bool Arith ZArith Lia.
From Verif Require Import Scalar Outcome Structs Json JsonProps.
Import ListNotations.
Local Open Scope outcome_scope.
Local Open Scope string_scope.
Local Open Scope list_scope.

(** Every key the library writes. *)
Definition known : list string :=
  ["termination_state"; "iterations"; "iteration"; "optimizer_state"; "lambda"; "errors_initial"; "qp_outputs"; "qp_eigenvalues";
   "directional_derivatives"; "penalty"; "step_result"; "line_search_steps"; "f"; "equality"; "min"; "max"; "abs_min"; "d_f";
   "d_equality"; "alpha"; "errors"; "primal"; "dual"; "mu"; "alpha_probe"; "mu_affine"; "r_dual"; "r_comp"; "r_primal_eq";
   "r_primal_ineq"; "kkt_initial"; "kkt_final"; "ip_outputs"; "lagrange_multipliers"; "l_infinity"].

Section Read.
  Context {F : Type} {O : Ops F}.
  Variable of_int : Z -> F.
  Variable trunc : F -> Z.
  Notation json := (json F).

  (** The value stored under a key: the (only, or first) entry with that key. *)
  Inductive has (k : string) (v : json) : list (string * json) -> Prop :=
  | has_here : forall l, has k v ((k, v) :: l)
  | has_later : forall k' v' l, k' <> k -> has k v l -> has k v ((k', v') :: l).
  Definition has_no (k : string) (l : list (string * json)) : Prop := ~ In k (map fst l).

  Lemma lookup_has : forall k l, match lookup k l with Some v => has k v l | None => has_no k l end.
  Proof.
    intros k l. induction l as [|[k' v'] l IH]; cbn [lookup]; [intros []|].
    destruct (String.eqb_spec k k') as [<-|N]; [constructor|]. destruct (lookup k l).
    - constructor; congruence.
    - intros [X|X]; [cbn in X; congruence|exact (IH X)].
  Qed.
  Lemma has_lookup : forall k v l, has k v l <-> lookup k l = Some v.
  Proof.
    intros k v l. split.
    - induction 1; cbn [lookup]; [rewrite String.eqb_refl; reflexivity|].
      destruct (String.eqb_spec k k'); [congruence|assumption].
    - intro H. pose proof (lookup_has k l) as X. rewrite H in X. exact X.
  Qed.
  Lemma has_no_lookup : forall k l, has_no k l <-> lookup k l = None.
  Proof.
    intros k l. split.
    - intro H. pose proof (lookup_has k l) as X. destruct (lookup k l); [|reflexivity]. exfalso. apply H. clear H.
      induction X; [left; reflexivity|right; assumption].
    - intro H. pose proof (lookup_has k l) as X. rewrite H in X. exact X.
  Qed.

  (** Two documents that say the same under the library's keys. *)
  Inductive same_document : json -> json -> Prop :=
  | sd_null : same_document JNull JNull
  | sd_bool : forall b, same_document (JBool b) (JBool b)
  | sd_int : forall z, same_document (JInt z) (JInt z)
  | sd_float : forall f, same_document (JFloat f) (JFloat f)
  | sd_str : forall s, same_document (JStr s) (JStr s)
  | sd_arr : forall l l', Forall2 same_document l l' -> same_document (JArr l) (JArr l')
  | sd_obj : forall l l',
      (forall k, In k known -> (has_no k l /\ has_no k l') \/ exists v v', has k v l /\ has k v' l' /\ same_document v v') ->
      same_document (JObj l) (JObj l').

  Notation sd := same_document.
  Definition respects {A : Type} (get : json -> A) : Prop := forall j j', sd j j' -> get j = get j'.

  Lemma at_sd : forall (A : Type) k (get : json -> outcome A), In k known -> respects get -> respects (get_at k get).
  Proof.
    intros A k get K R j j' H. unfold get_at, jat. destruct H; try reflexivity.
    destruct (H k K) as [[A1 A2]|(v & v' & A1 & A2 & A3)].
    - apply has_no_lookup in A1, A2. rewrite A1, A2. reflexivity.
    - apply has_lookup in A1, A2. rewrite A1, A2. cbn [bind]. apply R. exact A3.
  Qed.
  Lemma index_sd : forall (A : Type) k (get : json -> outcome A), In k known -> respects get -> respects (get_index k get).
  Proof.
    intros A k get K R j j' H. unfold get_index, jindex. destruct H; try reflexivity.
    destruct (H k K) as [[A1 A2]|(v & v' & A1 & A2 & A3)].
    - apply has_no_lookup in A1, A2. rewrite A1, A2. reflexivity.
    - apply has_lookup in A1, A2. rewrite A1, A2. cbn [bind]. apply R. exact A3.
  Qed.
  Lemma contains_sd : forall k, In k known -> respects (jcontains (F := F) k).
  Proof.
    intros k K j j' H. unfold jcontains. destruct H; try reflexivity.
    destruct (H k K) as [[A1 A2]|(v & v' & A1 & A2 & A3)].
    - apply has_no_lookup in A1, A2. rewrite A1, A2. reflexivity.
    - apply has_lookup in A1, A2. rewrite A1, A2. reflexivity.
  Qed.
  Lemma double_sd : respects (get_double of_int).
  Proof. intros j j' []; reflexivity. Qed.
  Lemma int_sd : respects (get_int (F := F) trunc).
  Proof. intros j j' []; reflexivity. Qed.
  Lemma vector_sd : forall (A : Type) (get : json -> outcome A), respects get -> respects (get_vector get).
  Proof.
    intros A get R j j' []; try reflexivity. unfold get_vector.
    enough (G : forall acc, ofold (fun acc x => do a <- get x ; Ok (acc ++ [a])) l acc = ofold (fun acc x => do a <- get x ; Ok (acc ++ [a])) l' acc)
      by apply G.
    induction H as [|x y l l' H _ IH]; intro acc; cbn [ofold]; [reflexivity|].
    rewrite (R _ _ H). destruct (get y); cbn [bind]; try reflexivity. apply IH.
  Qed.
  Lemma opt_sd : forall (A : Type) (get : json -> outcome A), respects get -> respects (get_opt get).
  Proof. intros A get R j j' H. pose proof (R _ _ H). destruct H; cbn [get_opt]; try reflexivity; rewrite H0; reflexivity. Qed.
  Lemma enum_sd : forall (E : Type) (d : E * string) t, respects (enum_from_json (F := F) d t).
  Proof. intros E d t j j' []; reflexivity. Qed.
  Lemma ok_sd : forall (A : Type) (get : json -> A), respects get -> respects (fun j => Ok (get j)).
  Proof. intros A get R j j' H. rewrite (R _ _ H). reflexivity. Qed.
  Lemma bind_sd : forall (A B : Type) (get : json -> outcome A) (k : A -> json -> outcome B),
    respects get -> (forall a, respects (k a)) -> respects (fun j => do a <- get j ; k a j).
  Proof. intros A B get k R K j j' H. rewrite (R _ _ H). destruct (get j'); cbn [bind]; try reflexivity. apply K. exact H. Qed.
  Lemma const_sd : forall (A : Type) (a : A), respects (fun _ => a).
  Proof. intros A a j j' _. reflexivity. Qed.

  Ltac in_known := unfold known; repeat (first [left; reflexivity | right]).
  Ltac rd :=
    repeat first
      [ apply const_sd
      | apply (bind_sd _ _ (get_at _ _)) | apply (bind_sd _ _ (get_index _ _)) | match goal with |- forall _, _ => intro end
      | apply at_sd; [in_known|] | apply index_sd; [in_known|]
      | apply double_sd | apply int_sd | apply vector_sd | apply opt_sd | apply ok_sd; apply enum_sd | apply enum_sd ].

  (** C66: reading depends only on what the document says under the library's keys: the order of the entries and additional
      entries (at any depth) do not matter. *)
  Theorem C66_only_known_keys_matter : forall j j', same_document j j' ->
    outputs_from_json of_int trunc j = outputs_from_json of_int trunc j'.
  Proof.
    assert (E1 : respects (Errors_from_json of_int)) by (unfold Errors_from_json; rd).
    assert (E2 : respects (QPEigenvalues_from_json of_int)) by (unfold QPEigenvalues_from_json; rd).
    assert (E3 : respects (DirectionalDerivatives_from_json of_int)) by (unfold DirectionalDerivatives_from_json; rd).
    assert (E4 : respects (LineSearchStep_from_json of_int)) by (unfold LineSearchStep_from_json; rd; exact E1).
    assert (E5 : respects (AlphaValues_from_json of_int)) by (unfold AlphaValues_from_json; rd).
    assert (E6 : respects (IPIterationOutputs_from_json of_int)) by (unfold IPIterationOutputs_from_json; rd; exact E5).
    assert (E7 : respects (KKTError_from_json of_int)) by (unfold KKTError_from_json; rd).
    assert (E8 : respects (QPIter_from_json of_int)) by (unfold QPIter_from_json; rd; assumption).
    assert (E9 : respects (LM_from_json of_int)) by (unfold LM_from_json; rd).
    assert (E10 : respects (QPIPOut_from_json of_int)) by (unfold QPIPOut_from_json; rd; assumption).
    assert (E11 : respects (QPOutputs_from_json of_int)).
    { intros j j' H. unfold QPOutputs_from_json.
      rewrite (contains_sd "termination_state" ltac:(in_known) _ _ H), (contains_sd "iterations" ltac:(in_known) _ _ H), (E10 _ _ H).
      unfold QPNSState_from_json. rewrite (enum_sd _ _ _ _ _ H). reflexivity. }
    assert (E12 : respects (NLSIteration_from_json of_int trunc)) by (unfold NLSIteration_from_json; rd; assumption).
    assert (E13 : respects (outputs_from_json of_int trunc)) by (unfold outputs_from_json; rd; assumption).
    exact E13.
  Qed.

  (** ** Which documents are accepted, and what they mean *)

  Definition number (x : F) (j : json) : Prop := j = JFloat x \/ exists z, j = JInt z /\ x = of_int z.
  Definition integer (n : Z) (j : json) : Prop :=
    j = JInt n \/ (exists x, j = JFloat x /\ n = trunc x) \/ exists b, j = JBool b /\ n = (if b then 1 else 0)%Z.
  Definition array {A : Type} (P : A -> json -> Prop) (l : list A) (j : json) : Prop := exists js, j = JArr js /\ Forall2 P l js.
  Definition nullable {A : Type} (P : A -> json -> Prop) (x : option A) (j : json) : Prop :=
    match x with None => j = JNull | Some a => j <> JNull /\ P a j end.
  (** The enumerator with that name; anything else stands for the first entry of the table. *)
  Definition named {E : Type} (str : E -> string) (first : E) (e : E) (j : json) : Prop :=
    j = JStr (str e) \/ ((forall e', j <> JStr (str e')) /\ e = first).
  Definition field (k : string) (P : json -> Prop) (j : json) : Prop := exists l v, j = JObj l /\ has k v l /\ P v.

  Definition is_errors (e : Errors F) j := field "f" (number (err_f e)) j /\ field "equality" (number (err_equality e)) j.
  Definition is_eigenvalues (e : QPEigenvalues F) j :=
    field "min" (number (eig_min e)) j /\ field "max" (number (eig_max e)) j /\ field "abs_min" (number (eig_abs_min e)) j.
  Definition is_derivatives (d : DirectionalDerivatives F) j :=
    field "d_f" (number (d_f d)) j /\ field "d_equality" (number (d_equality d)) j.
  Definition is_step (s : LineSearchStep F) j :=
    field "alpha" (number (step_alpha s)) j /\ field "errors" (is_errors (step_errors s)) j.
  Definition is_alpha (a : AlphaValues F) j := field "primal" (number (primal a)) j /\ field "dual" (number (dual a)) j.
  Definition is_ip (o : IPIterationOutputs F) j :=
    field "mu" (number (ip_mu o)) j /\ field "alpha" (is_alpha (ip_alpha o)) j /\
    field "alpha_probe" (is_alpha (ip_alpha_probe o)) j /\ field "mu_affine" (number (ip_mu_affine o)) j.
  Definition is_kkt (k : KKTError F) j :=
    field "r_dual" (number (r_dual k)) j /\ field "r_comp" (number (r_comp k)) j /\
    field "r_primal_eq" (number (r_primal_eq k)) j /\ field "r_primal_ineq" (number (r_primal_ineq k)) j.
  Definition is_qp_iteration (i : QPInteriorPointIteration F) j :=
    field "kkt_initial" (is_kkt (kkt_initial i)) j /\ field "kkt_final" (is_kkt (kkt_final i)) j /\
    field "ip_outputs" (is_ip (ip_outputs i)) j.
  Definition is_multipliers (l : QPLagrangeMultipliers F) j :=
    field "min" (number (lm_min l)) j /\ field "l_infinity" (number (lm_l_infinity l)) j.
  Definition is_ip_solver (o : QPInteriorPointSolverOutputs F) j :=
    field "termination_state" (named QPInteriorPointTerminationState_str QPIP_MAX_ITERATIONS (qp_termination_state o)) j /\
    field "iterations" (array is_qp_iteration (qp_iterations o)) j /\
    field "lagrange_multipliers" (nullable is_multipliers (qp_lagrange_multipliers o)) j.
  (** An object with both "termination_state" and "iterations" stands for the outputs of the interior point solver; anything
      else for those of the null space solver. *)
  Definition has_both (j : json) : Prop := field "termination_state" (fun _ => True) j /\ field "iterations" (fun _ => True) j.
  Definition is_qp (q : QPOutputs F) j :=
    match q with
    | InteriorPointOut o => has_both j /\ is_ip_solver o j
    | NullSpaceOut t => ~ has_both j /\ named QPNullSpaceTerminationState_str NS_SUCCESS t j
    end.
  Definition is_iteration (i : NLSIteration F) j :=
    field "iteration" (integer (it_iteration i)) j /\
    field "optimizer_state" (named OptimizerState_str ATTEMPTING_RESTORE_LM (it_optimizer_state i)) j /\
    field "lambda" (number (it_lambda i)) j /\ field "errors_initial" (is_errors (it_errors_initial i)) j /\
    field "qp_outputs" (is_qp (it_qp_outputs i)) j /\
    field "qp_eigenvalues" (nullable is_eigenvalues (it_qp_eigenvalues i)) j /\
    field "directional_derivatives" (is_derivatives (it_directional_derivatives i)) j /\
    field "penalty" (number (it_penalty i)) j /\
    field "step_result" (named StepSizeSelectionResult_str SS_SUCCESS (it_step_result i)) j /\
    field "line_search_steps" (array is_step (it_line_search_steps i)) j.
  Definition is_outputs (o : NLSSolverOutputs F) j :=
    field "termination_state" (named NLSTerminationState_str NLS_MAX_ITERATIONS (out_termination_state o)) j /\
    field "iterations" (array is_iteration (out_iterations o)) j.

  Definition reads {A : Type} (get : json -> outcome A) (P : A -> json -> Prop) : Prop := forall j a, get j = Ok a <-> P a j.

  Lemma at_reads : forall (A : Type) k (get : json -> outcome A) P, reads get P -> reads (get_at k get) (fun a => field k (P a)).
  Proof.
    intros A k get P R j a. unfold get_at, jat, field. split.
    - intro H. destruct j as [| | | | | |l]; try discriminate. destruct (lookup k l) as [v|] eqn:E; [|discriminate].
      cbn [bind] in H. exists l, v. split; [reflexivity|]. split; [apply has_lookup; exact E|]. apply R. exact H.
    - intros (l & v & -> & E & H). apply has_lookup in E. rewrite E. cbn [bind]. apply R. exact H.
  Qed.
  Lemma index_reads : forall (A : Type) k (get : json -> outcome A) P, reads get P -> reads (get_index k get) (fun a => field k (P a)).
  Proof.
    intros A k get P R j a. unfold get_index, jindex, field. split.
    - intro H. destruct j as [| | | | | |l]; try discriminate. destruct (lookup k l) as [v|] eqn:E; [|discriminate].
      cbn [bind] in H. exists l, v. split; [reflexivity|]. split; [apply has_lookup; exact E|]. apply R. exact H.
    - intros (l & v & -> & E & H). apply has_lookup in E. rewrite E. cbn [bind]. apply R. exact H.
  Qed.
  Lemma number_reads : reads (get_double of_int) number.
  Proof.
    intros j a. unfold number. split.
    - destruct j; cbn; intro H; try discriminate; apply Ok_inj in H; subst; eauto.
    - intros [->|(z & -> & ->)]; reflexivity.
  Qed.
  Lemma integer_reads : reads (get_int trunc) integer.
  Proof.
    intros j a. unfold integer. split.
    - destruct j; cbn; intro H; try discriminate; apply Ok_inj in H; subst; eauto 6.
    - intros [->|[(z & -> & ->)|(b & -> & ->)]]; reflexivity.
  Qed.
  Lemma array_reads : forall (A : Type) (get : json -> outcome A) P, reads get P -> reads (get_vector get) (array P).
  Proof.
    intros A get P R j a. unfold get_vector, array.
    assert (G : forall js acc a, ofold (fun acc x => do a <- get x ; Ok (acc ++ [a])) js acc = Ok a <-> exists b, a = acc ++ b /\ Forall2 P b js).
    { clear j a. induction js as [|x js IH]; intros acc a; cbn [ofold].
      - split.
        + intro H. apply Ok_inj in H. subst. exists []. rewrite app_nil_r. auto.
        + intros (b & -> & H). inversion H. rewrite app_nil_r. reflexivity.
      - split.
        + intro H. apply bind_ok_inv in H. destruct H as (acc' & E & H). apply bind_ok_inv in E. destruct E as (y & Ey & E).
          apply Ok_inj in E. subst acc'. apply IH in H. destruct H as (b & -> & H). exists (y :: b). rewrite <- app_assoc. split; [reflexivity|].
          constructor; [apply R; exact Ey|exact H].
        + intros (b & -> & H). inversion H as [|y x' b' js' Hy Hb]; subst. apply R in Hy. rewrite Hy. cbn [bind].
          apply IH. exists b'. rewrite <- app_assoc. auto. }
    split.
    - destruct j as [| | | | |l|]; intro H; try discriminate. apply G in H. destruct H as (b & -> & H). exists l. auto.
    - intros (js & -> & H). apply G. exists a. auto.
  Qed.
  Lemma nullable_reads : forall (A : Type) (get : json -> outcome A) P, reads get P -> reads (get_opt get) (nullable P).
  Proof.
    intros A get P R j a. unfold nullable. split.
    - intro H. destruct a as [a|].
      + assert (N : j <> JNull) by (intros ->; discriminate). split; [exact N|]. apply R.
        destruct j; try congruence; cbn [get_opt] in H; apply bind_ok_inv in H; destruct H as (? & E & H); apply Ok_inj in H; congruence.
      + destruct j; [reflexivity| | | | | |]; cbn [get_opt] in H; apply bind_ok_inv in H; destruct H as (? & E & H); discriminate.
    - destruct a as [a|]; [|intros ->; reflexivity]. intros [N H]. apply R in H. destruct j; cbn [get_opt]; try congruence; rewrite H; reflexivity.
  Qed.
  Lemma enum_reads : forall (E : Type) (str : E -> string) (d : E) (t : list (E * string)) (all : list E),
    (forall e, In e all) -> map fst t = tl all -> map snd t = map str (tl all) -> all = d :: tl all ->
    (forall e e', str e = str e' -> e = e') ->
    reads (fun j => Ok (enum_from_json (d, str d) t j)) (named str d).
  Proof.
    intros E str d t all ALL T1 T2 T3 INJ.
    assert (SH : t = map (fun e => (e, str e)) (tl all)).
    { clear - T1 T2. revert T1 T2. generalize (tl all). induction t as [|[e s] t IH]; intros [|a l]; cbn; intros A B; try discriminate; [reflexivity|].
      injection A as -> A. injection B as -> B. rewrite (IH l A B). reflexivity. }
    assert (G : (d, str d) :: t = map (fun e => (e, str e)) all) by (rewrite SH, T3; reflexivity).
    assert (FIND : forall s, find (fun p : E * string => String.eqb (snd p) s) (map (fun e => (e, str e)) all) =
                   match find (fun e => String.eqb (str e) s) all with Some e => Some (e, str e) | None => None end).
    { intro s. clear. induction all as [|e l IH]; [reflexivity|]. cbn [map find snd]. destruct (String.eqb (str e) s); [reflexivity|exact IH]. }
    intros j e. unfold enum_from_json. rewrite G. unfold named. split.
    - intro H. apply Ok_inj in H. destruct j as [| | | |s| |].
      1-4,6-7: (right; split; [intros e' X; discriminate|]; rewrite <- H;
                clear; generalize (map (fun e0 => (e0, str e0)) all); induction l as [|x l IH]; [reflexivity|exact IH]).
      rewrite FIND in H. destruct (find (fun e => String.eqb (str e) s) all) as [e1|] eqn:EF.
      + apply find_some in EF. destruct EF as [_ EF]. apply String.eqb_eq in EF. left. cbn [fst] in H. congruence.
      + right. split; [|symmetry; exact H]. intros e' X. injection X as ->.
        pose proof (find_none _ _ EF e' (ALL e')) as Y. cbn in Y. rewrite String.eqb_refl in Y. discriminate.
    - intros [->|[N ->]]; f_equal.
      + rewrite FIND. destruct (find (fun e0 => String.eqb (str e0) (str e)) all) as [e1|] eqn:EF.
        * apply find_some in EF. destruct EF as [_ EF]. apply String.eqb_eq in EF. cbn [fst]. apply INJ. exact EF.
        * pose proof (find_none _ _ EF e (ALL e)) as Y. cbn in Y. rewrite String.eqb_refl in Y. discriminate.
      + destruct j as [| | | |s| |].
        1-4,6-7: (clear; generalize (map (fun e0 => (e0, str e0)) all); induction l as [|x l IH]; [reflexivity|exact IH]).
        rewrite FIND. destruct (find (fun e => String.eqb (str e) s) all) as [e1|] eqn:EF; [|reflexivity].
        apply find_some in EF. destruct EF as [_ EF]. apply String.eqb_eq in EF. exfalso. apply (N e1). congruence.
  Qed.

  Lemma optimizer_state_reads : reads (fun v => Ok (OptimizerState_from_json v)) (named OptimizerState_str ATTEMPTING_RESTORE_LM).
  Proof.
    apply (enum_reads _ OptimizerState_str ATTEMPTING_RESTORE_LM OptimizerState_t [ATTEMPTING_RESTORE_LM; NOMINAL]); try reflexivity.
    - intros []; cbn; auto.
    - intros [] []; cbn; intro; congruence || discriminate.
  Qed.
  Lemma step_result_reads : reads (fun v => Ok (StepSizeSelectionResult_from_json v)) (named StepSizeSelectionResult_str SS_SUCCESS).
  Proof.
    apply (enum_reads _ StepSizeSelectionResult_str SS_SUCCESS StepSizeSelectionResult_t [SS_SUCCESS; SS_MAX_ITERATIONS; FIRST_ORDER_SATISFIED; POSITIVE_DERIVATIVE;
      FAILURE_NON_FINITE_COST; FAILURE_INVALID_ALPHA]); try reflexivity.
    - intros []; cbn; auto 8.
    - intros [] []; cbn; intro; congruence || discriminate.
  Qed.
  Lemma termination_reads : reads (fun v => Ok (NLSTerminationState_from_json v)) (named NLSTerminationState_str NLS_MAX_ITERATIONS).
  Proof.
    apply (enum_reads _ NLSTerminationState_str NLS_MAX_ITERATIONS NLSTerminationState_t [NLS_MAX_ITERATIONS; SATISFIED_ABSOLUTE_TOL; SATISFIED_RELATIVE_TOL; SATISFIED_FIRST_ORDER_TOL;
      MAX_LAMBDA; QP_INDEFINITE; USER_CALLBACK]); try reflexivity.
    - intros []; cbn; auto 9.
    - intros [] []; cbn; intro; congruence || discriminate.
  Qed.
  Lemma qp_state_reads : reads (fun v => Ok (QPIPState_from_json v)) (named QPInteriorPointTerminationState_str QPIP_MAX_ITERATIONS).
  Proof.
    apply (enum_reads _ QPInteriorPointTerminationState_str QPIP_MAX_ITERATIONS QPIPState_t [QPIP_MAX_ITERATIONS; SATISFIED_KKT_TOL]); try reflexivity.
    - intros []; cbn; auto 9.
    - intros [] []; cbn; intro; congruence || discriminate.
  Qed.
  Lemma ns_state_reads : reads (fun v => Ok (QPNSState_from_json v)) (named QPNullSpaceTerminationState_str NS_SUCCESS).
  Proof.
    apply (enum_reads _ QPNullSpaceTerminationState_str NS_SUCCESS QPNSState_t [NS_SUCCESS; NOT_POSITIVE_DEFINITE]); try reflexivity.
    - intros []; cbn; auto 9.
    - intros [] []; cbn; intro; congruence || discriminate.
  Qed.

  Ltac rd_fwd H := repeat (apply bind_ok_inv in H; let E := fresh "E" in destruct H as (? & E & H)); apply Ok_inj in H; subst.
  Ltac step R := first [apply (proj2 (at_reads _ _ _ _ R _ _)) | apply (proj1 (at_reads _ _ _ _ R _ _))].

  Lemma errors_reads : reads (Errors_from_json of_int) is_errors.
  Proof.
    intros j a. unfold Errors_from_json, is_errors. split.
    - intro H. rd_fwd H. cbn [err_f err_equality]. split; (eapply at_reads; [apply number_reads|eassumption]).
    - intros [A B]. apply (at_reads _ _ _ _ number_reads) in A, B. rewrite A, B. destruct a; reflexivity.
  Qed.
  Lemma eigenvalues_reads : reads (QPEigenvalues_from_json of_int) is_eigenvalues.
  Proof.
    intros j a. unfold QPEigenvalues_from_json, is_eigenvalues. split.
    - intro H. rd_fwd H. cbn [eig_min eig_max eig_abs_min]. repeat split; (eapply at_reads; [apply number_reads|eassumption]).
    - intros (A & B & C). apply (at_reads _ _ _ _ number_reads) in A, B, C. rewrite A, B, C. destruct a; reflexivity.
  Qed.
  Lemma derivatives_reads : reads (DirectionalDerivatives_from_json of_int) is_derivatives.
  Proof.
    intros j a. unfold DirectionalDerivatives_from_json, is_derivatives. split.
    - intro H. rd_fwd H. cbn [d_f d_equality]. repeat split; (eapply at_reads; [apply number_reads|eassumption]).
    - intros (A & B). apply (at_reads _ _ _ _ number_reads) in A, B. rewrite A, B. destruct a; reflexivity.
  Qed.
  Lemma step_reads : reads (LineSearchStep_from_json of_int) is_step.
  Proof.
    intros j a. unfold LineSearchStep_from_json, is_step. split.
    - intro H. rd_fwd H. cbn [step_alpha step_errors].
      split; [eapply at_reads; [apply number_reads|eassumption]|eapply at_reads; [apply errors_reads|eassumption]].
    - intros (A & B). apply (at_reads _ _ _ _ number_reads) in A. apply (at_reads _ _ _ _ errors_reads) in B.
      rewrite A, B. destruct a; reflexivity.
  Qed.
  Lemma alpha_reads : reads (AlphaValues_from_json of_int) is_alpha.
  Proof.
    intros j a. unfold AlphaValues_from_json, is_alpha. split.
    - intro H. rd_fwd H. cbn [primal dual]. repeat split; (eapply at_reads; [apply number_reads|eassumption]).
    - intros (A & B). apply (at_reads _ _ _ _ number_reads) in A, B. rewrite A, B. destruct a; reflexivity.
  Qed.
  Lemma ip_reads : reads (IPIterationOutputs_from_json of_int) is_ip.
  Proof.
    intros j a. unfold IPIterationOutputs_from_json, is_ip. split.
    - intro H. rd_fwd H. cbn [ip_mu ip_alpha ip_alpha_probe ip_mu_affine].
      repeat split; (eapply at_reads; [solve [apply number_reads|apply alpha_reads]|eassumption]).
    - intros (A & B & C & D). apply (at_reads _ _ _ _ number_reads) in A, D. apply (at_reads _ _ _ _ alpha_reads) in B, C.
      rewrite A, B, C, D. destruct a; reflexivity.
  Qed.
  Lemma kkt_reads : reads (KKTError_from_json of_int) is_kkt.
  Proof.
    intros j a. unfold KKTError_from_json, is_kkt. split.
    - intro H. rd_fwd H. cbn [r_dual r_comp r_primal_eq r_primal_ineq].
      repeat split; (eapply at_reads; [apply number_reads|eassumption]).
    - intros (A & B & C & D). apply (at_reads _ _ _ _ number_reads) in A, B, C, D. rewrite A, B, C, D. destruct a; reflexivity.
  Qed.
  Lemma qp_iteration_reads : reads (QPIter_from_json of_int) is_qp_iteration.
  Proof.
    intros j a. unfold QPIter_from_json, is_qp_iteration. split.
    - intro H. rd_fwd H. cbn [kkt_initial kkt_final ip_outputs].
      repeat split; (eapply at_reads; [solve [apply kkt_reads|apply ip_reads]|eassumption]).
    - intros (A & B & C). apply (at_reads _ _ _ _ kkt_reads) in A, B. apply (at_reads _ _ _ _ ip_reads) in C.
      rewrite A, B, C. destruct a; reflexivity.
  Qed.
  Lemma multipliers_reads : reads (LM_from_json of_int) is_multipliers.
  Proof.
    intros j a. unfold LM_from_json, is_multipliers. split.
    - intro H. rd_fwd H. cbn [lm_min lm_l_infinity]. repeat split; (eapply at_reads; [apply number_reads|eassumption]).
    - intros (A & B). apply (at_reads _ _ _ _ number_reads) in A, B. rewrite A, B. destruct a; reflexivity.
  Qed.
  Lemma ip_solver_reads : reads (QPIPOut_from_json of_int) is_ip_solver.
  Proof.
    intros j a. unfold QPIPOut_from_json, is_ip_solver. split.
    - intro H. rd_fwd H. cbn [qp_termination_state qp_iterations qp_lagrange_multipliers].
      repeat split; (eapply at_reads;
        [first [apply qp_state_reads|apply array_reads; apply qp_iteration_reads|apply nullable_reads; apply multipliers_reads]|eassumption]).
    - intros (A & B & C). apply (at_reads _ _ _ _ qp_state_reads) in A.
      apply (at_reads _ _ _ _ (array_reads _ _ _ qp_iteration_reads)) in B.
      apply (at_reads _ _ _ _ (nullable_reads _ _ _ multipliers_reads)) in C.
      rewrite A, B, C. destruct a; reflexivity.
  Qed.
  Lemma contains_field : forall k j, jcontains k j = true <-> field k (fun _ => True) j.
  Proof.
    intros k j. unfold jcontains, field. split.
    - destruct j as [| | | | | |l]; try discriminate. destruct (lookup k l) as [v|] eqn:E; [|discriminate]. intros _.
      exists l, v. rewrite has_lookup. auto.
    - intros (l & v & -> & E & _). apply has_lookup in E. rewrite E. reflexivity.
  Qed.
  Lemma qp_reads : reads (QPOutputs_from_json of_int) is_qp.
  Proof.
    intros j a. unfold QPOutputs_from_json, is_qp.
    assert (HB : has_both j <-> jcontains "termination_state" j && jcontains "iterations" j = true).
    { unfold has_both. rewrite andb_true_iff, <- !contains_field. reflexivity. }
    destruct (jcontains "termination_state" j && jcontains "iterations" j); split.
    - intro H. rd_fwd H. split; [apply HB; reflexivity|]. apply ip_solver_reads. assumption.
    - destruct a as [t|o]; [intros [N _]; exfalso; apply N, HB; reflexivity|]. intros [_ H]. apply ip_solver_reads in H. rewrite H. reflexivity.
    - intro H. apply Ok_inj in H. subst a. split; [rewrite HB; discriminate|]. apply ns_state_reads. reflexivity.
    - destruct a as [t|o]; [|rewrite HB; intros [X _]; discriminate]. intros [_ H]. apply ns_state_reads in H. apply Ok_inj in H. rewrite H. reflexivity.
  Qed.
  Lemma iteration_reads : reads (NLSIteration_from_json of_int trunc) is_iteration.
  Proof.
    intros j a. unfold NLSIteration_from_json, is_iteration. split.
    - intro H. rd_fwd H. cbn [it_iteration it_optimizer_state it_lambda it_errors_initial it_qp_outputs it_qp_eigenvalues
        it_directional_derivatives it_penalty it_step_result it_line_search_steps].
      repeat split; (eapply index_reads;
        [first [apply number_reads|apply integer_reads|apply optimizer_state_reads|apply step_result_reads|apply errors_reads
               |apply qp_reads|apply derivatives_reads|apply array_reads; apply step_reads|apply nullable_reads; apply eigenvalues_reads]
        |eassumption]).
    - intros (A & B & C & D & E & G & H & I & J & K).
      apply (index_reads _ _ _ _ integer_reads) in A. apply (index_reads _ _ _ _ optimizer_state_reads) in B.
      apply (index_reads _ _ _ _ number_reads) in C, I. apply (index_reads _ _ _ _ errors_reads) in D.
      apply (index_reads _ _ _ _ qp_reads) in E. apply (index_reads _ _ _ _ (nullable_reads _ _ _ eigenvalues_reads)) in G.
      apply (index_reads _ _ _ _ derivatives_reads) in H. apply (index_reads _ _ _ _ step_result_reads) in J.
      apply (index_reads _ _ _ _ (array_reads _ _ _ step_reads)) in K.
      rewrite A, B, C, D, E, G, H, I, J, K. destruct a; reflexivity.
  Qed.

  (** C66: exactly the documents described by [is_outputs] are read, with the meaning given there. In particular every enumerator
      may be misspelt or missing its quotes (it then becomes the first of its kind), integers are accepted for numbers, and a
      "qp_outputs" entry is taken for the interior point solver's exactly if it is an object with both distinguishing keys. *)
  Theorem C66_documents_accepted : forall j o, outputs_from_json of_int trunc j = Ok o <-> is_outputs o j.
  Proof.
    intros j a. unfold outputs_from_json, is_outputs. split.
    - intro H. rd_fwd H. cbn [out_termination_state out_iterations].
      split; (eapply index_reads; [first [apply termination_reads|apply array_reads; apply iteration_reads]|eassumption]).
    - intros (A & B). apply (index_reads _ _ _ _ termination_reads) in A.
      apply (index_reads _ _ _ _ (array_reads _ _ _ iteration_reads)) in B. rewrite A, B. destruct a; reflexivity.
  Qed.

  (** ** What happens to the others *)
  Definition defined {A : Type} (get : json -> outcome A) : Prop := forall j w, get j <> UB w.
  Lemma at_def : forall (A : Type) k (get : json -> outcome A), defined get -> defined (get_at k get).
  Proof.
    intros A k get D j w. unfold get_at, jat. destruct j as [| | | | | |l]; cbn [bind]; try discriminate.
    destruct (lookup k l); cbn [bind]; [apply D|discriminate].
  Qed.
  Lemma bind_def : forall (A B : Type) (m : outcome A) (k : A -> outcome B) w,
    bind m k = UB w -> m = UB w \/ exists a, m = Ok a /\ k a = UB w.
  Proof. intros A B [a|e|w'] k w H; cbn [bind] in H; [right; eauto|discriminate|left; congruence]. Qed.
  Lemma number_def : defined (get_double of_int). Proof. intros [] w; discriminate. Qed.
  Lemma ofold_ub : forall (A : Type) (get : json -> outcome A) js acc w,
    ofold (fun acc x => do a <- get x ; Ok (acc ++ [a])) js acc = UB w -> exists x, In x js /\ get x = UB w.
  Proof.
    intros A get. induction js as [|x js IH]; intros acc w H; cbn [ofold] in H; [discriminate|].
    apply bind_def in H. destruct H as [H|(acc' & _ & H)].
    - apply bind_def in H. destruct H as [H|(y & _ & H)]; [exists x; split; [left; reflexivity|exact H]|discriminate].
    - destruct (IH _ _ H) as (y & Y & E). exists y. split; [right; exact Y|exact E].
  Qed.
  Lemma array_def : forall (A : Type) (get : json -> outcome A), defined get -> defined (get_vector get).
  Proof.
    intros A get D j w H. unfold get_vector in H. destruct j as [| | | | |l|]; try discriminate.
    apply ofold_ub in H. destruct H as (x & _ & H). exact (D _ _ H).
  Qed.
  Lemma opt_def : forall (A : Type) (get : json -> outcome A), defined get -> defined (get_opt get).
  Proof. intros A get D [] w H; cbn [get_opt] in H; try discriminate; apply bind_def in H; destruct H as [H|(a & _ & H)]; try discriminate; exact (D _ _ H). Qed.

  Ltac dfn := intros j w H;
    repeat (apply bind_def in H; destruct H as [H|(? & _ & H)]; [revert H; apply at_def; first [apply number_def | assumption | apply array_def; assumption | apply opt_def; assumption | intros ? ?; discriminate]|]); discriminate.

  Definition missing (keys : list string) (j : json) : Prop := exists l k, j = JObj l /\ In k keys /\ has_no k l.
  Definition iteration_keys : list string :=
    ["iteration"; "optimizer_state"; "lambda"; "errors_initial"; "qp_outputs"; "qp_eigenvalues"; "directional_derivatives"; "penalty";
     "step_result"; "line_search_steps"].

  Lemma index_ub : forall (A : Type) k (get : json -> outcome A) j w, get_index k get j = UB w ->
    (exists l, j = JObj l /\ has_no k l) \/ exists l v, j = JObj l /\ has k v l /\ get v = UB w.
  Proof.
    intros A k get j w H. unfold get_index, jindex in H. destruct j as [| | | | | |l]; cbn [bind] in H; try discriminate.
    destruct (lookup k l) as [v|] eqn:E; cbn [bind] in H.
    - right. exists l, v. rewrite has_lookup. auto.
    - left. exists l. rewrite has_no_lookup. auto.
  Qed.

  (** C66: reading has undefined behaviour only if the document, or an element of its list of iterations, is an object that lacks
      one of its keys (const operator[] does not check); every other deviation is reported as an exception or accepted. *)
  Theorem C66_undefined_only_if_key_missing : forall j w, outputs_from_json of_int trunc j = UB w ->
    missing ["termination_state"; "iterations"] j \/
    exists l its it, j = JObj l /\ has "iterations" (JArr its) l /\ In it its /\ missing iteration_keys it.
  Proof.
    assert (E1 : defined (Errors_from_json of_int)) by (unfold Errors_from_json; dfn).
    assert (E2 : defined (QPEigenvalues_from_json of_int)) by (unfold QPEigenvalues_from_json; dfn).
    assert (E3 : defined (DirectionalDerivatives_from_json of_int)) by (unfold DirectionalDerivatives_from_json; dfn).
    assert (E4 : defined (LineSearchStep_from_json of_int)) by (unfold LineSearchStep_from_json; dfn).
    assert (E5 : defined (AlphaValues_from_json of_int)) by (unfold AlphaValues_from_json; dfn).
    assert (E6 : defined (IPIterationOutputs_from_json of_int)) by (unfold IPIterationOutputs_from_json; dfn).
    assert (E7 : defined (KKTError_from_json of_int)) by (unfold KKTError_from_json; dfn).
    assert (E8 : defined (QPIter_from_json of_int)) by (unfold QPIter_from_json; dfn).
    assert (E9 : defined (LM_from_json of_int)) by (unfold LM_from_json; dfn).
    assert (E10 : defined (QPIPOut_from_json of_int)) by (unfold QPIPOut_from_json; dfn).
    assert (E11 : defined (QPOutputs_from_json of_int)).
    { intros j w. unfold QPOutputs_from_json. destruct (_ && _); [|discriminate]. intro H. apply bind_def in H.
      destruct H as [H|(a & _ & H)]; [exact (E10 _ _ H)|discriminate]. }
    assert (E12 : forall j w, NLSIteration_from_json of_int trunc j = UB w -> missing iteration_keys j).
    { intros j w H. unfold NLSIteration_from_json in H.
      repeat (apply bind_def in H; destruct H as [H|(? & _ & H)];
        [apply index_ub in H; destruct H as [(l & -> & N)|(l & v & -> & _ & H)];
          [exists l; eexists; split; [reflexivity|]; split; [|exact N]; unfold iteration_keys; repeat (first [left; reflexivity|right])
          |exfalso; revert H; first [apply number_def|apply E1|apply E11|apply opt_def; apply E2|apply E3|apply array_def; apply E4|discriminate
                                    |destruct v; discriminate]]|]).
      discriminate. }
    intros j w H. unfold outputs_from_json in H.
    apply bind_def in H. destruct H as [H|(t & _ & H)].
    { apply index_ub in H. destruct H as [(l & -> & N)|(l & v & _ & _ & H)]; [|discriminate].
      left. exists l, "termination_state". repeat split; [left; reflexivity|exact N]. }
    apply bind_def in H. destruct H as [H|(i & _ & H)]; [|discriminate].
    apply index_ub in H. destruct H as [(l & -> & N)|(l & v & -> & HV & H)].
    { left. exists l, "iterations". repeat split; [right; left; reflexivity|exact N]. }
    right. unfold get_vector in H. destruct v as [| | | | |its|]; try discriminate.
    apply ofold_ub in H. destruct H as (it & HI & H). exists l, its, it. split; [reflexivity|]. split; [exact HV|]. split; [exact HI|].
    eapply E12. exact H.
  Qed.

  (** C66 finding: removing a top level key, or a key of one of the iterations, from a document the library wrote makes reading
      it undefined. *)
  Definition without (k : string) (j : json) : json :=
    match j with JObj l => JObj (filter (fun kv => negb (String.eqb (fst kv) k)) l) | _ => j end.
  Theorem C66_missing_key_is_undefined : forall (o : NLSSolverOutputs F),
    (forall k, In k ["termination_state"; "iterations"] -> exists w, outputs_from_json of_int trunc (without k (outputs_to_json o)) = UB w) /\
    (forall k before it after, In k iteration_keys -> out_iterations o = before ++ it :: after ->
       exists w, outputs_from_json of_int trunc
         (JObj [("termination_state", NLSTerminationState_to_json (out_termination_state o));
                ("iterations", JArr (map NLSIteration_to_json before ++ without k (NLSIteration_to_json it) :: map NLSIteration_to_json after))]) = UB w).
  Proof.
    intro o. split.
    - intros k [<-|[<-|[]]]; eexists; reflexivity.
    - intros k before it after K E. unfold outputs_from_json, get_index, get_vector.
      cbn [jindex lookup String.eqb Ascii.eqb Bool.eqb bind].
      assert (U : exists w, NLSIteration_from_json of_int trunc (without k (NLSIteration_to_json it)) = UB w).
      { destruct it as [n os la e q ev dd p sr ls].
        assert (EV : get_opt (QPEigenvalues_from_json of_int) (opt_to_json QPEigenvalues_to_json ev) = Ok ev)
          by (destruct ev as [[]|]; reflexivity).
        unfold iteration_keys in K. cbn [In] in K.
        repeat (destruct K as [<-|K]; [
          cbn [NLSIteration_to_json without filter fst String.eqb Ascii.eqb Bool.eqb negb
               it_iteration it_optimizer_state it_lambda it_errors_initial it_qp_outputs it_qp_eigenvalues it_directional_derivatives
               it_penalty it_step_result it_line_search_steps];
          unfold NLSIteration_from_json, get_index, get_vector;
          cbn [jindex lookup String.eqb Ascii.eqb Bool.eqb bind get_int get_double];
          repeat (first [rewrite OptimizerState_rt|rewrite Errors_rt|rewrite QPOutputs_rt|rewrite EV|rewrite DD_rt|rewrite SSR_rt]; cbn [bind]);
          try (rewrite get_vector_map by (intros; apply Step_rt); cbn [bind]);
          eexists; reflexivity|]).
        destruct K. }
      destruct U as [w U]. exists w.
      assert (G : forall acc, ofold (fun acc x => do a <- NLSIteration_from_json of_int trunc x ; Ok (acc ++ [a]))
        (map NLSIteration_to_json before ++ without k (NLSIteration_to_json it) :: map NLSIteration_to_json after) acc = UB w).
      { clear E. induction before as [|b before IH]; intro acc; cbn [map app ofold].
        - rewrite U. reflexivity.
        - rewrite NLSIteration_rt. cbn [bind]. apply IH. }
      rewrite G. reflexivity.
  Qed.
End Read.

(** A hand written document: entries in another order, an unknown key, an integer for a number, a misspelt state. *)
Section Case.
  Context {F : Type}.
  Variable of_int : Z -> F.
  Variable trunc : F -> Z.
  Definition hand_written (x : F) : json F :=
    JObj [("comment", JStr "edited"); ("iterations", JArr [JObj
      [("lambda", JInt 0); ("iteration", JInt 0); ("optimizer_state", JStr "NOMINAL"); ("note", JNull);
       ("errors_initial", JObj [("equality", JFloat x); ("f", JInt 3)]);
       ("qp_outputs", JObj [("termination_state", JStr "SUCCESS")]); ("qp_eigenvalues", JNull);
       ("directional_derivatives", JObj [("d_f", JFloat x); ("d_equality", JFloat x)]); ("penalty", JInt 1);
       ("step_result", JBool true); ("line_search_steps", JArr [JObj [("alpha", JFloat x); ("errors", JObj [("f", JFloat x); ("equality", JFloat x)])]])]]);
      ("termination_state", JStr "MAX_LAMBDAS")].
  Definition hand_written_value (x : F) : NLSSolverOutputs F :=
    MkNLSOut NLS_MAX_ITERATIONS
      [MkNLSIter 0 NOMINAL (of_int 0) (MkErrors (of_int 3) x) (NullSpaceOut NS_SUCCESS) None (MkDD x x) (of_int 1) SS_SUCCESS
         [MkStep x (MkErrors x x)]].
  Example C66_case : forall x,
    outputs_from_json of_int trunc (hand_written x) = Ok (hand_written_value x) /\ is_outputs of_int trunc (hand_written_value x) (hand_written x).
  Proof. intro x. assert (E : outputs_from_json of_int trunc (hand_written x) = Ok (hand_written_value x)) by reflexivity.
    split; [exact E|]. apply C66_documents_accepted. exact E. Qed.
  Example C66_same_document_case : forall x,
    same_document (F := F) (JObj [("f", JFloat x); ("equality", JInt 2)]) (JObj [("equality", JInt 2); ("unknown", JNull); ("f", JFloat x)]).
  Proof.
    intro x. constructor. intros k K.
    destruct (string_dec k "f") as [->|N1]; [right; do 2 eexists; rewrite !has_lookup; repeat split; reflexivity || constructor|].
    destruct (string_dec k "equality") as [->|N2]; [right; do 2 eexists; rewrite !has_lookup; repeat split; reflexivity || constructor|].
    left. split; intros [X|[X|X]]; cbn in X; try congruence; try contradiction.
    - subst k. unfold known in K. cbn [In] in K. repeat (destruct K as [K|K]; [discriminate|]). exact K.
    - destruct X as [X|[]]. congruence.
  Qed.
End Case.
