(** C27, C28: the line search. *)
From Coq Require Import String List Bool Arith ZArith QArith Reals Lra Lia.
From Verif Require Import Scalar Outcome LinAlg Structs Constraint QPModel NullSpace Residual Nonlinear RInst.
Import ListNotations.
Local Open Scope string_scope.
Local Open Scope list_scope.
Local Open Scope nat_scope.

Section AnyArith.
  Context {F : Type} {O : Ops F}.
  Variable retract : option (list F -> list F -> F -> list F).

  (** The inputs of a line search. *)
  Record ls_input := LSIn {
    li_max : Z; li_tol : F; li_pr : Problem F; li_vars : list F; li_dx : list F;
    li_pre : Errors F; li_dd : DirectionalDerivatives F; li_penalty : F; li_c1 : F;
    li_strategy : LineSearchStrategy; li_tau : F }.
  Variable i : ls_input.

  Definition run_line_search : outcome (StepSizeSelectionResult * list (LineSearchStep F) * list F) :=
    SelectStepSize retract (li_max i) (li_tol i) (li_pr i) (li_vars i) (li_dx i) (li_pre i) (li_dd i)
      (li_penalty i) (li_c1 i) (li_strategy i) (li_tau i).

  (** ** Specification vocabulary *)

  (** The point reached by a step, and the errors there. *)
  Definition point_at (a : F) : outcome (list F) := RetractCandidateVars retract (li_vars i) (li_dx i) a.
  Definition errors_at (a : F) : outcome (Errors F) := bind (point_at a) (EvaluateNonlinearErrors (li_pr i)).

  (** The sufficient decrease (Armijo) test phi(a) <= phi(0) + phi'(0) a c1, as computed. *)
  Definition merit (e : Errors F) : F := fadd (err_f e) (fmul (li_penalty i) (err_equality e)).
  Definition slope : F := fadd (d_f (li_dd i)) (fmul (li_penalty i) (d_equality (li_dd i))).
  Definition armijo (s : LineSearchStep F) : bool :=
    fleb (merit (step_errors s)) (fadd (merit (li_pre i)) (fmul (fmul slope (step_alpha s)) (li_c1 i))).
  (** The cost or the constraint violation of a step is not a finite number. *)
  Definition non_finite (s : LineSearchStep F) : bool :=
    negb (ffinite (err_f (step_errors s)) && ffinite (err_equality (step_errors s))).
  Definition stationary : bool := fltb (fmax (fabs (d_f (li_dd i))) (fabs (d_equality (li_dd i)))) (li_tol i).
  Definition ascending : bool := fgtb slope f0.
  (** A finite step that fails the sufficient decrease test. *)
  Definition rejected (s : LineSearchStep F) : Prop := non_finite s = false /\ armijo s = false.

  (** What the strategy guarantees about two consecutive step sizes. *)
  Definition step_follows (prev next : LineSearchStep F) : Prop :=
    match li_strategy i with
    | ARMIJO_BACKTRACK => step_alpha next = fmul (step_alpha prev) (li_tau i)
    | POLYNOMIAL_APPROXIMATION =>
        ffinite (step_alpha next) = true /\ fleb (step_alpha next) f0 = false /\
        fgeb (step_alpha next) (step_alpha prev) = false
    end.

  Inductive chain : list (LineSearchStep F) -> Prop :=
  | chain_nil : chain []
  | chain_one : forall s, step_alpha s = f1 -> chain [s]
  | chain_snoc : forall l p s, chain (l ++ [p]) -> step_follows p s -> chain (l ++ [p] ++ [s]).

  Definition logged (l : list (LineSearchStep F)) : Prop :=
    Forall (fun s => errors_at (step_alpha s) = Ok (step_errors s)) l.

  (** The complete specification of a line search log. *)
  Definition ls_spec (res : StepSizeSelectionResult) (steps : list (LineSearchStep F)) (cand : list F) : Prop :=
    logged steps /\ chain steps /\ 1 <= length steps /\
    (length steps <= Z.to_nat (li_max i + 1)) /\
    (exists init last, steps = init ++ [last] /\ point_at (step_alpha last) = Ok cand /\ Forall rejected init /\
      match res with
      | SS_SUCCESS => non_finite last = false /\ stationary = false /\ ascending = false /\ armijo last = true
      | FIRST_ORDER_SATISFIED => init = [] /\ non_finite last = false /\ stationary = true
      | POSITIVE_DERIVATIVE => init = [] /\ non_finite last = false /\ stationary = false /\ ascending = true
      | FAILURE_NON_FINITE_COST => non_finite last = true
      | FAILURE_INVALID_ALPHA => rejected last /\ stationary = false /\ ascending = false /\
                                 li_strategy i = POLYNOMIAL_APPROXIMATION /\ length steps < Z.to_nat (li_max i + 1)
      | SS_MAX_ITERATIONS => rejected last /\ stationary = false /\ ascending = false /\
                             length steps = Z.to_nat (li_max i + 1)
      end).

  Definition loop n iter alpha steps cand :=
    ls_loop retract n iter alpha steps cand (li_pr i) (li_vars i) (li_dx i) (li_tol i) (li_pre i) (li_dd i)
      (li_penalty i) (li_c1 i) (li_strategy i) (li_tau i).

  Lemma loop_spec : forall n iter alpha steps cand res out cand',
    loop n iter alpha steps cand = Ok (res, out, cand') ->
    iter = length steps -> n + iter = Z.to_nat (li_max i + 1) -> 1 <= Z.to_nat (li_max i + 1) ->
    (steps = [] /\ alpha = f1 \/
     exists init last, steps = init ++ [last] /\ step_alpha last = alpha /\ point_at alpha = Ok cand) ->
    logged steps -> chain steps -> Forall rejected steps ->
    (steps <> [] -> stationary = false /\ ascending = false) ->
    ls_spec res out cand'.
  Proof.
    induction n as [|n IH]; intros iter alpha steps cand res out cand' H Hit Hn H1 HA HL HC HR HS; unfold loop in H; cbn [ls_loop] in H.
    - apply Ok_inj in H. apply pair_inj in H. destruct H as [H <-]. apply pair_inj in H. destruct H as [<- <-].
      destruct HA as [[-> _]|(init & last & -> & HA & HP)]; [simpl in *; lia|].
      assert (NE : init ++ [last] <> []) by (destruct init; discriminate). destruct (HS NE) as [S1 S2].
      rewrite app_length in *; simpl in *. apply Forall_app in HR. destruct HR as [HR1 HR2]. inversion HR2; subst.
      unfold ls_spec. rewrite app_length; simpl. splits; auto; try lia.
      exists init, last. splits; auto; lia.
    - inv_bind H. match goal with X : option F |- _ => destruct X as [al|] end.
      + inv_bind H. inv_bind H. rename a into cnd. rename a0 into es. set (s := MkStep al es) in *.
        change (loop n (S iter) al (steps ++ [s]) cnd) with (ls_loop retract n (S iter) al (steps ++ [s]) cnd (li_pr i) (li_vars i) (li_dx i) (li_tol i) (li_pre i) (li_dd i)
      (li_penalty i) (li_c1 i) (li_strategy i) (li_tau i)) in IH || idtac.
        assert (LS : logged (steps ++ [s])).
        { apply Forall_app. split; [exact HL|]. constructor; [|constructor]. unfold errors_at, point_at. cbn [step_alpha step_errors s].
          rewrite Hm0. exact Hm1. }
        assert (CS : chain (steps ++ [s])).
        { destruct HA as [[-> ->]|(init & last & -> & HA & HP)].
          - simpl in *. subst iter. unfold next_alpha in Hm. cbn [Nat.eqb] in Hm. apply Ok_inj in Hm. injection Hm as <-.
            apply chain_one. reflexivity.
          - rewrite <- app_assoc. apply chain_snoc; [exact HC|]. rewrite app_length in Hit; simpl in Hit.
            unfold next_alpha in Hm. destruct (Nat.eqb_spec iter 0); [lia|]. unfold step_follows.
            destruct (li_strategy i).
            + apply Ok_inj in Hm. injection Hm as <-. rewrite HA. reflexivity.
            + inv_bind Hm. destruct a as [a|]; [|discriminate]. cbn [step_alpha s].
              destruct (negb (ffinite a)) eqn:B1; [discriminate|]. destruct (fleb a f0) eqn:B2; [discriminate|].
              destruct (fgeb a alpha) eqn:B3; [discriminate|]. simpl in Hm. apply Ok_inj in Hm. injection Hm as <-.
              apply negb_false_iff in B1. rewrite HA. auto. }
        assert (LEN : length (steps ++ [s]) = S (length steps)) by (rewrite app_length; simpl; lia).
        assert (PT : point_at (step_alpha s) = Ok cnd) by exact Hm0.
        assert (NF : non_finite s = Errors_ContainsInvalidValues es) by (unfold non_finite, Errors_ContainsInvalidValues; apply negb_andb).
        destruct (Errors_ContainsInvalidValues es) eqn:EI.
        { apply Ok_inj in H. apply pair_inj in H. destruct H as [H <-]. apply pair_inj in H. destruct H as [<- <-].
          unfold ls_spec. splits; auto; try lia. exists steps, s. splits; auto. }
        destruct (fltb (DD_LInfinity (li_dd i)) (li_tol i)) eqn:EST.
        { apply Ok_inj in H. apply pair_inj in H. destruct H as [H <-]. apply pair_inj in H. destruct H as [<- <-].
          unfold ls_spec. splits; auto; try lia. exists steps, s. splits; auto.
          destruct steps as [|s0 st0]; [reflexivity|]. destruct (HS ltac:(discriminate)) as [S1 _]. change (fltb (DD_LInfinity (li_dd i)) (li_tol i) = false) in S1. congruence. }
        destruct (fgtb (DD_Total (li_dd i) (li_penalty i)) f0) eqn:EAS.
        { apply Ok_inj in H. apply pair_inj in H. destruct H as [H <-]. apply pair_inj in H. destruct H as [<- <-].
          unfold ls_spec. splits; auto; try lia. exists steps, s. splits; auto.
          destruct steps as [|s0 st0]; [reflexivity|]. destruct (HS ltac:(discriminate)) as [_ S1]. change (fgtb (DD_Total (li_dd i) (li_penalty i)) f0 = false) in S1. congruence. }
        destruct (fleb (Errors_Total es (li_penalty i)) _) eqn:EAR.
        { apply Ok_inj in H. apply pair_inj in H. destruct H as [H <-]. apply pair_inj in H. destruct H as [<- <-].
          unfold ls_spec. splits; auto; try lia. exists steps, s. splits; auto. }
        eapply (IH (S iter) al (steps ++ [s]) cnd); [exact H|lia|lia|exact H1| |exact LS|exact CS| |].
        * right. exists steps, s. splits; auto.
        * apply Forall_app. split; [exact HR|]. constructor; [split; [exact NF|exact EAR]|constructor].
        * intros _. split; assumption.
      + apply Ok_inj in H. apply pair_inj in H. destruct H as [H <-]. apply pair_inj in H. destruct H as [<- <-].
        destruct HA as [[-> ->]|(init & last & -> & HA & HP)].
        * simpl in Hit. subst iter. discriminate Hm.
        * assert (NE : init ++ [last] <> []) by (destruct init; discriminate). destruct (HS NE) as [S1 S2].
          rewrite app_length in *; simpl in *. apply Forall_app in HR. destruct HR as [HR1 HR2]. inversion HR2; subst.
          unfold ls_spec. rewrite app_length; simpl. splits; auto; try lia.
          exists init, last. splits; auto; try lia.
          unfold next_alpha in Hm. destruct (Nat.eqb_spec (length init + 1) 0); [lia|]. destruct (li_strategy i); [discriminate|reflexivity].
  Qed.

  (** C28: every returning line search produces a log satisfying [ls_spec]; in particular the logged
      errors are the errors at x retracted by the logged step size, the first step is 1, at most
      max_line_search_iterations + 1 steps are tried, and the results FIRST_ORDER_SATISFIED and
      POSITIVE_DERIVATIVE are only returned after exactly one evaluation. *)
  Theorem C28_line_search_log : (0 <= li_max i)%Z -> forall res steps cand,
    run_line_search = Ok (res, steps, cand) -> ls_spec res steps cand.
  Proof.
    intros HM res steps cand H. unfold run_line_search, SelectStepSize in H. inv_bind H. inv_bind H.
    eapply (loop_spec _ 0 f1 [] (li_vars i)); [exact H|reflexivity|lia|lia|left; auto|constructor|constructor|constructor|].
    intro NE. contradiction NE. reflexivity.
  Qed.

  (** C27: a successful line search ends in a step that passed the Armijo test, as computed, with a
      directional derivative that is not positive, and the candidate is the point reached by that step. *)
  Theorem C27_success_passed_armijo : (0 <= li_max i)%Z -> forall steps cand,
    run_line_search = Ok (SS_SUCCESS, steps, cand) ->
    exists init last, steps = init ++ [last] /\
      fleb (Errors_Total (step_errors last) (li_penalty i))
           (fadd (Errors_Total (li_pre i) (li_penalty i))
                 (fmul (fmul (DD_Total (li_dd i) (li_penalty i)) (step_alpha last)) (li_c1 i))) = true /\
      fgtb (DD_Total (li_dd i) (li_penalty i)) f0 = false /\
      (ffinite (err_f (step_errors last)) = true /\ ffinite (err_equality (step_errors last)) = true) /\
      RetractCandidateVars retract (li_vars i) (li_dx i) (step_alpha last) = Ok cand /\
      EvaluateNonlinearErrors (li_pr i) cand = Ok (step_errors last).
  Proof.
    intros HM steps cand H. destruct (C28_line_search_log HM _ _ _ H) as (HL & _ & _ & _ & init & last & E & HP & _ & A & B & C & D).
    exists init, last. split; [exact E|]. split; [exact D|]. split; [exact C|]. split; [|split; [exact HP|]].
    { unfold non_finite in A. apply negb_false_iff, andb_true_iff in A. exact A. }
    unfold logged in HL. rewrite E in HL. apply Forall_app in HL. destruct HL as [_ HL]. inversion HL; subst.
    unfold errors_at in H2. rewrite HP in H2. exact H2.
  Qed.
End AnyArith.

(** ** Over the reals *)
Local Open Scope R_scope.

Lemma chain_real : forall (i : ls_input (F := R)), 0 < li_tau i < 1 -> forall steps, chain i steps ->
  forall init s, steps = init ++ [s] -> 0 < step_alpha s <= 1 /\ Forall (fun p => step_alpha s < step_alpha p) init.
Proof.
  intros i HT steps HC. induction HC as [|s1 E1|l p s HC IH SF]; intros init s' E.
  - destruct init; discriminate.
  - destruct init as [|x [|y init]]; try discriminate. injection E as <-. rewrite E1. simpl. split; [lra|constructor].
  - rewrite app_assoc in E. apply app_inj_tail in E. destruct E as [<- <-].
    destruct (IH l p eq_refl) as [[P1 P2] P3].
    assert (ST : 0 < step_alpha s < step_alpha p).
    { unfold step_follows in SF. destruct (li_strategy i).
      - rewrite SF. cbn [fmul R_ops]. nra.
      - destruct SF as (_ & B & C). destruct (R_fleb (step_alpha s) f0); [discriminate|].
        destruct (R_fgeb (step_alpha s) (step_alpha p)); [discriminate|]. simpl in *. lra. }
    split; [lra|]. apply Forall_app. split; [|constructor; [lra|constructor]].
    eapply Forall_impl; [|exact P3]. intros a Ha. simpl in Ha. lra.
Qed.

Lemma chain_prefix : forall (i : ls_input (F := R)) l s, chain i (l ++ [s]) -> chain i l.
Proof.
  intros i l s H. inversion H as [E|s1 E1 E|l' p s' HC SF E].
  - destruct l; discriminate.
  - destruct l as [|x [|y l]]; try discriminate. constructor.
  - change (l' ++ [p] ++ [s'] = l ++ [s]) in E. rewrite app_assoc in E. apply app_inj_tail in E. destruct E as [<- _]. exact HC.
Qed.

(** C28: logged step sizes start at 1, lie in (0, 1], and strictly decrease. *)
Theorem C28_step_sizes : forall retract (i : ls_input (F := R)),
  (0 <= li_max i)%Z -> 0 < li_tau i < 1 -> forall res steps cand,
  run_line_search retract i = Ok (res, steps, cand) ->
  (exists s rest, steps = s :: rest /\ step_alpha s = 1) /\
  Forall (fun s => 0 < step_alpha s <= 1) steps /\
  (forall l1 s l2 t l3, steps = l1 ++ s :: l2 ++ t :: l3 -> step_alpha t < step_alpha s) /\
  (length steps <= Z.to_nat (li_max i) + 1)%nat.
Proof.
  intros retract i HM HT res steps cand H.
  destruct (C28_line_search_log retract i HM _ _ _ H) as (_ & HC & H1 & H2 & _).
  splits.
  - clear - HC H1. induction HC as [|s E|l p s HC IH SF]; [simpl in H1; lia|eauto|].
    destruct (IH ltac:(rewrite app_length; simpl; lia)) as (s0 & rest & E & A). exists s0, (rest ++ [s]).
    rewrite app_assoc, E. auto.
  - clear - HC HT. revert HC. induction steps as [|x steps IH] using rev_ind; intro HC; [constructor|].
    apply Forall_app. split; [apply IH; eapply chain_prefix; exact HC|].
    constructor; [|constructor]. exact (proj1 (chain_real i HT _ HC steps x eq_refl)).
  - intros l1 s l2 t l3 E. revert l3 E. clear - HC HT. induction steps as [|x steps IH] using rev_ind; intros l3 E.
    + destruct l1; discriminate.
    + destruct l3 as [|y l3 _] using rev_ind.
      * replace (l1 ++ s :: l2 ++ [t]) with ((l1 ++ s :: l2) ++ [t]) in E by (rewrite <- app_assoc; reflexivity).
        apply app_inj_tail in E. destruct E as [-> ->].
        pose proof (proj2 (chain_real i HT _ HC _ t eq_refl)) as FA. apply Forall_app in FA. destruct FA as [_ FA]. inversion FA; assumption.
      * replace (l1 ++ s :: l2 ++ t :: l3 ++ [y]) with ((l1 ++ s :: l2 ++ t :: l3) ++ [y]) in E
          by (rewrite <- !app_assoc; simpl; rewrite <- app_assoc; reflexivity).
        apply app_inj_tail in E. destruct E as [-> _]. eapply IH; [eapply chain_prefix; exact HC|reflexivity].
  - lia.
Qed.

(** C27: in exact arithmetic the accepted step gives a sufficient decrease of the merit function. *)
Theorem C27_sufficient_decrease : forall retract (i : ls_input (F := R)),
  (0 <= li_max i)%Z -> 0 < li_tau i < 1 -> 0 <= li_c1 i -> forall steps cand,
  run_line_search retract i = Ok (SS_SUCCESS, steps, cand) ->
  let phi e := err_f e + li_penalty i * err_equality e in
  let dphi := d_f (li_dd i) + li_penalty i * d_equality (li_dd i) in
  exists init last, steps = init ++ [last] /\ 0 < step_alpha last <= 1 /\
    phi (step_errors last) <= phi (li_pre i) + li_c1 i * step_alpha last * dphi /\ dphi <= 0 /\
    phi (step_errors last) <= phi (li_pre i) /\
    RetractCandidateVars retract (li_vars i) (li_dx i) (step_alpha last) = Ok cand /\
    EvaluateNonlinearErrors (li_pr i) cand = Ok (step_errors last).
Proof.
  intros retract i HM HT HC1 steps cand H phi dphi.
  destruct (C27_success_passed_armijo retract i HM _ _ H) as (init & last & E & A & B & _ & P & Q).
  destruct (C28_step_sizes retract i HM HT _ _ _ H) as (_ & FA & _).
  rewrite E in FA. apply Forall_app in FA. destruct FA as [_ FA]. inversion FA as [|? ? HA _]; subst.
  exists init, last.
  match type of A with fleb ?x ?y = true => destruct (R_fleb x y) as [AA|]; [|discriminate] end.
  match type of B with fgtb ?x ?y = false => destruct (R_fgtb x y) as [|BB]; [discriminate|] end.
  unfold Errors_Total, DD_Total in *. cbn [fadd fmul f0 R_ops] in *. unfold phi, dphi.
  assert (D : d_f (li_dd i) + li_penalty i * d_equality (li_dd i) <= 0) by lra.
  assert (li_c1 i * step_alpha last * (d_f (li_dd i) + li_penalty i * d_equality (li_dd i)) <= 0).
  { assert (0 <= li_c1 i * step_alpha last) by (apply Rmult_le_pos; lra). nra. }
  splits; auto; try lra.
Qed.
