(** C76: the order in which the inequality constraints are listed does not change the nonlinear solve. *)
From Coq Require Import String List Bool Arith ZArith QArith Reals Lra Lia Permutation.
From Verif Require Import Scalar Outcome LinAlg Structs Constraint QPModel NullSpace Residual Nonlinear RInst Spec
  Props_Constraint QPTrace QPInit QPStep QPPerm ResProps LinProps MeritProps NLSTotal NLSSame.
Import ListNotations.
Local Open Scope outcome_scope.
Local Open Scope string_scope.
Local Open Scope list_scope.
Local Open Scope R_scope.

Section Order.
  Variable ldlt : mat R -> option (mat R).
  Variable qr : mat R -> QRResult R.
  Variable llt : mat R -> option (list R -> list R).
  Variable eigs : mat R -> QPEigenvalues R.
  Variable retract : option (list R -> list R -> R -> list R).
  Context {S : Type}.
  Variable cb : option (S -> NLSIteration R -> S * bool).
  Variable d : Z.
  Variables costs eqs : list (residual R).
  Variables ineq ineq' : list (lic R).
  Hypothesis KL : keeps_length retract.
  Hypothesis PERM : Permutation ineq ineq'.
  Let pr1 := MkProblem d costs ineq eqs.
  Let pr2 := MkProblem d costs ineq' eqs.
  Hypothesis IO : indices_ok pr1.
  Variable w : list R.
  Hypothesis SAT : forall c, In c ineq -> la c * vget w (Z.to_nat (lvar c)) + lb c >= 0.

  Lemma IO2 : indices_ok pr2.
  Proof.
    destruct IO as [I1 I2 I3 I4]. constructor; auto. intros c Hc. apply I4.
    apply (Permutation_in _ (Permutation_sym PERM) Hc).
  Qed.

  Lemma linearise_perm : forall v l, length v = Z.to_nat d ->
    exists e q q', LinearizeAndFillQP v l pr1 = Ok (e, q) /\ LinearizeAndFillQP v l pr2 = Ok (e, q') /\ reordered q q' /\
      setup_consistent q /\ setup_consistent q' /\ (forall c, In c (qcons q) -> (0 <= lvar c)%Z) /\
      (exists y, forall c, In c (qcons q) -> la c * vget y (cidx c) + lb c >= 0).
  Proof.
    intros v l LV.
    destruct (linearise_total pr1 v l LV (io_range _ IO) (io_cons _ IO) (io_dim _ IO)) as (e1 & q1 & E1 & GR1 & GC1 & CL1 & AR1 & AC1 & BL1 & QC1).
    destruct (linearise_total pr2 v l LV (io_range _ IO2) (io_cons _ IO2) (io_dim _ IO2)) as (e2 & q2 & E2 & GR2 & GC2 & CL2 & AR2 & AC2 & BL2 & QC2).
    assert (X : e1 = e2 /\ qG q1 = qG q2 /\ qc q1 = qc q2 /\ qA q1 = qA q2 /\ qb q1 = qb q2).
    { clear - E1 E2. unfold LinearizeAndFillQP in E1, E2.
      change (linearize_costs v l pr2) with (linearize_costs v l pr1) in E2.
      change (linearize_eq v pr2) with (linearize_eq v pr1) in E2.
      change (total_eq_size pr2) with (total_eq_size pr1) in E2. change (pdim pr2) with (pdim pr1) in E2.
      destruct (linearize_costs v l pr1) as [[[G c] f]|?|?]; cbn [bind] in E1, E2; try discriminate.
      destruct (linearize_eq v pr1) as [[[rows b] e]|?|?]; cbn [bind] in E1, E2; try discriminate.
      apply bind_ok_inv in E1. destruct E1 as (c1 & _ & E1). apply bind_ok_inv in E2. destruct E2 as (c2 & _ & E2).
      apply Ok_inj in E1. apply Ok_inj in E2. apply pair_inj in E1. apply pair_inj in E2.
      destruct E1 as [<- <-]. destruct E2 as [<- <-]. splits; reflexivity. }
    destruct X as (<- & XG & Xc & XA & Xb).
    assert (PD : Z.of_nat (pdim pr1) = d) by (unfold pdim; cbn [pr_dimension pr1]; pose proof (io_dim _ IO) as D; cbn [pr_dimension pr1] in D; lia).
    exists e1, q1, q2. splits; auto.
    - unfold reordered. splits; auto. rewrite QC1, QC2. cbn [pr_ineq pr1 pr2]. apply Permutation_map. exact PERM.
    - unfold setup_consistent. splits; try congruence.
      { intros _. rewrite AC1, GR1. change (pdim pr2) with (pdim pr1). split; [reflexivity|]. pose proof (io_dim _ IO) as D. cbn [pr_dimension pr1] in D. lia. }
      intros c Hc. rewrite QC1 in Hc. apply in_map_iff in Hc. destruct Hc as (c0 & <- & Hc). cbn [ShiftTo lvar].
      pose proof (io_cons _ IO c0 Hc) as A. cbn [pr_dimension pr1] in A. rewrite GR1. lia.
    - unfold setup_consistent. splits; try congruence.
      { intros _. rewrite AC2, GR2. change (pdim pr2) with (pdim pr1). split; [reflexivity|]. pose proof (io_dim _ IO) as D. cbn [pr_dimension pr1] in D. lia. }
      intros c Hc. rewrite QC2 in Hc. apply in_map_iff in Hc. destruct Hc as (c0 & <- & Hc). cbn [ShiftTo lvar].
      pose proof (io_cons _ IO2 c0 Hc) as A. cbn [pr_dimension pr2] in A. rewrite GR2. change (pdim pr2) with (pdim pr1). lia.
    - intros c Hc. rewrite QC1 in Hc. apply in_map_iff in Hc. destruct Hc as (c0 & <- & Hc). cbn [ShiftTo lvar].
      pose proof (io_cons _ IO c0 Hc) as A. lia.
    - exists (mkvec (pdim pr1) (fun i => vget w i - vget v i)). intros c Hc. rewrite QC1 in Hc. apply in_map_iff in Hc.
      destruct Hc as (c0 & <- & Hc). pose proof (io_cons _ IO c0 Hc) as A. cbn [pr_dimension pr1] in A.
      unfold cidx. cbn [ShiftTo lvar la lb]. rewrite (vget_mkvec R R_ops) by lia.
      pose proof (SAT c0 Hc) as B.
      change (@fmul R R_ops) with Rmult. change (@fadd R R_ops) with Rplus. lra.
  Qed.

  Lemma step_direction_perm : forall g pa q q', reordered q q' -> setup_consistent q -> setup_consistent q' ->
    (forall c, In c (qcons q) -> (0 <= lvar c)%Z) ->
    (exists y, forall c, In c (qcons q) -> la c * vget y (cidx c) + lb c >= 0) ->
    qcons q = [] \/ ineq <> [] ->
    ComputeStepDirection ldlt qr llt g pa pr1 q = ComputeStepDirection ldlt qr llt g pa pr2 q'.
  Proof.
    intros g pa q q' RO C1 C2 NN SATq EMP. unfold ComputeStepDirection.
    assert (NUL : ineq = [] <-> ineq' = []).
    { split; intro E; [rewrite E in PERM; apply Permutation_nil; exact PERM|].
      rewrite E in PERM. apply Permutation_nil, Permutation_sym. exact PERM. }
    assert (UN : use_null_space pr1 = use_null_space pr2).
    { unfold use_null_space. cbn [pr_ineq pr_eq pr1 pr2]. destruct ineq, ineq'; try reflexivity;
        [discriminate (proj1 NUL eq_refl)|discriminate (proj2 NUL eq_refl)]. }
    rewrite <- UN. destruct (use_null_space pr1) eqn:EU.
    - assert (E : ineq = []). { unfold use_null_space in EU. cbn [pr_ineq pr1] in EU. destruct ineq; [reflexivity|discriminate]. }
      destruct EMP as [EMP|EMP]; [|contradiction].
      destruct RO as (EG & Ec & EA & Eb & P). rewrite EMP in P. apply Permutation_nil in P.
      replace q' with q; [reflexivity|]. apply QP_ext; congruence.
    - destruct (C04_Setup_accepts_iff_consistent g (Some q)) as (_ & A & _). destruct (A q eq_refl C1) as [st HS].
      destruct (C04_Setup_accepts_iff_consistent g (Some q')) as (_ & A' & _). destruct (A' q' eq_refl C2) as [st' HS'].
      pose proof (C69_constraint_order ldlt (inner_qp_params pa pr1) q q' g g RO NN) as C.
      rewrite HS, HS' in C. rewrite HS, HS'. cbn [bind].
      change (inner_qp_params pa pr2) with (inner_qp_params pa pr1).
      assert (NU : p_initial_guess_method (inner_qp_params pa pr1) <> USER_PROVIDED).
      { unfold inner_qp_params. cbn [p_initial_guess_method pr_eq pr1]. destruct eqs; discriminate. }
      specialize (C NU SATq).
      destruct (IP_Solve ldlt (inner_qp_params pa pr1) st) as [[s o]|?|?];
        destruct (IP_Solve ldlt (inner_qp_params pa pr1) st') as [[s' o']|?|?]; cbn [bind]; try contradiction.
      + destruct C as (-> & -> & _). reflexivity.
      + congruence.
      + congruence.
  Qed.

  Lemma iterate_perm : forall pa g k st, length (ns_vars st) = Z.to_nat d ->
    nls_iterate ldlt qr llt eigs retract pa pr1 g k st = nls_iterate ldlt qr llt eigs retract pa pr2 g k st /\
    forall st' info ex, nls_iterate ldlt qr llt eigs retract pa pr1 g k st = Ok (IterDone st' info ex) -> length (ns_vars st') = Z.to_nat d.
  Proof.
    intros pa g k st LV. 
    destruct (linearise_perm (ns_vars st) (ns_lambda st) LV) as (e & q & q' & E1 & E2 & RO & C1 & C2 & NN & SQ).
    assert (EMP : qcons q = [] \/ ineq <> []).
    { destruct (linearise_total pr1 (ns_vars st) (ns_lambda st) LV (io_range _ IO) (io_cons _ IO) (io_dim _ IO)) as (e1 & q1 & E1' & _ & _ & _ & _ & _ & _ & QC).
      rewrite E1 in E1'. apply Ok_inj in E1'. apply pair_inj in E1'. destruct E1' as [_ <-]. cbn [pr_ineq pr1] in QC.
      destruct ineq; [left; exact QC|right; discriminate]. }
    unfold nls_iterate. rewrite E1, E2. cbn [bind].
    rewrite <- (step_direction_perm g pa q q' RO C1 C2 NN SQ EMP).
    destruct (ComputeStepDirection ldlt qr llt g pa pr1 q) as [[o dx]|x|x]; cbn [bind]; try (split; [reflexivity|discriminate]).
    destruct (QPWasIndefinite o); [split; [reflexivity|discriminate]|].
    destruct RO as (RG & Rc & RA & Rb & _).
    assert (CD : ComputeQPCostDerivative q' dx = ComputeQPCostDerivative q dx) by (unfold ComputeQPCostDerivative; rewrite RA, Rb, Rc; reflexivity).
    assert (UP : forall p, update_penalty pa pr2 q' dx o p = update_penalty pa pr1 q dx o p).
    { intro p. unfold update_penalty, SelectPenalty. rewrite RG, Rb, Rc. reflexivity. }
    rewrite CD, RG. destruct (ComputeQPCostDerivative q dx) as [dd|x|x]; cbn [bind]; try (split; [reflexivity|discriminate]).
    rewrite UP. set (pen := update_penalty pa pr1 q dx o (ns_penalty st)). unfold SelectStepSize.
    destruct (f_assert (fgtb pen f0) "penalty > 0") as [uu|x|x]; cbn [bind]; try (split; [reflexivity|discriminate]).
    destruct (f_assert (negb (Errors_ContainsInvalidValues e)) "errors_pre is finite") as [uu2|x|x]; cbn [bind]; try (split; [reflexivity|discriminate]).
    assert (SP : forall v, EvaluateNonlinearErrors pr1 v = EvaluateNonlinearErrors pr2 v) by reflexivity.
    assert (LS : forall n iter alpha steps cand, length cand = Z.to_nat d ->
      ls_loop retract n iter alpha steps cand pr1 (ns_vars st) dx (n_absolute_first_derivative_tol pa) e dd pen (flit lit_1em4) (n_line_search_strategy pa) (n_armijo_search_tau pa) =
      ls_loop retract n iter alpha steps cand pr2 (ns_vars st) dx (n_absolute_first_derivative_tol pa) e dd pen (flit lit_1em4) (n_line_search_strategy pa) (n_armijo_search_tau pa) /\
      forall r, ls_loop retract n iter alpha steps cand pr1 (ns_vars st) dx (n_absolute_first_derivative_tol pa) e dd pen (flit lit_1em4) (n_line_search_strategy pa) (n_armijo_search_tau pa) = Ok r -> length (snd r) = Z.to_nat d).
    { induction n as [|n IH]; intros iter alpha steps cand LC; cbn [ls_loop].
      - split; [reflexivity|]. intros r H. apply Ok_inj in H. subst r. exact LC.
      - destruct (next_alpha (n_line_search_strategy pa) (n_armijo_search_tau pa) iter alpha steps e dd pen) as [oa|x|x]; cbn [bind]; try (split; [reflexivity|discriminate]).
        destruct oa as [a|]; [|split; [reflexivity|intros r H; apply Ok_inj in H; subst r; exact LC]].
        destruct (RetractCandidateVars retract (ns_vars st) dx a) as [c|x|x] eqn:ER; cbn [bind]; try (split; [reflexivity|discriminate]).
        pose proof (retract_length retract pr1 KL _ _ _ _ LV ER) as LC'.
        rewrite <- (SP c). destruct (EvaluateNonlinearErrors pr1 c) as [es|x|x]; cbn [bind]; try (split; [reflexivity|discriminate]).
        repeat match goal with |- context [if ?b then Ok _ else _] => destruct b;
          [split; [reflexivity|intros r H; apply Ok_inj in H; subst r; exact LC']|] end.
        apply IH. exact LC'. }
    destruct (LS (Z.to_nat (n_max_line_search_iterations pa + 1)) 0%nat f1 [] (ns_vars st) LV) as [E L].
    rewrite <- E.
    destruct (ls_loop _ _ _ _ _ _ pr1 _ _ _ _ _ _ _ _ _) as [[[sr steps] cand]|x|x]; cbn [bind]; try (split; [reflexivity|discriminate]).
    specialize (L _ eq_refl). cbn [snd] in L.
    split; [reflexivity|]. intros st' info ex H. apply bind_ok_inv in H. destruct H as ([ex' st1] & F1 & H).
    apply Ok_inj in H. injection H as <- _ _.
    unfold UpdateLambdaAndCheckExitConditions in F1. destruct sr.
    1: { apply bind_ok_inv in F1. destruct F1 as (u & _ & F1).
         repeat match type of F1 with context [if ?b then _ else _] => destruct b end;
           apply Ok_inj in F1; apply pair_inj in F1; destruct F1 as [_ <-]; exact L. }
    all: try match type of F1 with context [if fgtb ?a ?m then _ else _] => destruct (fgtb a m) end;
      apply Ok_inj in F1; apply pair_inj in F1; destruct F1 as [_ <-]; exact LV.
  Qed.

  Lemma loop_perm : forall pa g n iter log st cs, length (ns_vars st) = Z.to_nat d ->
    nls_loop ldlt qr llt eigs retract cb n pa pr1 g iter log st cs = nls_loop ldlt qr llt eigs retract cb n pa pr2 g iter log st cs.
  Proof.
    intros pa g. induction n as [|n IH]; intros iter log st cs LV; cbn [nls_loop]; [reflexivity|].
    destruct (iterate_perm pa (g iter) (Z.of_nat iter) st LV) as [E L]. rewrite <- E.
    destruct (nls_iterate _ _ _ _ _ _ pr1 _ _ _) as [[|st' info ex]|x|x]; cbn [bind]; try reflexivity.
    specialize (L _ _ _ eq_refl). destruct (call_cb cb cs info) as [cs' pc].
    destruct ex; [reflexivity|]. destruct pc; [|reflexivity]. apply IH. exact L.
  Qed.
End Order.

(** C76: two problems that differ only in the order of the inequality constraints, which some point satisfies, are solved
    identically: same log (inner QP errors, norms of the inequality multipliers, step lengths), variables and callback
    state, or the same exception. *)
Theorem C76_inequality_order_irrelevant : forall ldlt qr llt eigs retract (S : Type) (cb : option (S -> NLSIteration R -> S * bool))
  d costs ineq ineq' eqs pa g vars cs,
  keeps_length retract -> Permutation ineq ineq' -> indices_ok (MkProblem d costs ineq eqs) -> length vars = Z.to_nat d ->
  (exists w, forall c, In c ineq -> la c * vget w (Z.to_nat (lvar c)) + lb c >= 0) ->
  NLS_Solve ldlt qr llt eigs retract cb pa (MkProblem d costs ineq eqs) g vars cs =
  NLS_Solve ldlt qr llt eigs retract cb pa (MkProblem d costs ineq' eqs) g vars cs.
Proof.
  intros ldlt qr llt eigs retract S cb d costs ineq ineq' eqs pa g vars cs KL P IO LV (w & SAT).
  unfold NLS_Solve. destruct (NLS_CheckParams pa); cbn [bind]; try reflexivity.
  apply (loop_perm ldlt qr llt eigs retract cb d costs eqs ineq ineq' KL P IO w SAT). exact LV.
Qed.
