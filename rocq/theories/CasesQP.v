(** Concrete QPs that meet the hypotheses of the theorems about the interior point solver (C04, C07-C19, C50, C53). *)
From Coq Require Import String List Bool Arith ZArith QArith Reals Lra Lia.
From Verif Require Import Scalar Outcome LinAlg Structs Constraint QPModel RInst Spec
  Props_Constraint QPBlocks QPAlgebra QPNewton QPAlpha QPStep QPTrace QPInit QPSolve QPDirect QPBarrier QPIter QPFrame QPReuse
  QPUnique QPLog NLSBox QPRegular Multipliers NSProps Examples QPPerm.
Import ListNotations.
Local Open Scope outcome_scope.
Local Open Scope string_scope.
Local Open Scope list_scope.
Local Open Scope R_scope.

(** ** Setup (C04) *)

(** [ex_qp] is accepted; with one entry of c missing it is not; with the constraint index -1 it is accepted but
    never solved (the finding of C04). *)
Definition ex_qp_short : QP R := MkQP (Mat 2 2 [[1; 0]; [0; 1]]) [-1] (Mat 0 2 []) [] [].
Definition ex_qp_negative : QP R := MkQP (Mat 2 2 [[1; 0]; [0; 1]]) [-1; -1] (Mat 0 2 []) [] [LIC (-1)%Z 1 0].

Example C04_case : forall g : garbage R,
  (exists st, Setup g (Some ex_qp) = Ok st) /\
  (exists w, Setup g (Some ex_qp_short) = Throw (AssertFailed w)) /\
  (exists st, Setup g (Some ex_qp_negative) = Ok st /\ forall ldlt params r, IP_Solve ldlt params st <> Ok r).
Proof.
  intro g. splits.
  - destruct (C04_Setup_accepts_iff_consistent g (Some ex_qp)) as (_ & A & _). apply (A ex_qp eq_refl).
    unfold setup_consistent. cbn. splits; auto; try lia. intros c [<-|[]]. cbn. lia.
  - destruct (C04_Setup_accepts_iff_consistent g (Some ex_qp_short)) as (_ & _ & A). apply A.
    intros p E (_ & X & _). injection E as <-. discriminate.
  - destruct (C04_Setup_accepts_iff_consistent g (Some ex_qp_negative)) as (I & A & _).
    destruct (A ex_qp_negative eq_refl) as [st Hst].
    + unfold setup_consistent. cbn. splits; auto; try lia. intros c [<-|[]]. cbn. lia.
    + exists st. split; [exact Hst|]. intros ldlt params r. destruct (I st Hst) as (p & E & _ & P & _). injection E as <-.
      apply (C04_negative_index_never_solves ldlt params st ex_qp_negative (LIC (-1)%Z 1 0) P); [left; reflexivity|cbn; lia].
Qed.

(** ** A QP with an inequality constraint, from the interior point of Examples.v *)

Lemma ex_qp_wf : wf_qp ex_qp.
Proof. exact (proj1 (ex_qp_iterates 1 FIXED_DECREASE)). Qed.
Lemma ex_qp_ready : ready ex_qp ex_qp_st.
Proof. exact (proj1 (proj2 (ex_qp_iterates 1 FIXED_DECREASE))). Qed.
Lemma ex_qp_interior : interior ex_qp ex_qp_st.
Proof. exact (proj1 (proj2 (proj2 (ex_qp_iterates 1 FIXED_DECREASE)))). Qed.

Lemma ex_qp_curved : forall d, length d = nv ex_qp -> (exists i, (i < nv ex_qp)%nat /\ vget d i <> 0) -> 0 < qform ex_qp d.
Proof.
  intros d LD (i & Hi & NZ). unfold nv in *. cbn [ex_qp qc length] in *.
  assert (E : qform ex_qp d = vget d 0 * vget d 0 + vget d 1 * vget d 1).
  { unfold qform, nv, Gs, mget. cbn [ex_qp qc qG mdata length Rsum Nat.leb nth]. ring. }
  rewrite E. destruct i as [|[|i]]; [| |lia]; pose proof (sq_nonneg (vget d 0)); pose proof (sq_nonneg (vget d 1));
    pose proof (Rsqr_pos_lt _ NZ) as P; unfold Rsqr in P; lra.
Qed.
Lemma ex_qp_psd : psd ex_qp.
Proof.
  intro x. assert (E : qform ex_qp x = vget x 0 * vget x 0 + vget x 1 * vget x 1).
  { unfold qform, nv, Gs, mget. cbn [ex_qp qc qG mdata length Rsum Nat.leb nth]. ring. }
  rewrite E. pose proof (sq_nonneg (vget x 0)). pose proof (sq_nonneg (vget x 1)). lra.
Qed.
Lemma ldlt2_factors_ex_qp : ~ bad_factorization ldlt2 ex_qp.
Proof.
  intros (w & H & HW & RK & EL). destruct RK as (R1 & R2 & RX & _). unfold ldlt2 in EL. rewrite R1 in EL. cbn [nv neq ex_qp qc qb length Nat.add Nat.eqb andb] in EL.
  destruct (Reqb_spec (det2 H) 0) as [Z|Z]; [|discriminate]. unfold det2 in Z.
  rewrite (RX 0%nat 0%nat), (RX 1%nat 1%nat), (RX 1%nat 0%nat) in Z by (unfold nv; simpl; lia).
  specialize (HW 0%nat ltac:(unfold nineq; simpl; lia)).
  unfold Gs, nineq, cv, ca, con in Z. cbn in Z. unfold mget in Z. cbn in Z. lra.
Qed.

(** The parameters of these cases: [strat] and [guess] are free, the tolerances are [tol], at most [n] iterations. *)
Definition ex_ip_params (tol : R) (n : Z) (strat : BarrierStrategy) (guess : InitialGuessMethod) : IPParams R :=
  MkIPParams 1 (1 / 2) tol tol n strat false guess false.
Lemma ex_ip_params_valid : forall tol n strat guess, 0 < tol -> (0 < n)%Z -> ip_params_valid (ex_ip_params tol n strat guess).
Proof.
  intros tol n strat guess HT HN. unfold ip_params_valid, ex_ip_params.
  cbn [p_initial_mu p_sigma p_termination_kkt_tol p_max_iterations fltb fleb f0 f1 R_ops].
  splits; try exact HN; match goal with |- Rltb ?a ?b = true => destruct (Rltb_spec a b) | |- Rleb ?a ?b = true => destruct (Rleb_spec a b) end; try reflexivity; lra.
Qed.

(** Every strategy and every way to find the initial guess: Solve returns (C13, C06); for every number of
    iterations allowed. *)
Example C13_case : forall tol n strat guess, 0 < tol -> (0 < n)%Z ->
  exists st' out, IP_Solve ldlt2 (ex_ip_params tol n strat guess) ex_qp_st = Ok (st', out) /\
    (1 <= length (qp_iterations out) <= Z.to_nat n)%nat.
Proof.
  intros tol n strat guess HT HN.
  destruct (C06_only_factorization_fails ldlt2 (ex_ip_params tol n strat guess) ex_qp ex_qp_st ex_qp_wf ex_qp_ready
              (ex_ip_params_valid tol n strat guess HT HN)) as [(st' & out & E)|[_ B]].
  - cbn [ex_ip_params p_initial_guess_method].
    destruct guess; [left|left|right]; (split; [first [discriminate|reflexivity]|]); try exact ex_qp_interior;
      intros c [<-|[]]; cbn; lra.
  - exists st', out. split; [exact E|]. exact (proj1 (C13_iteration_count _ _ _ _ _ E)).
  - destruct (ldlt2_factors_ex_qp B).
Qed.

(** With a tolerance above the errors after the first iteration the solve is SATISFIED_KKT_TOL: the hypotheses of
    C12, C14, C16, C53 hold together, for a problem with an inequality constraint, for all strategies. *)
Example C12_C14_C16_C53_case : forall strat, exists tol st' out,
  wf_qp ex_qp /\ psd ex_qp /\ ready ex_qp ex_qp_st /\ interior ex_qp ex_qp_st /\ (0 < nineq ex_qp)%nat /\ 0 < tol /\
  IP_Solve ldlt2 (ex_ip_params tol 1 strat USER_PROVIDED) ex_qp_st = Ok (st', out) /\
  qp_termination_state out = SATISFIED_KKT_TOL.
Proof.
  intro strat.
  set (st1 := EvaluateKKTConditions true ex_qp ex_qp_st).
  assert (D : forall tol, 0 < tol -> exists st' out tr it,
     IP_Solve ldlt2 (ex_ip_params tol 1 strat USER_PROVIDED) ex_qp_st = Ok (st', out) /\ tr = [(1, it, st')] /\
     (exists st2 o, Iterate ldlt2 ex_qp 1 strat st1 = Ok (st2, o) /\ st' = EvaluateKKTConditions true ex_qp st2 /\
        kkt_final it = ComputeErrors st' 1) /\
     (tolerances_met (ex_ip_params tol 1 strat USER_PROVIDED) (1, it, st') -> qp_termination_state out = SATISFIED_KKT_TOL)).
  { intros tol HT. destruct (C13_case tol 1%Z strat USER_PROVIDED HT ltac:(lia)) as (st' & out & E & _).
    destruct (C12_Solve_run _ _ _ _ _ E) as (p & s1 & mu & tr & EP & _ & _ & (s0 & HG & HS1 & HMU) & RUN & _ & LST & _ & LEN & TERM).
    cbn [ex_qp_st ip_p] in EP. injection EP as <-.
    cbn [ComputeInitialGuess ex_ip_params p_initial_guess_method] in HG. apply Ok_inj in HG. subst s0.
    cbn [ex_ip_params p_initialize_mu_with_complementarity p_initial_mu] in HMU. subst mu s1. fold st1 in RUN.
    cbn [ex_ip_params p_max_iterations] in LEN. change (Z.to_nat 1) with 1%nat in LEN.
    destruct tr as [|[[m it] s2] [|? ?]]; cbn [length] in LEN; try lia.
    inversion RUN as [|? ? ? ? ? ? STEP _]; subst. cbn [map snd last] in *.
    inversion STEP as [? ? s3 o HI]; subst. cbn [ex_ip_params p_barrier_strategy] in HI.
    pose (sf := EvaluateKKTConditions true ex_qp s3). pose (itf := MkQPIter (ComputeErrors st1 1) (ComputeErrors sf 1) o).
    exists sf, out, [(1, itf, sf)], itf. splits; [exact E|reflexivity| |].
    - exists s3, o. splits; [exact HI|reflexivity|reflexivity].
    - intro TM. destruct TERM as [(_ & _ & N)|(T & _)]; [|exact T]. exfalso. exact (N _ (or_introl eq_refl) TM). }
  destruct (D 1 ltac:(lra)) as (sa & oa & _ & ita & _ & _ & (s2 & o & HI & EA & EK) & _).
  set (tol := 1 + Rmax 0 (Rmax (KKT_Max (kkt_final ita)) (ComputeMu sa))).
  assert (HT : 0 < tol) by (unfold tol; pose proof (Rmax_l 0 (Rmax (KKT_Max (kkt_final ita)) (ComputeMu sa))); lra).
  destruct (D tol HT) as (sb & ob & _ & itb & EB & _ & (s3 & o3 & HI3 & EB2 & EK3) & TB).
  rewrite HI in HI3. apply Ok_inj in HI3. apply pair_inj in HI3. destruct HI3 as [<- <-].
  rewrite <- EA in EB2. rewrite EB2 in *. clear EB2 sb.
  exists tol, sa, ob. splits; [exact ex_qp_wf|exact ex_qp_psd|exact ex_qp_ready|exact ex_qp_interior|unfold nineq; simpl; lia|exact HT|exact EB|].
  apply TB. unfold tolerances_met. cbn [fst snd ex_ip_params p_termination_kkt_tol p_termination_complementarity_tol fltb R_ops].
  pose proof (Rmax_r 0 (Rmax (KKT_Max (ComputeErrors sa 1)) (ComputeMu sa))).
  pose proof (Rmax_l (KKT_Max (ComputeErrors sa 1)) (ComputeMu sa)).
  pose proof (Rmax_r (KKT_Max (ComputeErrors sa 1)) (ComputeMu sa)).
  rewrite EK3. unfold tol. rewrite EK. split.
  - match goal with |- Rltb ?a ?b = true => destruct (Rltb_spec a b) as [|X]; [reflexivity|exfalso; apply X; lra] end.
  - match goal with |- Rltb ?a ?b = true => destruct (Rltb_spec a b) as [|X]; [reflexivity|exfalso; apply X; lra] end.
Qed.

(** ** Equality constraints only (C12, C14, C18, C53): minimise 1/2 x^2 subject to 2 x - 4 = 0. *)
Definition ex_eq : QP R := MkQP (Mat 1 1 [[1]]) [0] (Mat 1 1 [[2]]) [-4] [].
Lemma ex_eq_wf : wf_qp ex_eq.
Proof. constructor; try reflexivity. intros c []. Qed.
Lemma ex_eq_psd : psd ex_eq.
Proof.
  intro x. assert (E : qform ex_eq x = vget x 0 * vget x 0).
  { unfold qform, nv, Gs, mget. cbn [ex_eq qc qG mdata length Rsum Nat.leb nth]. ring. }
  rewrite E. apply sq_nonneg.
Qed.

(** Whatever the factorisation storage contains, with the tolerance 1e-9 and either guess, the solve is satisfied
    after one iteration with x = 2 and the multiplier 1. *)
Example C18_case : forall g strat, exists st,
  Setup g (Some ex_eq) = Ok st /\ wf_qp ex_eq /\ psd ex_eq /\ ready ex_eq st /\ ldlt_exact (nv ex_eq + neq ex_eq) ldlt2 /\
  exists st' out, IP_Solve ldlt2 (ex_ip_params (1 / 1000000000) 10 strat NAIVE) st = Ok (st', out) /\
    qp_termination_state out = SATISFIED_KKT_TOL /\ length (qp_iterations out) = 1%nat /\
    vget (x_block st') 0 = 2 /\ vget (y_block st') 0 = 1.
Proof.
  intros g strat.
  destruct (C04_Setup_accepts_iff_consistent g (Some ex_eq)) as (_ & A & _).
  destruct (A ex_eq eq_refl) as [st HS].
  { unfold setup_consistent. cbn. splits; auto; try lia; intros c []. }
  destruct (Setup_ready _ _ _ HS (fun c (X : In c []) => match X with end)) as [W RD].
  exists st. splits; [exact HS|exact ex_eq_wf|exact ex_eq_psd|exact RD|exact ldlt2_inverse|].
  destruct (C18_equality_only_solve ldlt2 (ex_ip_params (1 / 1000000000) 10 strat NAIVE) ex_eq st W RD eq_refl
              (ex_ip_params_valid (1 / 1000000000) 10 strat NAIVE ltac:(lra) ltac:(lia)) ltac:(cbn; lra)) as (st' & out & E & T & L & EF & KD & _).
  - intros H (R1 & R2 & RX & RA & RB). unfold ldlt2. rewrite R1. cbn [nv neq ex_eq qc qb length Nat.add Nat.eqb andb].
    destruct (Reqb_spec (det2 H) 0) as [Z|Z]; [exfalso|eauto]. unfold det2 in Z.
    destruct (RA 0%nat 0%nat ltac:(unfold neq; simpl; lia) ltac:(unfold nv; simpl; lia)) as [E1 E2].
    pose proof (RB 0%nat 0%nat ltac:(unfold neq; simpl; lia) ltac:(unfold neq; simpl; lia)) as E3.
    unfold nv in E1, E2, E3. cbn [ex_eq qc length Nat.add] in E1, E2, E3. rewrite E1, E3 in Z. unfold Ae, mget in Z. cbn in Z. lra.
  - exact ldlt2_inverse.
  - exists st', out. splits; auto.
    + specialize (EF 0%nat ltac:(unfold neq; simpl; lia)). unfold kkt_eq, Ae, mget, nv in EF. cbn [ex_eq qc qA qb mdata length Rsum nth vget] in EF.
      unfold vget in *. cbn [nth] in EF. lra.
    + specialize (EF 0%nat ltac:(unfold neq; simpl; lia)). unfold kkt_eq, Ae, mget, nv in EF. cbn [ex_eq qc qA qb mdata length Rsum nth vget] in EF.
      specialize (KD 0%nat ltac:(unfold nv; simpl; lia)). unfold kkt_dual, Gs, Ae, mget, nv, neq, nineq in KD.
      cbn [ex_eq qc qA qb qG qcons mdata length Rsum nth vget Nat.leb] in KD. unfold vget in *. cbn [nth] in *. lra.
Qed.

(** ** Runs of any length (C06, C08, C16, C17): from an interior state of [ex_qp] the iterations continue for ever. *)
Lemma ex_qp_iterate_total : forall mu strat st, ready ex_qp st -> interior ex_qp st ->
  exists st' out, Iterate ldlt2 ex_qp mu strat st = Ok (st', out) /\ ready ex_qp st' /\ interior ex_qp st'.
Proof.
  intros mu strat st RD I. destruct (Iterate_outcome ldlt2 ex_qp mu strat st ex_qp_wf RD I) as [[[st' out] E]|[_ B]];
    [|destruct (ldlt2_factors_ex_qp B)].
  exists st', out. split; [exact E|]. exact (C06_iteration_keeps_interior _ _ _ _ _ _ _ RD I E).
Qed.
Example C16_case : forall params n mu st, ready ex_qp st -> interior ex_qp st ->
  exists tr, ip_run ldlt2 params ex_qp mu st tr /\ length tr = n.
Proof.
  intros params n. induction n as [|n IH]; intros mu st RD I; [exists []; split; [constructor|reflexivity]|].
  destruct (ex_qp_iterate_total mu (p_barrier_strategy params) st RD I) as (st1 & o & E & RD1 & I1).
  destruct (IH (next_mu params (EvaluateKKTConditions true ex_qp st1) (ComputeErrors (EvaluateKKTConditions true ex_qp st1) mu) mu)
              (EvaluateKKTConditions true ex_qp st1) (eval_ready ex_qp st1 RD1) I1) as (tr & HR & HL).
  eexists (_ :: tr). split; [|cbn [length]; rewrite HL; reflexivity].
  eapply run_cons; [|exact HR]. apply ip_step_intro. exact E.
Qed.

(** ** One equality and one inequality constraint (C09, C19): minimise 1/2 x^2 subject to 2 x - 4 = 0 and x >= 0,
    at x = 1, s = 2, y = 0, z = 1, where both residuals are non-zero. *)
Definition ex_mix : QP R := MkQP (Mat 1 1 [[1]]) [0] (Mat 1 1 [[2]]) [-4] [LIC 0%Z 1 0].
Definition ex_mix_st : ip_solver R :=
  MkIP (Some ex_mix) (MkDims 1 1 1) [1; 2; 0; 1] [0; 0; 0; 0] (Mat 2 2 [[1; 0]; [0; 1]]) [0; 0; 0; 0] [0; 0; 0; 0].
Lemma ex_mix_wf : wf_qp ex_mix.
Proof. constructor; try reflexivity. intros c [<-|[]]. unfold nv. simpl. lia. Qed.
Lemma ex_mix_ready : ready ex_mix ex_mix_st.
Proof. constructor; reflexivity. Qed.
Lemma ex_mix_interior : interior ex_mix ex_mix_st.
Proof.
  intros m Hm. unfold nineq in Hm. simpl in Hm. assert (m = 0%nat) by lia. subst m.
  unfold s_block, z_block, sblk, zblk, vseg, vget. simpl. lra.
Qed.
Example C19_case : forall mu strat, exists st' out,
  wf_qp ex_mix /\ ready ex_mix ex_mix_st /\ interior ex_mix ex_mix_st /\ ldlt_exact (nv ex_mix + neq ex_mix) ldlt2 /\
  kkt_ineq ex_mix (x_block ex_mix_st) (s_block ex_mix_st) 0 = -1 /\ kkt_eq ex_mix (x_block ex_mix_st) 0 = -2 /\
  kkt_dual ex_mix (x_block ex_mix_st) (y_block ex_mix_st) (z_block ex_mix_st) 0 = 0 /\
  Iterate ldlt2 ex_mix mu strat ex_mix_st = Ok (st', out).
Proof.
  intros mu strat.
  destruct (Iterate_outcome ldlt2 ex_mix mu strat ex_mix_st ex_mix_wf ex_mix_ready ex_mix_interior) as [[[st' out] E]|[_ (w & H & HW & RK & EL)]].
  - exists st', out. splits; [exact ex_mix_wf|exact ex_mix_ready|exact ex_mix_interior|exact ldlt2_inverse| | | |exact E].
    all: unfold kkt_ineq, kkt_eq, kkt_dual, x_block, y_block, z_block, s_block, xblk, yblk, zblk, sblk, vseg, vget, nv, neq, nineq, Gs, Ae, ca, cb, cv, con, mget;
      cbn -[Rplus Rmult Rminus Ropp]; lra.
  - exfalso. destruct RK as (R1 & R2 & RX & RA & RB). unfold ldlt2 in EL. rewrite R1 in EL. cbn [nv neq ex_mix qc qb length Nat.add Nat.eqb andb] in EL.
    destruct (Reqb_spec (det2 H) 0) as [Z|Z]; [|discriminate]. unfold det2 in Z.
    destruct (RA 0%nat 0%nat ltac:(unfold neq; simpl; lia) ltac:(unfold nv; simpl; lia)) as [E1 E2].
    pose proof (RB 0%nat 0%nat ltac:(unfold neq; simpl; lia) ltac:(unfold neq; simpl; lia)) as E3.
    unfold nv in E1, E2, E3. cbn [ex_mix qc length Nat.add] in E1, E2, E3. rewrite E1, E3 in Z. unfold Ae, mget in Z. cbn in Z. lra.
Qed.
(** C09 applies to the same state: the reported primal errors are 2 and 1. *)
Example C09_case : forall mu,
  r_primal_eq (ComputeErrors (EvaluateKKTConditions true ex_mix ex_mix_st) mu) = 2 /\
  r_primal_ineq (ComputeErrors (EvaluateKKTConditions true ex_mix ex_mix_st) mu) = 1.
Proof.
  intro mu. rewrite (C09_reported_errors ex_mix ex_mix_st mu ex_mix_wf ex_mix_ready). cbn [r_primal_eq r_primal_ineq].
  destruct (C19_case mu FIXED_DECREASE) as (_ & _ & _ & _ & _ & _ & E1 & E2 & _).
  unfold norm2. change (neq ex_mix) with 1%nat. change (nineq ex_mix) with 1%nat. cbn [Rsum].
  unfold x_block, s_block in E1, E2. rewrite E1, E2. split.
  - replace (0 + -2 * -2) with (Rsqr 2) by (unfold Rsqr; lra). apply sqrt_Rsqr. lra.
  - replace (0 + -1 * -1) with 1 by lra. apply sqrt_1.
Qed.

(** ** Initial guesses (C15) *)
Example C15_case : exists st1 st2,
  ComputeInitialGuess ldlt2 (ex_ip_params 1 1 FIXED_DECREASE NAIVE) ex_qp ex_qp_st = Ok st1 /\
  ComputeInitialGuess ldlt2 (ex_ip_params 1 1 FIXED_DECREASE SOLVE_EQUALITY_CONSTRAINED) ex_qp ex_qp_st = Ok st2 /\
  ineq_feasible ex_qp (x_block st1) /\ ineq_feasible ex_qp (x_block st2).
Proof.
  assert (F : exists xs, ineq_feasible ex_qp xs).
  { exists [0; 0]. intros m Hm. unfold nineq in Hm. simpl in Hm. assert (m = 0%nat) by lia. subst m.
    unfold ca, cb, cv, con, vget. cbn. lra. }
  assert (LA : forall c, In c (qcons ex_qp) -> la c <> 0) by (intros c [<-|[]]; cbn; lra).
  destruct (C15_guess_outcomes ldlt2 (ex_ip_params 1 1 FIXED_DECREASE NAIVE) ex_qp ex_qp_st ex_qp_wf ex_qp_ready) as (_ & A & _).
  destruct (C15_guess_outcomes ldlt2 (ex_ip_params 1 1 FIXED_DECREASE SOLVE_EQUALITY_CONSTRAINED) ex_qp ex_qp_st ex_qp_wf ex_qp_ready) as (_ & _ & B).
  destruct (proj1 (A eq_refl) LA) as [st1 E1]. destruct (B eq_refl LA) as [[st2 E2]|[_ (H & RK & EL)]].
  - exists st1, st2. splits; auto.
    + apply (C15_initial_guess ldlt2 (ex_ip_params 1 1 FIXED_DECREASE NAIVE) ex_qp ex_qp_st st1 ex_qp_wf ex_qp_ready ltac:(discriminate) E1). exact F.
    + apply (C15_initial_guess ldlt2 (ex_ip_params 1 1 FIXED_DECREASE SOLVE_EQUALITY_CONSTRAINED) ex_qp ex_qp_st st2 ex_qp_wf ex_qp_ready ltac:(discriminate) E2). exact F.
  - exfalso. apply ldlt2_factors_ex_qp. exists (fun _ => 0), H. splits; auto. intros; lra.
Qed.

(** ** The upper triangle (C10) and uninitialised storage (C50) *)
Example C10_case : same_lower (qG ex_qp) (Mat 2 2 [[1; 77]; [0; 1]]) /\ mget (qG ex_qp) 0 1 <> mget (Mat 2 2 [[1; 77]; [0; 1]]) 0 1 /\
  forall g strat, exists r, solve_session ldlt2 g None (ex_ip_params 1 10 strat NAIVE) (replace_G ex_qp (Mat 2 2 [[1; 77]; [0; 1]])) = Ok r.
Proof.
  assert (SL : same_lower (qG ex_qp) (Mat 2 2 [[1; 77]; [0; 1]])).
  { unfold same_lower. cbn [ex_qp qG mrows mcols]. splits; auto. intros i j Hj Hi. destruct i as [|[|i]]; [| |lia]; destruct j as [|[|j]]; try lia; reflexivity. }
  splits; [exact SL|unfold mget; cbn; lra|]. intros g strat. rewrite C10_upper_triangle_ignored by exact SL.
  unfold solve_session. destruct (C04_case g) as ([st E] & _). rewrite E. cbn [bind].
  destruct (C52_regular_qp_always_solved ldlt2 g (ex_ip_params 1 10 strat NAIVE) ex_qp st ldlt2_singular
              (ex_ip_params_valid 1 10 strat NAIVE ltac:(lra) ltac:(lia)) E) as (st' & out & ES).
  - intros c [<-|[]]. cbn. split; [lia|lra].
  - discriminate.
  - intros y _ k Hk. unfold neq in Hk. simpl in Hk. lia.
  - intros d LD NZ _. apply ex_qp_curved; assumption.
  - rewrite ES. cbn [bind]. eauto.
Qed.
(** Two different uninitialised memories give the same session (C50). *)
Example C50_case : forall strat, exists r, forall g, solve_session ldlt2 g None (ex_ip_params 1 10 strat NAIVE) ex_qp = Ok r.
Proof.
  intro strat. pose (g0 := MkGarbage (fun _ => 0) (fun _ => 0) (fun _ => 0) (fun _ => 0) (Mat 0 0 [])).
  destruct (proj2 (proj2 C10_case) g0 strat) as [r E]. rewrite C10_upper_triangle_ignored in E by exact (proj1 C10_case).
  exists r. intro g. rewrite <- E. apply C50_storage_irrelevant. right. discriminate.
Qed.

(** ** C63: x0 >= 1 and x0 <= 0 cannot both hold. Solve returns, after any number of iterations, with every strategy and
    every computed initial guess, and never says SATISFIED. *)
Definition ex_bad : QP R := MkQP (Mat 2 2 [[1; 0]; [0; 1]]) [0; 0] (Mat 0 2 []) [] [LIC 0%Z 1 (-1); LIC 0%Z (-1) 0].
Lemma ldlt2_factors_ex_bad : ~ bad_factorization ldlt2 ex_bad.
Proof.
  intros (w & H & HW & RK & EL). destruct RK as (R1 & R2 & RX & _). unfold ldlt2 in EL. rewrite R1 in EL. cbn [nv neq ex_bad qc qb length Nat.add Nat.eqb andb] in EL.
  destruct (Reqb_spec (det2 H) 0) as [Z|Z]; [|discriminate]. unfold det2 in Z.
  rewrite (RX 0%nat 0%nat), (RX 1%nat 1%nat), (RX 1%nat 0%nat) in Z by (unfold nv; simpl; lia).
  pose proof (HW 0%nat ltac:(unfold nineq; simpl; lia)). pose proof (HW 1%nat ltac:(unfold nineq; simpl; lia)).
  unfold Gs, nineq, cv, ca, con in Z. cbn in Z. unfold mget in Z. cbn in Z. lra.
Qed.
Example C63_case : forall g tol n strat, 0 < tol <= 1 / 2 -> (0 < n)%Z ->
  infeasible_by ex_bad tol /\
  exists st st' out, Setup g (Some ex_bad) = Ok st /\
    IP_Solve ldlt2 (ex_ip_params tol n strat SOLVE_EQUALITY_CONSTRAINED) st = Ok (st', out) /\
    qp_termination_state out = QPIP_MAX_ITERATIONS /\ length (qp_iterations out) = Z.to_nat n.
Proof.
  intros g tol n strat HT HN.
  assert (INF : infeasible_by ex_bad tol).
  { intros x _. right. destruct (Rle_dec (vget x 0) (1 / 2)) as [L|L].
    - exists 0%nat. split; [unfold nineq; simpl; lia|]. unfold ca, cb, cv, con. cbn. lra.
    - exists 1%nat. split; [unfold nineq; simpl; lia|]. unfold ca, cb, cv, con. cbn. lra. }
  split; [exact INF|].
  destruct (C04_Setup_accepts_iff_consistent g (Some ex_bad)) as (_ & A & _).
  destruct (A ex_bad eq_refl) as [st HS].
  { unfold setup_consistent. cbn. splits; auto; try lia. intros c [<-|[<-|[]]]; cbn; lia. }
  destruct (Setup_ready _ _ _ HS) as [W RD]. { intros c [<-|[<-|[]]]; cbn; lia. }
  destruct (C06_only_factorization_fails ldlt2 (ex_ip_params tol n strat SOLVE_EQUALITY_CONSTRAINED) ex_bad st W RD
              (ex_ip_params_valid tol n strat SOLVE_EQUALITY_CONSTRAINED ltac:(lra) HN)) as [(st' & out & E)|[_ B]].
  - left. split; [discriminate|]. intros c [<-|[<-|[]]]; cbn; lra.
  - exists st, st', out. split; [exact HS|]. split; [exact E|].
    apply (C63_infeasible_never_satisfied ldlt2 (ex_ip_params tol n strat SOLVE_EQUALITY_CONSTRAINED) ex_bad st st' out W RD);
      [discriminate|exact INF|exact E].
  - destruct (ldlt2_factors_ex_bad B).
Qed.

(** A complementarity tolerance of zero passes CheckParams. *)
Example C63_zero_tolerance_case : forall n strat, (0 < n)%Z ->
  let params := MkIPParams 1 (1 / 2) 1 0 n strat false NAIVE false in
  ip_params_valid params /\
  exists st' out, IP_Solve ldlt2 params ex_qp_st = Ok (st', out) /\ qp_termination_state out = QPIP_MAX_ITERATIONS.
Proof.
  intros n strat HN params.
  assert (V : ip_params_valid params).
  { exact (ex_ip_params_valid 1 n strat NAIVE ltac:(lra) HN). }
  split; [exact V|].
  destruct (C06_only_factorization_fails ldlt2 params ex_qp ex_qp_st ex_qp_wf ex_qp_ready V) as [(st' & out & E)|[_ B]].
  - left. split; [discriminate|]. intros c [<-|[]]; cbn; lra.
  - exists st', out. split; [exact E|].
    apply (C63_complementarity_tol_not_positive ldlt2 params ex_qp ex_qp_st st' out ex_qp_wf ex_qp_ready); [discriminate|cbn; lra|exact E].
  - destruct (ldlt2_factors_ex_qp B).
Qed.

(** ** C64: [ex_qp] is strongly convex, has an exact solution, and is solved. *)
Example C64_case : forall strat1 strat2, strongly_convex ex_qp 1 /\ exact_kkt ex_qp [1; 1] [1] [] [0] /\
  exists tol st' out tol2 st2' out2, 0 < tol /\ 0 < tol2 /\
  IP_Solve ldlt2 (ex_ip_params tol 1 strat1 USER_PROVIDED) ex_qp_st = Ok (st', out) /\ qp_termination_state out = SATISFIED_KKT_TOL /\
  IP_Solve ldlt2 (ex_ip_params tol2 1 strat2 USER_PROVIDED) ex_qp_st = Ok (st2', out2) /\ qp_termination_state out2 = SATISFIED_KKT_TOL.
Proof.
  intros strat1 strat2. splits.
  - intros v LV. assert (E : qform ex_qp v = vget v 0 * vget v 0 + vget v 1 * vget v 1).
    { unfold qform, nv, Gs, mget. cbn [ex_qp qc qG mdata length Rsum Nat.leb nth]. ring. }
    rewrite E. unfold nv. cbn [ex_qp qc length Rsum]. lra.
  - unfold exact_kkt, kkt_dual, kkt_eq, kkt_ineq, nv, neq, nineq, Gs, Ae, ca, cb, cv, con, mget. cbn [ex_qp qG qc qA qb qcons length Rsum].
    splits.
    + intros [|[|i]] Hi; [| |lia]; cbn; lra.
    + intros k Hk. lia.
    + intros [|m] Hm; [|lia]. cbn. splits; lra.
  - destruct (C12_C14_C16_C53_case strat1) as (tol & st' & out & _ & _ & _ & _ & _ & T & E & S).
    destruct (C12_C14_C16_C53_case strat2) as (tol2 & st2' & out2 & _ & _ & _ & _ & _ & T2 & E2 & S2).
    exists tol, st', out, tol2, st2', out2. splits; assumption.
Qed.

(** ** C68: from the infeasible start of C19_case, n logged iterations for every n; the equality infeasibility of the
    result is 2 times and the inequality infeasibility 1 times the product of 1 - alpha_primal. *)
Lemma ldlt2_factors_ex_mix : ~ bad_factorization ldlt2 ex_mix.
Proof.
  intros (w & H & HW & RK & EL). destruct RK as (R1 & R2 & RX & RA & RB). unfold ldlt2 in EL. rewrite R1 in EL. cbn [nv neq ex_mix qc qb length Nat.add Nat.eqb andb] in EL.
  destruct (Reqb_spec (det2 H) 0) as [Z|Z]; [|discriminate]. unfold det2 in Z.
  destruct (RA 0%nat 0%nat ltac:(unfold neq; simpl; lia) ltac:(unfold nv; simpl; lia)) as [E1 E2].
  pose proof (RB 0%nat 0%nat ltac:(unfold neq; simpl; lia) ltac:(unfold neq; simpl; lia)) as E3.
  unfold nv in E1, E2, E3. cbn [ex_mix qc length Nat.add] in E1, E2, E3. rewrite E1, E3 in Z. unfold Ae, mget in Z. cbn in Z. lra.
Qed.
Example C68_case : forall n strat, (0 < n)%Z ->
  exists st' out, IP_Solve ldlt2 (MkIPParams 1 (1 / 2) 1 0 n strat false USER_PROVIDED false) ex_mix_st = Ok (st', out) /\
    length (qp_iterations out) = Z.to_nat n /\
    norm2 (nineq ex_mix) (kkt_ineq ex_mix (x_block st') (s_block st')) = remaining (qp_iterations out) * 1 /\
    norm2 (neq ex_mix) (kkt_eq ex_mix (x_block st')) = remaining (qp_iterations out) * 2.
Proof.
  intros n strat HN. set (params := MkIPParams _ _ _ _ _ _ _ _ _).
  assert (V : ip_params_valid params) by exact (ex_ip_params_valid 1 n strat USER_PROVIDED ltac:(lra) HN).
  destruct (C06_only_factorization_fails ldlt2 params ex_mix ex_mix_st ex_mix_wf ex_mix_ready V) as [(st' & out & E)|[_ B]].
  - right. split; [reflexivity|exact ex_mix_interior].
  - exists st', out. split; [exact E|].
    destruct (C63_complementarity_tol_not_positive ldlt2 params ex_mix ex_mix_st st' out ex_mix_wf ex_mix_ready
                (fun _ => ex_mix_interior) ltac:(cbn; lra) E) as [_ L]. split; [exact L|].
    assert (N : exists first rest, qp_iterations out = first :: rest).
    { destruct (qp_iterations out) as [|a l]; [|eauto]. cbn in L. lia. }
    destruct N as (first & rest & EF).
    destruct (C68_returned_infeasibility ldlt2 params ex_mix ex_mix_st st' out ex_mix_wf ex_mix_ready
                (fun _ => ex_mix_interior) E first rest EF) as (A & B & _).
    destruct (C12_Solve_run _ _ _ _ _ E) as (p & s1 & mu & tr & EP & _ & _ & (s0 & HG & HS1 & HMU) & RUN & HI & _).
    cbn [ex_mix_st ip_p] in EP. injection EP as <-.
    cbn [ComputeInitialGuess params p_initial_guess_method] in HG. apply Ok_inj in HG. subst s0 s1.
    rewrite EF in HI. pose proof (run_initial _ _ _ _ _ _ RUN _ _ (eq_sym HI)) as EI.
    rewrite EI in A, B. destruct (C09_case mu) as [C1 C2]. rewrite C1 in B. rewrite C2 in A.
    split; [exact A|]. apply B. exact ldlt2_inverse.
  - destruct (ldlt2_factors_ex_mix B).
Qed.

(** C69: 0 <= x0 <= 1 listed in both orders; both Solves return. *)
Definition ex_box (c1 c2 : lic R) : QP R := MkQP (Mat 2 2 [[1; 0]; [0; 1]]) [-2; 1] (Mat 0 2 []) [] [c1; c2].
Definition ex_lo : lic R := LIC 0%Z 1 0.
Definition ex_hi : lic R := LIC 0%Z (-1) 1.
Lemma ldlt2_factors_ex_box : ~ bad_factorization ldlt2 (ex_box ex_lo ex_hi).
Proof.
  intros (w & H & HW & RK & EL). destruct RK as (R1 & R2 & RX & _). unfold ldlt2 in EL. rewrite R1 in EL. cbn [nv neq ex_box qc qb length Nat.add Nat.eqb andb] in EL.
  destruct (Reqb_spec (det2 H) 0) as [Z|Z]; [|discriminate]. unfold det2 in Z.
  rewrite (RX 0%nat 0%nat), (RX 1%nat 1%nat), (RX 1%nat 0%nat) in Z by (unfold nv; simpl; lia).
  pose proof (HW 0%nat ltac:(unfold nineq; simpl; lia)). pose proof (HW 1%nat ltac:(unfold nineq; simpl; lia)).
  unfold Gs, nineq, cv, ca, con in Z. cbn in Z. unfold mget in Z. cbn in Z. lra.
Qed.
Example C69_case : forall g g' tol n strat guess, 0 < tol -> (0 < n)%Z -> guess <> USER_PROVIDED ->
  exists st st' s s' o, Setup g (Some (ex_box ex_lo ex_hi)) = Ok st /\ Setup g' (Some (ex_box ex_hi ex_lo)) = Ok st' /\
    IP_Solve ldlt2 (ex_ip_params tol n strat guess) st = Ok (s, o) /\
    IP_Solve ldlt2 (ex_ip_params tol n strat guess) st' = Ok (s', o) /\
    x_block s' = x_block s.
Proof.
  intros g g' tol n strat guess HT HN NU.
  assert (RO : reordered (ex_box ex_lo ex_hi) (ex_box ex_hi ex_lo)).
  { unfold reordered. cbn [qG qc qA qb qcons ex_box]. splits; auto. constructor. }
  assert (IX : forall c, In c (qcons (ex_box ex_lo ex_hi)) -> (0 <= lvar c)%Z) by (intros c [<-|[<-|[]]]; cbn; lia).
  pose proof (C69_constraint_order ldlt2 (ex_ip_params tol n strat guess) _ _ g g' RO IX NU) as T.
  assert (SAT : exists w, forall c, In c (qcons (ex_box ex_lo ex_hi)) -> la c * vget w (cidx c) + lb c >= 0).
  { exists [0; 0]. intros c [<-|[<-|[]]]; cbn; lra. }
  specialize (T SAT).
  destruct (C04_Setup_accepts_iff_consistent g (Some (ex_box ex_lo ex_hi))) as (_ & A & _).
  destruct (A _ eq_refl) as [st HS].
  { unfold setup_consistent. cbn. splits; auto; try lia. intros c [<-|[<-|[]]]; cbn; lia. }
  rewrite HS in T. destruct (Setup g' _) as [st'|?|?] eqn:HS'; try contradiction.
  destruct (Setup_ready _ _ _ HS IX) as [W RD].
  destruct (C06_only_factorization_fails ldlt2 (ex_ip_params tol n strat guess) (ex_box ex_lo ex_hi) st W RD
              (ex_ip_params_valid tol n strat guess HT HN)) as [(s & o & E)|[_ B]].
  - left. split; [exact NU|]. intros c [<-|[<-|[]]]; cbn; lra.
  - rewrite E in T. destruct (IP_Solve ldlt2 (ex_ip_params tol n strat guess) st') as [[s' o']|?|?] eqn:E'; try contradiction.
    destruct T as (<- & EX & _). exists st, st', s, s', o. splits; auto.
  - destruct (ldlt2_factors_ex_box B).
Qed.
