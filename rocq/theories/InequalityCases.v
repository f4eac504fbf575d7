(** Concrete cases for C88 (and C56 with inequality constraints): see the index in DESIGN.md, section 4.3. *)
From Coq Require Import String List Bool Arith ZArith QArith Reals Lra Lia.
From Verif Require Import Scalar Outcome LinAlg Structs Constraint QPModel NullSpace Residual Nonlinear RInst Spec
  Props_Constraint QPBlocks QPAlgebra QPNewton QPAlpha QPStep QPTrace QPInit QPSolve QPDirect QPIter NSProps ResProps LinProps
  MeritProps LSProps LSSuccess LSPoly NLSTrace NLSProps NLSReal NLSBox Penalty NLSTotal Optimality NLSInequality
  Examples Examples2 CasesMore.
Import ListNotations.
Local Open Scope outcome_scope.
Local Open Scope string_scope.
Local Open Scope list_scope.
Local Open Scope R_scope.

(** Minimise (x0^2 + 1) / 2 subject to x1 >= 0. The cost does not depend on x1. *)
Definition half_res : residual R := MkRes 2 [0]%Z (fun p => [vget p 0; 1]) (fun p => ([vget p 0; 1], Mat 2 1 [[1]; [0]])).
Definition half_pr : Problem R := MkProblem 2%Z [half_res] [Var_ge 1%Z 0] [].

(** [ldlt2] (Examples.v) with an arbitrary answer instead of a failure for singular matrices. *)
Definition ldlt2t (H : mat R) : option (mat R) := match ldlt2 H with Some X => Some X | None => Some (Mat 2 2 []) end.
Lemma ldlt2t_total : forall H, ldlt2t H <> None.
Proof. intro H. unfold ldlt2t. destruct (ldlt2 H); discriminate. Qed.

(** The QPs of this problem at x0 = 0: G = diag (1, 0), c = 0, and x1 + b >= 0. *)
Record flat_qp (b : R) (p : QP R) : Prop := FlatQP {
  fl_wf : wf_qp p;
  fl_nv : nv p = 2%nat; fl_ni : nineq p = 1%nat; fl_ne : neq p = 0%nat;
  fl_G : Gs p 0 0 = 1 /\ Gs p 0 1 = 0 /\ Gs p 1 0 = 0 /\ Gs p 1 1 = 0;
  fl_c : vget (qc p) 0 = 0 /\ vget (qc p) 1 = 0;
  fl_a : ca p 0 = 1; fl_v : cv p 0 = 1%nat; fl_b : Spec.cb p 0 = b }.

(** The state reached: x = (0, s - b) and (s, z). *)
Definition at_state (b : R) (p : QP R) (st : ip_solver R) (s z : R) : Prop :=
  ready p st /\ interior p st /\
  vget (x_block st) 0 = 0 /\ vget (x_block st) 1 = s - b /\ vget (s_block st) 0 = s /\ vget (z_block st) 0 = z.

Lemma flat_same : forall b p mu strat st, flat_qp b p -> ready p st -> interior p st ->
  Iterate ldlt2t p mu strat st = Iterate ldlt2 p mu strat st.
Proof.
  intros b p mu strat st FQ RD INT. destruct FQ as [W NV NI NE (G00 & G01 & G10 & G11) _ EA EV _].
  unfold Iterate, ComputeLDLT.
  change (ip_dims (EvaluateKKTConditions true p st)) with (ip_dims st).
  change (ip_vars (EvaluateKKTConditions true p st)) with (ip_vars st).
  set (H := reduced_H true p (ip_dims st) (sblk (ip_dims st) (ip_vars st)) (zblk (ip_dims st) (ip_vars st))).
  assert (E : ldlt2t H = ldlt2 H); [|rewrite E; reflexivity].
  unfold ldlt2t. destruct (ldlt2 H) eqn:EL; [reflexivity|exfalso].
  pose proof (C08_reduced_matrix p (ip_dims st) (s_block st) (z_block st) W (dN_nv p st RD) (dK_ne p st RD)) as (R1 & R2 & RX & _).
  change (reduced_H true p (ip_dims st) (s_block st) (z_block st)) with H in *.
  unfold ldlt2 in EL. rewrite R1, NV, NE in EL. cbn [Nat.add Nat.eqb andb] in EL.
  destruct (Reqb_spec (det2 H) 0) as [Z|Z]; [|discriminate]. unfold det2 in Z.
  rewrite (RX 0%nat 0%nat), (RX 1%nat 1%nat), (RX 1%nat 0%nat) in Z by lia.
  rewrite NI in Z. cbn [Rsum Nat.eqb] in Z. rewrite EV, G00, G10, G11, EA in Z. cbn [Nat.eqb] in Z.
  destruct (INT 0%nat ltac:(lia)) as [P1 P2]. pose proof (Rdiv_lt_0_compat _ _ P2 P1). lra.
Qed.

(** One iteration. *)
Lemma flat_iterate : forall b p mu st s z, flat_qp b p -> at_state b p st s z -> 0 < mu ->
  exists st' out, Iterate ldlt2t p mu COMPLEMENTARITY st = Ok (st', out) /\ at_state b p st' (s + mu / z) (z / 200).
Proof.
  intros b p mu st s z FQ (RD & INT & X0 & X1 & ES & EZ) HM.
  pose proof (fl_wf _ _ FQ) as W. pose proof (fl_nv _ _ FQ) as NV. pose proof (fl_ni _ _ FQ) as NI. pose proof (fl_ne _ _ FQ) as NE.
  destruct (Iterate_outcome ldlt2t p mu COMPLEMENTARITY st W RD INT) as [[[st' out] E]|[_ (w & H & _ & _ & X)]];
    [|destruct (ldlt2t_total H X)].
  exists st', out. split; [exact E|].
  destruct (C06_iteration_keeps_interior _ _ _ _ _ _ _ RD INT E) as [RD' INT'].
  split; [exact RD'|]. split; [exact INT'|].
  rewrite (flat_same b p mu _ st FQ RD INT) in E.
  pose proof (C08_iteration ldlt2 p mu COMPLEMENTARITY st st' out W RD INT) as N. rewrite NV, NE in N. specialize (N ldlt2_inverse E). cbv zeta in N.
  destruct N as (dx & ds & dy & dz & corr & target & (N1 & N2 & _ & N4) & UX & US & _ & UZ & _ & NIQ).
  rewrite NI in *. destruct (NIQ ltac:(lia)) as (_ & LP & LZ & ST & _). destruct (ST ltac:(discriminate)) as [-> CO].
  destruct FQ as [_ _ _ _ (G00 & G01 & G10 & G11) (C0 & C1) EA EV EB].
  destruct (INT 0%nat ltac:(lia)) as [P1 P2]. rewrite ES in P1. rewrite EZ in P2.
  specialize (N2 0%nat ltac:(lia)). specialize (N4 0%nat ltac:(lia)).
  pose proof (N1 0%nat ltac:(lia)) as N10. pose proof (N1 1%nat ltac:(lia)) as N11. clear N1.
  unfold kkt_dual, kkt_comp, kkt_ineq in *. rewrite NV, NE, NI in N10, N11. cbn [Rsum] in N10, N11.
  rewrite EV in N10, N11, N4. rewrite G00, G01 in N10. rewrite G10, G11 in N11. cbn [Nat.eqb] in N10, N11.
  rewrite EA, EB in *. rewrite X0, X1, ES, EZ, CO, C0, C1 in *.
  assert (DZ : vget dz 0 = - z) by lra.
  assert (D0 : vget dx 0 = 0) by lra.
  assert (DS : vget ds 0 = mu / z).
  { rewrite DZ in N2. apply (Rmult_eq_reg_l z); [|lra]. replace (z * (mu / z)) with mu by (field; lra). lra. }
  assert (DX : vget dx 1 = mu / z) by lra.
  pose proof (Rdiv_lt_0_compat _ _ HM P2) as PD.
  assert (AP : primal (ip_alpha out) = 1).
  { destruct LP as (_ & _ & [L|(i & Hi & L & _)]); [exact L|exfalso]. assert (i = 0)%nat by lia. subst i. lra. }
  assert (AD : dual (ip_alpha out) = 995 / 1000).
  { destruct LZ as (_ & L1 & L2). specialize (L1 0%nat ltac:(lia)). rewrite EZ, DZ in L1. specialize (L1 ltac:(lra)).
    set (a := dual (ip_alpha out)) in *.
    assert (U : a <= 995 / 1000) by nra.
    destruct L2 as [L2|(i & Hi & _ & L2)]; [lra|]. assert (i = 0)%nat by lia. subst i. rewrite EZ, DZ in L2.
    destruct (Rle_lt_dec (995 / 1000) a) as [L|L]; [lra|]. specialize (L2 (995 / 1000) L). nra. }
  rewrite !UX, !US, !UZ, AP, AD, X0, X1, ES, EZ, D0, DX, DS, DZ. repeat split; lra.
Qed.

(** The errors reported. *)
Lemma flat_errors : forall b p st mu s z, flat_qp b p -> at_state b p st s z ->
  KKT_Max (ComputeErrors (EvaluateKKTConditions true p st) mu) = Rmax z (Rabs (s * z - mu)) /\
  ComputeMu (EvaluateKKTConditions true p st) = s * z.
Proof.
  intros b p st mu s z FQ (RD & INT & X0 & X1 & ES & EZ).
  pose proof (fl_wf _ _ FQ) as W. pose proof (fl_nv _ _ FQ) as NV. pose proof (fl_ni _ _ FQ) as NI. pose proof (fl_ne _ _ FQ) as NE.
  destruct FQ as [_ _ _ _ (G00 & G01 & G10 & G11) (C0 & C1) EA EV EB].
  destruct (INT 0%nat ltac:(lia)) as [P1 P2]. rewrite EZ in P2.
  assert (SQ : forall e, sqrt (0 + e * e) = Rabs e) by (intro e; rewrite Rplus_0_l, <- sqrt_Rsqr_abs; reflexivity).
  split.
  - rewrite (C09_reported_errors p st mu W RD), KKT_Max_R. cbn [r_dual r_comp r_primal_eq r_primal_ineq].
    fold (x_block st) (s_block st) (y_block st) (z_block st). unfold norm2. rewrite NV, NI, NE. cbn [Rsum]. rewrite sqrt_0, !SQ.
    unfold kkt_dual, kkt_ineq. rewrite NV, NI, NE. cbn [Rsum]. rewrite EV, G00, G01, G10, G11, EA, EB, X0, X1, ES, EZ, C0, C1. cbn [Nat.eqb].
    match goal with |- context[sqrt ?e] => replace e with (0 + z * z) by ring end. rewrite SQ, (Rabs_pos_eq z) by lra.
    match goal with |- context[Rmax _ (Rabs ?e)] => replace e with 0 by ring end. rewrite Rabs_R0.
    assert (Z : 0 <= Rmax z (Rabs (s * z - mu))) by (eapply Rle_trans; [|apply Rmax_l]; lra).
    rewrite !(Rmax_left _ 0); auto. rewrite Rmax_left; auto.
  - rewrite (ComputeMu_R p _ (eval_ready p st RD)) by lia. rewrite NI. cbn [Rsum INR].
    change (s_block (EvaluateKKTConditions true p st)) with (s_block st). change (z_block (EvaluateKKTConditions true p st)) with (z_block st).
    rewrite ES, EZ. field.
Qed.

(** The loop, from s = b = 1, z = 1: at most four iterations. *)
Lemma flat_loop_step : forall b params p n mu its st s z, flat_qp b p -> at_state b p st s z -> 0 < mu ->
  p_barrier_strategy params = COMPLEMENTARITY -> p_decrease_mu_only_on_small_error params = false -> p_sigma params = 1 / 10 ->
  exists st' its', at_state b p st' (s + mu / z) (z / 200) /\
    ((exists r, ip_loop ldlt2t (Datatypes.S n) params p mu its st = Ok r /\ qp_termination_state (snd r) = SATISFIED_KKT_TOL) \/
     ~ (Rmax (z / 200) (Rabs ((s + mu / z) * (z / 200) - mu)) < p_termination_kkt_tol params /\
        (s + mu / z) * (z / 200) < p_termination_complementarity_tol params) /\
     ip_loop ldlt2t (Datatypes.S n) params p mu its st = ip_loop ldlt2t n params p (1 / 10 * ((s + mu / z) * (z / 200))) its' st').
Proof.
  intros b params p n mu its st s z FQ AT HM BS DM SG.
  destruct (flat_iterate b p mu st s z FQ AT HM) as (st1 & out & E & AT1).
  destruct (flat_errors b p st1 mu _ _ FQ AT1) as [KM CM].
  exists (EvaluateKKTConditions true p st1). eexists. split.
  { destruct AT1 as (RD1 & I1 & X). split; [apply eval_ready; exact RD1|]. split; [exact I1|exact X]. }
  cbn [ip_loop]. rewrite BS, E. cbn [bind]. rewrite KM, CM. unfold next_mu. rewrite DM, BS, SG, CM. cbn [negb]. rewrite orb_true_r.
  destruct (R_fltb (Rmax (z / 200) (Rabs ((s + mu / z) * (z / 200) - mu))) (p_termination_kkt_tol params)) as [A|A];
    [destruct (R_fltb ((s + mu / z) * (z / 200)) (p_termination_complementarity_tol params)) as [B|B]|]; cbn [andb].
  - left. eexists. split; [reflexivity|reflexivity].
  - right. split; [tauto|reflexivity].
  - right. split; [tauto|reflexivity].
Qed.

Lemma flat_loop : forall params p n its st, flat_qp 1 p -> at_state 1 p st 1 1 ->
  p_barrier_strategy params = COMPLEMENTARITY -> p_decrease_mu_only_on_small_error params = false -> p_sigma params = 1 / 10 ->
  1 / 1000000 <= p_termination_kkt_tol params -> 1 / 1000000 <= p_termination_complementarity_tol params ->
  exists r, ip_loop ldlt2t (4 + n) params p 1 its st = Ok r /\ qp_termination_state (snd r) = SATISFIED_KKT_TOL.
Proof.
  intros params p n its st FQ AT BS DM SG T1 T2. change (4 + n)%nat with (Datatypes.S (3 + n)).
  destruct (flat_loop_step 1 params p (3 + n) 1 its st 1 1 FQ AT ltac:(lra) BS DM SG) as (st1 & its1 & AT1 & [R1|[_ E1]]); [exact R1|rewrite E1; clear E1].
  replace (1 + 1 / 1) with 2 in * by field. replace (1 / 10 * (2 * (1 / 200))) with (1 / 1000) by field.
  change (3 + n)%nat with (Datatypes.S (2 + n)).
  destruct (flat_loop_step 1 params p (2 + n) (1 / 1000) its1 st1 _ _ FQ AT1 ltac:(lra) BS DM SG) as (st2 & its2 & AT2 & [R2|[_ E2]]); [exact R2|rewrite E2; clear E2].
  replace (2 + 1 / 1000 / (1 / 200)) with (22 / 10) in * by field. replace (1 / 200 / 200) with (1 / 40000) in * by field.
  replace (1 / 10 * (22 / 10 * (1 / 40000))) with (55 / 10000000) by field.
  change (2 + n)%nat with (Datatypes.S (1 + n)).
  destruct (flat_loop_step 1 params p (1 + n) (55 / 10000000) its2 st2 _ _ FQ AT2 ltac:(lra) BS DM SG) as (st3 & its3 & AT3 & [R3|[_ E3]]); [exact R3|rewrite E3; clear E3].
  replace (22 / 10 + 55 / 10000000 / (1 / 40000)) with (242 / 100) in * by field. replace (1 / 40000 / 200) with (1 / 8000000) in * by field.
  replace (1 / 10 * (242 / 100 * (1 / 8000000))) with (3025 / 100000000000) by field.
  change (1 + n)%nat with (Datatypes.S n).
  destruct (flat_loop_step 1 params p n (3025 / 100000000000) its3 st3 _ _ FQ AT3 ltac:(lra) BS DM SG) as (st4 & its4 & AT4 & [R4|[N4 _]]); [exact R4|exfalso].
  replace (242 / 100 + 3025 / 100000000000 / (1 / 8000000)) with (2662 / 1000) in * by field. replace (1 / 8000000 / 200) with (1 / 1600000000) in * by field.
  apply N4. split; [|lra]. apply Rmax_lub_lt; [lra|]. apply Rabs_def1; lra.
Qed.

(** ** The problem *)
Definition half_x : list R := [0; 1].
Local Ltac heval := cbv [half_res half_x]; peval.
Lemma half_distinct : distinct_indices half_pr.
Proof. split; [|intros r []]. intros r [<-|[]]. constructor; [intros []|constructor]. Qed.
Lemma half_consistent : value_consistent half_pr.
Proof. intros r [[<-|[]]|[]] p; reflexivity. Qed.
Lemma half_posed_any : forall b, well_posed default_NLSParams half_pr [0; b].
Proof.
  intro b.
  assert (PP : 0 < n_equality_penalty_initial (default_NLSParams : NLSParams R)) by (cbn [n_equality_penalty_initial default_NLSParams f1 R_ops]; lra).
  constructor; try exact ex_params_valid; try exact PP.
  - reflexivity.
  - reflexivity.
  - intros r [[<-|[]]|[]] i Hi. cbn [pr_dimension half_pr]. destruct Hi as [<-|[]]. lia.
  - intros l [<-|[]]. cbn. split; [lia|]. lra.
Qed.
Lemma half_posed : well_posed default_NLSParams half_pr half_x.
Proof. exact (half_posed_any 1). Qed.
Lemma half_derivatives : derivatives_correct half_pr.
Proof.
  intros r [[<-|[]]|[]] x u LX LU. destruct (len2 x LX) as (a & b & ->). destruct (len2 u LU) as (c & d & ->).
  intros k Hk. split; [reflexivity|]. assert (K : k = 0%nat \/ k = 1%nat) by (cbn [res_dim half_res] in Hk; lia). destruct K as [-> | ->].
  - eapply (poly_slope _ a _ 0). intro t. heval. ring.
  - eapply (poly_slope _ 1 _ 0). intro t. heval. ring.
Qed.
Lemma half_affine : affine_problem half_pr.
Proof.
  intros r [[<-|[]]|[]] x u t k Hk LU. cbn [res_dim half_res] in Hk.
  cbv [gathered jac_dx]. cbn [half_res res_index res_f res_fJ snd map length Rsum gidx].
  unfold ray. cbv [gidx]. cbn [half_res res_index nth Z.to_nat].
  rewrite !vadd_get by (rewrite vscale_length; congruence). rewrite !vscale_get.
  generalize (vget x 0), (vget u 0). intros.
  destruct k as [|[|k]]; [| |lia]; cbv [vget mget mdata nth fadd fmul R_ops]; ring.
Qed.
(** The gradient of the cost vanishes at (0, b). *)
Lemma half_gradient : forall b u, length u = pdim half_pr -> cost_slope half_pr [0; b] u 0.
Proof.
  intros b u LU. destruct (len2 u LU) as (c & d & ->). unfold cost_slope.
  eapply (poly_slope _ (/ 2) _ (/ 2 * (c * c))). intro t. unfold cost_at, half_pr. cbn [pr_costs map Rlsum half_res res_dim Rsum].
  unfold ray. heval. field.
Qed.
Lemma half_total : forall b eigs g (cs : unit), exists r,
  NLS_Solve ldlt2t ns_ex_qr ns_ex_llt eigs None (@None (unit -> NLSIteration R -> unit * bool)) default_NLSParams half_pr g [0; b] cs = Ok r.
Proof.
  intros b eigs g cs. destruct (C51_solve_returns ldlt2t ns_ex_qr ns_ex_llt eigs None (@None (unit -> NLSIteration R -> unit * bool)) default_NLSParams half_pr g
    [0; b] cs (half_posed_any b) ltac:(intros f E; discriminate) ltac:(intros E; discriminate)) as [X|(_ & _ & v & l & e & q & _ & _ & _ & w & H & _ & _ & X)]; [exact X|].
  destruct (ldlt2t_total H X).
Qed.
(** The QP linearised there. *)
Lemma half_flat : forall errs qp g st, LinearizeAndFillQP half_x 0 half_pr = Ok (errs, qp) -> Setup g (Some qp) = Ok st ->
  flat_qp 1 qp /\ ready qp st.
Proof.
  intros errs qp g st HL HS.
  destruct (C24_linearised_qp _ _ _ _ _ half_distinct HL) as ((GR & GC & CL & AC & AR) & OBJ & _ & QF & _ & _ & _).
  pose proof (eq_count _ _ _ _ _ half_distinct HL) as NE. destruct (qp_constraints _ _ _ _ _ HL) as [NI QC].
  destruct (linearise_total half_pr half_x 0 eq_refl (wp_index _ _ _ half_posed) (fun c Hc => proj1 (wp_cons _ _ _ half_posed c Hc)) eq_refl) as (e' & q' & HL' & _ & _ & _ & _ & _ & _ & QCo).
  rewrite HL in HL'. apply Ok_inj in HL'. apply pair_inj in HL'. destruct HL' as [_ <-].
  destruct (setup_ready g qp st HS) as [W RD].
  { intros c Hc. rewrite QCo in Hc. cbn [half_pr pr_ineq map] in Hc. destruct Hc as [<-|[]]. cbn. lia. }
  split; [|exact RD].
  assert (NV : nv qp = 2%nat) by exact CL. change (nineq qp = 1%nat) in NI. change (neq qp = 0%nat) in NE.
  destruct (QC 0%nat ltac:(lia)) as (c & [<-|[]] & EA & EV & EB & _).
  assert (Q : forall a b, qform qp [a; b] = a * a).
  { intros a b. rewrite QF. rewrite (Rmax_right 0 0) by lra. unfold lin_curvature, half_pr. cbn [pr_costs map Rlsum half_res res_dim Rsum]. unfold lin_residual. heval. ring. }
  assert (L : forall a b, Rsum 2 (fun i => vget (qc qp) i * vget [a; b] i) = 0).
  { intros a b. pose proof (OBJ [a; b]) as O1. pose proof (OBJ [0; 0]) as O0. unfold objective in O1, O0. rewrite !Q in *. rewrite NV in *.
    rewrite (Rmax_right 0 0) in * by lra.
    revert O1 O0. unfold lin_cost, half_pr. cbn [pr_costs map Rlsum half_res res_dim Rsum]. unfold lin_residual. heval. intros. lra. }
  assert (Gsym : Gs qp 0 1 = Gs qp 1 0) by reflexivity.
  pose proof (Q 1 0) as Q10. pose proof (Q 0 1) as Q01. pose proof (Q 1 1) as Q11.
  unfold qform in Q10, Q01, Q11. rewrite NV in *. cbn [Rsum] in Q10, Q01, Q11. unfold vget in Q10, Q01, Q11. cbn [nth] in Q10, Q01, Q11.
  pose proof (L 1 0) as L10. pose proof (L 0 1) as L01. cbn [Rsum] in L10, L01. unfold vget in L10 at 2 4. unfold vget in L01 at 2 4. cbn [nth] in L10, L01.
  constructor; try assumption.
  - repeat split; lra.
  - split; lra.
  - rewrite EB. unfold cvalue, half_x, Var_ge. cbn [la lb lvar fneg f1 R_ops]. unfold vget. cbn [Z.to_nat nth]. change (Pos.to_nat 1) with 1%nat. cbn [nth]. lra.
Qed.

(** The inner solver, started there, reports SATISFIED_KKT_TOL. *)
Lemma half_qp_satisfied : forall gk errs qp outs dx,
  LinearizeAndFillQP half_x 0 half_pr = Ok (errs, qp) ->
  ComputeStepDirection ldlt2t ns_ex_qr ns_ex_llt gk default_NLSParams half_pr qp = Ok (outs, dx) ->
  exists qpo, outs = InteriorPointOut qpo /\ qp_termination_state qpo = SATISFIED_KKT_TOL.
Proof.
  intros gk errs qp outs dx HL HD. unfold ComputeStepDirection in HD. cbn [use_null_space half_pr pr_ineq pr_eq] in HD.
  inv_bind HD. inv_bind HD. destruct a0 as [st' o]. apply Ok_inj in HD. apply pair_inj in HD. destruct HD as [<- <-].
  exists o. split; [reflexivity|]. rename a into st. destruct (half_flat errs qp gk st HL Hm) as [FQ RD].
  set (params := inner_qp_params default_NLSParams half_pr) in *. pose proof (fl_wf _ _ FQ) as W.
  unfold IP_Solve in Hm0. rewrite (rd_p _ _ RD) in Hm0. inv_bind Hm0. inv_bind Hm0. inv_bind Hm0. inv_bind Hm0.
  match goal with X : ComputeInitialGuess _ _ _ _ = Ok ?a |- _ => rename a into st0, X into HG end.
  change (p_initialize_mu_with_complementarity params) with false in Hm0. cbn iota in Hm0. change (p_initial_mu params) with 1 in Hm0.
  change (Z.to_nat (p_max_iterations params)) with (4 + 6)%nat in Hm0.
  assert (NU : p_initial_guess_method params <> USER_PROVIDED) by discriminate.
  destruct (C15_initial_guess _ _ _ _ _ W RD NU HG) as (RD0 & SZ & _ & _).
  destruct (C15_naive_guess ldlt2t params qp st st0 W RD eq_refl HG) as (_ & _ & XL).
  assert (I0 : interior qp st0) by (apply (init_interior ldlt2t params qp st st0 W RD); assumption).
  assert (X0 : forall i, vget (x_block st0) i = 0).
  { intro i. specialize (XL [0; 0]). assert (FE : ineq_feasible qp [0; 0]).
    { intros m Hm'. rewrite (fl_ni _ _ FQ) in Hm'. assert (m = 0)%nat by lia. subst m. rewrite (fl_a _ _ FQ), (fl_v _ _ FQ), (fl_b _ _ FQ). unfold vget. cbn [nth]. lra. }
    specialize (XL FE i). replace (vget [0; 0] i) with 0 in XL by (destruct i as [|[|i]]; [reflexivity..|]; destruct i; reflexivity).
    rewrite Rabs_R0 in XL. apply Rabs_zero. pose proof (Rabs_pos (vget (x_block st0) i)). lra. }
  destruct (SZ 0%nat) as [S0 Z0]; [rewrite (fl_ni _ _ FQ); lia|].
  rewrite (fl_a _ _ FQ), (fl_v _ _ FQ), (fl_b _ _ FQ), X0, Rmax_right in S0 by lra.
  assert (AT : at_state 1 qp (EvaluateKKTConditions true qp st0) 1 1).
  { split; [apply eval_ready; exact RD0|]. split; [exact I0|].
    change (x_block (EvaluateKKTConditions true qp st0)) with (x_block st0). change (s_block (EvaluateKKTConditions true qp st0)) with (s_block st0).
    change (z_block (EvaluateKKTConditions true qp st0)) with (z_block st0). rewrite !X0, Z0, S0. repeat split; lra. }
  destruct (flat_loop params qp 6 [] _ FQ AT eq_refl eq_refl) as (r & E & T).
  - unfold params. cbn [inner_qp_params p_sigma flit R_ops]. unfold lit_0_1, Q2R. cbn [Qnum Qden]. lra.
  - unfold params. cbn [inner_qp_params p_termination_kkt_tol default_NLSParams n_termination_kkt_tolerance flit R_ops]. unfold lit_1em6, Q2R. cbn [Qnum Qden]. lra.
  - unfold params. cbn [inner_qp_params p_termination_complementarity_tol flit R_ops]. unfold lit_1em6, Q2R. cbn [Qnum Qden]. lra.
  - rewrite Hm0 in E. apply Ok_inj in E. subst r. exact T.
Qed.

(** C56 (inequality constraints), C88: from (0, 1), Solve with the default parameters returns (0, 1) with SATISFIED_FIRST_ORDER_TOL
    after one iteration, whose QP reported SATISFIED_KKT_TOL; the hypotheses of C88 hold. *)
Definition half_solve eigs g := NLS_Solve ldlt2t ns_ex_qr ns_ex_llt eigs None (@None (unit -> NLSIteration R -> unit * bool)) default_NLSParams half_pr g half_x tt.
Example C88_case : forall eigs g, exists r info qpo,
  half_solve eigs g = Ok r /\ res_vars r = half_x /\ out_termination_state (res_out r) = SATISFIED_FIRST_ORDER_TOL /\
  out_iterations (res_out r) = [info] /\ it_qp_outputs info = InteriorPointOut qpo /\ qp_termination_state qpo = SATISFIED_KKT_TOL /\
  (forall c, In c (pr_ineq half_pr) -> 0 <= cvalue c (res_vars r)) /\
  well_posed default_NLSParams half_pr half_x /\ distinct_indices half_pr /\ derivatives_correct half_pr /\ affine_problem half_pr /\ value_consistent half_pr.
Proof.
  intros eigs g. destruct (half_total 1 eigs g tt) as [r H]. fold half_x in H.
  assert (TP : 0 < n_absolute_first_derivative_tol (default_NLSParams : NLSParams R)).
  { cbn [default_NLSParams n_absolute_first_derivative_tol flit R_ops]. unfold lit_1em6, Q2R. cbn [Qnum Qden]. lra. }
  destruct (C56_zero_gradient_start _ _ _ _ _ _ _ _ _ _ _ _ half_posed ltac:(discriminate) eq_refl half_distinct half_derivatives ltac:(cbn; lia) TP (half_gradient 1) H) as (EX & ET & EL).
  destruct (out_iterations (res_out r)) as [|info [|? ?]] eqn:EO; try discriminate EL.
  destruct (solve_history _ _ _ _ _ _ _ _ _ _ _ _ H) as (sts & css & exs & A & B & C & D & _ & HH & _). rewrite EO in HH.
  destruct (HH 0%nat info eq_refl) as (HI & _). apply iterate_spec in HI. destruct HI as [_ (qp & dx & cand & HL & HD & _)].
  rewrite A in HL. cbn [ns_vars ns_lambda] in HL. change (n_lambda_initial (default_NLSParams : NLSParams R)) with 0 in HL.
  destruct (half_qp_satisfied _ _ _ _ _ HL HD) as (qpo & E1 & E2).
  exists r, info, qpo. split; [exact H|]. split; [exact EX|]. split; [exact ET|]. split; [exact EO|]. split; [exact E1|]. split; [exact E2|].
  split; [|split; [exact half_posed|split; [exact half_distinct|split; [exact half_derivatives|split; [exact half_affine|exact half_consistent]]]]].
  intros c [<-|[]]. rewrite EX. unfold cvalue, half_x, Var_ge. cbn [la lb lvar fneg f1 R_ops]. unfold vget. cbn [Z.to_nat nth].
  change (Pos.to_nat 1) with 1%nat. cbn [nth]. lra.
Qed.
(** What the theorems say about it. *)
Example C88_case_applies : forall eigs g, exists r info dx, half_solve eigs g = Ok r /\ out_iterations (res_out r) = [info] /\
  (forall v, length v = 2%nat -> 0 <= vget v 1 ->
     cost_at half_pr half_x <= cost_at half_pr v + (n_absolute_first_derivative_tol default_NLSParams
       + n_termination_kkt_tolerance default_NLSParams * (norm2 2 (vget dx) + 0 * it_penalty info) + it_penalty info * 0 + 1 / 1000000)
       + n_termination_kkt_tolerance default_NLSParams * norm2 2 (fun i => vget v i - vget half_x i)
       + / 2 * Rmax (it_lambda info) 0 * Rsum 2 (fun i => (vget v i - vget half_x i) ^ 2) + it_penalty info * 0).
Proof.
  intros eigs g. destruct (C88_case eigs g) as (r & info & qpo & H & EX & ET & EO & E1 & E2 & FX & WP & DI & DC & AF & VC).
  assert (NI : pr_ineq half_pr <> []) by discriminate.
  assert (RO : retraction_ok (@None (list R -> list R -> R -> list R))) by (intros f E; discriminate).
  destruct (C88_linear_least_squares_in_a_box _ _ _ _ _ _ _ _ _ _ _ _ WP RO NI DI AF VC H ET FX) as (ini & info' & EL & X).
  rewrite EO in EL. destruct ini as [|? [|? ?]]; try discriminate EL. injection EL as <-. destruct (X qpo E1 E2) as (_ & k & errs & qp & dx & _ & _ & LD & Y).
  exists r, info, dx. split; [exact H|]. split; [exact EO|]. intros v LV HV. rewrite EX in Y. apply (Y v LV); [reflexivity|].
  intros c [<-|[]]. unfold cvalue, Var_ge. cbn [la lb lvar fneg f1 R_ops Z.to_nat]. change (Pos.to_nat 1) with 1%nat. lra.
Qed.

(** C56: started at (0, -1), where the constraint x1 >= 0 is violated by 1, the same problem returns (0, -1) with
    SATISFIED_FIRST_ORDER_TOL: the state does not mean that the inequality constraints hold (C42 has them hold at the end if they
    hold at the start). *)
Example C56_infeasible_start : forall eigs g, exists r,
  NLS_Solve ldlt2t ns_ex_qr ns_ex_llt eigs None (@None (unit -> NLSIteration R -> unit * bool)) default_NLSParams half_pr g [0; -1] tt = Ok r /\
  res_vars r = [0; -1] /\ out_termination_state (res_out r) = SATISFIED_FIRST_ORDER_TOL /\
  exists c, In c (pr_ineq half_pr) /\ cvalue c (res_vars r) = -1.
Proof.
  intros eigs g. destruct (half_total (-1) eigs g tt) as [r H].
  assert (TP : 0 < n_absolute_first_derivative_tol (default_NLSParams : NLSParams R)).
  { cbn [default_NLSParams n_absolute_first_derivative_tol flit R_ops]. unfold lit_1em6, Q2R. cbn [Qnum Qden]. lra. }
  destruct (C56_zero_gradient_start _ _ _ _ _ _ _ _ _ _ _ _ (half_posed_any (-1)) ltac:(discriminate) eq_refl half_distinct half_derivatives ltac:(cbn; lia) TP (half_gradient (-1)) H) as (EX & ET & EL).
  exists r. split; [exact H|]. split; [exact EX|]. split; [exact ET|]. exists (Var_ge 1%Z 0). split; [left; reflexivity|].
  rewrite EX. unfold cvalue, Var_ge. cbn [la lb lvar fneg f1 R_ops]. unfold vget. cbn [Z.to_nat nth].
  change (Pos.to_nat 1) with 1%nat. cbn [nth]. lra.
Qed.
