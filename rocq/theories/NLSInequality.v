(** Inequality constrained problems, in exact arithmetic (C88): what SATISFIED_FIRST_ORDER_TOL certifies when the last step was
    computed by the interior point method, whatever the accuracy of its factorisations. *)
From Coq Require Import String List Bool Arith ZArith QArith Reals Lra Lia.
From Verif Require Import Scalar Outcome LinAlg Structs Constraint QPModel NullSpace Residual Nonlinear RInst Spec
  Props_Constraint QPBlocks QPAlgebra QPNewton QPAlpha QPStep QPTrace QPInit QPSolve QPDirect NSProps ResProps LinProps
  MeritProps LSProps LSSuccess LSPoly NLSTrace NLSProps NLSReal NLSBox Penalty NLSTotal Optimality.
Import ListNotations.
Local Open Scope outcome_scope.
Local Open Scope string_scope.
Local Open Scope list_scope.
Local Open Scope R_scope.

(** ** The QP *)

(** The gradient of the Lagrangian, tested with u. *)
Lemma kkt_dot : forall (p : QP R) x y z u, wf_qp p ->
  bform p x u + gdot p u =
    Rsum (nv p) (fun i => kkt_dual p x y z i * vget u i)
    + Rsum (neq p) (fun k => vget y k * Rsum (nv p) (fun j => Ae p k j * vget u j))
    + Rsum (nineq p) (fun m => vget z m * (ca p m * vget u (cv p m))).
Proof.
  intros p x y z u W.
  assert (B : bform p x u = Rsum (nv p) (fun i => Rsum (nv p) (fun j => Gs p i j * vget x j) * vget u i)).
  { rewrite bform_sym. unfold bform. apply Rsum_ext. intros i Hi. rewrite <- Rsum_scal_r. apply Rsum_ext. intros j Hj. ring. }
  assert (S1 : Rsum (neq p) (fun k => vget y k * Rsum (nv p) (fun i => Ae p k i * vget u i))
       = Rsum (nv p) (fun i => Rsum (neq p) (fun k => Ae p k i * vget y k) * vget u i)).
  { rewrite (Rsum_ext (neq p) _ (fun k => Rsum (nv p) (fun i => vget y k * (Ae p k i * vget u i))))
      by (intros; rewrite Rsum_scal_l; reflexivity).
    rewrite Rsum_swap. apply Rsum_ext. intros i Hi. rewrite <- Rsum_scal_r. apply Rsum_ext. intros; ring. }
  assert (S2 : Rsum (nineq p) (fun m => vget z m * (ca p m * vget u (cv p m)))
       = Rsum (nv p) (fun i => Rsum (nineq p) (fun m => if (cv p m =? i)%nat then ca p m * vget z m else 0) * vget u i)).
  { rewrite (scatter_dot p (fun m => ca p m * vget z m) (fun i => vget u i) W). apply Rsum_ext. intros; ring. }
  unfold gdot. rewrite B, S1, S2, <- !Rsum_plus. apply Rsum_ext. intros i Hi. unfold kkt_dual. ring.
Qed.

Lemma Rsum_const_le : forall n (f : nat -> R) t, (forall k, (k < n)%nat -> f k <= t) -> Rsum n f <= INR n * t.
Proof.
  induction n as [|n IH]; intros f t H; [cbn; lra|]. rewrite S_INR. cbn [Rsum].
  pose proof (IH f t (fun k Hk => H k (Nat.lt_lt_succ_r _ _ Hk))). pose proof (H n (Nat.lt_succ_diag_r n)). lra.
Qed.

(** What a converged interior point solve of a QP for which x = 0 is feasible certifies. *)
Lemma qp_certificate : forall ldlt g params (p : QP R) st st' out,
  Setup g (Some p) = Ok st -> IP_Solve ldlt params st = Ok (st', out) ->
  p_initial_guess_method params <> USER_PROVIDED ->
  qp_termination_state out = SATISFIED_KKT_TOL ->
  (forall m, (m < nineq p)%nat -> 0 <= cb p m) ->
  let x := x_block st' in let tol := p_termination_kkt_tol params in
  exists L zc : R,
    0 <= zc /\ 0 <= tol /\ length x = nv p /\
    ((0 < neq p)%nat -> exists lm, qp_lagrange_multipliers out = Some lm /\ L = lm_l_infinity lm /\ 0 <= L) /\
    (forall k, (k < neq p)%nat -> Rabs (kkt_eq p x k) <= tol) /\
    qform p x + zc <= - gdot p x + tol * norm2 (nv p) (vget x) + Rmax L 0 * (INR (neq p) * tol + eq_l1 p)
      + INR (nineq p) * p_termination_complementarity_tol params /\
    (forall u, (forall m, (m < nineq p)%nat -> 0 <= ca p m * vget u (cv p m) + cb p m) ->
       - gdot p u <= tol * norm2 (nv p) (vget u) + zc + bform p x u
                     + Rmax L 0 * Rsum (neq p) (fun k => Rabs (Rsum (nv p) (fun j => Ae p k j * vget u j)))).
Proof.
  intros ldlt g params p st st' out HSet H HU HT HB x tol.
  destruct (C12_Solve_run _ _ _ _ _ H) as (p' & st1 & mu & tr & Hp & _ & HC & HS & HR & _ & HL & LM & _).
  assert (p' = p).
  { unfold Setup in HSet. do 5 inv_bind HSet. apply Ok_inj in HSet. subst st. cbn [ip_p] in Hp. congruence. }
  subst p'. destruct (Setup_ready _ _ _ HSet HC) as [W RD].
  assert (NU : p_initial_guess_method params = USER_PROVIDED -> interior p st) by (intro E; destruct (HU E)).
  destruct (C06_Solve_interior _ _ _ _ _ _ W RD NU H) as (POS & _).
  destruct (C12_satisfied_means_satisfied _ _ _ _ _ _ W RD NU H HT) as (mu' & D1 & _ & D3 & D4 & D5 & _).
  destruct (start_ok _ _ _ _ _ _ W RD NU HS) as [E1 I1].
  assert (RD' : ready p st') by (apply (Solve_ready ldlt params p st st' out W RD NU H)).
  assert (SG : slack_gap p st').
  { destruct HS as (st0 & H0 & E0 & _). destruct (C15_initial_guess _ _ _ _ _ W RD HU H0) as (_ & SL & _ & FE).
    assert (FE' : ineq_feasible p (x_block st0)).
    { apply FE. exists (vzero (nv p)). intros m Hm. assert (Z : vget (vzero (nv p) : list R) (cv p m) = 0) by (apply vzero_get).
      rewrite Z. specialize (HB m Hm). lra. }
    rewrite HL. apply (run_gap ldlt params p mu st1 tr W (evaluated_ready _ _ E1) I1); [|exact HR].
    intros m' Hm'. subst st1. change (x_block (EvaluateKKTConditions true p st0)) with (x_block st0).
    change (s_block (EvaluateKKTConditions true p st0)) with (s_block st0).
    destruct (SL m' Hm') as [ES _]. specialize (FE' m' Hm'). unfold kkt_ineq. rewrite ES.
    unfold Rmax. destruct (Rle_dec _ _); lra. }
  fold x tol in D1, D3, D4. set (y := y_block st') in *. set (s := s_block st') in *. set (z := z_block st') in *.
  assert (TP : 0 <= tol) by (unfold norm2 in D1; pose proof (sqrt_pos (Rsum (nv p) (fun i => kkt_dual p x y z i * kkt_dual p x y z i))); lra).
  assert (LX : length x = nv p) by (unfold x, x_block; rewrite xblk_length by apply RD'; apply (dN_nv p st' RD')).
  assert (LY : length y = neq p) by (unfold y, y_block; rewrite yblk_length by apply RD'; apply (dK_ne p st' RD')).
  assert (AbsN : forall n f k, (k < n)%nat -> Rabs (f k) <= norm2 n f).
  { intros n f k Hk. unfold norm2. rewrite <- sqrt_Rsqr_abs. apply sqrt_le_1_alt. unfold Rsqr.
    apply (Rsum_pos_term n (fun k => f k * f k) k); [|exact Hk]. intros. apply sq_nonneg. }
  assert (KE : forall k, (k < neq p)%nat -> Rabs (kkt_eq p x k) <= tol) by (intros k Hk; pose proof (AbsN _ (kkt_eq p x) k Hk); lra).
  set (L := flinf y).
  assert (YL : forall k, (k < neq p)%nat -> Rabs (vget y k) <= Rmax L 0).
  { intros k Hk. eapply Rle_trans; [|apply Rmax_l]. apply (flinf_bound y k). rewrite LY. exact Hk. }
  assert (KD : forall u, Rabs (Rsum (nv p) (fun i => kkt_dual p x y z i * vget u i)) <= tol * norm2 (nv p) (vget u)).
  { intro u. eapply Rle_trans; [apply Rsum_CS|]. fold (norm2 (nv p) (kkt_dual p x y z)). fold (norm2 (nv p) (vget u)).
    apply Rmult_le_compat_r; [apply sqrt_pos|lra]. }
  assert (SZ : Rsum (nineq p) (fun m => vget s m * vget z m) <= INR (nineq p) * p_termination_complementarity_tol params).
  { destruct (Nat.eq_dec (nineq p) 0) as [E|E]; [rewrite E; simpl; lra|].
    specialize (D5 ltac:(lia)). assert (0 < INR (nineq p)) by (apply lt_0_INR; lia).
    apply (Rmult_lt_compat_l (INR (nineq p))) in D5; [|assumption]. unfold Rdiv in D5.
    rewrite (Rmult_comm (Rsum _ _)), <- Rmult_assoc, Rinv_r, Rmult_1_l in D5 by lra. fold s z in D5. lra. }
  exists L, (Rsum (nineq p) (fun m => vget z m * cb p m)).
  split; [|split; [|split; [|split; [|split; [|split]]]]]; try assumption.
  - apply Rsum_nonneg. intros m Hm. apply Rmult_le_pos; [apply Rlt_le, (POS m Hm)|apply HB; exact Hm].
  - intro HK. rewrite LM. unfold ComputeLagrangeMultiplierSummary. change (yblk (ip_dims st') (ip_vars st')) with y.
    rewrite LY. destruct (0 <? neq p)%nat eqn:EL; [|apply Nat.ltb_ge in EL; lia].
    eexists. split; [reflexivity|]. split; [reflexivity|]. eapply Rle_trans; [apply Rabs_pos|apply (flinf_bound y 0%nat)]. rewrite LY. exact HK.
  - pose proof (kkt_dot p x y z x W) as E. change (bform p x x) with (qform p x) in E.
    assert (E2 : Rsum (neq p) (fun k => vget y k * Rsum (nv p) (fun j => Ae p k j * vget x j)) <= Rmax L 0 * (INR (neq p) * tol + eq_l1 p)).
    { eapply Rle_trans with (Rsum (neq p) (fun k => Rmax L 0 * (Rabs (kkt_eq p x k) + Rabs (vget (qb p) k)))).
      - apply Rsum_le. intros k Hk. replace (Rsum (nv p) (fun j => Ae p k j * vget x j)) with (kkt_eq p x k - vget (qb p) k) by (unfold kkt_eq; ring).
        eapply Rle_trans; [apply Rle_abs|]. rewrite Rabs_mult.
        apply Rmult_le_compat; [apply Rabs_pos|apply Rabs_pos|apply YL; exact Hk|].
        eapply Rle_trans; [apply Rabs_triang|]. rewrite Rabs_Ropp. lra.
      - rewrite Rsum_scal_l, Rsum_plus. apply Rmult_le_compat_l; [apply Rmax_r|].
        apply Rplus_le_compat; [apply Rsum_const_le; exact KE|]. unfold eq_l1. lra. }
    assert (E3 : Rsum (nineq p) (fun m => vget z m * (ca p m * vget x (cv p m)))
                 <= Rsum (nineq p) (fun m => vget s m * vget z m) - Rsum (nineq p) (fun m => vget z m * cb p m)).
    { rewrite <- Rsum_minus. apply Rsum_le. intros m Hm. specialize (SG m Hm). fold x s in SG.
      replace (ca p m * vget x (cv p m)) with (kkt_ineq p x s m + vget s m - cb p m) by (unfold kkt_ineq; ring).
      assert (vget z m * kkt_ineq p x s m <= 0).
      { destruct (POS m Hm) as [_ PZ]. fold z in PZ. rewrite <- (Rmult_0_r (vget z m)). apply Rmult_le_compat_l; lra. }
      lra. }
    pose proof (KD x) as K1. pose proof (Rle_abs (Rsum (nv p) (fun i => kkt_dual p x y z i * vget x i))) as K2. lra.
  - intros u FU. pose proof (kkt_dot p x y z u W) as E.
    assert (E2 : - Rsum (neq p) (fun k => vget y k * Rsum (nv p) (fun j => Ae p k j * vget u j))
                 <= Rmax L 0 * Rsum (neq p) (fun k => Rabs (Rsum (nv p) (fun j => Ae p k j * vget u j)))).
    { eapply Rle_trans; [apply Rle_abs|]. rewrite Rabs_Ropp. eapply Rle_trans; [apply Rsum_Rabs|]. rewrite <- Rsum_scal_l.
      apply Rsum_le. intros k Hk. rewrite Rabs_mult. apply Rmult_le_compat_r; [apply Rabs_pos|apply YL; exact Hk]. }
    assert (E3 : - Rsum (nineq p) (fun m => vget z m * cb p m) <= Rsum (nineq p) (fun m => vget z m * (ca p m * vget u (cv p m)))).
    { assert (X : 0 <= Rsum (nineq p) (fun m => vget z m * (ca p m * vget u (cv p m))) + Rsum (nineq p) (fun m => vget z m * cb p m)).
      { rewrite <- Rsum_plus. apply Rsum_nonneg. intros m Hm. destruct (POS m Hm) as [_ PZ]. fold z in PZ. specialize (FU m Hm).
        rewrite <- Rmult_plus_distr_l. apply Rmult_le_pos; lra. }
      lra. }
    pose proof (KD u) as K1. pose proof (Rle_abs (- Rsum (nv p) (fun i => kkt_dual p x y z i * vget u i))) as K2. rewrite Rabs_Ropp in K2. lra.
Qed.

(** ** The nonlinear solver *)

(** The QP's constraints are the problem's, seen from x. *)
Lemma qp_constraints : forall v lambda (pr : Problem R) errs qp, LinearizeAndFillQP v lambda pr = Ok (errs, qp) ->
  nineq qp = length (pr_ineq pr) /\
  forall m, (m < nineq qp)%nat -> exists c, In c (pr_ineq pr) /\
    ca qp m = la c /\ cv qp m = Z.to_nat (lvar c) /\ cb qp m = cvalue c v /\ (cv qp m < length v)%nat.
Proof.
  intros v lambda pr errs qp HL.
  unfold LinearizeAndFillQP in HL. inv_bind HL. destruct a as [[G cc] f]. inv_bind HL. destruct a as [[rows b] e].
  inv_bind HL. rename a into cons. apply Ok_inj in HL. apply pair_inj in HL. destruct HL as [_ EQ].
  apply shift_spec in Hm1.
  assert (EC : qcons qp = cons) by (rewrite <- EQ; reflexivity).
  assert (EN : nineq qp = length (pr_ineq pr)) by (unfold nineq; rewrite EC, <- (Forall2_len _ _ _ _ _ Hm1); reflexivity).
  split; [exact EN|]. intros m Hm'. rewrite EN in Hm'. exists (nth m (pr_ineq pr) lic0). split; [apply nth_In; exact Hm'|].
  destruct (Forall2_nth_both _ _ _ _ _ m lic0 lic0 Hm1 Hm') as [B X].
  unfold ca, cb, cv, con. rewrite EC, X. cbn [la lb lvar ShiftTo fadd fmul R_ops]. unfold cvalue.
  split; [reflexivity|]. split; [reflexivity|]. split; [reflexivity|]. lia.
Qed.

Lemma eq_count : forall v lambda (pr : Problem R) errs qp, distinct_indices pr ->
  LinearizeAndFillQP v lambda pr = Ok (errs, qp) -> neq qp = list_sum (map res_dim (pr_eq pr)).
Proof.
  intros v lambda pr errs qp DI HL. destruct (C24_linearised_qp _ _ _ _ _ DI HL) as (_ & _ & _ & _ & LE & _ & _).
  specialize (LE []). apply (f_equal (@length R)) in LE. rewrite mkvec_length in LE. fold (neq qp) in LE. rewrite LE.
  unfold lin_equalities. induction (pr_eq pr) as [|r l IH]; [reflexivity|]. cbn [flat_map map list_sum fold_right].
  rewrite app_length, mkvec_length. change (fold_right Nat.add 0%nat) with list_sum. rewrite IH. reflexivity.
Qed.

Section Inequality.
  Variable ldlt : mat R -> option (mat R).
  Variable qr : mat R -> QRResult R.
  Variable llt : mat R -> option (list R -> list R).
  Variable eigs : mat R -> QPEigenvalues R.
  Variable retract : option (list R -> list R -> R -> list R).
  Context {S : Type}.
  Variable cb : option (S -> NLSIteration R -> S * bool).
  Variable pr : Problem R.
  Variable g : nat -> garbage R.

  Notation solve pa := (solve ldlt qr llt eigs retract cb pa pr g).

  (** |J u|^2 + lambda |u|^2 *)
  Definition damped_curvature (x : list R) (lambda : R) (u : list R) : R :=
    lin_curvature pr x (vget u) + Rmax lambda 0 * Rsum (length x) (fun i => vget u i ^ 2).

  (** |J_c u|_1: how fast the equality constraints change along u. *)
  Definition constraint_change (x u : list R) : R :=
    Rlsum (map (fun r => Rsum (res_dim r) (fun k => Rabs (jac_dx r x u k))) (pr_eq pr)).
  (** x + u is in the box. *)
  Definition in_the_box (x u : list R) : Prop :=
    length u = length x /\ forall c, In c (pr_ineq pr) -> 0 <= cvalue c (vadd x u).

  Lemma first_order_certificate : forall pa vars cs r,
    well_posed pa pr vars -> retraction_ok retract -> pr_ineq pr <> [] -> distinct_indices pr -> value_consistent pr ->
    solve pa vars cs = Ok r -> out_termination_state (res_out r) = SATISFIED_FIRST_ORDER_TOL ->
    let x := res_vars r in
    (forall c, In c (pr_ineq pr) -> 0 <= cvalue c x) ->
    let tol := n_absolute_first_derivative_tol pa in let kkt_tol := n_termination_kkt_tolerance pa in
    let K := INR (list_sum (map res_dim (pr_eq pr))) in let M := INR (length (pr_ineq pr)) in
    exists init info, out_iterations (res_out r) = init ++ [info] /\
    forall qpo, it_qp_outputs info = InteriorPointOut qpo -> qp_termination_state qpo = SATISFIED_KKT_TOL ->
    eq_l1_at pr x < tol + K * kkt_tol /\ length x = pdim pr /\
    (forall r, In r (pr_costs pr) \/ In r (pr_eq pr) -> idx_ok r (length x)) /\
    exists k errs qp dx zc, LinearizeAndFillQP x (it_lambda info) pr = Ok (errs, qp) /\
      ComputeStepDirection ldlt qr llt (g k) pa pr qp = Ok (it_qp_outputs info, dx) /\ length dx = length x /\
      nv qp = length x /\ psd qp /\ 0 <= zc /\ err_f errs = cost_at pr x /\ eq_l1_at pr x = eq_l1 qp /\
      let B := tol + kkt_tol * (norm2 (length x) (vget dx) + K * it_penalty info) + it_penalty info * eq_l1_at pr x + M / 1000000 in
      qform qp dx + zc <= B /\
      forall u, in_the_box x u ->
        - gdot qp u <= kkt_tol * norm2 (length x) (vget u) + zc + bform qp dx u + it_penalty info * constraint_change x u.
  Proof.
    intros pa vars cs r WP RO NI DI VC H HT x FX tol kkt_tol K M. pose proof (solve_valid _ _ _ _ _ _ _ _ _ _ _ _ H) as PV.
    destruct (solve_history _ _ _ _ _ _ _ _ _ _ _ _ H) as (sts & css & exs & A & B & C & D & HY).
    pose proof (vars_length ldlt qr llt eigs retract cb pr g pa vars r sts css exs (npv_ls _ PV) RO A HY) as VL.
    destruct HY as (_ & HH & TT). rewrite HT in TT. destruct TT as (j & info & EL & EN & EE).
    destruct (HH j info EN) as (HI & _). apply iterate_spec in HI. destruct HI as [_ HI].
    pose proof (iteration_vars _ _ _ _ _ _ _ _ _ _ _ _ (npv_ls _ PV) HI) as [V1 _].
    destruct HI as (qp & dx & cand & HL & HD & HQ & HC & HP & HS & HU & IL & _).
    assert (SR : it_step_result info = FIRST_ORDER_SATISFIED).
    { rewrite EE in HU. unfold UpdateLambdaAndCheckExitConditions in HU. destruct (it_step_result info); try reflexivity; exfalso; [inv_bind HU|..];
        repeat match type of HU with (if ?b then _ else _) = _ => destruct b end; discriminate. }
    rewrite SR in V1. specialize (V1 ltac:(discriminate)).
    assert (XV : x = ns_vars (sts j)) by (unfold x; rewrite <- C, EL; exact V1).
    assert (LX : length x = pdim pr) by (rewrite XV, VL by lia; apply (wp_vars _ _ _ WP)).
    assert (IX : forall r, In r (pr_costs pr) \/ In r (pr_eq pr) -> idx_ok r (length x))
      by (apply (wp_idx pr pa vars); [exact WP|]; rewrite LX; symmetry; apply (wp_vars _ _ _ WP)).
    destruct (nth_error_split _ _ EN) as (l1 & l2 & E & El).
    exists l1, info. split.
    { destruct l2; [exact E|]. rewrite E, app_length in EL. simpl in EL. lia. }
    rewrite <- XV in HL. rewrite <- IL in HL.
    intros qpo EO ET.
    pose proof (C25_linearisation_errors _ _ _ _ _ VC HL) as CE. rewrite (eval_errors_R _ _ IX) in CE. apply Ok_inj in CE.
    assert (E1 : eq_l1_at pr x = eq_l1 qp) by (rewrite <- (violation_l1 _ _ _ _ _ DI HL), <- CE; reflexivity).
    destruct (C24_linearised_qp _ _ _ _ _ DI HL) as ((GR & GC & CL & AC & AR) & OBJ & _ & QF & _ & _ & _).
    destruct (C24_convex _ _ _ _ _ DI HL) as [PSD _].
    assert (NV : nv qp = length x) by (rewrite LX; exact CL).
    pose proof (eq_count _ _ _ _ _ DI HL) as NE. destruct (qp_constraints _ _ _ _ _ HL) as [NC QC].
    assert (HD0 := HD). unfold ComputeStepDirection, use_null_space in HD.
    assert (HD' : (do st <- Setup (g j) (Some qp); do '(st', outs) <- IP_Solve ldlt (inner_qp_params pa pr) st; Ok (InteriorPointOut outs, x_block st'))
                  = Ok (it_qp_outputs info, dx)).
    { destruct (pr_ineq pr); [destruct NI; reflexivity|exact HD]. }
    clear HD. inv_bind HD'. inv_bind HD'. destruct a0 as [st' outs]. apply Ok_inj in HD'. apply pair_inj in HD'. destruct HD' as [EI EX].
    rewrite EO in EI. injection EI as ->. rename a into st.
    assert (NU : p_initial_guess_method (inner_qp_params pa pr) <> USER_PROVIDED).
    { unfold inner_qp_params. cbn [p_initial_guess_method]. destruct (pr_eq pr); discriminate. }
    assert (HB : forall m, (m < nineq qp)%nat -> 0 <= Spec.cb qp m).
    { intros m Hm'. destruct (QC m Hm') as (c & Hc & _ & _ & -> & _). apply FX. exact Hc. }
    destruct (qp_certificate _ _ _ _ _ _ _ Hm Hm0 NU ET HB) as (L & zc & ZC & TP & LD & YL & KE & QB & QU).
    rewrite EX in *. change (p_termination_kkt_tol (inner_qp_params pa pr)) with kkt_tol in *.
    assert (TC : p_termination_complementarity_tol (inner_qp_params pa pr) = / 1000000) by (change (1 / 1000000 = / 1000000); lra).
    rewrite TC in QB.
    destruct (C28_line_search_log retract (ls_of pa pr (sts j) info dx) (npv_ls _ PV) _ _ _ HS) as (_ & _ & _ & _ & ini & lst & _ & _ & _ & RS).
    rewrite SR in RS. destruct RS as (_ & _ & STA). apply stationary_test in STA. fold tol in STA.
    destruct (cost_derivative _ _ _ AR HC) as (_ & DF & DE). fold (gdot qp dx) in DF. rewrite DF, DE in STA.
    assert (SG : Rabs (Rsum (neq qp) (fun k => Sign (vget (qb qp) k) * kkt_eq qp dx k)) <= K * kkt_tol).
    { unfold K. rewrite <- NE. eapply Rle_trans; [apply Rsum_Rabs|]. apply Rsum_const_le. intros k Hk. rewrite Rabs_mult.
      rewrite <- (Rmult_1_l kkt_tol). apply Rmult_le_compat; [apply Rabs_pos|apply Rabs_pos| |apply KE; exact Hk].
      unfold Sign. destruct (fgtb _ _); [cbn; rewrite Rabs_R1; lra|]. destruct (fltb _ _); [cbn; rewrite Rabs_Ropp, Rabs_R1; lra|cbn; rewrite Rabs_R0; lra]. }
    set (sg := Rsum (neq qp) (fun k => Sign (vget (qb qp) k) * kkt_eq qp dx k)) in *.
    assert (S1 : Rabs (gdot qp dx) < tol) by (eapply Rle_lt_trans; [apply Rmax_l|exact STA]).
    assert (S2 : Rabs (- eq_l1 qp + sg) < tol) by (eapply Rle_lt_trans; [apply Rmax_r|exact STA]).
    split.
    { rewrite E1. apply Rabs_def2 in S2. pose proof (Rle_abs sg). lra. }
    split; [exact LX|]. split; [exact IX|].
    exists j, (it_errors_initial info), qp, dx, zc. split; [exact HL|]. split; [exact HD0|]. split; [congruence|]. split; [exact NV|].
    split; [exact PSD|]. split; [exact ZC|]. split; [rewrite <- CE; reflexivity|]. split; [exact E1|]. intro B0.
    assert (PL : (0 < neq qp)%nat -> Rmax L 0 <= it_penalty info).
    { intro HK. destruct (YL HK) as (lm & EM & EL2 & L0). rewrite Rmax_left by exact L0. rewrite HP, EO. unfold update_penalty.
      destruct (pr_eq pr) as [|e0 es]; [exfalso; rewrite NE in HK; cbn in HK; lia|]. cbn [MaybeGetLagrangeMultipliers]. rewrite EM.
      cbn [SelectPenalty]. rewrite <- EL2. pose proof (npv_ps _ PV). destruct (R_fgtb L (ns_penalty (sts j))) as [G|G]; [|lra].
      cbn [fmul R_ops]. rewrite <- (Rmult_1_r L) at 1. apply Rmult_le_compat_l; lra. }
    assert (QB' : qform qp dx + zc <= B0).
    { unfold B0. assert (X : Rmax L 0 * (INR (neq qp) * kkt_tol + eq_l1 qp) <= it_penalty info * (K * kkt_tol + eq_l1_at pr x)).
      { destruct (Nat.eq_dec (neq qp) 0) as [Z|Z].
        - unfold K. rewrite E1, <- NE. unfold eq_l1. rewrite Z. cbn. lra.
        - rewrite E1. unfold K. rewrite <- NE. apply Rmult_le_compat_r; [|apply PL; lia].
          apply Rplus_le_le_0_compat; [apply Rmult_le_pos; [apply pos_INR|exact TP]|apply Rsum_nonneg; intros; apply Rabs_pos]. }
      rewrite NC in QB. fold M in QB. rewrite NV in QB. pose proof (Rle_abs (- gdot qp dx)) as G1. rewrite Rabs_Ropp in G1. lra. }
    split; [exact QB'|]. intros u [LU FU].
    assert (Q : - gdot qp u <= kkt_tol * norm2 (nv qp) (vget u) + zc + bform qp dx u
                + Rmax L 0 * Rsum (neq qp) (fun k => Rabs (Rsum (nv qp) (fun j => Ae qp k j * vget u j)))).
    { apply QU. intros m Hm'. destruct (QC m Hm') as (c & Hc & -> & -> & -> & HX).
      specialize (FU c Hc). unfold cvalue in *. rewrite vadd_get in FU by congruence. cbn [fadd R_ops] in FU. lra. }
    assert (CC : Rsum (neq qp) (fun k => Rabs (Rsum (nv qp) (fun j => Ae qp k j * vget u j))) = constraint_change x u)
      by (exact (eq_rows_sum x (it_lambda info) pr _ qp u (fun _ w => Rabs w) DI HL)).
    rewrite CC, NV in Q.
    assert (X : Rmax L 0 * constraint_change x u <= it_penalty info * constraint_change x u).
    { rewrite <- CC. destruct (Nat.eq_dec (neq qp) 0) as [Z|Z]; [rewrite Z; cbn; lra|].
      apply Rmult_le_compat_r; [apply Rsum_nonneg; intros; apply Rabs_pos|apply PL; lia]. }
    lra.
  Qed.

  (** C88: Solve stopped with SATISFIED_FIRST_ORDER_TOL, its last QP was solved to SATISFIED_KKT_TOL, and the returned x satisfies
      the inequality constraints. Let dx be the step of the last iteration. Then the violation of the equality constraints is below
      tol + K kkt_tol, and the cost falls in no direction u that stays in the box with a slope steeper than
      kkt_tol |u| + B + sqrt (B (|J u|^2 + lambda |u|^2)) + penalty |J_c u|_1 (the last term is 0 if u is tangent to the equality
      constraints),
      where B = tol + kkt_tol (|dx| + K penalty) + penalty |c(x)|_1 + 1e-6 M. *)
  Theorem C88_first_order_tol_means_stationary : forall pa vars cs r,
    well_posed pa pr vars -> retraction_ok retract -> pr_ineq pr <> [] -> distinct_indices pr ->
    derivatives_correct pr -> value_consistent pr ->
    solve pa vars cs = Ok r -> out_termination_state (res_out r) = SATISFIED_FIRST_ORDER_TOL ->
    let x := res_vars r in
    (forall c, In c (pr_ineq pr) -> 0 <= cvalue c x) ->
    let tol := n_absolute_first_derivative_tol pa in let kkt_tol := n_termination_kkt_tolerance pa in
    let K := INR (list_sum (map res_dim (pr_eq pr))) in let M := INR (length (pr_ineq pr)) in
    exists init info, out_iterations (res_out r) = init ++ [info] /\
    forall qpo, it_qp_outputs info = InteriorPointOut qpo -> qp_termination_state qpo = SATISFIED_KKT_TOL ->
    eq_l1_at pr x < tol + K * kkt_tol /\
    exists k errs qp dx, LinearizeAndFillQP x (it_lambda info) pr = Ok (errs, qp) /\
      ComputeStepDirection ldlt qr llt (g k) pa pr qp = Ok (it_qp_outputs info, dx) /\ length dx = length x /\
      let B := tol + kkt_tol * (norm2 (length x) (vget dx) + K * it_penalty info) + it_penalty info * eq_l1_at pr x + M / 1000000 in
      damped_curvature x (it_lambda info) dx <= B /\
      forall u s, in_the_box x u -> cost_slope pr x u s ->
        - s <= kkt_tol * norm2 (length x) (vget u) + B + sqrt (B * damped_curvature x (it_lambda info) u)
             + it_penalty info * constraint_change x u.
  Proof.
    intros pa vars cs r WP RO NI DI DC VC H HT x FX tol kkt_tol K M.
    destruct (first_order_certificate pa vars cs r WP RO NI DI VC H HT FX) as (init & info & EL & CERT).
    exists init, info. split; [exact EL|]. intros qpo EO ET.
    destruct (CERT qpo EO ET) as (V & LX & IX & k & errs & qp & dx & zc & HL & HD & LD & NV & PSD & ZC & _ & _ & QB & QU).
    fold x tol kkt_tol K M in V, QB, QU. fold x in LX, IX, HL, LD, NV. split; [exact V|]. exists k, errs, qp, dx. split; [exact HL|]. split; [exact HD|]. split; [exact LD|].
    intro B. fold B in QB.
    destruct (C24_linearised_qp _ _ _ _ _ DI HL) as (_ & _ & _ & QF & _ & _ & _).
    assert (DCV : forall u, damped_curvature x (it_lambda info) u = qform qp u).
    { intro u. rewrite QF. unfold damped_curvature. rewrite LX. reflexivity. }
    split; [rewrite DCV; lra|]. intros u s IB CS. pose proof (QU u IB) as Q.
    rewrite (uniqueness_limite _ _ _ _ CS (slope_gdot _ _ _ _ _ u DI DC HL (proj1 IB) LX IX)).
    assert (BF : bform qp dx u <= sqrt (B * damped_curvature x (it_lambda info) u)).
    { rewrite DCV. eapply Rle_trans; [apply Rle_abs|]. rewrite <- sqrt_Rsqr_abs. apply sqrt_le_1_alt. unfold Rsqr.
      eapply Rle_trans; [apply psd_CS; exact PSD|]. apply Rmult_le_compat_r; [apply PSD|lra]. }
    pose proof (PSD dx). lra.
  Qed.

  (** C88, linear least squares with box constraints (affine residuals and equality constraints): the cost of the returned x is
      within B + kkt_tol |v - x| + lambda |v - x|^2 / 2 + penalty |c(x)|_1 of the cost of every feasible v. *)
  Theorem C88_linear_least_squares_in_a_box : forall pa vars cs r,
    well_posed pa pr vars -> retraction_ok retract -> pr_ineq pr <> [] -> distinct_indices pr ->
    affine_problem pr -> value_consistent pr ->
    solve pa vars cs = Ok r -> out_termination_state (res_out r) = SATISFIED_FIRST_ORDER_TOL ->
    let x := res_vars r in
    (forall c, In c (pr_ineq pr) -> 0 <= cvalue c x) ->
    let tol := n_absolute_first_derivative_tol pa in let kkt_tol := n_termination_kkt_tolerance pa in
    let K := INR (list_sum (map res_dim (pr_eq pr))) in let M := INR (length (pr_ineq pr)) in
    exists init info, out_iterations (res_out r) = init ++ [info] /\
    forall qpo, it_qp_outputs info = InteriorPointOut qpo -> qp_termination_state qpo = SATISFIED_KKT_TOL ->
    eq_l1_at pr x < tol + K * kkt_tol /\
    exists k errs qp dx, LinearizeAndFillQP x (it_lambda info) pr = Ok (errs, qp) /\
      ComputeStepDirection ldlt qr llt (g k) pa pr qp = Ok (it_qp_outputs info, dx) /\ length dx = length x /\
      let B := tol + kkt_tol * (norm2 (length x) (vget dx) + K * it_penalty info) + it_penalty info * eq_l1_at pr x + M / 1000000 in
      forall v, length v = length x -> eq_l1_at pr v = 0 -> (forall c, In c (pr_ineq pr) -> 0 <= cvalue c v) ->
        cost_at pr x <= cost_at pr v + B + kkt_tol * norm2 (length x) (fun i => vget v i - vget x i)
          + / 2 * Rmax (it_lambda info) 0 * Rsum (length x) (fun i => (vget v i - vget x i) ^ 2) + it_penalty info * eq_l1_at pr x.
  Proof.
    intros pa vars cs r WP RO NI DI AF VC H HT x FX tol kkt_tol K M.
    destruct (first_order_certificate pa vars cs r WP RO NI DI VC H HT FX) as (init & info & EL & CERT).
    exists init, info. split; [exact EL|]. intros qpo EO ET.
    destruct (CERT qpo EO ET) as (V & LX & IX & k & errs & qp & dx & zc & HL & HD & LD & NV & PSD & ZC & EF & E1 & QB & QU).
    fold x tol kkt_tol K M in V, QB, QU. fold x in LX, IX, HL, LD, NV. split; [exact V|]. exists k, errs, qp, dx. split; [exact HL|]. split; [exact HD|]. split; [exact LD|].
    intros B v LV FV BV. fold B in QB. fold x in EF, E1.
    destruct (C24_linearised_qp _ _ _ _ _ DI HL) as (_ & OBJ & _ & _ & _ & _ & _).
    set (u := mkvec (length x) (fun i => vget v i - vget x i)).
    assert (LU : length u = length x) by apply mkvec_length.
    assert (UG : forall i, (i < length x)%nat -> vget u i = vget v i - vget x i) by (intros i Hi; unfold u; rewrite vget_mkvec by exact Hi; reflexivity).
    assert (VU : vadd x u = v).
    { apply (vget_ext R R_ops); [rewrite vadd_length; lia|]. intros i Hi. rewrite vadd_length in Hi. rewrite vadd_get by congruence.
      rewrite UG by lia. cbn [fadd R_ops]. ring. }
    assert (RU : ray x u 1 = v).
    { rewrite <- VU. unfold ray. f_equal. apply (vget_ext R R_ops); [apply vscale_length|]. intros i Hi. rewrite vscale_get. cbn [fmul R_ops]. ring. }
    assert (IB : in_the_box x u) by (split; [exact LU|]; rewrite VU; exact BV).
    pose proof (QU u IB) as Q.
    assert (CC : constraint_change x u = eq_l1_at pr x).
    { rewrite E1. rewrite <- RU, (affine_eq pr x u _ _ _ AF VC LU DI HL) in FV.
      transitivity (Rsum (neq qp) (fun k => Rabs (Rsum (nv qp) (fun j => Ae qp k j * vget u j)))).
      - symmetry. exact (eq_rows_sum x (it_lambda info) pr _ qp u (fun _ w => Rabs w) DI HL).
      - unfold eq_l1. apply Rsum_ext. intros i Hi.
        pose proof (Rsum_zero_terms _ _ (fun i _ => Rabs_pos (kkt_eq qp u i)) FV i Hi) as Z. apply Rabs_zero in Z. unfold kkt_eq in Z.
        replace (Rsum (nv qp) (fun j => Ae qp i j * vget u j)) with (- vget (qb qp) i) by lra. apply Rabs_Ropp. }
    rewrite CC in Q.
    assert (CV : cost_at pr v + / 2 * Rmax (it_lambda info) 0 * Rsum (length x) (fun i => (vget v i - vget x i) ^ 2)
                 = cost_at pr x + (/ 2 * qform qp u + gdot qp u)).
    { rewrite <- RU at 1. rewrite (affine_cost pr x u AF VC LU). specialize (OBJ u). rewrite EF in OBJ. unfold objective in OBJ.
      fold (gdot qp u) in OBJ. rewrite OBJ. f_equal. f_equal. rewrite LX. apply Rsum_ext. intros i Hi. rewrite UG by (rewrite LX; exact Hi). reflexivity. }
    assert (NU : norm2 (length x) (vget u) = norm2 (length x) (fun i => vget v i - vget x i)).
    { unfold norm2. f_equal. apply Rsum_ext. intros i Hi. rewrite UG by exact Hi. reflexivity. }
    rewrite NU in Q.
    assert (BF : bform qp dx u <= / 2 * qform qp dx + / 2 * qform qp u).
    { pose proof (PSD (along (nv qp) dx u (-1))) as P. rewrite qform_along in P. lra. }
    pose proof (PSD dx). lra.
  Qed.
  (** C56 with inequality constraints and no equality constraints: a solve started where the gradient of the cost vanishes returns
      the start unchanged after one iteration with SATISFIED_FIRST_ORDER_TOL, whatever step the interior point method computed
      there and whether or not the start is in the box. *)
  Theorem C56_zero_gradient_start : forall pa vars cs r,
    well_posed pa pr vars -> pr_ineq pr <> [] -> pr_eq pr = [] -> distinct_indices pr ->
    derivatives_correct pr -> (1 <= n_max_iterations pa)%Z -> 0 < n_absolute_first_derivative_tol pa ->
    (forall u, length u = pdim pr -> cost_slope pr vars u 0) -> solve pa vars cs = Ok r ->
    res_vars r = vars /\ out_termination_state (res_out r) = SATISFIED_FIRST_ORDER_TOL /\ length (out_iterations (res_out r)) = 1%nat.
  Proof.
    intros pa vars cs r WP NI NE DI DC MI TP SG H. pose proof (solve_valid _ _ _ _ _ _ _ _ _ _ _ _ H) as PV.
    pose proof (C35_termination_states _ _ _ _ _ _ _ _ _ _ _ _ H) as T35. cbv zeta in T35. destruct T35 as (_ & _ & _ & T35).
    destruct (solve_history _ _ _ _ _ _ _ _ _ _ _ _ H) as (sts & css & exs & A & B & C & D & HL0 & HH & TT).
    destruct (out_iterations (res_out r)) as [|info log] eqn:ELog.
    - exfalso. cbn [length] in *. destruct (out_termination_state (res_out r)) eqn:ET;
        try (destruct TT as (? & ? & X & _); discriminate).
      + destruct TT as (_ & X & _). specialize (X eq_refl). lia.
      + destruct T35 as (X & _). contradiction.
    - destruct (HH 0%nat info eq_refl) as (HI & _ & HX). apply iterate_spec in HI. destruct HI as [_ HI].
      pose proof (iteration_vars _ _ _ _ _ _ _ _ _ _ _ _ (npv_ls _ PV) HI) as [V1 _].
      assert (XV : ns_vars (sts 0%nat) = vars) by (rewrite A; reflexivity).
      destruct HI as (qp & dx & cand & HL & HD & HQ & HC & HP & HS & HU & IL & _).
      rewrite XV in HL.
      destruct (C24_linearised_qp _ _ _ _ _ DI HL) as ((_ & _ & CL & _ & AR) & _).
      pose proof (eq_count _ _ _ _ _ DI HL) as N0. rewrite NE in N0. cbn [map list_sum fold_right] in N0.
      destruct (cost_derivative _ _ _ AR HC) as (LD & DF & DE). fold (gdot qp dx) in DF.
      assert (LXV : length vars = pdim pr) by apply (wp_vars _ _ _ WP).
      assert (LDX : length dx = pdim pr) by (rewrite LD; exact CL).
      pose proof (wp_idx pr pa vars vars WP eq_refl) as IX.
      assert (G0 : gdot qp dx = 0).
      { eapply uniqueness_limite; [eapply slope_gdot; eauto; congruence|]. apply SG; exact LDX. }
      destruct (C28_line_search_log retract (ls_of pa pr (sts 0%nat) info dx) (npv_ls _ PV) _ _ _ HS) as (_ & _ & _ & _ & ini & lst & _ & _ & _ & RS).
      assert (STA : stationary (ls_of pa pr (sts 0%nat) info dx) = true).
      { apply stationary_test. rewrite DF, DE, G0. unfold eq_l1. rewrite N0. cbn [Rsum]. rewrite Rplus_0_r, Ropp_0, Rabs_R0, Rmax_left by lra. exact TP. }
      assert (SR : it_step_result info = FIRST_ORDER_SATISFIED).
      { destruct (it_step_result info); try reflexivity; exfalso.
        - destruct RS as (_ & X & _). congruence.
        - destruct RS as (_ & X & _). congruence.
        - destruct RS as (_ & _ & X & _). congruence.
        - discriminate RS.
        - destruct RS as (_ & X & _). congruence. }
      assert (E0 : exs 0%nat = Some SATISFIED_FIRST_ORDER_TOL).
      { rewrite SR in HU. unfold UpdateLambdaAndCheckExitConditions in HU. apply Ok_inj in HU. apply pair_inj in HU. symmetry. apply HU. }
      assert (L1 : log = []).
      { destruct log; [reflexivity|exfalso]. cbn [length] in HX. destruct (HX ltac:(lia)) as [X _]. congruence. }
      subst log. cbn [length] in *. split; [rewrite <- C, V1 by congruence; exact XV|]. split; [|reflexivity].
      destruct (out_termination_state (res_out r));
        try (destruct TT as (jj & ii & X1 & X2 & X3); assert (jj = 0)%nat by lia; subst jj; congruence).
      + destruct TT as (X & _). destruct (X 0%nat info eq_refl). congruence.
      + destruct TT as (X & _). destruct (X 0%nat info eq_refl). congruence.
      + destruct TT as (jj & ii & X1 & X2 & X3 & _). assert (jj = 0)%nat by lia. subst jj. congruence.
  Qed.
End Inequality.
