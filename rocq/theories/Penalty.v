(** C41: the equality penalty makes the QP step a descent direction of the merit function. Exact
    arithmetic; qp is any QP built by the solver, dx any step. *)
From Coq Require Import String List Bool Arith ZArith QArith Reals Lra Lia.
From Verif Require Import Scalar Outcome LinAlg Structs Constraint QPModel NullSpace Residual Nonlinear RInst Spec
  Props_Constraint QPBlocks QPAlgebra QPNewton QPAlpha QPStep QPTrace QPInit QPSolve QPDirect NSProps ResProps LinProps
  MeritProps LSProps NLSTrace NLSReal NLSBox.
Import ListNotations.
Local Open Scope outcome_scope.
Local Open Scope string_scope.
Local Open Scope list_scope.
Local Open Scope R_scope.

(** |b|_1, the violation of the equality constraints at the current point. *)
Definition eq_l1 (qp : QP R) : R := Rsum (neq qp) (fun k => Rabs (vget (qb qp) k)).
(** max |y_k| is a bound on each |y_k|. *)
Definition linf_bound (y : list R) (m : R) : Prop := forall k, (k < length y)%nat -> Rabs (vget y k) <= m.
(** Directional derivative of the merit function with this penalty. *)
Definition merit_slope (dd : DirectionalDerivatives R) (penalty : R) : R := d_f dd + penalty * d_equality dd.

Lemma Sign_abs : forall b : R, Sign b * b = Rabs b.
Proof.
  intro b. unfold Sign. destruct (R_fgtb b f0) as [H|H]; cbn [f0 R_ops] in H.
  - rewrite Rabs_right by lra. cbn [f1 R_ops]. ring.
  - destruct (R_fltb b f0) as [K|K]; cbn [f0 R_ops] in K.
    + rewrite Rabs_left by lra. cbn [fneg f1 R_ops]. ring.
    + assert (b = 0) by lra. subst b. rewrite Rabs_R0. cbn [f0 R_ops]. ring.
Qed.
Lemma Sign_bound : forall b : R, Rabs (Sign b) <= 1.
Proof.
  intro b. unfold Sign. destruct (fgtb b f0); [|destruct (fltb b f0)]; cbn [f0 f1 fneg R_ops];
    rewrite ?Rabs_Ropp, ?Rabs_R1, ?Rabs_R0; lra.
Qed.

Lemma cost_derivative : forall (qp : QP R) dx dd, mrows (qA qp) = neq qp ->
  ComputeQPCostDerivative qp dx = Ok dd ->
  length dx = nv qp /\
  d_f dd = Rsum (nv qp) (fun i => vget (qc qp) i * vget dx i) /\
  d_equality dd = - eq_l1 qp + Rsum (neq qp) (fun k => Sign (vget (qb qp) k) * kkt_eq qp dx k).
Proof.
  intros qp dx dd AR H. unfold ComputeQPCostDerivative in H.
  inv_bind H. apply f_assert_ok_inv in Hm. apply Nat.eqb_eq in Hm.
  inv_bind H. apply f_assert_ok_inv in Hm0. apply Nat.eqb_eq in Hm0. apply Ok_inj in H. subst dd.
  cbn [d_f d_equality]. splits.
  - unfold nv. congruence.
  - cbn [fdot R_ops]. apply Rdot_n; unfold nv; congruence.
  - rewrite fold_add_Rsum. cbn [f0 R_ops]. rewrite AR, Rplus_0_l. unfold eq_l1. rewrite <- Rsum_opp, <- Rsum_plus.
    apply Rsum_ext. intros k Hk. cbn [fmul fdot R_ops]. rewrite <- Sign_abs. unfold kkt_eq, Ae.
    unfold mrow. rewrite (Rdot_n (nv qp)) by (rewrite ?mkvec_length; unfold nv; congruence).
    rewrite (Rsum_ext _ _ (fun j => mget (qA qp) k j * vget dx j)); [ring|].
    intros j Hj. rewrite vget_mkvec; [reflexivity|]. rewrite Hm0. unfold nv in Hj. congruence.
Qed.

(** If the step satisfies the linearised equality constraints, the logged derivative of the constraint term
    is minus the current violation. *)
Theorem C41_equality_derivative : forall (qp : QP R) dx dd, mrows (qA qp) = neq qp ->
  ComputeQPCostDerivative qp dx = Ok dd -> eq_feasible qp dx -> d_equality dd = - eq_l1 qp.
Proof.
  intros qp dx dd AR H FE. destruct (cost_derivative _ _ _ AR H) as (_ & _ & ->).
  rewrite Rsum_0; [ring|]. intros k Hk. rewrite (FE k Hk). ring.
Qed.

Lemma quad_form : forall (qp : QP R) dx, mrows (qG qp) = nv qp -> mcols (qG qp) = nv qp -> length dx = nv qp ->
  fdot dx (smvmul (qG qp) dx) = qform qp dx.
Proof.
  intros qp dx GR GC L. cbn [fdot R_ops]. unfold smvmul. rewrite GR. rewrite (Rdot_n (nv qp)) by (rewrite ?mkvec_length; auto).
  unfold qform. apply Rsum_ext. intros i Hi. rewrite vget_mkvec by exact Hi. cbn [fdot R_ops].
  rewrite (Rdot_n (nv qp)) by (unfold srow; rewrite ?mkvec_length; auto).
  rewrite <- Rsum_scal_l. apply Rsum_ext. intros j Hj. unfold srow. rewrite vget_mkvec by (rewrite GR; exact Hj).
  unfold Gs, sget. ring.
Qed.

Lemma eq_l1_fl1 : forall qp : QP R, fl1 (qb qp) = eq_l1 qp.
Proof.
  intro qp. unfold fl1. cbn [fsum fabs R_ops]. rewrite Rlsum_Rsum, map_length. apply Rsum_ext. intros i Hi.
  unfold vget. cbn [f0 R_ops]. rewrite <- Rabs_R0 at 1. apply map_nth.
Qed.
Lemma R_eps : flit lit_eps = 1 / 4503599627370496. Proof. reflexivity. Qed.

(** Inequality (18.36): null space path. *)
Theorem C41_null_space_descent : forall (qp : QP R) dx dd rho penalty,
  mrows (qG qp) = nv qp -> mcols (qG qp) = nv qp -> mrows (qA qp) = neq qp ->
  ComputeQPCostDerivative qp dx = Ok dd -> eq_feasible qp dx ->
  0 <= rho < 1 -> 1 / 4503599627370496 <= eq_l1 qp ->
  SelectPenalty qp dx None rho <= penalty ->
  merit_slope dd penalty <= - rho * penalty * eq_l1 qp - / 2 * Rmax 0 (qform qp dx).
Proof.
  intros qp dx dd rho penalty GR GC AR H FE HR HE HP.
  pose proof (C41_equality_derivative _ _ _ AR H FE) as DE. destruct (cost_derivative _ _ _ AR H) as (L & DF & _).
  unfold SelectPenalty in HP. rewrite (quad_form _ _ GR GC L) in HP. rewrite eq_l1_fl1, !R_fmax in HP.
  rewrite R_eps, R_half in HP. rewrite (Rmax_left (eq_l1 qp)) in HP by lra.
  cbn [fadd fsub fmul fdiv fdot f0 f1 R_ops] in HP.
  rewrite (Rdot_n (nv qp)) in HP by (try exact L; reflexivity). rewrite <- DF in HP.
  unfold merit_slope. rewrite DE. set (q := Rmax 0 (qform qp dx)) in *. set (c := eq_l1 qp) in *.
  assert (PC : 0 < (1 - rho) * c) by (apply Rmult_lt_0_compat; lra).
  assert (X : (d_f dd + 1 / 2 * q) / ((1 - rho) * c) * ((1 - rho) * c) <= penalty * ((1 - rho) * c))
    by (apply Rmult_le_compat_r; lra).
  unfold Rdiv in X. rewrite Rmult_assoc, Rinv_l, Rmult_1_r in X by lra. lra.
Qed.

(** The cost slope in terms of the first order residuals at any (dx, s, y, z). *)
Lemma cost_slope_identity : forall (qp : QP R) dx s y z, wf_qp qp ->
  Rsum (nv qp) (fun i => vget (qc qp) i * vget dx i) =
  - qform qp dx - Rsum (neq qp) (fun k => vget y k * vget (qb qp) k) - Rsum (nineq qp) (fun m => vget z m * cb qp m)
  + Rsum (nv qp) (fun i => kkt_dual qp dx y z i * vget dx i)
  + Rsum (neq qp) (fun k => vget y k * kkt_eq qp dx k)
  + Rsum (nineq qp) (fun m => vget s m * vget z m) + Rsum (nineq qp) (fun m => vget z m * kkt_ineq qp dx s m).
Proof.
  intros qp dx s y z W.
  assert (E1 : Rsum (nv qp) (fun i => kkt_dual qp dx y z i * vget dx i) =
    qform qp dx + Rsum (nv qp) (fun i => vget (qc qp) i * vget dx i)
    - Rsum (neq qp) (fun k => vget y k * Rsum (nv qp) (fun j => Ae qp k j * vget dx j))
    - Rsum (nineq qp) (fun m => vget z m * (ca qp m * vget dx (cv qp m)))).
  { assert (A : qform qp dx = Rsum (nv qp) (fun i => Rsum (nv qp) (fun j => Gs qp i j * vget dx j) * vget dx i)).
    { unfold qform. apply Rsum_ext. intros i Hi. rewrite <- Rsum_scal_r. apply Rsum_ext. intros. ring. }
    assert (B : Rsum (neq qp) (fun k => vget y k * Rsum (nv qp) (fun j => Ae qp k j * vget dx j)) =
                Rsum (nv qp) (fun i => Rsum (neq qp) (fun k => Ae qp k i * vget y k) * vget dx i)).
    { rewrite (Rsum_ext (neq qp) _ (fun k => Rsum (nv qp) (fun i => Ae qp k i * vget y k * vget dx i))).
      - rewrite Rsum_swap. apply Rsum_ext. intros i Hi. rewrite <- Rsum_scal_r. reflexivity.
      - intros k Hk. rewrite <- Rsum_scal_l. apply Rsum_ext. intros. ring. }
    assert (C : Rsum (nineq qp) (fun m => vget z m * (ca qp m * vget dx (cv qp m))) =
                Rsum (nv qp) (fun i => Rsum (nineq qp) (fun m => if (cv qp m =? i)%nat then ca qp m * vget z m else 0) * vget dx i)).
    { rewrite (Rsum_ext (nv qp) _ (fun i => Rsum (nineq qp) (fun m => if (i =? cv qp m)%nat then ca qp m * vget z m * vget dx i else 0))).
      - rewrite Rsum_swap. apply Rsum_ext. intros m Hm. rewrite (Rsum_delta _ _ (fun i => ca qp m * vget z m * vget dx i)); [ring|].
        apply cv_lt; assumption.
      - intros i Hi. rewrite <- Rsum_scal_r. apply Rsum_ext. intros m Hm. rewrite Nat.eqb_sym. destruct (i =? cv qp m)%nat; ring. }
    rewrite A, B, C, <- Rsum_plus, <- !Rsum_minus. apply Rsum_ext. intros i Hi. unfold kkt_dual. ring. }
  assert (E2 : Rsum (neq qp) (fun k => vget y k * kkt_eq qp dx k) =
    Rsum (neq qp) (fun k => vget y k * Rsum (nv qp) (fun j => Ae qp k j * vget dx j)) + Rsum (neq qp) (fun k => vget y k * vget (qb qp) k)).
  { rewrite <- Rsum_plus. apply Rsum_ext. intros. unfold kkt_eq. ring. }
  assert (E3 : Rsum (nineq qp) (fun m => vget z m * kkt_ineq qp dx s m) =
    Rsum (nineq qp) (fun m => vget z m * (ca qp m * vget dx (cv qp m))) + Rsum (nineq qp) (fun m => vget z m * cb qp m)
    - Rsum (nineq qp) (fun m => vget s m * vget z m)).
  { rewrite <- Rsum_plus, <- Rsum_minus. apply Rsum_ext. intros. unfold kkt_ineq. ring. }
  rewrite E1, E2, E3. ring.
Qed.

(** Interior point path: for any primal-dual point with non-negative multipliers z, if the current point
    satisfies the inequality constraints (b_m >= 0 after shifting) and the penalty is at least max |y_k|, the
    slope of the merit function is at most - dx^T G dx plus terms that vanish with the residuals. *)
Theorem C41_interior_point_descent : forall (qp : QP R) dx s y z dd penalty, wf_qp qp ->
  ComputeQPCostDerivative qp dx = Ok dd ->
  length y = neq qp ->
  (forall m, (m < nineq qp)%nat -> 0 <= vget z m /\ 0 <= cb qp m) ->
  linf_bound y penalty ->
  merit_slope dd penalty <=
    - qform qp dx
    + Rsum (nv qp) (fun i => kkt_dual qp dx y z i * vget dx i)
    + 2 * penalty * Rsum (neq qp) (fun k => Rabs (kkt_eq qp dx k))
    + Rsum (nineq qp) (fun m => vget s m * vget z m) + Rsum (nineq qp) (fun m => vget z m * kkt_ineq qp dx s m).
Proof.
  intros qp dx s y z dd penalty W H LY HZ HY.
  destruct (cost_derivative _ _ _ (wf_Ar _ W) H) as (_ & DF & DE). unfold merit_slope. rewrite DF, DE.
  rewrite (cost_slope_identity qp dx s y z W).
  assert (A : 0 <= Rsum (nineq qp) (fun m => vget z m * cb qp m))
    by (apply Rsum_nonneg; intros m Hm; destruct (HZ m Hm); apply Rmult_le_pos; assumption).
  assert (PA : forall k, (k < neq qp)%nat -> 0 <= penalty).
  { intros k Hk. specialize (HY k ltac:(lia)). pose proof (Rabs_pos (vget y k)). lra. }
  assert (B : - Rsum (neq qp) (fun k => vget y k * vget (qb qp) k) <= penalty * eq_l1 qp).
  { unfold eq_l1. rewrite <- Rsum_opp, <- Rsum_scal_l. apply Rsum_le. intros k Hk.
    eapply Rle_trans; [apply Rle_abs|]. rewrite Rabs_Ropp, Rabs_mult. apply Rmult_le_compat_r; [apply Rabs_pos|].
    apply HY. lia. }
  assert (C : Rsum (neq qp) (fun k => vget y k * kkt_eq qp dx k) <= penalty * Rsum (neq qp) (fun k => Rabs (kkt_eq qp dx k))).
  { rewrite <- Rsum_scal_l. apply Rsum_le. intros k Hk. eapply Rle_trans; [apply Rle_abs|]. rewrite Rabs_mult.
    apply Rmult_le_compat_r; [apply Rabs_pos|]. apply HY. lia. }
  assert (D : penalty * Rsum (neq qp) (fun k => Sign (vget (qb qp) k) * kkt_eq qp dx k) <= penalty * Rsum (neq qp) (fun k => Rabs (kkt_eq qp dx k))).
  { rewrite <- !Rsum_scal_l. apply Rsum_le. intros k Hk. apply Rmult_le_compat_l; [apply (PA k Hk)|].
    eapply Rle_trans; [apply Rle_abs|]. rewrite Rabs_mult. rewrite <- (Rmult_1_l (Rabs (kkt_eq qp dx k))) at 2.
    apply Rmult_le_compat_r; [apply Rabs_pos|apply Sign_bound]. }
  lra.
Qed.

(** The exact case: at a first order point of the QP the slope is at most - dx^T G dx. *)
Corollary C41_exact_interior_point_descent : forall (qp : QP R) dx s y z dd penalty, wf_qp qp ->
  ComputeQPCostDerivative qp dx = Ok dd -> length y = neq qp ->
  (forall i, (i < nv qp)%nat -> kkt_dual qp dx y z i = 0) -> eq_feasible qp dx ->
  (forall m, (m < nineq qp)%nat -> 0 <= vget z m /\ 0 <= cb qp m /\ vget s m * vget z m = 0 /\ kkt_ineq qp dx s m = 0) ->
  linf_bound y penalty ->
  merit_slope dd penalty <= - qform qp dx.
Proof.
  intros qp dx s y z dd penalty W H LY HD HE HM HY.
  eapply Rle_trans; [apply (C41_interior_point_descent qp dx s y z dd penalty W H LY)|].
  - intros m Hm. destruct (HM m Hm) as (A & B & _). split; assumption.
  - exact HY.
  - rewrite (Rsum_0 (nv qp)) by (intros i Hi; rewrite HD by exact Hi; ring).
    rewrite (Rsum_0 (neq qp)) by (intros k Hk; rewrite HE by exact Hk; apply Rabs_R0).
    rewrite (Rsum_0 (nineq qp)) by (intros m Hm; destruct (HM m Hm) as (_ & _ & -> & _); reflexivity).
    rewrite (Rsum_0 (nineq qp)) by (intros m Hm; destruct (HM m Hm) as (_ & _ & _ & ->); ring). lra.
Qed.

(** The penalty selected from the logged multipliers bounds them. *)
Lemma fold_max_ge : forall (l : list R) a, a <= fold_left Rmax l a /\ forall x, In x l -> x <= fold_left Rmax l a.
Proof.
  induction l as [|b l IH]; intro a; simpl; [split; [lra|intros x []]|].
  destruct (IH (Rmax a b)) as [A B]. pose proof (Rmax_l a b). pose proof (Rmax_r a b). split; [lra|].
  intros x [<-|Hx]; [lra|apply B; exact Hx].
Qed.
Lemma flinf_bound : forall y : list R, linf_bound y (flinf y).
Proof.
  intros y k Hk. unfold flinf. cbn [fmaxcoeff fabs R_ops].
  assert (I : In (Rabs (vget y k)) (map Rabs y)) by (apply in_map; unfold vget; apply nth_In; exact Hk).
  destruct (map Rabs y) as [|a l] eqn:E; [destruct I|]. simpl. destruct (fold_max_ge l a) as [A B].
  destruct I as [<-|I]; [exact A|apply B; exact I].
Qed.

(** C41 at the end of a converged interior point solve: the slope is at most - dx^T G dx up to the tolerances. *)
Theorem C41_converged_qp_descent : forall ldlt g params (qp : QP R) st st' out dd rho penalty,
  Setup g (Some qp) = Ok st -> IP_Solve ldlt params st = Ok (st', out) ->
  p_initial_guess_method params <> USER_PROVIDED ->
  qp_termination_state out = SATISFIED_KKT_TOL ->
  ComputeQPCostDerivative qp (x_block st') = Ok dd ->
  (forall m, (m < nineq qp)%nat -> 0 <= cb qp m) ->
  0 <= penalty -> (qb qp <> [] -> SelectPenalty qp (x_block st') (qp_lagrange_multipliers out) rho <= penalty) ->
  let tol := p_termination_kkt_tol params in
  merit_slope dd penalty <= - qform qp (x_block st')
    + tol * (norm2 (nv qp) (fun i => vget (x_block st') i) + norm2 (nineq qp) (fun m => vget (z_block st') m)
             + 2 * penalty * INR (neq qp))
    + INR (nineq qp) * p_termination_complementarity_tol params.
Proof.
  intros ldlt g params qp st st' out dd rho penalty HSet H HU HT HD HB HP0 HP tol.
  destruct (C12_Solve_run _ _ _ _ _ H) as (p' & st1 & mu & tr & Hp & _ & HC & HS & HR & _ & HL & LM & _).
  assert (p' = qp).
  { unfold Setup in HSet. do 5 inv_bind HSet. apply Ok_inj in HSet. subst st. cbn [ip_p] in Hp. congruence. }
  subst p'. destruct (Setup_ready _ _ _ HSet HC) as [W RD].
  assert (NU : p_initial_guess_method params = USER_PROVIDED -> interior qp st) by (intro E; destruct (HU E)).
  destruct (C06_Solve_interior _ _ _ _ _ _ W RD NU H) as (POS & _).
  destruct (C12_satisfied_means_satisfied _ _ _ _ _ _ W RD NU H HT) as (mu' & D1 & _ & D3 & D4 & D5 & _).
  fold tol in D1, D3, D4. set (x := x_block st') in *. set (y := y_block st') in *. set (s := s_block st') in *. set (z := z_block st') in *.
  assert (TP : 0 < tol) by (unfold norm2 in D1; pose proof (sqrt_pos (Rsum (nv qp) (fun i => kkt_dual qp x y z i * kkt_dual qp x y z i))); lra).
  assert (RD' : ready qp st').
  { destruct (start_ok _ _ _ _ _ _ W RD NU HS) as [E1 I1].
    pose proof (run_invariant _ _ _ _ _ _ W (evaluated_ready _ _ E1) I1 HR) as INV. rewrite HL.
    destruct (map snd tr) as [|a l] eqn:E; [apply evaluated_ready; exact E1|].
    assert (IL : In (last (a :: l) st1) (map snd tr)).
    { rewrite E. destruct (exists_last (l := a :: l)) as (l' & z' & EZ); [discriminate|]. rewrite EZ, last_last. apply in_or_app. right. left. reflexivity. }
    apply in_map_iff in IL. destruct IL as ([[m0 i0] s0] & E0 & IL). cbn [snd] in E0. rewrite <- E0.
    apply evaluated_ready. apply (INV _ _ _ IL). }
  assert (LY : length y = neq qp) by (unfold y, y_block; rewrite yblk_length by apply RD'; apply (dK_ne qp st' RD')).
  assert (LB : linf_bound y penalty).
  { destruct (Nat.eq_dec (neq qp) 0) as [E|E]; [intros k Hk; lia|].
    assert (QB : qb qp <> []) by (intro E'; apply E; unfold neq; rewrite E'; reflexivity).
    specialize (HP QB). rewrite LM in HP. unfold ComputeLagrangeMultiplierSummary in HP. change (yblk (ip_dims st') (ip_vars st')) with y in HP.
    rewrite LY in HP. destruct (0 <? neq qp)%nat eqn:EL; [|apply Nat.ltb_ge in EL; lia].
    cbn [SelectPenalty lm_l_infinity] in HP. intros k Hk. pose proof (flinf_bound y k Hk). lra. }
  eapply Rle_trans; [apply (C41_interior_point_descent qp x s y z dd penalty W HD LY)|].
  { intros m Hm. split; [apply Rlt_le; apply (POS m Hm)|apply HB; exact Hm]. }
  { exact LB. }
  assert (A1 : Rsum (nv qp) (fun i => kkt_dual qp x y z i * vget x i) <= tol * norm2 (nv qp) (fun i => vget x i)).
  { pose proof (Rsum_CS (nv qp) (kkt_dual qp x y z) (fun i => vget x i)) as CS. pose proof (Rle_abs (Rsum (nv qp) (fun i => kkt_dual qp x y z i * vget x i))).
    unfold norm2 in *. pose proof (sqrt_pos (Rsum (nv qp) (fun i => vget x i * vget x i))).
    assert (sqrt (Rsum (nv qp) (fun i => kkt_dual qp x y z i * kkt_dual qp x y z i)) * sqrt (Rsum (nv qp) (fun i => vget x i * vget x i))
            <= tol * sqrt (Rsum (nv qp) (fun i => vget x i * vget x i))) by (apply Rmult_le_compat_r; lra). lra. }
  assert (A2 : Rsum (nineq qp) (fun m => vget z m * kkt_ineq qp x s m) <= tol * norm2 (nineq qp) (fun m => vget z m)).
  { pose proof (Rsum_CS (nineq qp) (fun m => vget z m) (kkt_ineq qp x s)) as CS. pose proof (Rle_abs (Rsum (nineq qp) (fun m => vget z m * kkt_ineq qp x s m))).
    unfold norm2 in *. pose proof (sqrt_pos (Rsum (nineq qp) (fun i => vget z i * vget z i))).
    assert (sqrt (Rsum (nineq qp) (fun i => vget z i * vget z i)) * sqrt (Rsum (nineq qp) (fun i => kkt_ineq qp x s i * kkt_ineq qp x s i))
            <= sqrt (Rsum (nineq qp) (fun i => vget z i * vget z i)) * tol) by (apply Rmult_le_compat_l; lra). lra. }
  assert (A3 : Rsum (neq qp) (fun k => Rabs (kkt_eq qp x k)) <= INR (neq qp) * tol).
  { assert (E : INR (neq qp) * tol = Rsum (neq qp) (fun _ => tol)).
    { generalize (neq qp). induction n; [simpl; ring|]. rewrite S_INR. simpl Rsum. rewrite <- IHn. ring. }
    rewrite E. apply Rsum_le. intros k Hk.
    assert (X : Rabs (kkt_eq qp x k) <= norm2 (neq qp) (kkt_eq qp x)).
    { unfold norm2. rewrite <- sqrt_Rsqr_abs. apply sqrt_le_1_alt. unfold Rsqr.
      apply (Rsum_pos_term (neq qp) (fun k => kkt_eq qp x k * kkt_eq qp x k) k); [|exact Hk]. intros. apply sq_nonneg. }
    lra. }
  assert (A4 : Rsum (nineq qp) (fun m => vget s m * vget z m) <= INR (nineq qp) * p_termination_complementarity_tol params).
  { destruct (Nat.eq_dec (nineq qp) 0) as [E|E]; [rewrite E; simpl; lra|].
    specialize (D5 ltac:(lia)). assert (0 < INR (nineq qp)) by (apply lt_0_INR; lia).
    apply (Rmult_lt_compat_l (INR (nineq qp))) in D5; [|assumption]. unfold Rdiv in D5.
    rewrite (Rmult_comm (Rsum _ _)), <- Rmult_assoc, Rinv_r, Rmult_1_l in D5 by lra. lra. }
  assert (A5 : 2 * penalty * Rsum (neq qp) (fun k => Rabs (kkt_eq qp x k)) <= 2 * penalty * (INR (neq qp) * tol)) by (apply Rmult_le_compat_l; lra).
  lra.
Qed.

(** The violation reported at the start of an iteration is the 1-norm of the QP's b. *)
Lemma violation_eq_l1 : forall vars lambda (pr : Problem R) errs qp, distinct_indices pr ->
  LinearizeAndFillQP vars lambda pr = Ok (errs, qp) -> err_equality errs = eq_l1 qp.
Proof.
  intros vars lambda pr errs qp DI HL.
  destruct (C24_linearised_qp _ _ _ _ _ DI HL) as (_ & _ & _ & _ & LE & EE & _).
  rewrite EE. rewrite <- eq_l1_fl1. unfold fl1. cbn [fsum fabs R_ops]. f_equal. f_equal.
  transitivity (lin_equalities pr vars (vget [])).
  - unfold lin_equalities. apply flat_map_ext. intro r0. apply mkvec_ext. intros k0 Hk0. unfold lin_residual. f_equal.
    apply Rsum_ext. intros a0 Ha0. assert (Z : vget ([] : list R) (gidx r0 a0) = 0) by (unfold vget; destruct (gidx r0 a0); reflexivity). rewrite Z. reflexivity.
  - rewrite <- LE. transitivity (mkvec (length (qb qp)) (vget (qb qp))); [|apply mkvec_vget]. apply mkvec_ext. intros k0 Hk0.
    unfold kkt_eq. rewrite Rsum_0; [ring|]. intros j Hj. assert (Z : vget ([] : list R) j = 0) by (unfold vget; destruct j; reflexivity). rewrite Z. ring.
Qed.

(** ** Whole solves without inequality constraints *)
Section Descent.
  Variable ldlt : mat R -> option (mat R).
  Variable qr : mat R -> QRResult R.
  Variable llt : mat R -> option (list R -> list R).
  Variable eigs : mat R -> QPEigenvalues R.
  Variable retract : option (list R -> list R -> R -> list R).
  Context {S : Type}.
  Variable cb : option (S -> NLSIteration R -> S * bool).
  Variable pa : NLSParams R.
  Variable pr : Problem R.
  Variable g : nat -> garbage R.
  Notation solve := (solve ldlt qr llt eigs retract cb pa pr g).

  (** The two factorisations of the null space solver are exact on the QPs arising from this problem. *)
  Definition null_space_exact : Prop := forall v lambda errs qp, LinearizeAndFillQP v lambda pr = Ok (errs, qp) ->
    qr_ok (qA qp) (qr (qA qp)) /\ llt_ok llt (ns_Gred (qr (qA qp)) (mcols (qA qp)) (qG qp)).

  (** If there are no inequality constraints and the factorisations are exact, then at every logged iteration
      whose constraint violation is zero or at least machine epsilon the search direction is a descent direction
      of the merit function - with slope at most -rho * penalty * violation - and the line search never
      reports POSITIVE_DERIVATIVE. *)
  Theorem C41_never_positive_derivative : forall vars cs r,
    pr_ineq pr = [] -> distinct_indices pr ->
    (pr_eq pr = [] -> ldlt_exact (pdim pr) ldlt) -> (pr_eq pr <> [] -> null_space_exact) ->
    solve vars cs = Ok r ->
    forall info, In info (out_iterations (res_out r)) ->
    let violation := err_equality (it_errors_initial info) in
    violation = 0 \/ 1 / 4503599627370496 <= violation ->
    merit_slope (it_directional_derivatives info) (it_penalty info)
      <= - n_equality_penalty_rho pa * it_penalty info * violation /\
    merit_slope (it_directional_derivatives info) (it_penalty info) <= 0 /\
    it_step_result info <> POSITIVE_DERIVATIVE.
  Proof.
    intros vars cs r NI DI LX NX H info Hin violation HV. pose proof (solve_valid _ _ _ _ _ _ _ _ _ _ _ _ H) as PV.
    destruct (solve_history _ _ _ _ _ _ _ _ _ _ _ _ H) as (sts & css & exs & A & _ & C & _ & _ & HH & _).
    apply In_nth_error in Hin. destruct Hin as [k Hk]. destruct (HH k info Hk) as (HI & _ & _). apply iterate_spec in HI.
    destruct HI as [_ (qp & dx & cand & HL & HD & HQ & HC & HP & HS & _)].
    destruct (C24_linearised_qp _ _ _ _ _ DI HL) as ((GR & GC & CL & AC & AR) & _ & _ & _ & LE & EE & IC).
    destruct (C24_convex _ _ _ _ _ DI HL) as [PSD _].
    assert (NV : nv qp = pdim pr) by exact CL.
    assert (QC : qcons qp = []) by (rewrite NI in IC; inversion IC; reflexivity).
    assert (VL : violation = eq_l1 qp) by exact (violation_eq_l1 _ _ _ _ _ DI HL).
    assert (PP : 0 < it_penalty info).
    { unfold run_line_search, SelectStepSize in HS. inv_bind HS. apply f_assert_ok_inv in Hm.
      match type of Hm with fgtb ?a ?b = true => destruct (R_fgtb a b) as [X|]; [|discriminate] end. exact X. }
    assert (KEY : merit_slope (it_directional_derivatives info) (it_penalty info)
                  <= - n_equality_penalty_rho pa * it_penalty info * violation).
    { unfold ComputeStepDirection, use_null_space in HD. rewrite NI in HD. destruct (pr_eq pr) as [|e0 es] eqn:EQ.
      - (* unconstrained: one exact Newton step *)
        assert (B0 : neq qp = 0%nat).
        { unfold neq. specialize (LE []). unfold lin_equalities in LE. rewrite EQ in LE. simpl in LE. unfold mkvec in LE. apply map_eq_nil in LE.
          destruct (length (qb qp)); [reflexivity|discriminate]. }
        inv_bind HD. inv_bind HD. destruct a0 as [st' outs]. apply Ok_inj in HD. apply pair_inj in HD. destruct HD as [_ <-].
        destruct (Setup_ready _ _ _ Hm ltac:(rewrite QC; intros c0 [])) as [W RD].
        assert (CT : 0 < p_termination_complementarity_tol (inner_qp_params pa pr))
          by (change (0 < 1 / 1000000); lra).
        destruct (C18_returns_after_one_iteration _ _ _ _ _ _ W RD QC ltac:(rewrite B0, Nat.add_0_r, NV; apply LX; reflexivity) CT Hm0) as (_ & _ & _ & FD).
        assert (X : merit_slope (it_directional_derivatives info) (it_penalty info) <= - qform qp (x_block st')).
        { apply (C41_exact_interior_point_descent qp (x_block st') [] [] [] _ _ W HC).
          - symmetry. exact B0.
          - intros i Hi. unfold kkt_dual. rewrite FD by exact Hi. unfold nineq. rewrite QC, B0. cbn [Rsum length]. ring.
          - intros k0 Hk0. lia.
          - intros m Hm'. unfold nineq in Hm'. rewrite QC in Hm'. simpl in Hm'. lia.
          - intros k0 Hk0. simpl in Hk0. lia. }
        pose proof (PSD (x_block st')). rewrite VL. unfold eq_l1. rewrite B0. cbn [Rsum]. lra.
      - inv_bind HD. destruct a as [t x].
        destruct t; [|apply Ok_inj in HD; apply pair_inj in HD; destruct HD as [EO _]; rewrite <- EO in HQ; discriminate].
        apply Ok_inj in HD. apply pair_inj in HD. destruct HD as [EO <-].
        destruct (NX ltac:(discriminate) _ _ _ _ HL) as [QX CX].
        destruct (C20_null_space_minimiser qr llt qp _ x QX CX Hm) as (LX' & FE & MIN).
        destruct (Rle_lt_dec (1 / 4503599627370496) violation) as [HB|HB].
        + assert (SP : SelectPenalty qp x None (n_equality_penalty_rho pa) <= it_penalty info).
          { rewrite HP. unfold update_penalty. rewrite EQ, <- EO. cbn [MaybeGetLagrangeMultipliers].
            set (np := SelectPenalty qp x None (n_equality_penalty_rho pa)) in *.
            destruct (R_fgtb np (ns_penalty (sts k))) as [G|G].
            - unfold update_penalty in HP. rewrite EQ, <- EO in HP. cbn [MaybeGetLagrangeMultipliers] in HP. fold np in HP.
              destruct (R_fgtb np (ns_penalty (sts k))); [|lra]. cbn [fmul R_ops] in *. rewrite HP in PP.
              pose proof (npv_ps _ PV) as PS. assert (0 < np) by (apply (Rmult_lt_reg_r (n_equality_penalty_scale_factor pa)); lra).
              rewrite <- (Rmult_1_r np) at 1. apply Rmult_le_compat_l; lra.
            - lra. }
          rewrite VL in *. pose proof (C41_null_space_descent qp x _ _ _ ltac:(rewrite NV; exact GR) ltac:(rewrite NV; exact GC) AR HC FE (npv_rho _ PV) HB SP) as X.
          pose proof (Rmax_l 0 (qform qp x)). lra.
        + destruct HV as [HV|HV]; [|lra]. rewrite HV.
          pose proof (C41_equality_derivative _ _ _ AR HC FE) as DE. destruct (cost_derivative _ _ _ AR HC) as (_ & DF & _).
          unfold merit_slope. rewrite DE, DF, <- VL, HV.
          assert (Z0 : forall j, vget (vzero (nv qp) : list R) j = 0) by (intro; apply vzero_get).
          assert (F0 : eq_feasible qp (vzero (nv qp))).
          { intros k0 Hk0. unfold kkt_eq. rewrite Rsum_0 by (intros; rewrite Z0; ring).
            rewrite VL in HV. unfold eq_l1 in HV. pose proof (Rsum_zero_terms _ _ (fun i _ => Rabs_pos (vget (qb qp) i)) HV k0 Hk0) as X.
            cbv beta in X. destruct (Req_dec (vget (qb qp) k0) 0) as [->|N]; [ring|]. apply Rabs_no_R0 in N. contradiction. }
          assert (O0 : objective qp (vzero (nv qp)) = 0).
          { unfold objective, qform. rewrite Rsum_0 by (intros; apply Rsum_0; intros; rewrite !Z0; ring).
            rewrite Rsum_0 by (intros; rewrite Z0; ring). ring. }
          assert (LE0 : objective qp x <= 0).
          { destruct (list_eq_dec Req_EM_T (vzero (nv qp)) x) as [<-|N]; [lra|].
            pose proof (MIN (vzero (nv qp)) ltac:(unfold vzero; apply repeat_length) F0 N). lra. }
          unfold objective in LE0. pose proof (PSD x). lra. }
    assert (SL : merit_slope (it_directional_derivatives info) (it_penalty info) <= 0).
    { assert (0 <= n_equality_penalty_rho pa * it_penalty info * violation).
      { apply Rmult_le_pos; [apply Rmult_le_pos; [apply (npv_rho _ PV)|lra]|]. destruct HV; lra. }
      lra. }
    splits; [exact KEY|exact SL|]. intro EP. rewrite EP in HS.
    destruct (C28_line_search_log retract (ls_of pa pr (sts k) info dx) (npv_ls _ PV) _ _ _ HS) as (_ & _ & _ & _ & init & last & _ & _ & X).
    destruct X as (_ & _ & _ & _ & X). unfold ascending in X.
    match type of X with fgtb ?a ?b = true => destruct (R_fgtb a b) as [Y|]; [|discriminate] end.
    unfold slope in Y. cbn [li_dd li_penalty ls_of fadd fmul f0 R_ops] in Y. unfold merit_slope in SL. lra.
  Qed.

  (** C33, exactly: with equality constraints the penalty of an iteration is its predecessor's, unless the bound
      [lower] - the largest multiplier reported by the inner solver, or, when it reports none, the right hand
      side of inequality (18.36): predicted change of the cost over (1 - rho) times the violation - exceeds it;
      then it is [lower] times the scale factor. *)
  Theorem C33_penalty_exactly : forall vars cs r, distinct_indices pr -> pr_eq pr <> [] -> solve vars cs = Ok r ->
    let log := out_iterations (res_out r) in
    forall k info, nth_error log k = Some info ->
    exists x qp dx,
      LinearizeAndFillQP x (it_lambda info) pr = Ok (it_errors_initial info, qp) /\ length dx = nv qp /\
      (forall s, In s (it_line_search_steps info) -> exists v,
         RetractCandidateVars retract x dx (step_alpha s) = Ok v /\ EvaluateNonlinearErrors pr v = Ok (step_errors s)) /\
      let before := match k with
                    | 0%nat => n_equality_penalty_initial pa
                    | Datatypes.S j => match nth_error log j with Some i => it_penalty i | None => 0 end
                    end in
      let lower := match it_qp_outputs info with
                   | InteriorPointOut (MkIPSolverOut _ _ (Some m)) => lm_l_infinity m
                   | _ => (Rsum (nv qp) (fun i => vget (qc qp) i * vget dx i) + / 2 * Rmax 0 (qform qp dx)) /
                          ((1 - n_equality_penalty_rho pa) * Rmax (err_equality (it_errors_initial info)) (1 / 4503599627370496))
                   end in
      (lower <= before -> it_penalty info = before) /\
      (before < lower -> it_penalty info = lower * n_equality_penalty_scale_factor pa).
  Proof.
    intros vars cs r DI NE H log k info Hk. pose proof (solve_valid _ _ _ _ _ _ _ _ _ _ _ _ H) as PV.
    destruct (solve_history _ _ _ _ _ _ _ _ _ _ _ _ H) as (sts & css & exs & A & _ & _ & _ & _ & HH & _). fold log in HH.
    assert (PB : ns_penalty (sts k) = match k with
                    | 0%nat => n_equality_penalty_initial pa
                    | Datatypes.S j => match nth_error log j with Some i => it_penalty i | None => 0 end
                    end).
    { destruct k as [|k]; [rewrite A; reflexivity|].
      destruct (nth_error log k) as [i|] eqn:E.
      - destruct (HH k i E) as (HI & _). apply iterate_spec in HI. destruct HI as [_ (qp & dx & cand & _ & _ & _ & _ & _ & _ & _ & _ & _ & X & _)]. congruence.
      - apply nth_error_None in E. assert (Datatypes.S k < length log)%nat by (apply nth_error_Some; congruence). lia. }
    destruct (HH k info Hk) as (HI & _). apply iterate_spec in HI.
    destruct HI as [_ (qp & dx & cand & HL & HD & HQ & HC & HP & HS & _ & HLam & _)].
    destruct (C24_linearised_qp _ _ _ _ _ DI HL) as ((GR & GC & CL & AC & AR) & _).
    destruct (cost_derivative _ _ _ AR HC) as (LD & DF & _).
    exists (ns_vars (sts k)), qp, dx. rewrite HLam. split; [exact HL|]. split; [exact LD|]. split.
    { destruct (C28_line_search_log retract (ls_of pa pr (sts k) info dx) (npv_ls _ PV) _ _ _ HS) as (LG & _).
      unfold logged in LG. rewrite Forall_forall in LG. intros s Hs. specialize (LG s Hs). unfold errors_at in LG. inv_bind LG. eauto. }
    cbv zeta. rewrite <- PB.
    set (lower := match it_qp_outputs info with InteriorPointOut (MkIPSolverOut _ _ (Some m)) => _ | _ => _ end).
    assert (SP : SelectPenalty qp dx (MaybeGetLagrangeMultipliers (it_qp_outputs info)) (n_equality_penalty_rho pa) = lower).
    { assert (Q : SelectPenalty qp dx None (n_equality_penalty_rho pa) =
        (Rsum (nv qp) (fun i => vget (qc qp) i * vget dx i) + / 2 * Rmax 0 (qform qp dx)) /
                          ((1 - n_equality_penalty_rho pa) * Rmax (err_equality (it_errors_initial info)) (1 / 4503599627370496))).
      { unfold SelectPenalty. rewrite (quad_form qp dx ltac:(unfold nv; rewrite CL; exact GR) ltac:(unfold nv; rewrite CL; exact GC) LD). rewrite eq_l1_fl1, !R_fmax, R_eps, R_half.
        rewrite (violation_eq_l1 _ _ _ _ _ DI HL). cbn [fdiv fadd fmul fsub f0 f1 fdot R_ops].
        rewrite (Rdot_n (nv qp)) by (auto; reflexivity). f_equal. lra. }
      unfold lower. destruct (it_qp_outputs info) as [t|[a b [m|]]]; cbn [MaybeGetLagrangeMultipliers qp_lagrange_multipliers]; [exact Q|reflexivity|exact Q]. }
    unfold update_penalty in HP. rewrite SP in HP. destruct (pr_eq pr); [contradiction|].
    destruct (R_fgtb lower (ns_penalty (sts k))) as [X|X]; split; intro Y; try lra; exact HP.
  Qed.
End Descent.
