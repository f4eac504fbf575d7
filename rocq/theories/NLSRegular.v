(** C85: equality constrained problems whose constraint values can be changed one at a time at bounded cost. The Lagrange
    multipliers are then bounded by cost and violation, so C83 applies without assuming anything about multipliers; in particular
    to all affine problems with independent constraint rows. Exact arithmetic. *)
From Coq Require Import String List Bool Arith ZArith QArith Reals Lra Lia.
From Verif Require Import Scalar Outcome LinAlg Structs Constraint QPModel NullSpace Residual Nonlinear RInst Spec
  Props_Constraint QPBlocks QPAlgebra QPNewton QPStep ResProps LinProps MeritProps LSProps NSProps NLSTrace NLSProps NLSReal NLSBox Penalty NLSTotal
  Optimality QPRegular NLSRate NLSConstrained Factorisations.
Import ListNotations.
Local Open Scope outcome_scope.
Local Open Scope string_scope.
Local Open Scope list_scope.
Local Open Scope R_scope.

(** ** Specification *)

(** For each row l of A_eq there is a step w_l that changes the value of that constraint by 1 and of no other one, along which
    the second derivative of the objective is at most kappa. *)
Definition constraints_controllable (qp : QP R) (kappa : R) : Prop :=
  exists w : nat -> list R, forall l, (l < neq qp)%nat ->
    length (w l) = nv qp /\
    (forall k, (k < neq qp)%nat -> Rsum (nv qp) (fun j => Ae qp k j * vget (w l) j) = if (k =? l)%nat then 1 else 0) /\
    qform qp (w l) <= kappa.

(** The bound on the multipliers at a point with the given cost and violation. *)
Definition multiplier_bound (kappa cost violation : R) : R := sqrt kappa * sqrt (2 * cost) + kappa * violation.

(** ** Proof *)

Lemma quad_discriminant : forall h b q : R, (forall t, 0 <= h + t * b + t * t * / 2 * q) -> 0 <= h -> 0 <= q -> b * b <= 2 * q * h.
Proof.
  intros h b q H H0 Q0. destruct (Req_dec q 0) as [Z|N].
  - assert (b = 0).
    { destruct (Req_dec b 0) as [|NB]; [assumption|exfalso]. specialize (H (- (h + 1) / b)). rewrite Z in H.
      replace (h + - (h + 1) / b * b + - (h + 1) / b * (- (h + 1) / b) * / 2 * 0) with (-1) in H by (field; assumption). lra. }
    rewrite H1, Z. lra.
  - specialize (H (- b / q)). replace (h + - b / q * b + - b / q * (- b / q) * / 2 * q) with (h - b * b / q / 2) in H by (field; assumption).
    assert (0 < q) by lra. assert (b * b / q <= 2 * h) by lra. apply (Rmult_le_compat_r q) in H2; [|lra].
    unfold Rdiv in H2. rewrite Rmult_assoc, Rinv_l, Rmult_1_r in H2 by assumption. lra.
Qed.

(** Correcting the violation of the first n constraints. *)
Fixpoint correct_by (qp : QP R) (w : nat -> list R) (n : nat) : list R :=
  match n with
  | 0%nat => mkvec (nv qp) (fun _ => 0)
  | S n' => along (nv qp) (correct_by qp w n') (w n') (- vget (qb qp) n')
  end.

Section Bound.
  Variable qp : QP R.
  Variable kappa f : R.
  Variable w : nat -> list R.
  Hypothesis PSD : psd qp.
  Hypothesis CW : forall l, (l < neq qp)%nat ->
    length (w l) = nv qp /\
    (forall k, (k < neq qp)%nat -> Rsum (nv qp) (fun j => Ae qp k j * vget (w l) j) = if (k =? l)%nat then 1 else 0) /\
    qform qp (w l) <= kappa.
  Hypothesis POS : forall x, 0 <= f + objective qp x.
  Hypothesis F0 : 0 <= f.
  Hypothesis K0 : 0 <= kappa.

  Lemma correct_rows : forall n k, (n <= neq qp)%nat -> (k < neq qp)%nat ->
    Rsum (nv qp) (fun j => Ae qp k j * vget (correct_by qp w n) j) = if (k <? n)%nat then - vget (qb qp) k else 0.
  Proof.
    induction n as [|n IH]; intros k Hn Hk; cbn [correct_by].
    - rewrite Rsum_0 by (intros j Hj; rewrite vget_mkvec by exact Hj; ring). destruct (Nat.ltb_spec k 0); [lia|reflexivity].
    - rewrite (Rsum_ext _ _ (fun j => Ae qp k j * vget (correct_by qp w n) j + - vget (qb qp) n * (Ae qp k j * vget (w n) j))).
      2:{ intros j Hj. unfold along. rewrite vget_mkvec by exact Hj. ring. }
      rewrite Rsum_plus, Rsum_scal_l, IH by lia. destruct (CW n ltac:(lia)) as (_ & CWk & _). rewrite CWk by exact Hk.
      destruct (Nat.eqb_spec k n) as [EQ|NE]; destruct (Nat.ltb_spec k n); destruct (Nat.ltb_spec k (S n)); try lia; try ring.
      subst k. ring.
  Qed.

  Lemma correct_curvature : forall n, (n <= neq qp)%nat ->
    qform qp (correct_by qp w n) <= kappa * (Rsum n (fun k => Rabs (vget (qb qp) k)) * Rsum n (fun k => Rabs (vget (qb qp) k))).
  Proof.
    induction n as [|n IH]; intro Hn; cbn [correct_by Rsum].
    - unfold qform. rewrite Rsum_0; [lra|]. intros i Hi. apply Rsum_0. intros j Hj. rewrite !vget_mkvec by assumption. ring.
    - rewrite qform_along. specialize (IH ltac:(lia)). destruct (CW n ltac:(lia)) as (_ & _ & QW).
      set (V := Rsum n (fun k => Rabs (vget (qb qp) k))) in *. assert (V0 : 0 <= V) by (apply Rsum_nonneg; intros; apply Rabs_pos).
      set (c := vget (qb qp) n) in *. set (u := correct_by qp w n) in *.
      pose proof (psd_CS qp u (w n) PSD) as CS. pose proof (PSD u) as PU. pose proof (PSD (w n)) as PW.
      set (b := bform qp u (w n)) in *. set (qu := qform qp u) in *. set (qw := qform qp (w n)) in *.
      assert (B2 : Rabs b <= kappa * V).
      { apply Rsqr_incr_0_var; [|apply Rmult_le_pos; assumption]. rewrite <- Rsqr_abs. unfold Rsqr.
        eapply Rle_trans; [exact CS|]. apply Rle_trans with (kappa * (V * V) * kappa); [apply Rmult_le_compat; assumption|lra]. }
      assert (CB : - c * b <= Rabs c * (kappa * V)).
      { eapply Rle_trans; [apply Rle_abs|]. rewrite Rabs_mult, Rabs_Ropp. apply Rmult_le_compat_l; [apply Rabs_pos|exact B2]. }
      assert (CC : c * c * qw <= Rabs c * Rabs c * kappa).
      { rewrite <- Rabs_mult, (Rabs_pos_eq (c * c)) by apply Rle_0_sqr. apply Rmult_le_compat_l; [apply Rle_0_sqr|exact QW]. }
      nra.
  Qed.

  Lemma multipliers_bounded : multipliers_within qp (multiplier_bound kappa f (eq_l1 qp)).
  Proof.
    intros dx LD FE MIN. pose proof (minimiser_stationary qp dx FE MIN) as ST.
    set (y := fun l => bform qp dx (w l) + gdot qp (w l)). exists y. split.
    - intros l Hl. destruct (CW l Hl) as (LW & CWl & QW). set (h0 := f + objective qp dx).
      assert (H0 : 0 <= h0) by apply POS. set (V := eq_l1 qp).
      assert (V0 : 0 <= V) by (apply Rsum_nonneg; intros; apply Rabs_pos).
      assert (Y2 : y l * y l <= 2 * kappa * h0).
      { eapply Rle_trans.
        - apply (quad_discriminant h0 (y l) (qform qp (w l))); [|exact H0|apply PSD]. intro t.
          pose proof (POS (along (nv qp) dx (w l) t)) as X. rewrite objective_along in X. unfold h0, y. lra.
        - apply Rmult_le_compat_r; [exact H0|lra]. }
      set (u := correct_by qp w (neq qp)).
      assert (LU : length u = nv qp) by (unfold u; destruct (neq qp); cbn [correct_by]; unfold along; apply mkvec_length).
      assert (FU : eq_feasible qp u).
      { intros k Hk. unfold kkt_eq. unfold u. rewrite correct_rows by lia. destruct (Nat.ltb_spec k (neq qp)); [|lia]. lra. }
      assert (QU : qform qp u <= kappa * (V * V)) by (apply correct_curvature; lia).
      pose proof (MIN u LU FU) as MU.
      assert (GU : gdot qp u * gdot qp u <= 2 * qform qp u * f).
      { apply quad_discriminant; [|exact F0|apply PSD]. intro t.
        pose proof (POS (along (nv qp) (mkvec (nv qp) (fun _ => 0)) u t)) as X. rewrite objective_along in X.
        assert (Z1 : objective qp (mkvec (nv qp) (fun _ => 0)) = 0).
        { unfold objective, qform. rewrite !Rsum_0; [lra|..].
          - intros i Hi. rewrite vget_mkvec by exact Hi. ring.
          - intros i Hi. apply Rsum_0. intros j Hj. rewrite !vget_mkvec by assumption. ring. }
        assert (Z2 : bform qp (mkvec (nv qp) (fun _ => 0)) u = 0).
        { unfold bform. apply Rsum_0. intros i Hi. apply Rsum_0. intros j Hj. rewrite vget_mkvec by exact Hi. ring. }
        rewrite Z1, Z2 in X. lra. }
      assert (OB : objective qp u = / 2 * qform qp u + gdot qp u) by reflexivity.
      set (a := sqrt kappa). set (s := sqrt (2 * f)).
      assert (A0 : 0 <= a) by apply sqrt_pos. assert (S0 : 0 <= s) by apply sqrt_pos.
      assert (AA : a * a = kappa) by (apply sqrt_sqrt; exact K0). assert (SS : s * s = 2 * f) by (apply sqrt_sqrt; lra).
      assert (AV : 0 <= a * V) by (apply Rmult_le_pos; assumption).
      assert (GB : gdot qp u <= s * (a * V)).
      { eapply Rle_trans; [apply Rle_abs|]. apply Rsqr_incr_0_var; [|apply Rmult_le_pos; assumption]. rewrite <- Rsqr_abs. unfold Rsqr.
        eapply Rle_trans; [exact GU|]. replace (s * (a * V) * (s * (a * V))) with (s * s * (a * a * (V * V))) by ring. rewrite SS, AA.
        apply Rle_trans with (2 * (kappa * (V * V)) * f); [|lra]. apply Rmult_le_compat_r; [exact F0|lra]. }
      assert (HB : 2 * h0 <= (s + a * V) * (s + a * V)).
      { unfold h0. rewrite OB in MU. replace ((s + a * V) * (s + a * V)) with (s * s + 2 * (s * (a * V)) + a * a * (V * V)) by ring.
        rewrite SS, AA. lra. }
      unfold multiplier_bound. fold a s. replace (a * s + kappa * V) with (a * (s + a * V)) by (rewrite <- AA; ring).
      apply Rsqr_incr_0_var; [|apply Rmult_le_pos; lra]. rewrite <- Rsqr_abs. unfold Rsqr.
      eapply Rle_trans; [exact Y2|]. replace (a * (s + a * V) * (a * (s + a * V))) with (a * a * ((s + a * V) * (s + a * V))) by ring.
      rewrite AA. replace (2 * kappa * h0) with (kappa * (2 * h0)) by ring. apply Rmult_le_compat_l; assumption.
    - intros i Hi.
      (* the i-th unit vector, corrected to a tangent direction *)
      set (u := mkvec (nv qp) (fun j => kd j i - Rsum (neq qp) (fun l => Ae qp l i * vget (w l) j))).
      assert (TU : qp_tangent qp u).
      { intros k Hk. unfold u.
        rewrite (Rsum_ext _ _ (fun j => Ae qp k j * kd j i - Rsum (neq qp) (fun l => Ae qp l i * (Ae qp k j * vget (w l) j)))).
        2:{ intros j Hj. rewrite vget_mkvec by exact Hj. rewrite Rmult_minus_distr_l, <- Rsum_scal_l. f_equal. apply Rsum_ext. intros. ring. }
        rewrite Rsum_minus, Rsum_kd by exact Hi. rewrite Rsum_swap.
        rewrite (Rsum_ext (neq qp) _ (fun l => Ae qp l i * kd l k)).
        - rewrite Rsum_kd by exact Hk. ring.
        - intros l Hl. rewrite Rsum_scal_l. destruct (CW l Hl) as (_ & CWl & _). rewrite CWl by exact Hk. unfold kd. rewrite Nat.eqb_sym. reflexivity. }
      pose proof (ST u TU) as SU.
      set (grad := fun j => Rsum (nv qp) (fun j' => Gs qp j j' * vget dx j') + vget (qc qp) j).
      assert (DER : forall x, bform qp dx x + gdot qp x = Rsum (nv qp) (fun j => grad j * vget x j)).
      { intro x. rewrite bform_sym. unfold bform, gdot, grad.
        rewrite <- Rsum_plus. apply Rsum_ext. intros j Hj. rewrite Rmult_plus_distr_r. f_equal.
        rewrite <- Rsum_scal_r. apply Rsum_ext. intros. ring. }
      rewrite DER in SU. unfold u in SU.
      rewrite (Rsum_ext _ _ (fun j => grad j * kd j i - Rsum (neq qp) (fun l => Ae qp l i * (grad j * vget (w l) j)))) in SU.
      2:{ intros j Hj. rewrite vget_mkvec by exact Hj. rewrite Rmult_minus_distr_l, <- Rsum_scal_l. f_equal. apply Rsum_ext. intros. ring. }
      rewrite Rsum_minus, Rsum_kd in SU by exact Hi. rewrite Rsum_swap in SU.
      rewrite (Rsum_ext (neq qp) _ (fun l => Ae qp l i * y l)) in SU.
      + unfold grad in SU. lra.
      + intros l Hl. rewrite Rsum_scal_l. unfold y. rewrite DER. reflexivity.
  Qed.
End Bound.

(** C85: the multipliers of the QP at any point are bounded by the cost and the constraint violation there. *)
Theorem C85_multiplier_bound : forall (pr : Problem R) v lambda errs qp kappa,
  distinct_indices pr -> LinearizeAndFillQP v lambda pr = Ok (errs, qp) -> 0 <= kappa -> constraints_controllable qp kappa ->
  multipliers_within qp (multiplier_bound kappa (err_f errs) (err_equality errs)).
Proof.
  intros pr v lambda errs qp kappa DI HL K0 (w & CW).
  destruct (C24_linearised_qp _ _ _ _ _ DI HL) as (_ & OBJ & _). cbv zeta in OBJ.
  destruct (C24_convex _ _ _ _ _ DI HL) as [PSD _].
  assert (LC : forall u, 0 <= lin_cost pr v u).
  { intro u. unfold lin_cost. induction (pr_costs pr) as [|c l IH]; cbn [map Rlsum]; [lra|].
    match goal with |- 0 <= ?a + _ => assert (0 <= a) end; [|lra].
    apply Rmult_le_pos; [lra|]. apply Rsum_nonneg. intros. first [apply pow2_ge_0|apply Rle_0_sqr]. }
  assert (POS : forall x, 0 <= err_f errs + objective qp x).
  { intro x. rewrite OBJ. assert (0 <= Rmax lambda 0) by apply Rmax_r.
    assert (0 <= Rsum (Z.to_nat (pr_dimension pr)) (fun i => vget x i ^ 2)) by (apply Rsum_nonneg; intros; apply pow2_ge_0).
    pose proof (LC (vget x)). assert (0 <= / 2 * Rmax lambda 0 * Rsum (Z.to_nat (pr_dimension pr)) (fun i => vget x i ^ 2)) by (apply Rmult_le_pos; [apply Rmult_le_pos; lra|assumption]). lra. }
  assert (F0 : 0 <= err_f errs).
  { destruct (C24_linearised_qp _ _ _ _ _ DI HL) as (_ & _ & FE & _). rewrite FE. apply LC. }
  rewrite (violation_eq_l1 _ _ _ _ _ DI HL). apply (multipliers_bounded qp kappa (err_f errs) w); assumption.
Qed.

Lemma multiplier_bound_mono : forall kappa f v f' v', 0 <= kappa -> f <= f' -> v <= v' ->
  multiplier_bound kappa f v <= multiplier_bound kappa f' v'.
Proof.
  intros kappa f v f' v' K F V. unfold multiplier_bound. apply Rplus_le_compat.
  - apply Rmult_le_compat_l; [apply sqrt_pos|]. apply sqrt_le_1_alt. lra.
  - apply Rmult_le_compat_l; assumption.
Qed.

Lemma multipliers_within_mono : forall qp Y Y', multipliers_within qp Y -> Y <= Y' -> multipliers_within qp Y'.
Proof.
  intros qp Y Y' M L dx LD FE MIN. destruct (M dx LD FE MIN) as (y & B & E). exists y. split; [|exact E].
  intros k Hk. eapply Rle_trans; [exact (B k Hk)|exact L].
Qed.

(** The merit value cost / penalty + violation of the initial guess. *)
Definition start_merit (pr : Problem R) (pa : NLSParams R) (vars : list R) : R :=
  cost_at pr vars / n_equality_penalty_initial pa + eq_l1_at pr vars.

Lemma start_merit_nonneg : forall pr pa vars, 0 < n_equality_penalty_initial pa -> 0 <= start_merit pr pa vars.
Proof.
  intros. unfold start_merit. pose proof (cost_nonneg pr vars) as C0. pose proof (eq_l1_at_nonneg pr vars) as E0.
  assert (0 <= cost_at pr vars / n_equality_penalty_initial pa) by (apply Rmult_le_pos; [exact C0|left; apply Rinv_0_lt_compat; exact H]). lra.
Qed.

Lemma no_worse_multipliers : forall (pr : Problem R) pa vars kappa Y v lambda errs qp,
  well_posed pa pr vars -> distinct_indices pr -> value_consistent pr -> 0 <= kappa ->
  multiplier_bound kappa (penalty_limit pa Y * start_merit pr pa vars) (start_merit pr pa vars) <= Y ->
  no_worse pr (n_equality_penalty_initial pa) (penalty_limit pa Y) vars v -> LinearizeAndFillQP v lambda pr = Ok (errs, qp) ->
  constraints_controllable qp kappa -> multipliers_within qp Y.
Proof.
  intros pr pa vars kappa Y v lambda errs qp WP DI VC K0 HY (LV & VB & CB) HL CO. fold (start_merit pr pa vars) in VB, CB.
  pose proof (C85_multiplier_bound pr v lambda errs qp kappa DI HL K0 CO) as M.
  apply C25_linearisation_errors in HL; [|exact VC].
  rewrite eval_errors_R in HL.
  - apply Ok_inj in HL. subst errs. cbn [err_f err_equality] in M. eapply multipliers_within_mono; [exact M|].
    eapply Rle_trans; [|exact HY]. apply multiplier_bound_mono; assumption.
  - apply (wp_idx pr pa vars); [exact WP|]. rewrite LV. symmetry. apply (wp_vars _ _ _ WP).
Qed.

(** C85: Solve succeeds on every equality constrained problem with correct derivatives whose constraints are controllable and
    whose objective curves upwards on their null space, at all points that violate the constraints no more than
    start_merit. Y is any number with multiplier_bound (...) <= Y; one exists (C85_bound_exists). *)
Theorem C85_controllable_solve_satisfied : forall ldlt qr llt eigs (pr : Problem R) g (pa : NLSParams R) vars kappa Y,
  well_posed pa pr vars -> pr_ineq pr = [] -> pr_eq pr <> [] -> (0 < eq_rows pr <= pdim pr)%nat -> distinct_indices pr ->
  null_space_exact qr llt pr -> derivatives_correct pr -> value_consistent pr ->
  0 < n_equality_penalty_rho pa -> 0 < n_relative_exit_tol pa -> 0 <= kappa -> 0 <= Y ->
  multiplier_bound kappa (penalty_limit pa Y * start_merit pr pa vars) (start_merit pr pa vars) <= Y ->
  1 / 4503599627370496 <= n_absolute_first_derivative_tol pa -> Y * (1 / 4503599627370496) < n_absolute_first_derivative_tol pa ->
  (forall v lambda errs qp, length v = pdim pr -> eq_l1_at pr v <= start_merit pr pa vars ->
     n_min_lambda pa <= lambda <= Rmax (n_lambda_initial pa) 0 -> LinearizeAndFillQP v lambda pr = Ok (errs, qp) ->
     qrRank (qr (qA qp)) = mrows (qA qp) /\ curved_on_null_space qp /\ constraints_controllable qp kappa) ->
  exists K, forall m, (K < m)%Z -> exists L, forall l, (L <= l)%Z ->
    exists r, NLS_Solve ldlt qr llt eigs None (@None (unit -> NLSIteration R -> unit * bool)) (with_ls l (with_max_iterations m pa)) pr g vars tt = Ok r /\
      satisfied (out_termination_state (res_out r)) /\
      forall info, In info (out_iterations (res_out r)) -> good_step (it_step_result info) /\ it_penalty info <= penalty_limit pa Y.
Proof.
  intros ldlt qr llt eigs pr g pa vars kappa Y WP NI NE ER DI NX DC VC RHO RT K0 Y0 HY A1 A2 REG.
  apply C83_equality_constrained_solve_satisfied; try assumption.
  intros v lambda errs qp NW HLam HL. pose proof NW as (LV & VB & _). fold (start_merit pr pa vars) in VB.
  destruct (REG v lambda errs qp LV VB HLam HL) as (RK & CU & CO). splits; [exact RK|exact CU|].
  apply (no_worse_multipliers pr pa vars kappa Y v lambda errs); assumption.
Qed.

(** C85: such a Y always exists. *)
Theorem C85_bound_exists : forall (pr : Problem R) (pa : NLSParams R) vars kappa,
  nls_params_valid pa -> 0 < n_equality_penalty_initial pa -> 0 <= kappa ->
  exists Y, 0 <= Y /\ multiplier_bound kappa (penalty_limit pa Y * start_merit pr pa vars) (start_merit pr pa vars) <= Y.
Proof.
  intros pr pa vars kappa PV PP K0. pose proof (start_merit_nonneg pr pa vars PP) as M0. set (m0 := start_merit pr pa vars) in *.
  pose proof (npv_rho _ PV) as RH. pose proof (npv_ps _ PV) as PS.
  set (p0 := n_equality_penalty_initial pa) in *. set (s := n_equality_penalty_scale_factor pa / (1 - n_equality_penalty_rho pa)).
  assert (S0 : 0 <= s) by (apply Rmult_le_pos; [lra|left; apply Rinv_0_lt_compat; lra]).
  set (c := kappa * m0). assert (C0 : 0 <= c) by (apply Rmult_le_pos; assumption).
  set (a := 2 * kappa * m0 * p0). set (b := 2 * kappa * m0 * s).
  assert (A0 : 0 <= a) by (apply Rmult_le_pos; [apply Rmult_le_pos; [lra|exact M0]|lra]).
  assert (B0 : 0 <= b) by (apply Rmult_le_pos; [apply Rmult_le_pos; [lra|exact M0]|lra]).
  assert (BC : 0 <= b * c) by (apply Rmult_le_pos; assumption).
  set (t := 1 + a + b + b * c). assert (T1 : 1 <= t) by (unfold t; lra).
  exists (t + c). split; [lra|].
  assert (PL : 0 <= penalty_limit pa (t + c) <= p0 + s * (t + c)).
  { unfold penalty_limit. fold p0. replace (n_equality_penalty_scale_factor pa * ((t + c) / (1 - n_equality_penalty_rho pa))) with (s * (t + c)) by (unfold s; field; lra).
    assert (0 <= s * (t + c)) by (apply Rmult_le_pos; lra). split; [eapply Rle_trans; [|apply Rmax_l]; lra|apply Rmax_lub; lra]. }
  unfold multiplier_bound. fold c. apply Rplus_le_compat_r. rewrite <- sqrt_mult_alt by exact K0.
  apply Rle_trans with (sqrt (t * t)); [|rewrite sqrt_square by lra; lra]. apply sqrt_le_1_alt.
  apply Rle_trans with (a + b * (t + c)).
  - unfold a, b. replace (2 * kappa * m0 * p0 + 2 * kappa * m0 * s * (t + c)) with (2 * kappa * m0 * (p0 + s * (t + c))) by ring.
    replace (kappa * (2 * (penalty_limit pa (t + c) * m0))) with (2 * kappa * m0 * penalty_limit pa (t + c)) by ring.
    apply Rmult_le_compat_l; [apply Rmult_le_pos; lra|]. apply PL.
  - assert ((1 + a + b * c) * 1 <= (1 + a + b * c) * t) by (apply Rmult_le_compat_l; lra).
    replace (t * t) with (b * t + (1 + a + b * c) * t) by (unfold t; ring). lra.
Qed.

(** C85: hence some number of iterations is always enough (back-tracking; any line search limit, retraction and callback). *)
Theorem C85_controllable_enough_iterations : forall qr llt (pr : Problem R) (pa : NLSParams R) vars kappa,
  well_posed pa pr vars -> pr_ineq pr = [] -> pr_eq pr <> [] -> distinct_indices pr ->
  null_space_exact qr llt pr -> value_consistent pr -> n_line_search_strategy pa = ARMIJO_BACKTRACK ->
  0 < n_relative_exit_tol pa -> 0 < n_lambda_failure_init pa -> 0 <= kappa ->
  (forall v lambda errs qp, length v = pdim pr -> eq_l1_at pr v <= start_merit pr pa vars ->
     n_min_lambda pa <= lambda <= n_max_lambda pa -> LinearizeAndFillQP v lambda pr = Ok (errs, qp) -> constraints_controllable qp kappa) ->
  exists K, forall m l ldlt eigs retract (S : Type) (cb : option (S -> NLSIteration R -> S * bool)) g cs r,
    retraction_ok retract ->
    NLS_Solve ldlt qr llt eigs retract cb (with_ls l (with_max_iterations m pa)) pr g vars cs = Ok r ->
    (length (out_iterations (res_out r)) <= K)%nat /\ ((Z.of_nat K < m)%Z -> out_termination_state (res_out r) <> NLS_MAX_ITERATIONS).
Proof.
  intros qr llt pr pa vars kappa WP NI NE DI NX VC LS RT LF K0 REG.
  destruct (C85_bound_exists pr pa vars kappa (wp_params _ _ _ WP) (wp_penalty _ _ _ WP) K0) as (Y & Y0 & HY).
  apply (C83_enough_iterations qr llt pr pa vars Y); try assumption.
  intros v lambda errs qp NW HLam HL. pose proof NW as (LV & VB & _). fold (start_merit pr pa vars) in VB.
  apply (no_worse_multipliers pr pa vars kappa Y v lambda errs); auto. apply (REG v lambda errs qp LV VB HLam HL).
Qed.

(** ** Affine problems *)

(** Position k of the stacked constraints belongs to one component of one residual. *)
Lemma stacked_pick : forall (l : list (residual R)) k, (k < length (flat_map (fun r => mkvec (res_dim r) (fun _ => 0%R)) l))%nat ->
  exists r j, In r l /\ (j < res_dim r)%nat /\
    forall F : residual R -> nat -> R, vget (flat_map (fun r => mkvec (res_dim r) (F r)) l) k = F r j.
Proof.
  induction l as [|r l IH]; intros k Hk; cbn [flat_map] in *; [cbn in Hk; lia|].
  rewrite app_length, mkvec_length in Hk. destruct (Nat.lt_ge_cases k (res_dim r)) as [L|G].
  - exists r, k. splits; [left; reflexivity|exact L|]. intro F. unfold vget. rewrite app_nth1 by (rewrite mkvec_length; exact L).
    apply vget_mkvec. exact L.
  - destruct (IH (k - res_dim r)%nat ltac:(lia)) as (r' & j & A & B & C). exists r', j. splits; [right; exact A|exact B|].
    intro F. rewrite <- (C F). unfold vget. rewrite app_nth2 by (rewrite mkvec_length; exact G). rewrite mkvec_length. reflexivity.
Qed.
Lemma stacked_length : forall (l : list (residual R)) (F G : residual R -> nat -> R),
  length (flat_map (fun r => mkvec (res_dim r) (F r)) l) = length (flat_map (fun r => mkvec (res_dim r) (G r)) l).
Proof. induction l as [|r l IH]; intros F G; cbn [flat_map]; [reflexivity|]. rewrite !app_length, !mkvec_length, (IH F G). reflexivity. Qed.

Lemma jac_constant : forall (pr : Problem R) r x x' u k, affine_problem pr -> In r (pr_costs pr) \/ In r (pr_eq pr) -> (k < res_dim r)%nat ->
  length x' = length x -> length u = length x -> jac_dx r x' u k = jac_dx r x u k.
Proof.
  intros pr r x x' u k AF Hr Hk LX LU. destruct (ray1_sub x x' ltac:(congruence)) as (d & LD & <-).
  set (du := mkvec (length x) (fun i => vget d i + vget u i)). assert (LDU : length du = length x) by apply mkvec_length.
  pose proof (AF r Hr x d 1 k Hk LD) as E1.
  pose proof (AF r Hr (ray x d 1) u 1 k Hk ltac:(congruence)) as E2.
  pose proof (AF r Hr x du 1 k Hk LDU) as E3.
  assert (RG : forall (y z : list R) t i, length z = length y -> vget (ray y z t) i = vget y i + vget z i * t).
  { intros y z t i L. unfold ray. rewrite vadd_get by (rewrite vscale_length; congruence). rewrite vscale_get. reflexivity. }
  assert (OUT : forall (y : list R) i, (length y <= i)%nat -> vget y i = 0) by (intros; apply nth_overflow; assumption).
  assert (DG : forall i, vget du i = vget d i + vget u i).
  { intro i. destruct (Nat.lt_ge_cases i (length x)) as [L|G]; [unfold du; apply vget_mkvec; exact L|].
    rewrite !OUT by congruence. ring. }
  assert (EQ : ray (ray x d 1) u 1 = ray x du 1).
  { apply (vget_ext R R_ops).
    - rewrite (ray_length (ray x d 1) u), LX, (ray_length x du) by congruence. reflexivity.
    - intros i Hi. rewrite !RG by congruence. rewrite DG. ring. }
  rewrite EQ in E2. rewrite E2 in E3.
  assert (LIN : jac_dx r x du k = jac_dx r x d k + jac_dx r x u k).
  { unfold jac_dx. rewrite <- Rsum_plus. apply Rsum_ext. intros i Hi. rewrite DG. ring. }
  lra.
Qed.

(** The constraint rows and the second derivative of the QP, in terms of the user's Jacobians. *)
Lemma qp_rows : forall (pr : Problem R) k, (k < eq_rows pr)%nat -> distinct_indices pr ->
  exists r j, In r (pr_eq pr) /\ (j < res_dim r)%nat /\
  forall v lambda errs qp u, LinearizeAndFillQP v lambda pr = Ok (errs, qp) ->
    neq qp = eq_rows pr /\ Rsum (nv qp) (fun i => Ae qp k i * vget u i) = jac_dx r v u j.
Proof.
  intros pr k Hk DI.
  assert (ROWS : forall F : residual R -> nat -> R, length (flat_map (fun r => mkvec (res_dim r) (F r)) (pr_eq pr)) = eq_rows pr).
  { intro F. unfold eq_rows. induction (pr_eq pr) as [|r l IH]; [reflexivity|]. cbn [flat_map map fold_right list_sum]. rewrite app_length, mkvec_length, IH. reflexivity. }
  destruct (stacked_pick (pr_eq pr) k) as (r & j & A & B & C); [rewrite (ROWS (fun _ _ => 0)); exact Hk|].
  exists r, j. splits; [exact A|exact B|]. intros v lambda errs qp u HL.
  destruct (C24_linearised_qp _ _ _ _ _ DI HL) as (_ & _ & _ & _ & LE & _).
  assert (NEQ : neq qp = eq_rows pr).
  { unfold neq. rewrite <- (ROWS (fun r => lin_residual r v (vget u))). fold (lin_equalities pr v (vget u)). rewrite <- LE. symmetry. apply mkvec_length. }
  split; [exact NEQ|].
  assert (Z0 : forall i, vget ([] : list R) i = 0) by (intro i; unfold vget; destruct i; reflexivity).
  assert (K1 : forall x, kkt_eq qp x k = lin_residual r v (vget x) j).
  { intro x. specialize (LE x). assert (X : vget (mkvec (length (qb qp)) (fun k => kkt_eq qp x k)) k = kkt_eq qp x k) by (apply vget_mkvec; unfold neq in NEQ; lia).
    rewrite <- X, LE. unfold lin_equalities. apply (C (fun r => lin_residual r v (vget x))). }
  pose proof (K1 u) as E1. pose proof (K1 []) as E2. unfold kkt_eq in E1, E2. rewrite (Rsum_0 (nv qp)) in E2 by (intros; rewrite Z0; ring).
  unfold lin_residual in E1, E2. rewrite (Rsum_0 (length (res_index r))) in E2 by (intros; rewrite Z0; ring). unfold jac_dx. lra.
Qed.
Lemma curvature_jac : forall (pr : Problem R) v u, lin_curvature pr v (vget u) =
  Rlsum (map (fun r => Rsum (res_dim r) (fun k => jac_dx r v u k ^ 2)) (pr_costs pr)).
Proof.
  intros. unfold lin_curvature. f_equal. apply map_ext. intro r. apply Rsum_ext. intros k Hk. f_equal. unfold lin_residual, jac_dx.
  rewrite (Rsum_0 _ (fun a => _ * 0)) by (intros; ring). ring.
Qed.

(** Independent rows have a right inverse. *)
Lemma right_inverse : forall A : mat R, rows_independent A -> exists W : nat -> nat -> R,
  forall k l, (k < mrows A)%nat -> (l < mrows A)%nat -> Rsum (mcols A) (fun j => mget A k j * W j l) = kd k l.
Proof.
  intros A IND. set (M := fun k l => Rsum (mcols A) (fun j => mget A k j * mget A l j)).
  destruct (inverse_or_kernel (mrows A) M) as [(X & HX)|K].
  - exists (fun j l => Rsum (mrows A) (fun q => mget A q j * X q l)). intros k l Hk Hl. rewrite <- (HX k l Hk Hl). unfold fmulm, M.
    rewrite (Rsum_ext (mcols A) _ (fun j => Rsum (mrows A) (fun q => mget A k j * mget A q j * X q l))).
    + rewrite Rsum_swap. apply Rsum_ext. intros q Hq. rewrite Rsum_scal_r. reflexivity.
    + intros j Hj. rewrite <- Rsum_scal_l. apply Rsum_ext. intros. ring.
  - exfalso. destruct K as (v & (i & Hi & NZ) & HV). apply NZ. apply (IND v); [|exact Hi].
    set (z := fun j => Rsum (mrows A) (fun q => mget A q j * v q)).
    assert (SQ : Rsum (mcols A) (fun j => z j * z j) = 0).
    { transitivity (Rsum (mrows A) (fun k => v k * Rsum (mrows A) (fun l => M k l * v l))).
      - unfold z at 1. rewrite (Rsum_ext (mcols A) _ (fun j => Rsum (mrows A) (fun k => mget A k j * v k * z j))) by (intros; rewrite <- Rsum_scal_r; reflexivity).
        rewrite Rsum_swap. apply Rsum_ext. intros k Hk. unfold M, z.
        rewrite (Rsum_ext (mcols A) _ (fun j => Rsum (mrows A) (fun q => v k * (mget A k j * mget A q j * v q)))).
        + rewrite Rsum_swap. rewrite <- Rsum_scal_l. apply Rsum_ext. intros q Hq. rewrite Rsum_scal_l, Rsum_scal_r. reflexivity.
        + intros j Hj. rewrite <- Rsum_scal_l. apply Rsum_ext. intros. ring.
      - apply Rsum_0. intros k Hk. rewrite HV by exact Hk. ring. }
    intros j Hj. assert (X : z j * z j = 0) by (apply (Rsum_zero_terms (mcols A) (fun j => z j * z j)); [intros; apply Rle_0_sqr|exact SQ|exact Hj]).
    destruct (Rmult_integral _ _ X); assumption.
Qed.

(** C85: an affine problem with independent constraint rows is controllable everywhere, with one constant. *)
Theorem C85_affine_controllable : forall (pr : Problem R) pa vars Lmax,
  well_posed pa pr vars -> distinct_indices pr -> affine_problem pr ->
  (forall lambda errs qp, LinearizeAndFillQP vars lambda pr = Ok (errs, qp) -> rows_independent (qA qp)) ->
  exists kappa, 0 <= kappa /\ forall v lambda errs qp, length v = pdim pr -> lambda <= Lmax -> LinearizeAndFillQP v lambda pr = Ok (errs, qp) ->
    constraints_controllable qp kappa.
Proof.
  intros pr pa vars Lmax WP DI AF IND. pose proof (wp_vars _ _ _ WP) as LV.
  destruct (linearise_total pr vars 0 LV (wp_index _ _ _ WP) (fun c Hc => proj1 (wp_cons _ _ _ WP c Hc)) (wp_dim _ _ _ WP)) as (e0 & q0 & HL0 & _).
  destruct (C24_linearised_qp _ _ _ _ _ DI HL0) as ((_ & _ & CL0 & AC0 & AR0) & _).
  specialize (IND 0 e0 q0 HL0). destruct (right_inverse _ IND) as (W & HW). fold (pdim pr) in CL0, AC0.
  assert (NV0 : nv q0 = pdim pr) by exact CL0.
  assert (NQ0 : mrows (qA q0) = neq q0) by exact AR0.
  set (w := fun l => mkvec (pdim pr) (fun j => W j l)).
  assert (LW : forall l, length (w l) = length vars) by (intro l; unfold w; rewrite mkvec_length; symmetry; exact LV).
  assert (WG : forall l j, (j < pdim pr)%nat -> vget (w l) j = W j l) by (intros l j Hj; unfold w; rewrite vget_mkvec by exact Hj; reflexivity).
  set (cost := fun l => lin_curvature pr vars (vget (w l)) + Rmax Lmax 0 * Rsum (pdim pr) (fun i => vget (w l) i ^ 2)).
  assert (SP : forall l, 0 <= Rsum (pdim pr) (fun i => vget (w l) i ^ 2)) by (intro l; apply Rsum_nonneg; intros; apply pow2_ge_0).
  assert (C0 : forall l, 0 <= cost l).
  { intro l. unfold cost. assert (0 <= lin_curvature pr vars (vget (w l))).
    { unfold lin_curvature. induction (pr_costs pr) as [|c cl IH]; cbn [map Rlsum]; [lra|].
      match goal with |- 0 <= ?a + _ => assert (0 <= a) by (apply Rsum_nonneg; intros; apply pow2_ge_0) end. lra. }
    assert (0 <= Rmax Lmax 0 * Rsum (pdim pr) (fun i => vget (w l) i ^ 2)) by (apply Rmult_le_pos; [apply Rmax_r|apply SP]). lra. }
  exists (Rsum (neq q0) cost). split; [apply Rsum_nonneg; intros; apply C0|].
  intros v lambda errs qp LVv HLam HL. exists w.
  destruct (C24_linearised_qp _ _ _ _ _ DI HL) as ((_ & _ & CL & _) & _ & _ & QF & _). fold (pdim pr) in CL, QF.
  assert (NV : nv qp = pdim pr) by exact CL.
  intros l Hl.
  assert (ROW : forall k, (k < neq qp)%nat -> neq q0 = neq qp /\
     Rsum (nv qp) (fun j => Ae qp k j * vget (w l) j) = Rsum (nv q0) (fun j => Ae q0 k j * vget (w l) j)).
  { intros k Hk. assert (KE : (k < eq_rows pr)%nat).
    { destruct (Nat.eq_dec (eq_rows pr) 0) as [Z|NZ].
      - exfalso. pose proof (linearise_total pr v lambda LVv (wp_index _ _ _ WP) (fun c Hc => proj1 (wp_cons _ _ _ WP c Hc)) (wp_dim _ _ _ WP)) as (e' & q' & HL' & _ & _ & _ & _ & _ & BL & _).
        rewrite HL in HL'. apply Ok_inj, pair_inj in HL'. destruct HL' as [_ <-]. unfold neq in Hk. lia.
      - destruct (qp_rows pr 0 ltac:(lia) DI) as (r0 & j0 & _ & _ & X). destruct (X v lambda errs qp [] HL) as [NE _]. lia. }
    destruct (qp_rows pr k KE DI) as (r & j & HR & HJ & X). destruct (X v lambda errs qp (w l) HL) as [N1 R1]. destruct (X vars 0 e0 q0 (w l) HL0) as [N2 R2].
    split; [congruence|]. rewrite R1, R2. apply (jac_constant pr); auto. rewrite LVv, LV. reflexivity. }
  destruct (ROW l Hl) as [NQ _].
  splits.
  - rewrite LW, NV. exact LV.
  - intros k Hk. destruct (ROW k Hk) as [_ ->]. rewrite NV0.
    transitivity (kd k l); [|unfold kd; reflexivity]. rewrite <- (HW k l) by lia. rewrite AC0. apply Rsum_ext. intros j Hj. rewrite WG by exact Hj. reflexivity.
  - apply Rle_trans with (cost l).
    + rewrite QF. unfold cost. apply Rplus_le_compat.
      * rewrite !curvature_jac. right. f_equal. apply map_ext_in. intros c Hc. apply Rsum_ext. intros k Hk. f_equal.
        apply (jac_constant pr); auto. rewrite LVv, LV. reflexivity.
      * apply Rmult_le_compat_r; [apply SP|]. apply Rle_max_compat_r. exact HLam.
    + apply (Rsum_pos_term (neq q0) cost l); [intros; apply C0|lia].
Qed.

(** C85: linear least squares with independent affine equality constraints, from any initial guess, feasible or not: some number of
    iterations is always enough (back-tracking). *)
Theorem C85_affine_enough_iterations : forall qr llt (pr : Problem R) (pa : NLSParams R) vars,
  well_posed pa pr vars -> pr_ineq pr = [] -> pr_eq pr <> [] -> distinct_indices pr ->
  null_space_exact qr llt pr -> value_consistent pr -> affine_problem pr -> n_line_search_strategy pa = ARMIJO_BACKTRACK ->
  0 < n_relative_exit_tol pa -> 0 < n_lambda_failure_init pa ->
  (forall lambda errs qp, LinearizeAndFillQP vars lambda pr = Ok (errs, qp) -> rows_independent (qA qp)) ->
  exists K, forall m l ldlt eigs retract (S : Type) (cb : option (S -> NLSIteration R -> S * bool)) g cs r,
    retraction_ok retract ->
    NLS_Solve ldlt qr llt eigs retract cb (with_ls l (with_max_iterations m pa)) pr g vars cs = Ok r ->
    (length (out_iterations (res_out r)) <= K)%nat /\ ((Z.of_nat K < m)%Z -> out_termination_state (res_out r) <> NLS_MAX_ITERATIONS).
Proof.
  intros qr llt pr pa vars WP NI NE DI NX VC AF LS RT LF IND.
  destruct (C85_affine_controllable pr pa vars (n_max_lambda pa) WP DI AF IND) as (kappa & K0 & CO).
  apply (C85_controllable_enough_iterations qr llt pr pa vars kappa); try assumption.
  intros v lambda errs qp LV _ HLam HL. apply (CO v lambda errs qp LV); [apply HLam|exact HL].
Qed.
