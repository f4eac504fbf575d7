(** C80: how many iterations a nonlinear Solve can take (exact arithmetic). *)
From Coq Require Import String List Bool Arith ZArith QArith Reals Lra Lia.
From Verif Require Import Scalar Outcome LinAlg Structs Constraint QPModel NullSpace Residual Nonlinear RInst
  Spec LinProps QPReuse LSProps LSPoly NLSTrace NLSProps NLSReal NLSTotal MeritProps Penalty QPSolve QPAlgebra QPRegular Optimality.
Import ListNotations.
Local Open Scope outcome_scope.
Local Open Scope string_scope.
Local Open Scope list_scope.
Local Open Scope R_scope.

(** ** Specification *)

(** Number of successful line searches in a log. *)
Fixpoint successes (log : list (NLSIteration R)) : nat :=
  match log with
  | [] => 0
  | i :: log => (match it_step_result i with SS_SUCCESS => 1 | _ => 0 end + successes log)%nat
  end.

(** The same parameters with another iteration limit. *)
Definition with_max_iterations (m : Z) (pa : NLSParams R) : NLSParams R :=
  MkNLSParams m (n_max_qp_iterations pa) (n_termination_kkt_tolerance pa) (n_absolute_exit_tol pa)
    (n_relative_exit_tol pa) (n_absolute_first_derivative_tol pa) (n_max_line_search_iterations pa) (n_line_search_strategy pa)
    (n_armijo_search_tau pa) (n_equality_penalty_initial pa) (n_equality_penalty_scale_factor pa) (n_equality_penalty_rho pa)
    (n_lambda_initial pa) (n_lambda_failure_init pa) (n_lambda_decrease_on_success pa) (n_lambda_decrease_on_restore pa)
    (n_max_lambda pa) (n_min_lambda pa) (n_log_qp_eigenvalues pa).

(** ** Proof *)
Lemma fsqnorm_pos : forall v : list R, 0 <= fsqnorm v.
Proof. intro v. apply Rdot_self_nonneg. Qed.

Lemma fl1_pos : forall v : list R, 0 <= fl1 v.
Proof.
  intro v. unfold fl1. cbn [fsum fabs R_ops]. induction v as [|x v IH]; cbn [map Rlsum]; [lra|]. pose proof (Rabs_pos x). lra.
Qed.

Lemma errors_pos : forall (pr : Problem R) v e, EvaluateNonlinearErrors pr v = Ok e -> 0 <= err_f e /\ 0 <= err_equality e.
Proof.
  intros pr v e H. unfold EvaluateNonlinearErrors in H. inv_bind H. inv_bind H. apply Ok_inj in H. subst e. cbn [err_f err_equality].
  assert (G : forall (step : R -> residual R -> outcome R), (forall f r f', 0 <= f -> step f r = Ok f' -> 0 <= f') ->
    forall l f f', 0 <= f -> ofold step l f = Ok f' -> 0 <= f').
  { intros step HS. induction l as [|r l IH]; intros f f' P E; cbn [ofold] in E; [apply Ok_inj in E; lra|].
    inv_bind E. eapply IH; [|exact E]. eapply HS; eassumption. }
  split.
  - eapply G; [|apply Rle_refl|exact Hm]. intros f r f' P E. cbn beta in E. inv_bind E. apply Ok_inj in E. subst f'.
    cbn [fadd fmul R_ops]. pose proof (fsqnorm_pos a1). assert (0 <= flit lit_half) by (rewrite R_half; lra). nra.
  - eapply G; [|apply Rle_refl|exact Hm0]. intros f r f' P E. cbn beta in E. inv_bind E. apply Ok_inj in E. subst f'.
    cbn [fadd R_ops]. pose proof (fl1_pos a1). lra.
Qed.

Lemma successes_app : forall l1 l2, successes (l1 ++ l2) = (successes l1 + successes l2)%nat.
Proof. induction l1 as [|i l1 IH]; intro l2; cbn [app successes]; [reflexivity|]. rewrite IH. lia. Qed.

Lemma firstn_snoc : forall A (l : list A) k x, nth_error l k = Some x -> firstn (Datatypes.S k) l = firstn k l ++ [x].
Proof.
  induction l as [|y l IH]; intros [|k] x H; try discriminate.
  - cbn in H. injection H as ->. reflexivity.
  - cbn [nth_error] in H. change (firstn (Datatypes.S (Datatypes.S k)) (y :: l)) with (y :: firstn (Datatypes.S k) l). rewrite (IH k x H). reflexivity.
Qed.

Section Rate.
  Variable ldlt : mat R -> option (mat R).
  Variable qr : mat R -> QRResult R.
  Variable llt : mat R -> option (list R -> list R).
  Variable eigs : mat R -> QPEigenvalues R.
  Variable retract : option (list R -> list R -> R -> list R).
  Context {S : Type}.
  Variable cb : option (S -> NLSIteration R -> S * bool).
  Variable pa : NLSParams R.
  Variable pr : Problem R.
  Variable g : nat -> garbage R.

  Notation solve := (solve ldlt qr llt eigs retract cb pa pr g).

  (** The merit function divided by the penalty: raising the penalty does not increase it. *)
  Definition scaled (e : Errors R) (p : R) : R := err_f e / p + err_equality e.

  Lemma scaled_mono : forall e p p', 0 <= err_f e -> 0 < p <= p' -> scaled e p' <= scaled e p.
  Proof.
    intros e p p' F [P L]. unfold scaled, Rdiv. apply Rplus_le_compat_r, Rmult_le_compat_l; [exact F|]. apply Rinv_le_contravar; assumption.
  Qed.

  (** Everything about one logged iteration and the next that the counting argument needs. *)
  Lemma logged_errors : forall vars cs r, value_consistent pr -> solve vars cs = Ok r ->
    forall k a, nth_error (out_iterations (res_out r)) k = Some a ->
    0 < it_penalty a /\ 0 <= err_f (it_errors_initial a) /\ 0 <= err_equality (it_errors_initial a) /\
    it_step_result a <> FAILURE_NON_FINITE_COST /\
    (it_step_result a = FAILURE_INVALID_ALPHA -> n_line_search_strategy pa = POLYNOMIAL_APPROXIMATION /\
       n_absolute_first_derivative_tol pa <= Rmax (Rabs (d_f (it_directional_derivatives a))) (Rabs (d_equality (it_directional_derivatives a))) /\
       d_f (it_directional_derivatives a) + it_penalty a * d_equality (it_directional_derivatives a) = 0 /\
       (pr_eq pr = [] -> d_equality (it_directional_derivatives a) = 0)) /\
    (k = 0%nat -> EvaluateNonlinearErrors pr vars = Ok (it_errors_initial a)).
  Proof.
    intros vars cs r VC H k a Ha. set (log := out_iterations (res_out r)) in *. pose proof (solve_valid _ _ _ _ _ _ _ _ _ _ _ _ H) as PV.
    destruct (solve_history _ _ _ _ _ _ _ _ _ _ _ _ H) as (sts & css & exs & A & _ & C & _ & _ & HH & _). fold log in C, HH.
    destruct (HH k a Ha) as (HI & _ & _). apply iterate_spec in HI. destruct HI as [_ (qp & dx & cand & HL & HD & HQ & HC & HP & HS & HU & _)].
    pose proof HL as HL0. apply C25_linearisation_errors in HL; [|exact VC]. destruct (errors_pos _ _ _ HL) as [EF EQ].
    splits; auto.
    - unfold run_line_search, SelectStepSize in HS. cbn [ls_of li_penalty] in HS. inv_bind HS. apply f_assert_ok_inv in Hm.
      destruct (R_fgtb (it_penalty a) f0) as [X|X]; [exact X|discriminate].
    - intro E. rewrite E in HS. destruct (C28_line_search_log retract (ls_of pa pr (sts k) a dx) (npv_ls _ PV) _ _ _ HS) as (_ & _ & _ & _ & i & l & _ & _ & _ & X).
      unfold non_finite in X. cbn in X. discriminate.
    - intro E. rewrite E in HS. destruct (C28_line_search_log retract (ls_of pa pr (sts k) a dx) (npv_ls _ PV) _ _ _ HS) as (_ & _ & _ & _ & i & l & _ & _ & _ & _ & X1 & _ & X & _).
      splits; [exact X| | |].
      + unfold stationary in X1. cbn [ls_of li_dd li_tol] in X1.
        match type of X1 with fltb ?u ?v = false => destruct (R_fltb u v) as [Y|Y]; [discriminate|] end.
        rewrite R_fmax in Y. cbn [fabs R_ops] in Y. lra.
      + apply (C81_invalid_alpha_only_if_flat retract (ls_of pa pr (sts k) a dx) (npv_ls _ PV) ltac:(cbn [ls_of li_c1]; rewrite R_1em4; lra) _ _ HS).
      + intro NE. unfold ComputeQPCostDerivative in HC. repeat (apply bind_ok_inv in HC; destruct HC as (? & ? & HC)).
        apply Ok_inj in HC. rewrite <- HC. cbn [d_equality].
        unfold LinearizeAndFillQP in HL0. inv_bind HL0. destruct a0 as [[? ?] ?]. inv_bind HL0. destruct a0 as [[rows ?] ?]. inv_bind HL0.
        apply Ok_inj in HL0. apply pair_inj in HL0. destruct HL0 as [_ <-]. cbn [qA mrows]. unfold total_eq_size. rewrite NE. reflexivity.
    - intros ->. rewrite A in HL. exact HL.
  Qed.

  (** C81: in a Solve, a line search that gave up (FAILURE_INVALID_ALPHA) used the polynomial strategy on a direction along
      which the merit function has slope exactly 0 although one of its two derivatives is not below the tolerance. Without
      equality constraints (and with a positive tolerance) this never happens. *)
  Theorem C81_solve_gives_up_only_if_flat : forall vars cs r, value_consistent pr -> solve vars cs = Ok r ->
    forall info, In info (out_iterations (res_out r)) -> it_step_result info = FAILURE_INVALID_ALPHA ->
    let d := it_directional_derivatives info in
    n_line_search_strategy pa = POLYNOMIAL_APPROXIMATION /\
    n_absolute_first_derivative_tol pa <= Rmax (Rabs (d_f d)) (Rabs (d_equality d)) /\
    d_f d + it_penalty info * d_equality d = 0 /\
    (pr_eq pr = [] -> n_absolute_first_derivative_tol pa <= 0).
  Proof.
    intros vars cs r VC H info Hin E d. apply In_nth_error in Hin. destruct Hin as [k Hk].
    destruct (logged_errors _ _ _ VC H k info Hk) as (_ & _ & _ & _ & IA & _). destruct (IA E) as (A & B & C & D). fold d in B, C, D.
    splits; auto. intro NE. rewrite (D NE) in B, C. replace (d_f d) with 0 in B by lra. rewrite Rabs_R0, Rmax_left in B by lra. exact B.
  Qed.

  Lemma logged_step : forall vars cs r, value_consistent pr -> solve vars cs = Ok r ->
    let log := out_iterations (res_out r) in
    forall k a b, nth_error log k = Some a -> nth_error log (Datatypes.S k) = Some b ->
    it_penalty a <= it_penalty b /\ it_step_result a <> FIRST_ORDER_SATISFIED /\
    (it_step_result a <> SS_SUCCESS -> it_errors_initial b = it_errors_initial a) /\
    (it_step_result a = SS_SUCCESS ->
      n_absolute_exit_tol pa <= Rmax (err_f (it_errors_initial b)) (err_equality (it_errors_initial b)) /\
      scaled (it_errors_initial b) (it_penalty a) <= scaled (it_errors_initial a) (it_penalty a) * (1 - n_relative_exit_tol pa)).
  Proof.
    intros vars cs r VC H log k a b Ha Hb. pose proof (solve_valid _ _ _ _ _ _ _ _ _ _ _ _ H) as PV.
    destruct (logged_errors _ _ _ VC H k a Ha) as (PP & _).
    destruct (C33_penalty_never_decreases _ _ _ _ _ _ _ _ _ _ _ _ H) as [_ MONO].
    destruct (C35_termination_states _ _ _ _ _ _ _ _ _ _ _ _ H) as (NE & _ & _). cbv zeta in NE. fold log in NE.
    assert (LT : (Datatypes.S k < length log)%nat) by (apply nth_error_Some; congruence).
    specialize (NE k a Ha LT).
    destruct (solve_history _ _ _ _ _ _ _ _ _ _ _ _ H) as (sts & css & exs & A & _ & C & _ & _ & HH & _). fold log in C, HH.
    destruct (HH k a Ha) as (HI & _ & _). apply iterate_spec in HI. destruct HI as [_ HI].
    destruct (HH _ b Hb) as (HJ & _ & _). apply iterate_spec in HJ. destruct HJ as [_ (qp' & dx' & cand' & HL' & _)].
    apply C25_linearisation_errors in HL'; [|exact VC].
    pose proof (iteration_vars _ _ _ _ _ _ _ _ _ _ _ _ (npv_ls _ PV) HI) as [V1 V2].
    destruct HI as (qp & dx & cand & HL & HD & HQ & HC & HP & HS & HU & _).
    apply C25_linearisation_errors in HL; [|exact VC].
    splits.
    - exact (proj1 (MONO k a b Ha Hb)).
    - intro E. apply (NE SATISFIED_FIRST_ORDER_TOL). cbn [exit_condition]. split; [exact E|].
      rewrite E in HS. destruct (C28_line_search_log retract (ls_of pa pr (sts k) a dx) (npv_ls _ PV) _ _ _ HS) as (_ & _ & _ & _ & i & l & _ & _ & _ & _ & _ & X).
      exact X.
    - intro E. rewrite (V1 E), HL in HL'. apply Ok_inj in HL'. symmetry. exact HL'.
    - intro E. destruct (V2 E) as (dx2 & init & last & E1 & _ & EV). rewrite EV in HL'. apply Ok_inj in HL'.
      pose proof (NE SATISFIED_ABSOLUTE_TOL) as N1. pose proof (NE SATISFIED_RELATIVE_TOL) as N2. cbn [exit_condition] in N1, N2.
      rewrite HL' in *.
      assert (AB : fltb (fmax (err_f (it_errors_initial b)) (err_equality (it_errors_initial b))) (n_absolute_exit_tol pa) = false).
      { destruct (fltb _ _) eqn:Q; [exfalso; apply N1|reflexivity]. split; [exact E|]. exists init, last. rewrite HL'. split; [exact E1|exact Q]. }
      split.
      + revert AB. rewrite R_fmax. destruct (R_fltb (Rmax (err_f (it_errors_initial b)) (err_equality (it_errors_initial b))) (n_absolute_exit_tol pa)); [discriminate|lra].
      + destruct (fgtb (Errors_Total (it_errors_initial b) (it_penalty a))
               (fmul (Errors_Total (it_errors_initial a) (it_penalty a)) (fsub f1 (n_relative_exit_tol pa)))) eqn:Q.
        { exfalso. apply N2. split; [exact E|]. exists init, last. rewrite HL'. auto. }
        match type of Q with fgtb ?x ?y = false => destruct (R_fgtb x y) as [|L]; [discriminate|] end.
        unfold Errors_Total in L. cbn [fadd fmul fsub f1 R_ops] in L. unfold scaled.
        apply (Rmult_le_reg_l (it_penalty a)); [exact PP|].
        replace (it_penalty a * (err_f (it_errors_initial b) / it_penalty a + err_equality (it_errors_initial b)))
          with (err_f (it_errors_initial b) + it_penalty a * err_equality (it_errors_initial b)) by (field; lra).
        replace (it_penalty a * ((err_f (it_errors_initial a) / it_penalty a + err_equality (it_errors_initial a)) * (1 - n_relative_exit_tol pa)))
          with ((err_f (it_errors_initial a) + it_penalty a * err_equality (it_errors_initial a)) * (1 - n_relative_exit_tol pa)) by (field; lra).
        lra.
  Qed.

  (** The decrease accumulated before entry k. *)
  Lemma logged_decrease : forall vars cs r, value_consistent pr -> solve vars cs = Ok r ->
    let log := out_iterations (res_out r) in
    forall first, nth_error log 0 = Some first ->
    forall k b, nth_error log k = Some b ->
    scaled (it_errors_initial b) (it_penalty b) <=
      scaled (it_errors_initial first) (it_penalty first) * (1 - n_relative_exit_tol pa) ^ successes (firstn k log) /\
    ((0 < successes (firstn k log))%nat -> n_absolute_exit_tol pa <= Rmax (err_f (it_errors_initial b)) (err_equality (it_errors_initial b))).
  Proof.
    intros vars cs r VC H log first HF. pose proof (solve_valid _ _ _ _ _ _ _ _ _ _ _ _ H) as PV.
    induction k as [|k IH]; intros b Hb.
    - rewrite HF in Hb. injection Hb as <-. cbn [firstn successes pow]. split; [lra|lia].
    - assert (EA : exists a, nth_error log k = Some a).
      { destruct (nth_error log k) as [a|] eqn:E; [eauto|]. apply nth_error_None in E.
        assert (Datatypes.S k < length log)%nat by (apply nth_error_Some; congruence). lia. }
      destruct EA as [a Ha]. destruct (IH a Ha) as [I1 I2].
      destruct (logged_errors _ _ _ VC H k a Ha) as (PP & F1 & C1 & _).
      destruct (logged_errors _ _ _ VC H _ b Hb) as (PB & F2 & C2 & _).
      destruct (logged_step _ _ _ VC H k a b Ha Hb) as (MO & _ & NS & SU).
      rewrite (firstn_snoc _ _ _ _ Ha), successes_app. cbn [successes].
      pose proof (scaled_mono (it_errors_initial b) (it_penalty a) (it_penalty b) F2 (conj PP MO)) as SM.
      pose proof (npv_rel _ PV) as RR.
      destruct (it_step_result a) eqn:E.
      + destruct (SU eq_refl) as [S1 S2]. split; [|intros _; exact S1].
        replace (successes (firstn k log) + (1 + 0))%nat with (Datatypes.S (successes (firstn k log))) by lia. cbn [pow].
        eapply Rle_trans; [exact SM|]. eapply Rle_trans; [exact S2|].
        replace (scaled (it_errors_initial first) (it_penalty first) * ((1 - n_relative_exit_tol pa) * (1 - n_relative_exit_tol pa) ^ successes (firstn k log)))
          with (scaled (it_errors_initial first) (it_penalty first) * (1 - n_relative_exit_tol pa) ^ successes (firstn k log) * (1 - n_relative_exit_tol pa)) by ring.
        apply Rmult_le_compat_r; lra.
      + rewrite (NS ltac:(discriminate)) in *. rewrite Nat.add_0_r. split; [lra|exact I2].
      + rewrite (NS ltac:(discriminate)) in *. rewrite Nat.add_0_r. split; [lra|exact I2].
      + rewrite (NS ltac:(discriminate)) in *. rewrite Nat.add_0_r. split; [lra|exact I2].
      + rewrite (NS ltac:(discriminate)) in *. rewrite Nat.add_0_r. split; [lra|exact I2].
      + rewrite (NS ltac:(discriminate)) in *. rewrite Nat.add_0_r. split; [lra|exact I2].
  Qed.

  (** C80: the successful line searches of a Solve before its last iteration, if there are any, number at most
      log(max(1, P) (f0 / p0 + |c0|) / absolute_exit_tol) / log(1 / (1 - relative_exit_tol)), where f0 and c0 are the errors
      at the initial guess, p0 is the first and P the last logged penalty. *)
  Theorem C80_successes_bounded : forall vars cs r, value_consistent pr -> solve vars cs = Ok r ->
    forall init last, out_iterations (res_out r) = init ++ [last] -> (0 < successes init)%nat ->
    forall e0 p0, EvaluateNonlinearErrors pr vars = Ok e0 -> 
    (forall first, nth_error (out_iterations (res_out r)) 0 = Some first -> p0 = it_penalty first) ->
    n_absolute_exit_tol pa <=
      Rmax 1 (it_penalty last) * (err_f e0 / p0 + err_equality e0) * (1 - n_relative_exit_tol pa) ^ successes init.
  Proof.
    intros vars cs r VC H init last EL SP e0 p0 E0 EP0.
    assert (HF : exists first, nth_error (out_iterations (res_out r)) 0 = Some first) by (rewrite EL; destruct init; cbn; eauto).
    destruct HF as [first HF]. specialize (EP0 first HF). subst p0.
    destruct (logged_errors _ _ _ VC H 0%nat first HF) as (_ & _ & _ & _ & _ & E1). specialize (E1 eq_refl).
    rewrite E0 in E1. apply Ok_inj in E1. subst e0.
    assert (HL : nth_error (out_iterations (res_out r)) (length init) = Some last) by (rewrite EL, nth_error_app2, Nat.sub_diag by lia; reflexivity).
    destruct (logged_errors _ _ _ VC H _ last HL) as (PP & F1 & C1 & _).
    destruct (logged_decrease _ _ _ VC H first HF _ last HL) as [D1 D2].
    assert (FN : firstn (length init) (out_iterations (res_out r)) = init) by (rewrite EL, firstn_app, Nat.sub_diag, firstn_all, app_nil_r; reflexivity).
    rewrite FN in D1, D2. specialize (D2 SP).
    change (err_f (it_errors_initial first) / it_penalty first + err_equality (it_errors_initial first)) with (scaled (it_errors_initial first) (it_penalty first)).
    assert (M1 : 0 < Rmax 1 (it_penalty last)) by (apply Rlt_le_trans with 1; [lra|apply Rmax_l]).
    rewrite Rmult_assoc. eapply Rle_trans; [|apply Rmult_le_compat_l; [lra|exact D1]].
    eapply Rle_trans; [exact D2|].
    assert (S0 : 0 <= err_f (it_errors_initial last) / it_penalty last) by (apply Rmult_le_pos; [exact F1|left; apply Rinv_0_lt_compat; exact PP]).
    apply Rmax_lub; unfold scaled.
    - apply Rle_trans with (it_penalty last * (err_f (it_errors_initial last) / it_penalty last + err_equality (it_errors_initial last))).
      + replace (it_penalty last * (err_f (it_errors_initial last) / it_penalty last + err_equality (it_errors_initial last)))
          with (err_f (it_errors_initial last) + it_penalty last * err_equality (it_errors_initial last)) by (field; lra).
        assert (0 <= it_penalty last * err_equality (it_errors_initial last)) by (apply Rmult_le_pos; lra). lra.
      + apply Rmult_le_compat_r; [lra|apply Rmax_r].
    - apply Rle_trans with (1 * (err_f (it_errors_initial last) / it_penalty last + err_equality (it_errors_initial last))); [lra|].
      apply Rmult_le_compat_r; [lra|apply Rmax_l].
  Qed.

  Lemma successes_mono : forall (log : list (NLSIteration R)) a b, (a <= b)%nat -> (successes (firstn a log) <= successes (firstn b log))%nat.
  Proof.
    intros log a b L. rewrite <- (firstn_skipn a (firstn b log)), firstn_firstn, Nat.min_l, successes_app by exact L. lia.
  Qed.

  (** C80: with lambda_failure_init > 0 and relative_exit_tol > 0 there are explicit N and F such that a Solve without
      FAILURE_INVALID_ALPHA (reported only if the merit function is flat, C81) logs at most N (F + 1) iterations; with a larger
      limit it does not end with MAX_ITERATIONS. N depends on the errors at the initial guess and a bound P on the logged
      penalties (equality_penalty_initial if there are no equality constraints), F on max_lambda. *)
  Theorem C80_iterations_bounded : forall vars cs r e0 N F P, value_consistent pr -> solve vars cs = Ok r ->
    EvaluateNonlinearErrors pr vars = Ok e0 ->
    (forall info, In info (out_iterations (res_out r)) -> it_step_result info <> FAILURE_INVALID_ALPHA /\ it_penalty info <= P) ->
    0 < n_equality_penalty_initial pa -> (1 <= N)%nat ->
    Rmax 1 P * (err_f e0 / n_equality_penalty_initial pa + err_equality e0) * (1 - n_relative_exit_tol pa) ^ N < n_absolute_exit_tol pa ->
    n_max_lambda pa < n_lambda_failure_init pa * 10 ^ F ->
    (length (out_iterations (res_out r)) <= N * (F + 1))%nat /\
    ((Z.of_nat (N * (F + 1)) < n_max_iterations pa)%Z -> out_termination_state (res_out r) <> NLS_MAX_ITERATIONS).
  Proof.
    intros vars cs r e0 N F P VC H E0 HI P0 N1 HN HF. pose proof (solve_valid _ _ _ _ _ _ _ _ _ _ _ _ H) as PV.
    set (log := out_iterations (res_out r)) in *.
    assert (LEN : (length log <= N * (F + 1))%nat).
    2:{ split; [exact LEN|]. intros L T. pose proof (proj1 (proj2 (proj2 (C36_log_complete_and_ordered _ _ _ _ _ _ _ _ _ _ _ _ H))) T) as X. fold log in X. lia. }
    destruct (Nat.le_gt_cases (length log) (N * (F + 1))) as [L|L]; [exact L|exfalso].
    (* every window of F + 1 iterations contains a success *)
    assert (W : forall k, (Datatypes.S (k + F) < length log)%nat -> exists j a, (k <= j <= k + F)%nat /\ nth_error log j = Some a /\ it_step_result a = SS_SUCCESS).
    { intros k Hk.
      assert (D : forall m, (m <= F)%nat -> (exists j a, (k <= j <= k + m)%nat /\ nth_error log j = Some a /\ it_step_result a = SS_SUCCESS) \/
                         (forall j a, (k <= j <= k + m)%nat -> nth_error log j = Some a -> failed a)).
      { assert (ONE : forall j, (j <= k + F)%nat -> (exists a, nth_error log j = Some a /\ it_step_result a = SS_SUCCESS) \/ (forall a, nth_error log j = Some a -> failed a)).
        { intros j Hj. destruct (nth_error log j) as [a|] eqn:Ea; [|right; intros; discriminate].
          destruct (nth_error log (Datatypes.S j)) as [b|] eqn:Eb; [|apply nth_error_None in Eb; lia].
          destruct (logged_step _ _ _ VC H j a b Ea Eb) as (_ & NF & _). destruct (logged_errors _ _ _ VC H j a Ea) as (_ & _ & _ & NN & _).
          destruct (HI a (nth_error_In _ _ Ea)) as [NI _]. unfold failed.
          destruct (it_step_result a) eqn:Er; try congruence; [left; eauto|right|right]; intros a' Q; injection Q as <-; auto. }
        induction m as [|m IH]; intro Hm.
        - destruct (ONE k ltac:(lia)) as [(a & X & Y)|X]; [left; exists k, a; split; [lia|auto]|right].
          intros j a Hj Ha. replace j with k in Ha by lia. apply X; exact Ha.
        - destruct (IH ltac:(lia)) as [(j & a & X & Y)|X]; [left; exists j, a; split; [lia|exact Y]|].
          destruct (ONE (k + Datatypes.S m)%nat ltac:(lia)) as [(a & Y & Z)|Y]; [left; exists (k + Datatypes.S m)%nat, a; split; [lia|auto]|right].
          intros j a Hj Ha. destruct (Nat.eq_dec j (k + Datatypes.S m)) as [->|NE]; [apply Y; exact Ha|]. apply (X j a); [lia|exact Ha]. }
      destruct (D F (le_n F)) as [X|X]; [exact X|exfalso].
      destruct (C40_consecutive_failures_bounded _ _ _ _ _ _ _ _ _ _ _ _ H k F Hk X) as [_ B]. lra. }
    assert (CNT : forall j, (j * (F + 1) < length log)%nat -> (j <= successes (firstn (j * (F + 1)) log))%nat).
    { induction j as [|j IH]; intro Hj; [lia|]. specialize (IH ltac:(lia)).
      destruct (W (j * (F + 1))%nat ltac:(lia)) as (i & a & Hi & Ha & Sa).
      pose proof (successes_mono log (j * (F + 1)) i ltac:(lia)) as M1.
      pose proof (successes_mono log (Datatypes.S i) (Datatypes.S j * (F + 1)) ltac:(lia)) as M2.
      rewrite (firstn_snoc _ _ _ _ Ha), successes_app in M2. cbn [successes] in M2. rewrite Sa in M2. lia. }
    specialize (CNT N L).
    assert (EB : exists b, nth_error log (N * (F + 1)) = Some b).
    { destruct (nth_error log (N * (F + 1))) as [b|] eqn:E; [eauto|]. apply nth_error_None in E. lia. }
    destruct EB as [b Hb].
    assert (EF : exists f, nth_error log 0 = Some f).
    { destruct (nth_error log 0) as [f|] eqn:E; [eauto|]. apply nth_error_None in E. lia. }
    destruct EF as [first Hf].
    destruct (logged_errors _ _ _ VC H _ first Hf) as (PF & F0 & C0 & _ & _ & EE). specialize (EE eq_refl). rewrite E0 in EE. apply Ok_inj in EE. subst e0.
    destruct (logged_errors _ _ _ VC H _ b Hb) as (PB & F1 & C1 & _).
    destruct (logged_decrease _ _ _ VC H first Hf _ b Hb) as [D1 D2]. fold log in D1, D2. specialize (D2 ltac:(lia)).
    destruct (C33_penalty_never_decreases _ _ _ _ _ _ _ _ _ _ _ _ H) as [PM _]. destruct (PM 0%nat first Hf) as [PM0 _].
    pose proof (npv_rel _ PV) as RR. pose proof (HI b (nth_error_In _ _ Hb)) as [_ PBP].
    set (q := 1 - n_relative_exit_tol pa) in *. set (sc := successes _) in *.
    assert (S0 : 0 <= err_f (it_errors_initial b) / it_penalty b) by (apply Rmult_le_pos; [exact F1|left; apply Rinv_0_lt_compat; exact PB]).
    assert (SB : n_absolute_exit_tol pa <= Rmax 1 P * scaled (it_errors_initial b) (it_penalty b)).
    { eapply Rle_trans; [exact D2|]. unfold scaled. apply Rmax_lub.
      - apply Rle_trans with (it_penalty b * (err_f (it_errors_initial b) / it_penalty b + err_equality (it_errors_initial b))).
        + replace (it_penalty b * (err_f (it_errors_initial b) / it_penalty b + err_equality (it_errors_initial b)))
            with (err_f (it_errors_initial b) + it_penalty b * err_equality (it_errors_initial b)) by (field; lra).
          assert (0 <= it_penalty b * err_equality (it_errors_initial b)) by (apply Rmult_le_pos; lra). lra.
        + apply Rmult_le_compat_r; [lra|]. eapply Rle_trans; [exact PBP|apply Rmax_r].
      - apply Rle_trans with (1 * (err_f (it_errors_initial b) / it_penalty b + err_equality (it_errors_initial b))); [lra|].
        apply Rmult_le_compat_r; [lra|apply Rmax_l]. }
    assert (M1 : 0 < Rmax 1 P) by (apply Rlt_le_trans with 1; [lra|apply Rmax_l]).
    assert (QN : q ^ sc <= q ^ N).
    { replace sc with (N + (sc - N))%nat by lia. rewrite pow_add.
      assert (0 <= q ^ N) by (apply pow_le; unfold q; lra).
      assert (q ^ (sc - N) <= 1) by (rewrite <- (pow1 (sc - N)); apply pow_incr; unfold q; lra). nra. }
    assert (SF : scaled (it_errors_initial first) (it_penalty first) <= scaled (it_errors_initial first) (n_equality_penalty_initial pa)) by (apply scaled_mono; [exact F0|split; assumption]).
    assert (SF0 : 0 <= scaled (it_errors_initial first) (it_penalty first)).
    { unfold scaled. assert (0 <= err_f (it_errors_initial first) / it_penalty first) by (apply Rmult_le_pos; [exact F0|left; apply Rinv_0_lt_compat; exact PF]). lra. }
    change (err_f (it_errors_initial first) / n_equality_penalty_initial pa + err_equality (it_errors_initial first)) with (scaled (it_errors_initial first) (n_equality_penalty_initial pa)) in HN.
    assert (CH : scaled (it_errors_initial b) (it_penalty b) <= scaled (it_errors_initial first) (n_equality_penalty_initial pa) * q ^ N).
    { eapply Rle_trans; [exact D1|]. apply Rmult_le_compat; auto. apply pow_le; unfold q; lra. }
    rewrite Rmult_assoc in HN. pose proof (Rmult_le_compat_l (Rmax 1 P) _ _ (Rlt_le _ _ M1) CH). lra.
  Qed.
End Rate.

(** C80: without equality constraints, with a positive relative tolerance, first derivative tolerance (or back-tracking), lambda_failure_init and
    initial penalty, some number of iterations is always enough: with more allowed (and any limit l on the line search), no Solve from this initial guess (whatever
    the QP solver's factorisations do, the inequality constraints, the retraction and the callback) ends with MAX_ITERATIONS. *)
Theorem C80_enough_iterations : forall (pr : Problem R) (pa : NLSParams R) vars e0,
  value_consistent pr -> pr_eq pr = [] -> EvaluateNonlinearErrors pr vars = Ok e0 ->
  n_line_search_strategy pa = ARMIJO_BACKTRACK \/ 0 < n_absolute_first_derivative_tol pa ->
  0 < n_relative_exit_tol pa -> 0 < n_absolute_exit_tol pa ->
  0 < n_lambda_failure_init pa -> 0 < n_equality_penalty_initial pa ->
  exists K, forall m l ldlt qr llt eigs retract (S : Type) (cb : option (S -> NLSIteration R -> S * bool)) g cs r,
    NLS_Solve ldlt qr llt eigs retract cb (with_ls l (with_max_iterations m pa)) pr g vars cs = Ok r ->
    (length (out_iterations (res_out r)) <= K)%nat /\ ((Z.of_nat K < m)%Z -> out_termination_state (res_out r) <> NLS_MAX_ITERATIONS).
Proof.
  intros pr pa vars e0 VC HE E0 ST RT AT LF PI.
  destruct (errors_pos _ _ _ E0) as [F0 C0].
  set (C := Rmax 1 (n_equality_penalty_initial pa) * (err_f e0 / n_equality_penalty_initial pa + err_equality e0)).
  assert (HC : 0 <= C).
  { unfold C. apply Rmult_le_pos; [apply Rle_trans with 1; [lra|apply Rmax_l]|].
    assert (0 <= err_f e0 / n_equality_penalty_initial pa) by (apply Rmult_le_pos; [exact F0|left; apply Rinv_0_lt_compat; exact PI]). lra. }
  assert (EN : exists N, (1 <= N)%nat /\ (n_relative_exit_tol pa <= 1 -> C * (1 - n_relative_exit_tol pa) ^ N < n_absolute_exit_tol pa)).
  { destruct (Rle_lt_dec (n_relative_exit_tol pa) 1) as [L1|L1]; [|exists 1%nat; split; [lia|intro; lra]].
    destruct (pow_lt_1_zero (1 - n_relative_exit_tol pa) ltac:(rewrite Rabs_pos_eq; lra) (n_absolute_exit_tol pa / (C + 1))) as [N HN].
    { apply Rdiv_lt_0_compat; lra. }
    exists (Datatypes.S N). split; [lia|]. intros _. specialize (HN (Datatypes.S N) ltac:(lia)). rewrite Rabs_pos_eq in HN by (apply pow_le; lra).
    apply Rle_lt_trans with (C * (n_absolute_exit_tol pa / (C + 1))); [apply Rmult_le_compat_l; lra|].
    apply (Rmult_lt_reg_r (C + 1)); [lra|]. replace (C * (n_absolute_exit_tol pa / (C + 1)) * (C + 1)) with (C * n_absolute_exit_tol pa) by (field; lra). nra. }
  destruct EN as (N & N1 & HN).
  assert (EF : exists F, n_max_lambda pa < n_lambda_failure_init pa * 10 ^ F).
  { destruct (Pow_x_infinity 10 ltac:(rewrite Rabs_pos_eq; lra) ((Rabs (n_max_lambda pa) + 1) / n_lambda_failure_init pa)) as [F HF].
    exists F. specialize (HF F (le_n F)). rewrite Rabs_pos_eq in HF by (apply pow_le; lra).
    assert (A : (Rabs (n_max_lambda pa) + 1) <= n_lambda_failure_init pa * 10 ^ F).
    { apply (Rmult_le_reg_r (/ n_lambda_failure_init pa)); [apply Rinv_0_lt_compat; exact LF|].
      replace (n_lambda_failure_init pa * 10 ^ F * / n_lambda_failure_init pa) with (10 ^ F) by (field; lra). unfold Rdiv in HF. lra. }
    pose proof (Rle_abs (n_max_lambda pa)). lra. }
  destruct EF as [F HF].
  exists (N * (F + 1))%nat. intros m l ldlt qr llt eigs retract S cb g cs r H.
  pose proof (solve_valid _ _ _ _ _ _ _ _ _ _ _ _ H) as PV.
  apply (C80_iterations_bounded ldlt qr llt eigs retract cb (with_ls l (with_max_iterations m pa)) pr g vars cs r e0 N F (n_equality_penalty_initial pa)); auto.
  - intros info Hin. apply In_nth_error in Hin. destruct Hin as [k Hk].
    destruct (logged_errors _ _ _ _ _ _ _ _ _ _ _ _ VC H k info Hk) as (_ & _ & _ & _ & IA & _). split.
    + intro E. destruct (IA E) as (IA1 & IA2 & IA3 & IA4). specialize (IA4 HE). rewrite IA4 in IA2, IA3.
      cbn [with_ls with_max_iterations n_line_search_strategy n_absolute_first_derivative_tol] in IA1, IA2.
      destruct ST as [ST|ST]; [congruence|]. replace (d_f (it_directional_derivatives info)) with 0 in IA2 by lra.
      rewrite Rabs_R0, Rmax_left in IA2 by lra. lra.
    + destruct (C33_penalty_never_decreases _ _ _ _ _ _ _ _ _ _ _ _ H) as [PM _]. destruct (PM k info Hk) as [_ X]. rewrite (X HE).
      cbn [with_ls with_max_iterations n_equality_penalty_initial]. lra.
  - apply HN. pose proof (npv_rel _ PV) as Q. cbn [with_ls with_max_iterations n_relative_exit_tol] in Q. lra.
Qed.

(** ** Convergence of unconstrained problems *)
Definition satisfied (t : NLSTerminationState) : Prop :=
  t = SATISFIED_ABSOLUTE_TOL \/ t = SATISFIED_RELATIVE_TOL \/ t = SATISFIED_FIRST_ORDER_TOL.

(** C80: an unconstrained Solve with back-tracking, correct derivatives, an exact factorisation failing only on singular
    matrices and costs whose damped quadratic model curves upwards: with enough iterations, and then enough line search
    iterations, allowed, Solve returns and reports that one of its tolerances is satisfied. *)
Theorem C80_unconstrained_solve_satisfied : forall ldlt qr llt eigs (pr : Problem R) g (pa : NLSParams R) vars,
  well_posed pa pr vars -> pr_ineq pr = [] -> pr_eq pr = [] -> distinct_indices pr ->
  ldlt_exact (pdim pr) ldlt -> fails_only_if_singular ldlt -> derivatives_correct pr -> value_consistent pr ->
  0 < n_absolute_first_derivative_tol pa ->
  0 < n_relative_exit_tol pa -> 0 < n_lambda_failure_init pa ->
  (forall v lambda errs qp, length v = pdim pr -> n_min_lambda pa <= lambda -> LinearizeAndFillQP v lambda pr = Ok (errs, qp) ->
     curved_on_null_space qp) ->
  exists K, forall m, (K < m)%Z -> exists L, forall l, (L <= l)%Z ->
    exists r, NLS_Solve ldlt qr llt eigs None (@None (unit -> NLSIteration R -> unit * bool)) (with_ls l (with_max_iterations m pa)) pr g vars tt = Ok r /\
      satisfied (out_termination_state (res_out r)).
Proof.
  intros ldlt qr llt eigs pr g pa vars WP NI NE DI EX FS DC VC FT RT LF CU.
  set (cb := @None (unit -> NLSIteration R -> unit * bool)).
  assert (EE : exists e0, EvaluateNonlinearErrors pr vars = Ok e0) by (apply (eval_total pa); exact WP).
  destruct EE as [e0 E0].
  destruct (C80_enough_iterations pr pa vars e0 VC NE E0 (or_intror FT) RT (npv_abs _ (wp_params _ _ _ WP)) LF (wp_penalty _ _ _ WP)) as [K HK].
  exists (Z.of_nat K). intros m Hm.
  assert (PVm : nls_params_valid (with_max_iterations m pa)).
  { destruct (wp_params _ _ _ WP). constructor; try assumption. cbn [with_max_iterations n_max_iterations]. lia. }
  assert (WPm : well_posed (with_max_iterations m pa) pr vars) by (destruct WP; constructor; assumption).
  assert (EF : exact_factorizations ldlt qr llt pr) by (split; [intros _; exact EX|intro X; congruence]).
  destruct (C54_unconstrained_never_stuck ldlt qr llt eigs cb pr g (with_max_iterations m pa) vars tt WPm NI NE DI EF DC VC FT) as (L & o & L0 & HE & HG).
  exists L. intros l Hl.
  assert (PVl : nls_params_valid (with_ls l (with_max_iterations m pa))).
  { destruct PVm. constructor; try assumption. cbn [with_ls n_max_line_search_iterations]. lia. }
  assert (RET : exists r, NLS_Solve ldlt qr llt eigs None cb (with_ls l (with_max_iterations m pa)) pr g vars tt = Ok r).
  { apply C52_regular_solve_always_returns; auto.
    - destruct WPm. constructor; assumption.
    - intros f X. discriminate.
    - intros _ X. congruence.
    - intros _ v lambda errs qp Hv HLam HL. split; [|apply (CU v lambda errs qp Hv HLam HL)].
      intros y _ k Hk. exfalso. unfold neq in Hk.
      destruct (linearise_total pr v lambda Hv (wp_index _ _ _ WP) (fun c Hc => proj1 (wp_cons _ _ _ WP c Hc)) (wp_dim _ _ _ WP))
        as (e' & q' & HL' & _ & _ & _ & _ & _ & BL & _).
      rewrite HL in HL'. apply Ok_inj in HL'. apply pair_inj in HL'. destruct HL' as [_ <-]. rewrite BL in Hk. unfold eq_rows in Hk.
      rewrite NE in Hk. cbn in Hk. lia. }
  destruct RET as [r Hr]. exists r. split; [exact Hr|].
  destruct (HK m l ldlt qr llt eigs None unit cb g tt r Hr) as [_ NM]. specialize (NM Hm).
  pose proof (HE l Hl) as HO. rewrite Hr in HO. destruct (HG r (eq_sym HO)) as [_ NL].
  destruct (C35_termination_states _ _ _ _ _ _ _ _ _ _ _ _ Hr) as (_ & _ & _ & T). cbv zeta in T. unfold satisfied.
  destruct (out_termination_state (res_out r)); auto; try congruence; exfalso.
  - destruct T as (_ & X & _). congruence.
  - destruct T as (f & i & info & s & X & _). discriminate.
Qed.

(** C80, in particular whenever min_lambda is positive (the cost need not be convex or have full rank). *)
Theorem C80_damped_unconstrained_solve_satisfied : forall ldlt qr llt eigs (pr : Problem R) g (pa : NLSParams R) vars,
  well_posed pa pr vars -> pr_ineq pr = [] -> pr_eq pr = [] -> distinct_indices pr ->
  ldlt_exact (pdim pr) ldlt -> fails_only_if_singular ldlt -> derivatives_correct pr -> value_consistent pr ->
  0 < n_absolute_first_derivative_tol pa ->
  0 < n_relative_exit_tol pa -> 0 < n_lambda_failure_init pa -> 0 < n_min_lambda pa ->
  exists K, forall m, (K < m)%Z -> exists L, forall l, (L <= l)%Z ->
    exists r, NLS_Solve ldlt qr llt eigs None (@None (unit -> NLSIteration R -> unit * bool)) (with_ls l (with_max_iterations m pa)) pr g vars tt = Ok r /\
      satisfied (out_termination_state (res_out r)).
Proof.
  intros ldlt qr llt eigs pr g pa vars WP NI NE DI EX FS DC VC FT RT LF ML.
  apply C80_unconstrained_solve_satisfied; auto.
  intros v lambda errs qp Hv HLam HL d LD (i & Hi & NZ) _.
  destruct (C24_linearised_qp _ _ _ _ _ DI HL) as ((_ & _ & CL & _) & _ & _ & QF & _).
  rewrite QF. unfold nv in Hi. rewrite CL in Hi.
  assert (CV : 0 <= lin_curvature pr v (vget d)).
  { unfold lin_curvature. clear. induction (pr_costs pr) as [|c l IH]; cbn [map Rlsum]; [lra|].
    assert (0 <= Rsum (res_dim c) (fun k => (lin_residual c v (vget d) k - lin_residual c v (fun _ => 0) k) ^ 2)).
    { apply Rsum_nonneg. intros. apply pow2_ge_0. }
    lra. }
  assert (SS : 0 < Rsum (Z.to_nat (pr_dimension pr)) (fun i => vget d i ^ 2)).
  { apply Rlt_le_trans with (vget d i ^ 2); [pose proof (Rsqr_pos_lt _ NZ) as Q; unfold Rsqr in Q; lra|].
    apply (Rsum_pos_term (Z.to_nat (pr_dimension pr)) (fun i => vget d i ^ 2) i); [|exact Hi]. intros. apply pow2_ge_0. }
  assert (0 < Rmax lambda 0) by (apply Rlt_le_trans with lambda; [lra|apply Rmax_l]). nra.
Qed.
