(** C91: local quadratic convergence of the undamped Gauss-Newton iteration of Solve on zero-residual problems
    (exact arithmetic). *)
From Coq Require Import String List Bool Arith ZArith QArith Reals Lra Lia.
From Verif Require Import Scalar Outcome LinAlg Structs Constraint QPModel NullSpace Residual Nonlinear RInst
  Spec QPBlocks QPAlgebra QPNewton QPStep ResProps LinProps QPReuse LSProps LSPoly NLSTrace NLSProps NLSReal NLSTotal MeritProps Penalty QPSolve QPRegular Optimality NLSRate.
Import ListNotations.
Local Open Scope outcome_scope.
Local Open Scope string_scope.
Local Open Scope list_scope.
Local Open Scope R_scope.

(** ** Specification *)

(** Euclidean distance of two points. *)
Definition distance (x y : list R) : R := sqrt (Rsum (length y) (fun i => (vget x i - vget y i) ^ 2)).

(** [xs] is a regular zero of the costs, and [rho] is a radius that suits its constants: within it
    - the linearisation at x predicts residuals of norm at most kappa |x - xs|^2 at xs,
    - the Jacobian stretches every direction by at least m,
    - the residuals have norm at most M |x - xs|,
    and rho is small compared to the curvature kappa. *)
Record quadratic_basin (pr : Problem R) (xs : list R) (rho kappa m M : R) : Prop := {
  qb_length : length xs = Z.to_nat (pr_dimension pr);
  qb_m : 0 < m; qb_kappa : 0 <= kappa; qb_M : 0 <= M;
  qb_model : forall x, length x = length xs -> distance x xs <= rho ->
    lin_cost pr x (fun i => vget xs i - vget x i) <= / 2 * (kappa * distance x xs ^ 2) ^ 2;
  qb_curvature : forall x, length x = length xs -> distance x xs <= rho ->
    forall v, m ^ 2 * Rsum (length xs) (fun i => v i ^ 2) <= lin_curvature pr x v;
  qb_growth : forall x, length x = length xs -> distance x xs <= rho ->
    cost_at pr x <= / 2 * (M * distance x xs) ^ 2;
  qb_small : kappa * rho <= m / 2;
  qb_accept : M * kappa * rho <= 49 / 100 * m ^ 2 }.

(** Bounds on the error after k steps that each at least square it, up to the factor K. *)
Fixpoint squared_bound (K e : R) (k : nat) : R :=
  match k with
  | Datatypes.O => e
  | Datatypes.S k => K * squared_bound K e k ^ 2
  end.

(** ** Proof *)
Definition dist2 (x y : list R) : R := Rsum (length y) (fun i => (vget x i - vget y i) ^ 2).
Lemma dist2_nonneg : forall x y, 0 <= dist2 x y.
Proof. intros. apply Rsum_nonneg. intros. apply pow2_ge_0. Qed.
Lemma distance_nonneg : forall x y, 0 <= distance x y.
Proof. intros. apply sqrt_pos. Qed.
Lemma distance_sq : forall x y, distance x y ^ 2 = dist2 x y.
Proof. intros. unfold distance. fold (dist2 x y). rewrite <- Rsqr_pow2. apply Rsqr_sqrt, dist2_nonneg. Qed.

Lemma lin_cost_nonneg : forall pr x v, 0 <= lin_cost pr x v.
Proof.
  intros. unfold lin_cost. induction (pr_costs pr) as [|r l IH]; cbn [map Rlsum]; [lra|].
  pose proof (Rsum_nonneg (res_dim r) (fun k => lin_residual r x v k ^ 2) (fun k _ => pow2_ge_0 _)). lra.
Qed.

Lemma cost_at_nonneg : forall pr v, 0 <= cost_at pr v.
Proof.
  intros. unfold cost_at. induction (pr_costs pr) as [|r l IH]; cbn [map Rlsum]; [lra|].
  match goal with |- context [/ 2 * Rsum ?n ?f] => pose proof (Rsum_nonneg n f (fun k _ => pow2_ge_0 _)) end. lra.
Qed.

Section Quadratic.
  Variable ldlt : mat R -> option (mat R).
  Variable qr : mat R -> QRResult R.
  Variable llt : mat R -> option (list R -> list R).
  Variable eigs : mat R -> QPEigenvalues R.
  Context {S : Type}.
  Variable cb : option (S -> NLSIteration R -> S * bool).
  Variable pa : NLSParams R.
  Variable pr : Problem R.
  Variable g : nat -> garbage R.
  Variable xs : list R.
  Variables rho kappa m M : R.
  Hypothesis QB : quadratic_basin pr xs rho kappa m M.
  Hypothesis NI : pr_ineq pr = [].
  Hypothesis NE : pr_eq pr = [].
  Hypothesis DI : distinct_indices pr.
  Hypothesis EX : ldlt_exact (pdim pr) ldlt.
  Hypothesis VC : value_consistent pr.

  Notation iteration_spec := (iteration_spec ldlt qr llt eigs None pa pr).

  Lemma no_eq_rows : forall v lambda errs qp, well_posed pa pr v -> LinearizeAndFillQP v lambda pr = Ok (errs, qp) -> neq qp = 0%nat /\ nv qp = pdim pr.
  Proof.
    intros v lambda errs qp WP HL.
    destruct (linearise_total pr v lambda (wp_vars _ _ _ WP) (wp_index _ _ _ WP) (fun c Hc => proj1 (wp_cons _ _ _ WP c Hc)) (wp_dim _ _ _ WP))
      as (e' & q' & HL' & _ & _ & CL & _ & _ & BL & _).
    rewrite HL in HL'. apply Ok_inj in HL'. apply pair_inj in HL'. destruct HL' as [_ <-]. unfold neq, nv. rewrite BL, CL.
    unfold eq_rows. rewrite NE. split; reflexivity.
  Qed.

  Lemma chain_first1 : forall (i : ls_input (F := R)) steps, chain i steps -> forall s l, steps = s :: l -> step_alpha s = f1.
  Proof.
    intros i steps HC. induction HC as [|s0 E|l0 p s0 HC IH SF]; intros s l Eq; [discriminate|injection Eq as <- _; exact E|].
    destruct l0 as [|x l0]; [|injection Eq as <- _; eapply IH; reflexivity].
    cbn [app] in *. injection Eq as <- _. eapply IH. reflexivity.
  Qed.

  (** One iteration. *)
  Lemma quadratic_iteration : forall gk st info ex st',
    well_posed pa pr (ns_vars st) -> ns_lambda st <= 0 -> n_min_lambda pa <= 0 -> distance (ns_vars st) xs <= rho ->
    iteration_spec gk st info ex st' ->
    length (ns_vars st') = pdim pr /\ ns_lambda st' <= 0 /\ err_f (it_errors_initial info) = cost_at pr (ns_vars st) /\
    ((it_step_result info = SS_SUCCESS /\
       (exists e, it_line_search_steps info = [MkStep 1 e]) /\
       (ex = Some SATISFIED_ABSOLUTE_TOL \/ ex = Some SATISFIED_RELATIVE_TOL \/ ex = None) /\
       (cost_at pr (ns_vars st') < n_absolute_exit_tol pa -> ex = Some SATISFIED_ABSOLUTE_TOL) /\
       m ^ 2 * dist2 (ns_vars st') xs <= kappa ^ 2 * dist2 (ns_vars st) xs ^ 2) \/
     (it_step_result info = FIRST_ORDER_SATISFIED /\ ns_vars st' = ns_vars st /\ ex = Some SATISFIED_FIRST_ORDER_TOL /\
       m ^ 2 * dist2 (ns_vars st) xs < 4 * n_absolute_first_derivative_tol pa)).
  Proof.
    intros gk st info ex st' WP L0 ML BALL HI. pose proof (wp_params _ _ _ WP) as PV.
    assert (EF : exact_factorizations ldlt qr llt pr) by (split; [intros _; exact EX|intro X; congruence]).
    pose proof (iteration_vars _ _ _ _ _ _ _ _ _ _ _ _ (npv_ls _ PV) HI) as [V1 V2].
    destruct (iteration_exact _ _ _ _ _ _ _ _ _ _ _ _ NI DI EF HI)
      as (qp & dx & cand & HL & HC & HS & VS & LD & NV & _ & PSD & ST & DF & DE & EV & QF & OBJ).
    set (x := ns_vars st) in *. pose proof (wp_vars _ _ _ WP) as LV. fold (pdim pr) in LV.
    pose proof (qb_length _ _ _ _ _ _ QB) as LS. fold (pdim pr) in LS.
    pose proof (wp_idx pr pa x x WP eq_refl) as IX.
    destruct (no_eq_rows _ _ _ _ WP HL) as [NQ _].
    pose proof (C25_linearisation_errors _ _ _ _ _ VC HL) as CE. rewrite (eval_errors_R _ _ IX) in CE. apply Ok_inj in CE.
    assert (E0 : eq_l1 qp = 0) by (unfold eq_l1; rewrite NQ; reflexivity).
    assert (CF : err_f (it_errors_initial info) = cost_at pr x) by (rewrite <- CE; reflexivity).
    assert (CEq : err_equality (it_errors_initial info) = 0) by congruence.
    assert (TA : forall u, qp_tangent qp u) by (intros u k Hk; lia).
    assert (R0 : Rmax (ns_lambda st) 0 = 0) by (apply Rmax_right; exact L0). rewrite R0 in QF, OBJ.
    assert (QC : forall u, qform qp u = lin_curvature pr x (vget u)) by (intro u; rewrite QF; ring).
    assert (OC : forall u, cost_at pr x + objective qp u = lin_cost pr x (vget u)) by (intro u; rewrite <- CF, OBJ; ring).
    assert (S0 : qform qp dx = - gdot qp dx) by (pose proof (ST dx (TA dx)) as Q; change (bform qp dx dx) with (qform qp dx) in Q; lra).
    assert (OD : objective qp dx = - / 2 * qform qp dx) by (unfold objective; fold (gdot qp dx); lra).
    set (e2 := dist2 x xs). set (xp := ray x dx 1).
    assert (LD' : length dx = pdim pr) by congruence.
    assert (LP : length xp = pdim pr) by (unfold xp; rewrite ray_length by congruence; congruence).
    pose proof (dist2_nonneg x xs) as E2P. fold e2 in E2P.
    pose proof (qb_m _ _ _ _ _ _ QB) as MP. pose proof (qb_kappa _ _ _ _ _ _ QB) as KP. pose proof (qb_M _ _ _ _ _ _ QB) as BP.
    assert (RP : 0 <= rho) by (pose proof (distance_nonneg x xs); lra).
    assert (BALL2 : e2 <= rho ^ 2) by (unfold e2; rewrite <- distance_sq; apply pow_incr; split; [apply distance_nonneg|exact BALL]).
    (* the new error *)
    assert (NEW : m ^ 2 * dist2 xp xs <= kappa ^ 2 * e2 ^ 2).
    { set (u := mkvec (pdim pr) (fun i => vget xs i - vget x i)).
      set (w := mkvec (nv qp) (fun i => vget u i - vget dx i)).
      assert (EA : along (nv qp) dx w 1 = u).
      { apply (vget_ext R R_ops); [unfold along, u; rewrite !mkvec_length; exact NV|]. intros i Hi. unfold along in *.
        rewrite mkvec_length in Hi. rewrite vget_mkvec by exact Hi. unfold w. rewrite vget_mkvec by exact Hi. ring. }
      pose proof (objective_along qp dx w 1) as OA. rewrite EA, (ST w (TA w)) in OA.
      assert (LC : forall v1 v2 : nat -> R, (forall i, (i < pdim pr)%nat -> v1 i = v2 i) -> lin_cost pr x v1 = lin_cost pr x v2).
      { intros v1 v2 Hv. unfold lin_cost. f_equal. apply map_ext_in. intros r Hr. f_equal. apply Rsum_ext. intros k Hk. f_equal.
        unfold lin_residual. f_equal. apply Rsum_ext. intros a Ha. f_equal. apply Hv. apply (gidx_range r (pdim pr)); [|exact Ha]. rewrite <- LV. apply IX. left. exact Hr. }
      pose proof (qb_model _ _ _ _ _ _ QB x ltac:(congruence) BALL) as MO. rewrite distance_sq in MO. fold e2 in MO.
      rewrite (LC _ (vget u)) in MO by (intros i Hi; unfold u; rewrite vget_mkvec by exact Hi; reflexivity).
      rewrite <- OC, OA in MO.
      pose proof (qb_curvature _ _ _ _ _ _ QB x ltac:(congruence) BALL (vget w)) as CU. rewrite <- QC in CU.
      assert (ED : Rsum (length xs) (fun i => vget w i ^ 2) = dist2 xp xs).
      { unfold dist2. apply Rsum_ext. intros i Hi. unfold w. rewrite vget_mkvec by (rewrite NV, <- LS; exact Hi).
        unfold u. rewrite vget_mkvec by (rewrite <- LS; exact Hi). unfold xp, ray.
        rewrite vadd_get by (rewrite vscale_length; congruence). rewrite vscale_get. ring. }
      rewrite ED in CU.
      pose proof (lin_cost_nonneg pr x (vget dx)) as LN. rewrite <- OC in LN.
      replace (kappa ^ 2 * e2 ^ 2) with ((kappa * e2) ^ 2) by ring. lra. }
    (* the length of the step *)
    assert (SMALL : kappa ^ 2 * e2 <= m ^ 2 / 4).
    { apply Rle_trans with (kappa ^ 2 * rho ^ 2); [apply Rmult_le_compat_l; [apply pow2_ge_0|exact BALL2]|].
      replace (kappa ^ 2 * rho ^ 2) with ((kappa * rho) ^ 2) by ring. replace (m ^ 2 / 4) with ((m / 2) ^ 2) by field.
      apply pow_incr. split; [apply Rmult_le_pos; assumption|apply (qb_small _ _ _ _ _ _ QB)]. }
    assert (NEW4 : dist2 xp xs <= e2 / 4).
    { apply (Rmult_le_reg_l (m ^ 2)); [apply pow_lt; exact MP|]. eapply Rle_trans; [exact NEW|].
      replace (kappa ^ 2 * e2 ^ 2) with (kappa ^ 2 * e2 * e2) by ring. nra. }
    assert (STEP : e2 / 4 <= Rsum (length xs) (fun i => vget dx i ^ 2)).
    { assert (X : e2 <= 2 * Rsum (length xs) (fun i => vget dx i ^ 2) + 2 * dist2 xp xs).
      { unfold e2, dist2. rewrite <- !Rsum_scal_l, <- Rsum_plus. apply Rsum_le. intros i Hi.
        replace (vget xp i) with (vget x i + vget dx i).
        2: { unfold xp, ray. rewrite vadd_get by (rewrite vscale_length; congruence). rewrite vscale_get. ring. }
        pose proof (pow2_ge_0 (vget x i - vget xs i + 2 * vget dx i)). nra. }
      lra. }
    pose proof (qb_curvature _ _ _ _ _ _ QB x ltac:(congruence) BALL (vget dx)) as CU. rewrite <- QC in CU.
    assert (CUR : m ^ 2 * (e2 / 4) <= qform qp dx) by (pose proof (pow_lt m 2 MP); nra).
    assert (HALF : / 2 * qform qp dx <= cost_at pr x) by (pose proof (lin_cost_nonneg pr x (vget dx)) as LN; rewrite <- OC, OD in LN; lra).
    assert (NB : distance xp xs <= rho).
    { unfold distance. fold (dist2 xp xs). rewrite <- (sqrt_pow2 rho RP). apply sqrt_le_1_alt. lra. }
    assert (CP : cost_at pr xp <= (49 / 100) ^ 2 * (/ 2 * (m ^ 2 * e2))).
    { eapply Rle_trans; [apply (qb_growth _ _ _ _ _ _ QB xp ltac:(congruence) NB)|].
      replace ((M * distance xp xs) ^ 2) with (M ^ 2 * distance xp xs ^ 2) by ring. rewrite distance_sq.
      apply (Rmult_le_reg_l (m ^ 2)); [apply pow_lt; exact MP|].
      apply Rle_trans with (/ 2 * (M ^ 2 * (kappa ^ 2 * e2 ^ 2))).
      { replace (m ^ 2 * (/ 2 * (M ^ 2 * dist2 xp xs))) with (/ 2 * (M ^ 2 * (m ^ 2 * dist2 xp xs))) by ring.
        apply Rmult_le_compat_l; [lra|]. apply Rmult_le_compat_l; [apply pow2_ge_0|exact NEW]. }
      assert (A2 : M ^ 2 * kappa ^ 2 * e2 <= (49 / 100 * m ^ 2) ^ 2).
      { apply Rle_trans with ((M * kappa * rho) ^ 2).
        - replace ((M * kappa * rho) ^ 2) with (M ^ 2 * kappa ^ 2 * rho ^ 2) by ring. apply Rmult_le_compat_l; [|exact BALL2].
          apply Rmult_le_pos; apply pow2_ge_0.
        - apply pow_incr. split; [repeat apply Rmult_le_pos; assumption|apply (qb_accept _ _ _ _ _ _ QB)]. }
      replace (/ 2 * (M ^ 2 * (kappa ^ 2 * e2 ^ 2))) with (/ 2 * (M ^ 2 * kappa ^ 2 * e2) * e2) by ring.
      replace (m ^ 2 * ((49 / 100) ^ 2 * (/ 2 * (m ^ 2 * e2)))) with (/ 2 * (49 / 100 * m ^ 2) ^ 2 * e2) by ring.
      apply Rmult_le_compat_r; lra. }
    (* the full step passes the Armijo test *)
    destruct (C28_line_search_log None (ls_of pa pr st info dx) (npv_ls _ PV) _ _ _ HS) as (LG & CH & L1 & _ & init & last & Es & PT & REJ & RES).
    assert (EZ : forall v, eq_l1_at pr v = 0) by (intro v; unfold eq_l1_at; rewrite NE; reflexivity).
    assert (EA : errors_at None (ls_of pa pr st info dx) 1 = Ok (MkErrors (cost_at pr xp) 0)).
    { unfold errors_at, point_at, RetractCandidateVars. cbn [li_vars li_dx li_pr ls_of]. fold x.
      replace (length x =? length dx)%nat with true by (symmetry; apply Nat.eqb_eq; congruence). cbn [ub_unless bind]. fold (ray x dx 1). fold xp.
      rewrite <- (EZ xp). apply eval_errors_R. intros r Hr. rewrite LP, <- LV. apply IX. exact Hr. }
    assert (FIRST : forall s l, it_line_search_steps info = s :: l ->
       s = MkStep 1 (MkErrors (cost_at pr xp) 0) /\ armijo (ls_of pa pr st info dx) s = true).
    { intros s l El. pose proof (chain_first1 _ _ CH s l El) as A1. cbn [f1 R_ops] in A1.
      assert (IS : In s (it_line_search_steps info)) by (rewrite El; left; reflexivity).
      unfold logged in LG. rewrite Forall_forall in LG. specialize (LG s IS). rewrite A1, EA in LG. apply Ok_inj in LG.
      split; [destruct s as [a e]; cbn [step_alpha step_errors] in *; congruence|].
      unfold armijo, merit, slope. cbn [li_pre li_dd li_penalty li_c1 ls_of]. rewrite <- LG, A1. cbn [err_f err_equality].
      rewrite CF, CEq, DF, DE, E0. cbn [fadd fmul fneg R_ops]. rewrite R_1em4.
      match goal with |- fleb ?a ?b = true => destruct (R_fleb a b) as [_|B]; [reflexivity|exfalso; apply B] end. nra. }
    assert (INIT : init = []).
    { destruct init as [|s init]; [reflexivity|exfalso]. cbn [app] in Es. destruct (FIRST _ _ Es) as [_ P].
      inversion REJ as [|? ? RJ _]; subst. destruct RJ. congruence. }
    subst init. cbn [app] in Es. destruct (FIRST _ _ Es) as [LA P1].
    assert (SR : it_step_result info = SS_SUCCESS \/ it_step_result info = FIRST_ORDER_SATISFIED).
    { pose proof (PSD dx) as PD. destruct (it_step_result info); auto; exfalso.
      - destruct RES as ((_ & X) & _). congruence.
      - destruct RES as (_ & _ & _ & X). unfold ascending, slope in X. cbn [li_dd li_penalty ls_of] in X.
        match type of X with fgtb ?a ?b = true => destruct (R_fgtb a b) as [Y|]; [|discriminate] end.
        rewrite DF, DE, E0 in Y. cbn [fadd fmul f0 R_ops] in Y. lra.
      - discriminate RES.
      - destruct RES as ((_ & X) & _). congruence. }
    destruct SR as [SR|SR].
    - assert (VX : ns_vars st' = xp).
      { rewrite (VS SR). unfold point_at, RetractCandidateVars in PT. cbn [li_vars li_dx ls_of] in PT. rewrite LA in PT. cbn [step_alpha] in PT. fold x in PT.
        replace (length x =? length dx)%nat with true in PT by (symmetry; apply Nat.eqb_eq; congruence). cbn [ub_unless bind] in PT.
        apply Ok_inj in PT. symmetry. exact PT. }
      rewrite VX. splits; auto.
      + destruct HI as (? & ? & ? & _ & _ & _ & _ & _ & _ & HU & _). rewrite SR in HU. unfold UpdateLambdaAndCheckExitConditions in HU.
        inv_bind HU. pose proof (npv_ds _ PV) as D1. pose proof (npv_dr _ PV) as D2.
        assert (X : ns_lambda st' = match ns_opt st with ATTEMPTING_RESTORE_LM => fmax (fmul (ns_lambda st) (n_lambda_decrease_on_restore pa)) (n_min_lambda pa)
                     | NOMINAL => fmax (fmul (ns_lambda st) (n_lambda_decrease_on_success pa)) (n_min_lambda pa) end).
        { repeat match type of HU with (if ?b then _ else _) = _ => destruct b end; apply Ok_inj in HU; apply pair_inj in HU; destruct HU as [_ <-]; reflexivity. }
        rewrite X. destruct (ns_opt st); rewrite R_fmax; cbn [fmul R_ops]; apply Rmax_lub; try lra; nra.
      + left. rewrite Es, LA.
        destruct HI as (? & ? & ? & _ & _ & _ & _ & _ & _ & HU & _). rewrite SR, Es, LA in HU. unfold UpdateLambdaAndCheckExitConditions in HU.
        inv_bind HU. cbn [length Nat.sub nth step_errors app] in HU. unfold Errors_LInfinity in HU. cbn [err_f err_equality] in HU.
        rewrite R_fmax, (Rmax_left _ _ (cost_at_nonneg pr xp)) in HU.
        splits; [exact SR|eexists; reflexivity| | |exact NEW].
        * repeat match type of HU with (if ?b then _ else _) = _ => destruct b end; apply Ok_inj in HU; apply pair_inj in HU; destruct HU as [<- _]; auto.
        * intro LT. match type of HU with (if ?b then _ else _) = _ => destruct b eqn:EB end.
          -- apply Ok_inj in HU. apply pair_inj in HU. destruct HU as [<- _]. reflexivity.
          -- exfalso. revert EB. match goal with |- fltb ?a ?b = false -> _ => destruct (R_fltb a b) as [_|B]; [discriminate|] end. lra.
    - rewrite SR in V1. specialize (V1 ltac:(discriminate)). rewrite V1. fold x. splits; auto.
      + destruct HI as (? & ? & ? & _ & _ & _ & _ & _ & _ & HU & _). rewrite SR in HU. unfold UpdateLambdaAndCheckExitConditions in HU.
        apply Ok_inj in HU. apply pair_inj in HU. destruct HU as [_ <-]. exact L0.
      + right. splits; [exact SR|reflexivity| |].
        { destruct HI as (? & ? & ? & _ & _ & _ & _ & _ & _ & HU & _). rewrite SR in HU. unfold UpdateLambdaAndCheckExitConditions in HU.
          apply Ok_inj in HU. apply pair_inj in HU. destruct HU as [<- _]. reflexivity. }
        rewrite SR in RES. destruct RES as (_ & _ & STA). apply stationary_test in STA. rewrite DF, DE, E0 in STA.
        assert (X : Rabs (gdot qp dx) < n_absolute_first_derivative_tol pa) by (eapply Rle_lt_trans; [apply Rmax_l|exact STA]).
        apply Rabs_def2 in X. fold e2. lra.
  Qed.

  (** ** All iterations *)
  Hypothesis FS : fails_only_if_singular ldlt.

  (** What is known of the state before every iteration. *)
  Definition state_ok (st : nls_state R) : Prop :=
    well_posed pa pr (ns_vars st) /\ 0 < ns_penalty st /\ lambda_ok pa st /\ ns_lambda st <= 0 /\ distance (ns_vars st) xs <= rho.

  Lemma no_bad_factorization : forall st, state_ok st -> ~ factorization_failed_at ldlt pr (ns_vars st) (ns_lambda st).
  Proof.
    intros st (WP & _ & LO & L0 & BALL) [_ (errs & qp & HL & w & H & WN & RK & EL)].
    apply (FS H (nv qp + neq qp)%nat (proj1 RK) (proj1 (proj2 RK)) EL).
    destruct (no_eq_rows _ _ _ _ WP HL) as [NQ NV].
    destruct (linearise_total pr (ns_vars st) (ns_lambda st) (wp_vars _ _ _ WP) (wp_index _ _ _ WP) (fun c Hc => proj1 (wp_cons _ _ _ WP c Hc)) (wp_dim _ _ _ WP))
      as (errs' & qp' & HL' & GR & GC & CL & AR & AC & BL & QC).
    rewrite HL in HL'. apply Ok_inj in HL'. apply pair_inj in HL'. destruct HL' as [<- <-].
    apply (C52_reduced_system_nonsingular qp w H); auto.
    - constructor; unfold nv, neq; try congruence.
      intros c Hc. rewrite QC in Hc. apply in_map_iff in Hc. destruct Hc as (c1 & <- & Hc1). rewrite NI in Hc1. destruct Hc1.
    - intros y _ k Hk. lia.
    - intros d LD (i & Hi & NZ) _. destruct (C24_linearised_qp _ _ _ _ _ DI HL) as (_ & _ & _ & QF & _). rewrite QF.
      rewrite (Rmax_right _ _ L0). pose proof (wp_vars _ _ _ WP) as LV. pose proof (qb_length _ _ _ _ _ _ QB) as LS.
      pose proof (qb_curvature _ _ _ _ _ _ QB (ns_vars st) ltac:(congruence) BALL (vget d)) as CU.
      assert (SS : 0 < Rsum (length xs) (fun j => vget d j ^ 2)).
      { apply Rlt_le_trans with (vget d i ^ 2); [pose proof (Rsqr_pos_lt _ NZ) as Q; unfold Rsqr in Q; lra|].
        apply (Rsum_pos_term (length xs) (fun j => vget d j ^ 2) i); [intros; apply pow2_ge_0|]. rewrite LS. fold (pdim pr). lia. }
      pose proof (pow_lt m 2 (qb_m _ _ _ _ _ _ QB)). nra.
  Qed.

  Lemma ball_step : forall x y, distance x xs <= rho -> m ^ 2 * dist2 y xs <= kappa ^ 2 * dist2 x xs ^ 2 ->
    distance y xs <= rho /\ distance y xs <= kappa / m * distance x xs ^ 2.
  Proof.
    intros x y BALL NEW.
    pose proof (qb_m _ _ _ _ _ _ QB) as MP. pose proof (qb_kappa _ _ _ _ _ _ QB) as KP. pose proof (qb_small _ _ _ _ _ _ QB) as SM.
    pose proof (distance_nonneg x xs) as D0. rewrite <- (distance_sq x) in NEW. rewrite <- (distance_sq y) in NEW.
    set (a := distance x xs) in *. set (b := distance y xs) in *.
    assert (B : b <= kappa / m * a ^ 2).
    { assert (X : m * b <= kappa * a ^ 2).
      { apply Rsqr_incr_0_var; [|apply Rmult_le_pos; [exact KP|apply pow2_ge_0]]. rewrite !Rsqr_pow2.
        replace ((m * b) ^ 2) with (m ^ 2 * b ^ 2) by ring. replace ((kappa * a ^ 2) ^ 2) with (kappa ^ 2 * (a ^ 2) ^ 2) by ring. exact NEW. }
      apply (Rmult_le_reg_l m); [exact MP|]. replace (m * (kappa / m * a ^ 2)) with (kappa * a ^ 2) by (field; lra). exact X. }
    split; [|exact B].
    assert (Y : kappa / m * a <= / 2).
    { apply (Rmult_le_reg_l m); [exact MP|]. replace (m * (kappa / m * a)) with (kappa * a) by (field; lra).
      apply Rle_trans with (kappa * rho); [apply Rmult_le_compat_l; assumption|lra]. }
    replace (kappa / m * a ^ 2) with (kappa / m * a * a) in B by ring.
    assert (kappa / m * a * a <= / 2 * a) by (apply Rmult_le_compat_r; assumption). lra.
  Qed.

  Lemma state_step : forall k st st' info ex, state_ok st -> n_min_lambda pa <= 0 ->
    nls_iterate ldlt qr llt eigs None pa pr (g k) (Z.of_nat k) st = Ok (IterDone st' info ex) -> state_ok st'.
  Proof.
    intros k st st' info ex SO ML H. pose proof SO as (WP & PP & LO & L0 & BALL).
    destruct (iterate_total ldlt qr llt eigs None pa pr (g k) (Z.of_nat k) st WP PP LO) as [(r & E & X)|[_ X]].
    - intros f Q. discriminate.
    - intros _ Q. congruence.
    - rewrite H in E. apply Ok_inj in E. destruct (X _ _ _ (eq_sym E)) as (LV & PP' & LO').
      pose proof H as HI. apply iterate_spec in HI. destruct HI as [_ HI].
      destruct (quadratic_iteration _ _ _ _ _ WP L0 ML BALL HI) as (_ & L0' & _ & R).
      unfold state_ok. splits; auto.
      + eapply well_posed_vars; [exact WP|exact LV].
      + destruct R as [(_ & _ & _ & _ & NEW)|(_ & -> & _)]; [apply (ball_step _ _ BALL NEW)|exact BALL].
    - destruct (no_bad_factorization st SO X).
  Qed.

  Lemma iterate_returns : forall k st, state_ok st ->
    exists st' info ex, nls_iterate ldlt qr llt eigs None pa pr (g k) (Z.of_nat k) st = Ok (IterDone st' info ex).
  Proof.
    intros k st SO. pose proof SO as (WP & PP & LO & L0 & BALL).
    destruct (iterate_total ldlt qr llt eigs None pa pr (g k) (Z.of_nat k) st WP PP LO) as [(r & E & X)|[_ X]].
    - intros f Q. discriminate.
    - intros _ Q. congruence.
    - destruct r as [|st' info ex]; [exfalso|eauto].
      unfold nls_iterate in E. inv_bind E. destruct a as [ep qp]. inv_bind E. destruct a as [o dx].
      assert (QI : QPWasIndefinite o = false).
      { unfold ComputeStepDirection, use_null_space in Hm0. rewrite NI, NE in Hm0. inv_bind Hm0. inv_bind Hm0. destruct a0 as [st1 outs].
        apply Ok_inj in Hm0. apply pair_inj in Hm0. destruct Hm0 as [<- _]. reflexivity. }
      rewrite QI in E. inv_bind E. inv_bind E. destruct a0 as [[? ?] ?]. inv_bind E. destruct a0. discriminate.
    - destruct (no_bad_factorization st SO X).
  Qed.

  Lemma loop_returns : n_min_lambda pa <= 0 -> forall n iter log st cs, state_ok st ->
    exists r, nls_loop ldlt qr llt eigs None cb n pa pr g iter log st cs = Ok r.
  Proof.
    intro ML. induction n as [|n IH]; intros iter log st cs SO; cbn [nls_loop]; [eauto|].
    destruct (iterate_returns iter st SO) as (st' & info & ex & E). rewrite E. cbn [bind].
    destruct (call_cb cb cs info) as [cs' pc]. destruct ex as [t|]; [eauto|]. destruct pc; [|eauto].
    apply IH. apply (state_step _ _ _ _ _ SO ML E).
  Qed.

  (** C91. *)
  Theorem C91_local_quadratic_convergence : forall vars cs,
    well_posed pa pr vars -> n_lambda_initial pa <= 0 -> distance vars xs <= rho ->
    exists r, NLS_Solve ldlt qr llt eigs None cb pa pr g vars cs = Ok r /\
    let log := out_iterations (res_out r) in
    let bound := squared_bound (kappa / m) (distance vars xs) in
    (* every step is a full one; only the last iteration can find the point stationary instead *)
    (forall k info, nth_error log k = Some info ->
       it_step_result info = SS_SUCCESS /\ (exists e, it_line_search_steps info = [MkStep 1 e]) \/
       it_step_result info = FIRST_ORDER_SATISFIED /\ Datatypes.S k = length log) /\
    (* the error is squared by every step *)
    (forall k info, nth_error log k = Some info -> err_f (it_errors_initial info) <= / 2 * (M * bound k) ^ 2) /\
    distance (res_vars r) xs <= bound (successes log) /\
    (* Solve ends for one of these reasons *)
    (satisfied (out_termination_state (res_out r)) \/ out_termination_state (res_out r) = NLS_MAX_ITERATIONS \/
     out_termination_state (res_out r) = USER_CALLBACK) /\
    (out_termination_state (res_out r) = SATISFIED_FIRST_ORDER_TOL ->
       (m * distance (res_vars r) xs) ^ 2 < 4 * n_absolute_first_derivative_tol pa) /\
    (* and after at most N iterations, if N steps are enough for the absolute tolerance *)
    (forall N, (1 <= N)%nat -> / 2 * (M * bound N) ^ 2 < n_absolute_exit_tol pa ->
       (length log <= N)%nat /\
       ((Z.of_nat N <= n_max_iterations pa)%Z -> out_termination_state (res_out r) <> NLS_MAX_ITERATIONS)).
  Proof.
    intros vars cs WP L0 BALL. pose proof (wp_params _ _ _ WP) as PV.
    assert (ML : n_min_lambda pa <= 0) by (pose proof (npv_li _ PV); lra).
    assert (SO : state_ok (MkNS vars (n_lambda_initial pa) (n_equality_penalty_initial pa) NOMINAL)).
    { unfold state_ok; splits; cbn [ns_vars ns_penalty ns_lambda]; auto; [apply (wp_penalty _ _ _ WP)|].
      split; cbn [ns_lambda ns_opt]; [apply (npv_li _ PV)|discriminate]. }
    assert (RET : exists r, NLS_Solve ldlt qr llt eigs None cb pa pr g vars cs = Ok r).
    { unfold NLS_Solve. destruct (C49_params_checked pa) as [[E _]|[_ N]]; [|destruct (N PV)]. rewrite E. cbn [bind]. apply loop_returns; assumption. }
    destruct RET as [r H]. exists r. split; [exact H|]. intros log bound.
    destruct (solve_history _ _ _ _ _ _ _ _ _ _ _ _ H) as (sts & css & exs & A & B & C & D & HLn & HH & TT). fold log in C, HLn, HH, TT.
    assert (BP : forall k, 0 <= bound k).
    { intro k. unfold bound. pose proof (distance_nonneg vars xs). pose proof (qb_m _ _ _ _ _ _ QB). pose proof (qb_kappa _ _ _ _ _ _ QB).
      destruct k as [|k]; cbn [squared_bound]; [assumption|]. apply Rmult_le_pos; [|apply pow2_ge_0].
      unfold Rdiv. apply Rmult_le_pos; [assumption|left; apply Rinv_0_lt_compat; assumption]. }
    pose proof (qb_M _ _ _ _ _ _ QB) as MP. pose proof (qb_m _ _ _ _ _ _ QB) as MMP.
    assert (KP : 0 <= kappa / m) by (unfold Rdiv; apply Rmult_le_pos; [apply (qb_kappa _ _ _ _ _ _ QB)|left; apply Rinv_0_lt_compat; exact MMP]).
    (* the states *)
    assert (G : forall k, (k <= length log)%nat -> state_ok (sts k) /\ ((k < length log)%nat -> distance (ns_vars (sts k)) xs <= bound k) /\
      (forall j info, (j < k)%nat -> nth_error log j = Some info -> (Datatypes.S j < length log)%nat -> it_step_result info = SS_SUCCESS) /\
      distance (ns_vars (sts k)) xs <= bound (successes (firstn k log)) /\ ((k < length log)%nat -> successes (firstn k log) = k)).
    { induction k as [|k IH]; intro Hk.
      - rewrite A. splits; auto.
        + intros _. cbn [init_state ns_vars bound squared_bound]. apply Rle_refl.
        + intros; lia.
        + cbn [init_state ns_vars firstn successes bound squared_bound]. apply Rle_refl.
      - destruct (nth_error log k) as [info|] eqn:E; [|apply nth_error_None in E; lia].
        destruct (IH ltac:(lia)) as (I1 & I2 & I3 & I4 & I5). specialize (I2 ltac:(lia)). specialize (I5 ltac:(lia)).
        destruct (HH k info E) as (HI & _ & HX).
        change (0 + k)%nat with k in HI.
        pose proof (state_step _ _ _ _ _ I1 ML HI) as SO'.
        pose proof HI as HS. apply iterate_spec in HS. destruct HS as [_ HS].
        destruct I1 as (WPk & _ & _ & L0k & Bk).
        destruct (quadratic_iteration _ _ _ _ _ WPk L0k ML Bk HS) as (_ & _ & _ & R).
        rewrite (firstn_snoc _ _ _ _ E), successes_app, I5. cbn [successes].
        destruct R as [(SR & _ & _ & _ & NEW)|(SR & EV & EE & _)]; rewrite SR.
        + replace (k + (1 + 0))%nat with (Datatypes.S k) by lia.
          assert (DB : distance (ns_vars (sts (Datatypes.S k))) xs <= bound (Datatypes.S k)).
          { destruct (ball_step _ _ Bk NEW) as [_ X]. eapply Rle_trans; [exact X|]. unfold bound. cbn [squared_bound]. apply Rmult_le_compat_l; [exact KP|].
            apply pow_incr. split; [apply distance_nonneg|exact I2]. }
          splits; auto. intros j i Hj Hn Hl. destruct (Nat.eq_dec j k) as [->|N]; [congruence|apply (I3 j i); [lia|exact Hn|exact Hl]].
        + assert (Q : Datatypes.S k = length log).
          { destruct (Nat.lt_ge_cases (Datatypes.S k) (length log)) as [X|X]; [|lia]. destruct (HX X) as [Y _]. congruence. }
          rewrite EV. replace (k + (0 + 0))%nat with k by lia. splits; auto; try (intros; lia).
          intros j i Hj Hn Hl. destruct (Nat.eq_dec j k) as [->|N]; [lia|apply (I3 j i); [lia|exact Hn|exact Hl]]. }
    assert (IT : forall k info, nth_error log k = Some info -> (k < length log)%nat /\ state_ok (sts k) /\ distance (ns_vars (sts k)) xs <= bound k /\
       iteration_spec (g k) (sts k) info (exs k) (sts (Datatypes.S k))).
    { intros k info Hn. assert (LT : (k < length log)%nat) by (apply nth_error_Some; congruence).
      destruct (G k ltac:(lia)) as (I1 & I2 & _). destruct (HH k info Hn) as (HI & _). apply iterate_spec in HI. destruct HI as [_ HI]. splits; auto. }
    assert (NEV : forall N, (1 <= N)%nat -> / 2 * (M * bound N) ^ 2 < n_absolute_exit_tol pa ->
      forall info, nth_error log (N - 1) = Some info -> exs (N - 1)%nat <> None).
    { intros N HN HB info Hn. destruct (IT _ _ Hn) as (LT & (WPk & _ & _ & L0k & Bk) & DB & HS).
      destruct (quadratic_iteration _ _ _ _ _ WPk L0k ML Bk HS) as (LN & _ & _ & R).
      destruct R as [(SR & _ & _ & AB & NEW)|(SR & EV & EE & _)]; [|congruence].
      rewrite AB; [discriminate|]. destruct (ball_step _ _ Bk NEW) as [B1 B2].
      pose proof (qb_length _ _ _ _ _ _ QB) as LS. fold (pdim pr) in LS.
      eapply Rle_lt_trans; [apply (qb_growth _ _ _ _ _ _ QB (ns_vars (sts (Datatypes.S (N - 1)))) ltac:(congruence) B1)|].
      eapply Rle_lt_trans; [|exact HB]. apply Rmult_le_compat_l; [lra|]. apply pow_incr.
      split; [apply Rmult_le_pos; [exact MP|apply distance_nonneg]|]. apply Rmult_le_compat_l; [exact MP|].
      eapply Rle_trans; [exact B2|]. assert (EN : N = Datatypes.S (N - 1)) by lia. unfold bound. rewrite EN at 2. cbn [squared_bound]. fold (bound (N - 1)%nat).
      apply Rmult_le_compat_l; [exact KP|]. apply pow_incr. split; [apply distance_nonneg|exact DB]. }
    splits.
    - intros k info Hn. destruct (IT _ _ Hn) as (LT & (WPk & _ & _ & L0k & Bk) & DB & HS).
      destruct (quadratic_iteration _ _ _ _ _ WPk L0k ML Bk HS) as (_ & _ & _ & R).
      destruct R as [(SR & X & _)|(SR & EV & EE & _)]; [left; auto|right]. split; [exact SR|].
      destruct (Nat.lt_ge_cases (Datatypes.S k) (length log)) as [X|X]; [|lia]. destruct (HH k info Hn) as (_ & _ & Y). destruct (Y X) as [Z _]. congruence.
    - intros k info Hn. destruct (IT _ _ Hn) as (LT & (WPk & _ & _ & L0k & Bk) & DB & HS).
      destruct (quadratic_iteration _ _ _ _ _ WPk L0k ML Bk HS) as (_ & _ & CF & _). rewrite CF.
      pose proof (qb_length _ _ _ _ _ _ QB) as LS. pose proof (wp_vars _ _ _ WPk) as LV.
      eapply Rle_trans; [apply (qb_growth _ _ _ _ _ _ QB (ns_vars (sts k)) ltac:(congruence) Bk)|]. apply Rmult_le_compat_l; [lra|]. apply pow_incr.
      split; [apply Rmult_le_pos; [exact MP|apply distance_nonneg]|]. apply Rmult_le_compat_l; assumption.
    - destruct (G (length log) ltac:(lia)) as (_ & _ & _ & X & _). rewrite C, firstn_all in X. exact X.
    - pose proof (C35_termination_states _ _ _ _ _ _ _ _ _ _ _ _ H) as T35. cbv zeta in T35. destruct T35 as (_ & _ & _ & T35). unfold satisfied.
      destruct (out_termination_state (res_out r)); auto; exfalso.
      + destruct TT as (j & info & _ & Hn & EX'). destruct (IT _ _ Hn) as (LT & (WPk & _ & _ & L0k & Bk) & DB & HS).
        destruct (quadratic_iteration _ _ _ _ _ WPk L0k ML Bk HS) as (_ & _ & _ & R).
        destruct R as [(SR & _ & [X|[X|X]] & _)|(SR & EV & EE & _)]; congruence.
      + destruct T35 as (_ & X & _). congruence.
    - intro T. rewrite T in TT. destruct TT as (j & info & Lj & Hn & EX'). destruct (IT _ _ Hn) as (LT & (WPk & _ & _ & L0k & Bk) & DB & HS).
      destruct (quadratic_iteration _ _ _ _ _ WPk L0k ML Bk HS) as (_ & _ & _ & R).
      destruct R as [(SR & _ & [X|[X|X]] & _)|(SR & EV & EE & FO)]; try congruence.
      rewrite <- C, Lj, EV, <- distance_sq in *. replace ((m * distance (ns_vars (sts j)) xs) ^ 2) with (m ^ 2 * distance (ns_vars (sts j)) xs ^ 2) by ring. exact FO.
    - intros N HN HB. assert (LEN : (length log <= N)%nat).
      { destruct (Nat.le_gt_cases (length log) N) as [L|L]; [exact L|exfalso].
        destruct (nth_error log (N - 1)) as [info|] eqn:E; [|apply nth_error_None in E; lia].
        destruct (HH _ _ E) as (_ & _ & X). destruct (X ltac:(lia)) as [Y _]. apply (NEV N HN HB info E Y). }
      split; [exact LEN|]. intros MX T. rewrite T in TT. destruct TT as (X & Y & _). specialize (Y eq_refl).
      destruct (nth_error log (N - 1)) as [info|] eqn:E; [|apply nth_error_None in E; lia].
      destruct (X _ _ E) as [Z _]. apply (NEV N HN HB info E Z).
  Qed.
End Quadratic.

(** The bound, in closed form. *)
Theorem C91_bound_closed_form : forall K e k, squared_bound K e k = K ^ (2 ^ k - 1) * e ^ (2 ^ k).
Proof.
  intros K e. induction k as [|k IH]; cbn [squared_bound].
  - cbn [Nat.pow Nat.sub pow]. ring.
  - rewrite IH, Rpow_mult_distr, <- !pow_mult, <- Rmult_assoc.
    assert (P : (1 <= 2 ^ k)%nat) by (clear; induction k; cbn [Nat.pow]; lia).
    replace (2 ^ Datatypes.S k - 1)%nat with (Datatypes.S ((2 ^ k - 1) * 2)) by (cbn [Nat.pow]; lia). cbn [pow].
    replace (2 ^ Datatypes.S k)%nat with (2 ^ k * 2)%nat by (cbn [Nat.pow]; lia). reflexivity.
Qed.

(** It vanishes: some number of steps is always enough if K e < 1. *)
Theorem C91_enough_steps : forall K e M tol, 0 < K -> 0 <= e -> K * e < 1 -> 0 < tol -> 0 <= M ->
  exists N, (1 <= N)%nat /\ / 2 * (M * squared_bound K e N) ^ 2 < tol.
Proof.
  intros K e M tol KP E0 KE T MP.
  assert (B : forall k, K * squared_bound K e k = (K * e) ^ (2 ^ k)).
  { induction k as [|k IH]; cbn [squared_bound]; [cbn; ring|].
    replace (K * (K * squared_bound K e k ^ 2)) with ((K * squared_bound K e k) ^ 2) by ring. rewrite IH, <- pow_mult. f_equal. cbn [Nat.pow]. lia. }
  set (q := K * e) in *. assert (Q0 : 0 <= q) by (apply Rmult_le_pos; lra).
  destruct (pow_lt_1_zero q ltac:(rewrite Rabs_pos_eq; lra) (Rmin 1 (tol * K ^ 2 / (M ^ 2 + 1)))) as [N HN].
  { apply Rmin_glb_lt; [lra|]. apply Rdiv_lt_0_compat; [apply Rmult_lt_0_compat; [exact T|apply pow_lt; exact KP]|pose proof (pow2_ge_0 M); lra]. }
  exists (Datatypes.S N). split; [lia|].
  assert (L : (N <= 2 ^ Datatypes.S N)%nat) by (pose proof (Nat.pow_gt_lin_r 2 (Datatypes.S N) ltac:(lia)); lia).
  specialize (HN _ L). rewrite Rabs_pos_eq in HN by (apply pow_le; exact Q0). rewrite <- B in HN.
  set (b := squared_bound K e (Datatypes.S N)) in *.
  assert (X0 : 0 <= K * b) by (unfold b; rewrite B; apply pow_le; exact Q0).
  assert (X1 : K * b < 1) by (eapply Rlt_le_trans; [exact HN|apply Rmin_l]).
  assert (X2 : K * b < tol * K ^ 2 / (M ^ 2 + 1)) by (eapply Rlt_le_trans; [exact HN|apply Rmin_r]).
  assert (MM : 0 < M ^ 2 + 1) by (pose proof (pow2_ge_0 M); lra).
  assert (X3 : (K * b) * (M ^ 2 + 1) < tol * K ^ 2).
  { apply (Rmult_lt_reg_r (/ (M ^ 2 + 1))); [apply Rinv_0_lt_compat; exact MM|]. replace (K * b * (M ^ 2 + 1) * / (M ^ 2 + 1)) with (K * b) by (field; lra). exact X2. }
  assert (X4 : (K * b) ^ 2 <= K * b) by nra.
  apply (Rmult_lt_reg_l (K ^ 2)); [apply pow_lt; exact KP|].
  replace (K ^ 2 * (/ 2 * (M * b) ^ 2)) with (/ 2 * (M ^ 2 * (K * b) ^ 2)) by ring.
  pose proof (pow2_ge_0 M). assert (M ^ 2 * (K * b) ^ 2 <= M ^ 2 * (K * b)) by (apply Rmult_le_compat_l; assumption). nra.
Qed.
