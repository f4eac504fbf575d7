(** C83: problems with equality constraints. The penalty weight is bounded by the Lagrange multipliers, and with enough
    iterations a Solve ends with one of its tolerances satisfied (exact arithmetic, exact factorisations). *)
From Coq Require Import String List Bool Arith ZArith QArith Reals Lra Lia.
From Verif Require Import Scalar Outcome LinAlg Structs Constraint QPModel NullSpace Residual Nonlinear RInst
  Spec Props_Constraint QPAlgebra QPStep QPTrace QPInit QPSolve ResProps LinProps QPReuse LSProps LSPoly NSProps NLSTrace NLSProps NLSReal NLSTotal MeritProps Penalty
  QPRegular Optimality NLSRate.
Import ListNotations.
Local Open Scope outcome_scope.
Local Open Scope string_scope.
Local Open Scope list_scope.
Local Open Scope R_scope.

(** ** Specification *)

(** The Lagrange multipliers of the equality constraints at every minimiser of the QP are at most Y in absolute value:
    G dx + c = A^T y with |y_k| <= Y. *)
Definition multipliers_within (qp : QP R) (Y : R) : Prop :=
  forall dx, length dx = nv qp -> eq_feasible qp dx ->
  (forall x', length x' = nv qp -> eq_feasible qp x' -> objective qp dx <= objective qp x') ->
  exists y : nat -> R, (forall k, (k < neq qp)%nat -> Rabs (y k) <= Y) /\
    forall i, (i < nv qp)%nat ->
      Rsum (nv qp) (fun j => Gs qp i j * vget dx j) + vget (qc qp) i = Rsum (neq qp) (fun k => Ae qp k i * y k).

(** The largest penalty weight that multipliers up to Y can cause. *)
Definition penalty_limit (pa : NLSParams R) (Y : R) : R :=
  Rmax (n_equality_penalty_initial pa) (n_equality_penalty_scale_factor pa * (Y / (1 - n_equality_penalty_rho pa))).

(** The points that are no worse than the initial guess: with m0 = cost / p0 + violation there, violation <= m0 and
    cost <= P m0. *)
Definition no_worse (pr : Problem R) (p0 P : R) (vars v : list R) : Prop :=
  let m0 := cost_at pr vars / p0 + eq_l1_at pr vars in
  length v = pdim pr /\ eq_l1_at pr v <= m0 /\ cost_at pr v <= P * m0.

(** ** Proof *)
Lemma stationary_minimal : forall (qp : QP R) dx, psd qp -> length dx = nv qp -> eq_feasible qp dx ->
  (forall u, qp_tangent qp u -> bform qp dx u + gdot qp u = 0) ->
  forall x', length x' = nv qp -> eq_feasible qp x' -> objective qp dx <= objective qp x'.
Proof.
  intros qp dx PSD LD FE ST x' LX FX.
  set (u := mkvec (nv qp) (fun i => vget x' i - vget dx i)).
  assert (TU : qp_tangent qp u).
  { intros k Hk. unfold u. rewrite (Rsum_ext _ _ (fun j => Ae qp k j * vget x' j - Ae qp k j * vget dx j)).
    - rewrite Rsum_minus. specialize (FE k Hk). specialize (FX k Hk). unfold kkt_eq in FE, FX. lra.
    - intros j Hj. rewrite vget_mkvec by exact Hj. ring. }
  assert (E : x' = along (nv qp) dx u 1).
  { apply (vget_ext R R_ops); [unfold along; rewrite mkvec_length; exact LX|]. intros i Hi. rewrite LX in Hi.
    unfold along, u. rewrite !vget_mkvec by exact Hi. ring. }
  rewrite E, objective_along, (ST u TU). pose proof (PSD u). lra.
Qed.

Lemma multiplier_slope : forall (qp : QP R) dx y, eq_feasible qp dx ->
  (forall i, (i < nv qp)%nat -> Rsum (nv qp) (fun j => Gs qp i j * vget dx j) + vget (qc qp) i = Rsum (neq qp) (fun k => Ae qp k i * y k)) ->
  gdot qp dx = - qform qp dx - Rsum (neq qp) (fun k => y k * vget (qb qp) k).
Proof.
  intros qp dx y FE KKT. unfold gdot.
  rewrite (Rsum_ext _ _ (fun i => Rsum (neq qp) (fun k => Ae qp k i * y k * vget dx i) - Rsum (nv qp) (fun j => vget dx i * Gs qp i j * vget dx j))).
  - rewrite Rsum_minus. fold (qform qp dx). rewrite Rsum_swap.
    rewrite (Rsum_ext (neq qp) _ (fun k => - (y k * vget (qb qp) k))).
    + rewrite Rsum_opp. ring.
    + intros k Hk. rewrite (Rsum_ext _ _ (fun i => y k * (Ae qp k i * vget dx i))) by (intros; ring). rewrite Rsum_scal_l.
      specialize (FE k Hk). unfold kkt_eq in FE. replace (Rsum (nv qp) (fun j => Ae qp k j * vget dx j)) with (- vget (qb qp) k) by lra. ring.
  - intros i Hi. rewrite Rsum_scal_r, <- (KKT i Hi).
    rewrite (Rsum_ext (nv qp) (fun j => vget dx i * Gs qp i j * vget dx j) (fun j => vget dx i * (Gs qp i j * vget dx j))) by (intros; ring).
    rewrite Rsum_scal_l. ring.
Qed.

Lemma slope_bound : forall (qp : QP R) dx Y, psd qp -> length dx = nv qp -> eq_feasible qp dx ->
  (forall u, qp_tangent qp u -> bform qp dx u + gdot qp u = 0) -> multipliers_within qp Y ->
  gdot qp dx + qform qp dx <= Y * eq_l1 qp.
Proof.
  intros qp dx Y PSD LD FE ST MW.
  destruct (MW dx LD FE (stationary_minimal _ _ PSD LD FE ST)) as (y & YB & KKT).
  rewrite (multiplier_slope _ _ _ FE KKT). unfold eq_l1. rewrite <- Rsum_scal_l.
  replace (- qform qp dx - Rsum (neq qp) (fun k => y k * vget (qb qp) k) + qform qp dx) with (- Rsum (neq qp) (fun k => y k * vget (qb qp) k)) by ring.
  rewrite <- Rsum_opp. apply Rsum_le. intros k Hk.
  pose proof (YB k Hk) as B. pose proof (Rabs_pos (vget (qb qp) k)).
  apply Rle_trans with (Rabs (y k) * Rabs (vget (qb qp) k)); [|apply Rmult_le_compat_r; lra].
  rewrite <- Rabs_mult, <- Rabs_Ropp. apply Rle_abs.
Qed.

Lemma select_penalty_bound : forall (qp : QP R) dx rho Y, psd qp -> mrows (qG qp) = nv qp -> mcols (qG qp) = nv qp ->
  length dx = nv qp -> eq_feasible qp dx ->
  (forall u, qp_tangent qp u -> bform qp dx u + gdot qp u = 0) -> multipliers_within qp Y -> 0 <= Y -> 0 <= rho < 1 ->
  SelectPenalty qp dx None rho <= Y / (1 - rho).
Proof.
  intros qp dx rho Y PSD GR GC LD FE ST MW HY HR. pose proof (slope_bound _ _ _ PSD LD FE ST MW) as B. pose proof (PSD dx) as Q.
  unfold SelectPenalty. rewrite (quad_form _ _ GR GC LD), eq_l1_fl1, !R_fmax, R_eps, R_half.
  cbn [fadd fsub fmul fdiv fdot f0 f1 R_ops]. rewrite (Rdot_n (nv qp)) by (try exact LD; reflexivity). fold (gdot qp dx).
  rewrite (Rmax_right 0 (qform qp dx)) by exact Q.
  set (m := Rmax (eq_l1 qp) (1 / 4503599627370496)).
  assert (M0 : 0 < m) by (apply Rlt_le_trans with (1 / 4503599627370496); [lra|apply Rmax_r]).
  assert (M1 : eq_l1 qp <= m) by apply Rmax_l. clearbody m.
  apply (Rmult_le_reg_r ((1 - rho) * m)); [apply Rmult_lt_0_compat; lra|].
  replace ((gdot qp dx + 1 / 2 * qform qp dx) / ((1 - rho) * m) * ((1 - rho) * m)) with (gdot qp dx + 1 / 2 * qform qp dx) by (field; split; lra).
  replace (Y / (1 - rho) * ((1 - rho) * m)) with (Y * m) by (field; lra).
  assert (Y * eq_l1 qp <= Y * m) by (apply Rmult_le_compat_l; lra). lra.
Qed.

Section Constrained.
  Variable ldlt : mat R -> option (mat R).
  Variable qr : mat R -> QRResult R.
  Variable llt : mat R -> option (list R -> list R).
  Variable eigs : mat R -> QPEigenvalues R.
  Context {S : Type}.
  Variable cb : option (S -> NLSIteration R -> S * bool).
  Variable pr : Problem R.
  Variable g : nat -> garbage R.
  Variable pa : NLSParams R.
  Variable vars : list R.
  Variable Y : R.

  Notation p0 := (n_equality_penalty_initial pa).
  Notation P := (penalty_limit pa Y).
  Notation m0 := (cost_at pr vars / p0 + eq_l1_at pr vars).
  Notation iterate m k := (nls_iterate ldlt qr llt eigs None (with_ls m pa) pr (g k) (Z.of_nat k)).

  (** What is known about the states between iterations. *)
  Definition on_track (st : nls_state R) : Prop :=
    length (ns_vars st) = pdim pr /\ n_min_lambda pa <= ns_lambda st <= Rmax (n_lambda_initial pa) 0 /\ ns_opt st = NOMINAL /\
    p0 <= ns_penalty st <= P /\ cost_at pr (ns_vars st) / ns_penalty st + eq_l1_at pr (ns_vars st) <= m0.

  (** The linearisations met on the way are well behaved. *)
  Definition well_behaved : Prop := forall v lambda errs qp,
    no_worse pr p0 P vars v -> n_min_lambda pa <= lambda <= Rmax (n_lambda_initial pa) 0 ->
    LinearizeAndFillQP v lambda pr = Ok (errs, qp) ->
    qrRank (qr (qA qp)) = mrows (qA qp) /\ curved_on_null_space qp /\ multipliers_within qp Y.

  Lemma cost_nonneg : forall v, 0 <= cost_at pr v.
  Proof.
    intro v. unfold cost_at. apply Rlsum_nonneg. intros x Hx. apply in_map_iff in Hx. destruct Hx as (r & <- & _).
    assert (0 <= Rsum (res_dim r) (fun k => vget (res_f r (gathered r v)) k ^ 2)) by (apply Rsum_nonneg; intros; apply pow2_ge_0). lra.
  Qed.
  Lemma eq_l1_at_nonneg : forall v, 0 <= eq_l1_at pr v.
  Proof.
    intro v. unfold eq_l1_at. apply Rlsum_nonneg. intros x Hx. apply in_map_iff in Hx. destruct Hx as (r & <- & _).
    apply Rsum_nonneg. intros. apply Rabs_pos.
  Qed.

  Lemma on_track_no_worse : forall st, 0 < p0 -> on_track st -> no_worse pr p0 P vars (ns_vars st).
  Proof.
    intros st PP (LV & _ & _ & [PL PU] & M). set (v := ns_vars st) in *. unfold no_worse. cbv zeta.
    pose proof (cost_nonneg v) as C0. pose proof (eq_l1_at_nonneg v) as E0.
    assert (0 <= cost_at pr v / ns_penalty st) by (apply Rmult_le_pos; [exact C0|left; apply Rinv_0_lt_compat; lra]).
    splits; [exact LV|lra|].
    apply Rle_trans with (ns_penalty st * m0); [|apply Rmult_le_compat_r; lra].
    replace (cost_at pr v) with (ns_penalty st * (cost_at pr v / ns_penalty st)) by (field; lra). apply Rmult_le_compat_l; lra.
  Qed.

  Hypothesis WP : well_posed pa pr vars.
  Hypothesis NI : pr_ineq pr = [].
  Hypothesis NE : pr_eq pr <> [].
  Hypothesis DI : distinct_indices pr.
  Hypothesis NX : null_space_exact qr llt pr.
  Hypothesis DC : derivatives_correct pr.
  Hypothesis VC : value_consistent pr.
  Hypothesis RK : (0 < eq_rows pr <= pdim pr)%nat.
  Hypothesis HRho : 0 < n_equality_penalty_rho pa.
  Hypothesis HY : 0 <= Y.
  Hypothesis HT1 : 1 / 4503599627370496 <= n_absolute_first_derivative_tol pa.
  Hypothesis HT2 : Y * (1 / 4503599627370496) < n_absolute_first_derivative_tol pa.
  Hypothesis WB : well_behaved.

  Lemma EX : exact_factorizations ldlt qr llt pr.
  Proof. split; [intro X; contradiction|intros _; exact NX]. Qed.

  Lemma new_penalty_bound : forall gg st ep qp o dx dd, well_posed pa pr (ns_vars st) ->
    LinearizeAndFillQP (ns_vars st) (ns_lambda st) pr = Ok (ep, qp) -> on_track st ->
    ComputeStepDirection ldlt qr llt gg pa pr qp = Ok (o, dx) -> QPWasIndefinite o = false -> ComputeQPCostDerivative qp dx = Ok dd ->
    ns_penalty st <= update_penalty pa pr qp dx o (ns_penalty st) <= P.
  Proof.
    intros gg st ep qp o dx dd WPv HL OT HD HQ HC. pose proof (wp_params _ _ _ WP) as PV. pose proof (wp_penalty _ _ _ WP) as PP.
    destruct (WB _ _ _ _ (on_track_no_worse _ PP OT) (proj1 (proj2 OT)) HL) as (_ & _ & MW).
    destruct OT as (_ & _ & _ & [PL PU] & _).
    destruct (direction_facts ldlt qr llt pr pa gg st ep qp o dx dd WPv NI DI EX VC HL HD HQ HC) as (GR & GC & AR & PSD & LD & FE & ST & _).
    pose proof (select_penalty_bound qp dx (n_equality_penalty_rho pa) Y PSD GR GC LD FE ST MW HY (npv_rho _ PV)) as SP.
    pose proof (null_space_no_multipliers ldlt qr llt pr pa gg qp o dx NI NE HD) as NM.
    unfold update_penalty. destruct (pr_eq pr) eqn:E; [congruence|]. rewrite NM. set (np := SelectPenalty _ _ _ _) in *.
    pose proof (npv_ps _ PV) as PS. destruct (R_fgtb np (ns_penalty st)) as [G|G]; [|split; lra]. cbn [fmul R_ops].
    split.
    - assert (0 < np) by lra. assert (np * 1 <= np * n_equality_penalty_scale_factor pa) by (apply Rmult_le_compat_l; lra). lra.
    - eapply Rle_trans; [|apply Rmax_r]. rewrite Rmult_comm. apply Rmult_le_compat_l; lra.
  Qed.

  Lemma curved_not_indefinite : forall gg st ep qp o dx,
    LinearizeAndFillQP (ns_vars st) (ns_lambda st) pr = Ok (ep, qp) -> on_track st ->
    ComputeStepDirection ldlt qr llt gg pa pr qp = Ok (o, dx) -> QPWasIndefinite o = false.
  Proof.
    intros gg st ep qp o dx HL OT HD.
    destruct (WB _ _ _ _ (on_track_no_worse _ (wp_penalty _ _ _ WP) OT) (proj1 (proj2 OT)) HL) as (_ & CU & _).
    unfold ComputeStepDirection, use_null_space in HD. rewrite NI in HD. destruct (pr_eq pr) eqn:E; [congruence|].
    apply bind_ok_inv in HD. destruct HD as ([t x] & HN & HD).
    destruct t; apply Ok_inj in HD; apply pair_inj in HD; destruct HD as [<- _]; [reflexivity|exfalso].
    destruct (NX _ _ _ _ HL) as [QX CX].
    destruct (C21_termination_states qr llt qp _ _ x QX CX HN) as [_ X]. destruct (X eq_refl) as (_ & d & (i & Hi & NZ) & TD & LE).
    specialize (CU (mkvec (nv qp) d) ltac:(apply mkvec_length)).
    assert (0 < qform qp (mkvec (nv qp) d)).
    { apply CU; [exists i; split; [exact Hi|rewrite vget_mkvec by exact Hi; exact NZ]|].
      intros k Hk. rewrite <- (TD k Hk). apply Rsum_ext. intros j Hj. rewrite vget_mkvec by exact Hj. reflexivity. }
    unfold qform in H. rewrite (Rsum_ext (nv qp) _ (fun i => Rsum (nv qp) (fun j => d i * Gs qp i j * d j))) in H; [lra|].
    intros a Ha. apply Rsum_ext. intros b Hb. rewrite !vget_mkvec by assumption. reflexivity.
  Qed.

  Lemma constrained_iteration : forall k st, on_track st ->
    exists N st' info ex, (0 <= N)%Z /\ (forall m, (N <= m)%Z -> iterate m k st = Ok (IterDone st' info ex)) /\
      good_step (it_step_result info) /\ it_penalty info <= P /\ on_track st'.
  Proof.
    intros k st OT. pose proof (wp_params _ _ _ WP) as PV. pose proof (wp_penalty _ _ _ WP) as PP.
    assert (WPv : well_posed pa pr (ns_vars st)) by (apply (well_posed_vars pa pr vars _ WP); rewrite (proj1 OT); symmetry; apply (wp_vars _ _ _ WP)).
    pose proof (on_track_no_worse st PP OT) as NW.
    assert (PS : 0 < ns_penalty st) by (destruct OT as (_ & _ & _ & [X _] & _); lra).
    destruct (iteration_core ldlt qr llt eigs pr pa (g k) (Z.of_nat k) st WPv NI DI EX DC VC PS) as (N & o & HN & EO & GO).
    { intros ep qp o dx dd HL HD HQ HC.
      destruct (WB _ _ _ _ NW (proj1 (proj2 OT)) HL) as (_ & _ & MW).
      destruct (direction_facts ldlt qr llt pr pa _ st ep qp o dx dd WPv NI DI EX VC HL HD HQ HC) as (GR & GC & AR & PSD & LD & FE & ST & DF & DE & VQ).
      pose proof (slope_bound _ _ _ PSD LD FE ST MW) as SB. pose proof (PSD dx) as Q.
      pose proof (new_penalty_bound _ _ _ _ _ _ _ WPv HL OT HD HQ HC) as [PB _].
      set (pen := update_penalty pa pr qp dx o (ns_penalty st)) in *.
      assert (PEN : 0 < pen) by lra.
      assert (L0 : 0 <= eq_l1 qp) by (apply Rsum_nonneg; intros; apply Rabs_pos).
      unfold DD_Total. cbn [fadd fmul R_ops].
      destruct (Rle_lt_dec (1 / 4503599627370496) (eq_l1 qp)) as [HB|HB].
      - left. pose proof (null_space_slope ldlt qr llt pr pa _ _ _ _ _ _ _ PV NI DI HL HD HC FE HB GR GC AR PS) as X. fold pen in X.
        unfold merit_slope in X. pose proof (Rmax_l 0 (qform qp dx)).
        assert (0 < n_equality_penalty_rho pa * pen * eq_l1 qp) by (apply Rmult_lt_0_compat; [apply Rmult_lt_0_compat; lra|lra]). lra.
      - destruct (Rlt_le_dec (d_f dd + pen * d_equality dd) 0) as [X|X]; [left; exact X|right].
        rewrite DF, DE in *. assert (0 <= pen * eq_l1 qp) by (apply Rmult_le_pos; lra).
        assert (Y * eq_l1 qp <= Y * (1 / 4503599627370496)) by (apply Rmult_le_compat_l; lra).
        rewrite Rabs_Ropp, (Rabs_pos_eq (eq_l1 qp)) by exact L0. rewrite Rabs_pos_eq by lra.
        apply Rmax_lub_lt; lra. }
    assert (PVN : nls_params_valid (with_ls N pa)) by (destruct PV; constructor; assumption).
    assert (WPN : well_posed (with_ls N pa) pr (ns_vars st)) by (destruct WPv; constructor; assumption).
    assert (TOT : exists r, iterate N k st = Ok r).
    { destruct (iterate_total ldlt qr llt eigs None (with_ls N pa) pr (g k) (Z.of_nat k) st WPN PS) as [(r & E & _)|[_ X]].
      - split; [apply (proj1 (proj2 OT))|]. intro X. rewrite (proj1 (proj2 (proj2 OT))) in X. discriminate.
      - intros f X. discriminate.
      - intros _ _. split; [exact RK|]. intros errs qp HL. apply (proj1 (WB _ _ _ _ NW (proj1 (proj2 OT)) HL)).
      - eauto.
      - exfalso. destruct X as [[X|X] _]; congruence. }
    destruct TOT as [r HR]. pose proof HR as HR'. rewrite EO in HR' by lia. subst o.
    destruct r as [|st' info ex].
    - exfalso. unfold nls_iterate in HR. inv_bind HR. destruct a as [ep qp]. inv_bind HR. destruct a as [o dx].
      change (ComputeStepDirection ldlt qr llt (g k) (with_ls N pa) pr qp) with (ComputeStepDirection ldlt qr llt (g k) pa pr qp) in Hm0.
      rewrite (curved_not_indefinite _ _ _ _ _ _ Hm OT Hm0) in HR. inv_bind HR. inv_bind HR. destruct a0 as [[? ?] ?]. inv_bind HR. destruct a0. discriminate.
    - destruct (GO st' info ex eq_refl) as (GS & LV & _).
      exists N, st', info, ex. splits; [exact HN|exact EO|exact GS| |].
      + apply (iterate_spec ldlt qr llt eigs None (with_ls N pa) pr g k) in HR. destruct HR as [_ (qp & dx & cand & HL & HD & HQ & HC & HP & _)].
        change (ComputeStepDirection ldlt qr llt (g k) (with_ls N pa) pr qp) with (ComputeStepDirection ldlt qr llt (g k) pa pr qp) in HD.
        rewrite HP. apply (new_penalty_bound _ _ _ _ _ _ _ WPv HL OT HD HQ HC).
      + apply (iterate_spec ldlt qr llt eigs None (with_ls N pa) pr g k) in HR. destruct HR as [_ (qp & dx & cand & HL & HD & HQ & HC & HP & HS & HU & _ & _ & HPs & _)].
        change (ComputeStepDirection ldlt qr llt (g k) (with_ls N pa) pr qp) with (ComputeStepDirection ldlt qr llt (g k) pa pr qp) in HD.
        change (update_penalty (with_ls N pa) pr qp dx (it_qp_outputs info) (ns_penalty st)) with (update_penalty pa pr qp dx (it_qp_outputs info) (ns_penalty st)) in HP.
        pose proof (new_penalty_bound _ _ _ _ _ _ _ WPv HL OT HD HQ HC) as [PB1 PB2]. rewrite <- HP in PB1, PB2. rewrite HPs in PB1, PB2.
        destruct OT as (OT1 & [OT2 OT2'] & OT3 & [OT4 OT4'] & OT5).
        assert (IX : forall v, length v = length (ns_vars st) -> EvaluateNonlinearErrors pr v = Ok (MkErrors (cost_at pr v) (eq_l1_at pr v))).
        { intros v L. apply eval_errors_R. apply (wp_idx pr pa (ns_vars st)); assumption. }
        assert (M1 : cost_at pr (ns_vars st) / ns_penalty st' + eq_l1_at pr (ns_vars st) <= m0).
        { eapply Rle_trans; [|exact OT5]. apply Rplus_le_compat_r. apply Rmult_le_compat_l; [apply cost_nonneg|]. apply Rinv_le_contravar; lra. }
        assert (LAM : ns_opt st' = NOMINAL /\ n_min_lambda pa <= ns_lambda st' <= Rmax (n_lambda_initial pa) 0 /\
          cost_at pr (ns_vars st') / ns_penalty st' + eq_l1_at pr (ns_vars st') <= cost_at pr (ns_vars st) / ns_penalty st' + eq_l1_at pr (ns_vars st)).
        { destruct GS as [GS|GS]; rewrite GS in *.
          - destruct (C27_sufficient_decrease None (ls_of (with_ls N pa) pr st info dx) ltac:(exact HN) (npv_tau _ PV) ltac:(cbn [li_c1 ls_of]; rewrite R_1em4; lra) _ _ HS)
              as (ini & lst & _ & _ & _ & _ & DEC & _ & EV).
            cbn [ls_of li_penalty li_pre li_pr] in DEC, EV.
            pose proof HL as HE. apply C25_linearisation_errors in HE; [|exact VC]. rewrite (IX _ eq_refl) in HE. apply Ok_inj in HE.
            unfold UpdateLambdaAndCheckExitConditions in HU. inv_bind HU. rewrite OT3 in HU.
            assert (X : ns_opt st' = NOMINAL /\ ns_lambda st' = fmax (fmul (ns_lambda st) (n_lambda_decrease_on_success pa)) (n_min_lambda pa) /\ ns_vars st' = cand).
            { repeat match type of HU with (if ?b then _ else _) = _ => destruct b end; apply Ok_inj in HU; apply pair_inj in HU; destruct HU as [_ <-]; auto. }
            destruct X as (X1 & X2 & X3). split; [exact X1|split].
            + rewrite X2, R_fmax. cbn [fmul R_ops]. split; [apply Rmax_r|].
              pose proof (npv_ds _ PV) as DS. pose proof (npv_li _ PV) as LI. apply Rmax_lub.
              * destruct (Rle_lt_dec 0 (ns_lambda st)).
                -- apply Rle_trans with (ns_lambda st * 1); [apply Rmult_le_compat_l; lra|lra].
                -- apply Rle_trans with 0; [|apply Rmax_r]. assert (0 <= - ns_lambda st * n_lambda_decrease_on_success pa) by (apply Rmult_le_pos; lra). lra.
              * apply Rle_trans with (n_lambda_initial pa); [lra|apply Rmax_l].
            + rewrite X3 in *. rewrite (IX _ LV) in EV. apply Ok_inj in EV. rewrite <- HE, <- EV, HPs in DEC. cbn [err_f err_equality] in DEC.
              assert (0 < ns_penalty st') by lra.
              apply (Rmult_le_reg_l (ns_penalty st')); [assumption|].
              replace (ns_penalty st' * (cost_at pr cand / ns_penalty st' + eq_l1_at pr cand)) with (cost_at pr cand + ns_penalty st' * eq_l1_at pr cand) by (field; lra).
              replace (ns_penalty st' * (cost_at pr (ns_vars st) / ns_penalty st' + eq_l1_at pr (ns_vars st))) with (cost_at pr (ns_vars st) + ns_penalty st' * eq_l1_at pr (ns_vars st)) by (field; lra).
              exact DEC.
          - unfold UpdateLambdaAndCheckExitConditions in HU. apply Ok_inj in HU. apply pair_inj in HU. destruct HU as [_ <-].
            cbn [ns_opt ns_lambda ns_vars ns_penalty]. splits; try assumption; try (split; assumption); try apply Rle_refl. }
        destruct LAM as (L1 & L2 & L3). unfold on_track. splits; try assumption; try lra. congruence.
  Qed.

  Lemma constrained_loop : forall n k log st cs, on_track st ->
    exists N r, (0 <= N)%Z /\ (forall m, (N <= m)%Z -> nls_loop ldlt qr llt eigs None cb n (with_ls m pa) pr g k log st cs = Ok r) /\
      out_termination_state (res_out r) <> QP_INDEFINITE /\
      exists log', out_iterations (res_out r) = log ++ log' /\
        Forall (fun info => good_step (it_step_result info) /\ it_penalty info <= P) log'.
  Proof.
    induction n as [|n IH]; intros k log st cs OT.
    - eexists 0%Z, _. split; [lia|]. split; [intros m _; cbn [nls_loop]; reflexivity|]. split; [discriminate|].
      exists []. cbn [res_out out_iterations]. rewrite app_nil_r. auto.
    - destruct (constrained_iteration k st OT) as (N1 & st' & info & ex & HN1 & E1 & GS & PB & OT').
      destruct (call_cb cb cs info) as [cs' pc] eqn:EC. destruct ex as [t|].
      + exists N1; eexists. split; [exact HN1|]. split; [|split].
        * intros m Hm. cbn [nls_loop]. rewrite E1 by exact Hm. cbn [bind]. rewrite EC. reflexivity.
        * cbn [res_out out_termination_state]. destruct (exit_states ldlt qr llt eigs None (with_ls N1 pa) pr g k st st' info t (E1 N1 ltac:(lia))) as [->|[->|[->| ->]]]; discriminate.
        * exists [info]. cbn [res_out out_iterations]. auto.
      + destruct pc.
        * destruct (IH (Datatypes.S k) (log ++ [info]) st' cs' OT') as (N2 & r & HN2 & E2 & T2 & log' & A & B).
          exists (Z.max N1 N2), r. split; [lia|]. split; [|split; [exact T2|]].
          -- intros m Hm. cbn [nls_loop]. rewrite E1 by lia. cbn [bind]. rewrite EC. apply E2. lia.
          -- exists (info :: log'). rewrite A, <- app_assoc. split; [reflexivity|]. constructor; auto.
        * exists N1; eexists. split; [exact HN1|]. split; [|split].
          -- intros m Hm. cbn [nls_loop]. rewrite E1 by exact Hm. cbn [bind]. rewrite EC. reflexivity.
          -- cbn [res_out out_termination_state]. discriminate.
          -- exists [info]. cbn [res_out out_iterations]. auto.
  Qed.

  Lemma constrained_solve : forall cs,
    exists N r, (0 <= N)%Z /\ (forall m, (N <= m)%Z -> NLS_Solve ldlt qr llt eigs None cb (with_ls m pa) pr g vars cs = Ok r) /\
      out_termination_state (res_out r) <> QP_INDEFINITE /\
      forall info, In info (out_iterations (res_out r)) -> good_step (it_step_result info) /\ it_penalty info <= P.
  Proof.
    intro cs. pose proof (wp_params _ _ _ WP) as PV. pose proof (wp_penalty _ _ _ WP) as PP.
    set (st0 := MkNS vars (n_lambda_initial pa) p0 NOMINAL).
    assert (OT : on_track st0).
    { pose proof (npv_li _ PV). unfold on_track, st0. cbn [ns_vars ns_lambda ns_opt ns_penalty]. splits; auto; try lra.
      - apply (wp_vars _ _ _ WP).
      - apply Rmax_l.
      - apply Rmax_l. }
    destruct (constrained_loop (Z.to_nat (n_max_iterations pa)) 0 [] st0 cs OT) as (N & r & HN & E & T & log' & A & B).
    exists N, r. split; [exact HN|]. split; [|split; [exact T|]].
    - intros m Hm. unfold NLS_Solve.
      assert (PVm : nls_params_valid (with_ls m pa)).
      { destruct PV. constructor; try assumption. cbn [with_ls n_max_line_search_iterations]. lia. }
      destruct (C49_params_checked (with_ls m pa)) as [[-> _]|[_ X]]; [|destruct (X PVm)]. cbn [bind]. apply E. exact Hm.
    - intros info Hin. rewrite A in Hin. cbn [app] in Hin. rewrite Forall_forall in B. apply B. exact Hin.
  Qed.
End Constrained.

(** C83: equality constraints, no inequality constraints. If on the points no worse than the initial guess (with the dampings
    between min_lambda and lambda_initial) the QR factorisation reports full rank, the damped quadratic model curves
    upwards on the null space of the constraint Jacobian, and the multipliers of the QP are at most Y, where Y
    times machine epsilon is below the first order tolerance, then with enough iterations, and then
    enough line search iterations, allowed: Solve returns and reports that one of its tolerances is satisfied, every line
    search succeeds, and the penalty never exceeds penalty_limit. *)
Theorem C83_equality_constrained_solve_satisfied : forall ldlt qr llt eigs (pr : Problem R) g (pa : NLSParams R) vars Y,
  well_posed pa pr vars -> pr_ineq pr = [] -> pr_eq pr <> [] -> (0 < eq_rows pr <= pdim pr)%nat -> distinct_indices pr ->
  null_space_exact qr llt pr -> derivatives_correct pr -> value_consistent pr ->
  0 < n_equality_penalty_rho pa -> 0 < n_relative_exit_tol pa ->
  0 <= Y -> 1 / 4503599627370496 <= n_absolute_first_derivative_tol pa -> Y * (1 / 4503599627370496) < n_absolute_first_derivative_tol pa ->
  (forall v lambda errs qp, no_worse pr (n_equality_penalty_initial pa) (penalty_limit pa Y) vars v ->
     n_min_lambda pa <= lambda <= Rmax (n_lambda_initial pa) 0 -> LinearizeAndFillQP v lambda pr = Ok (errs, qp) ->
     qrRank (qr (qA qp)) = mrows (qA qp) /\ curved_on_null_space qp /\ multipliers_within qp Y) ->
  exists K, forall m, (K < m)%Z -> exists L, forall l, (L <= l)%Z ->
    exists r, NLS_Solve ldlt qr llt eigs None (@None (unit -> NLSIteration R -> unit * bool)) (with_ls l (with_max_iterations m pa)) pr g vars tt = Ok r /\
      satisfied (out_termination_state (res_out r)) /\
      forall info, In info (out_iterations (res_out r)) -> good_step (it_step_result info) /\ it_penalty info <= penalty_limit pa Y.
Proof.
  intros ldlt qr llt eigs pr g pa vars Y WP NI NE RK DI NX DC VC HR RT HY HT1 HT2 WB.
  set (cb := @None (unit -> NLSIteration R -> unit * bool)).
  destruct (eval_total pa pr vars WP) as [e0 E0]. destruct (errors_pos _ _ _ E0) as [F0 C0].
  pose proof (wp_params _ _ _ WP) as PV. pose proof (wp_penalty _ _ _ WP) as PP. pose proof (npv_abs _ PV) as AT. pose proof (npv_rel _ PV) as RR.
  set (P := penalty_limit pa Y) in *.
  set (C := Rmax 1 P * (err_f e0 / n_equality_penalty_initial pa + err_equality e0)).
  assert (M1 : 0 < Rmax 1 P) by (apply Rlt_le_trans with 1; [lra|apply Rmax_l]).
  assert (HC : 0 <= C).
  { unfold C. apply Rmult_le_pos; [lra|].
    assert (0 <= err_f e0 / n_equality_penalty_initial pa) by (apply Rmult_le_pos; [exact F0|left; apply Rinv_0_lt_compat; exact PP]). lra. }
  assert (EN : exists N, forall n, (N <= n)%nat -> C * (1 - n_relative_exit_tol pa) ^ n < n_absolute_exit_tol pa).
  { destruct (pow_lt_1_zero (1 - n_relative_exit_tol pa) ltac:(rewrite Rabs_pos_eq; lra) (n_absolute_exit_tol pa / (C + 1))) as [N HN].
    { apply Rdiv_lt_0_compat; lra. }
    exists N. intros n Hn. specialize (HN n ltac:(lia)). rewrite Rabs_pos_eq in HN by (apply pow_le; lra).
    apply Rle_lt_trans with (C * (n_absolute_exit_tol pa / (C + 1))); [apply Rmult_le_compat_l; lra|].
    apply (Rmult_lt_reg_r (C + 1)); [lra|]. replace (C * (n_absolute_exit_tol pa / (C + 1)) * (C + 1)) with (C * n_absolute_exit_tol pa) by (field; lra). nra. }
  destruct EN as [N HN].
  exists (Z.of_nat (N + 1)). intros m Hm.
  assert (WPm : well_posed (with_max_iterations m pa) pr vars).
  { destruct WP as [[] ? ? ? ? ?]. constructor; try assumption. constructor; try assumption. cbn [with_max_iterations n_max_iterations]. lia. }
  destruct (constrained_solve ldlt qr llt eigs cb pr g (with_max_iterations m pa) vars Y WPm NI NE DI NX DC VC RK HR HY HT1 HT2 WB tt)
    as (L & r & L0 & HS & TQ & HG).
  exists L. intros l Hl. exists r. pose proof (HS l Hl) as Hr. split; [exact Hr|]. split; [|exact HG].
  assert (NM : out_termination_state (res_out r) <> NLS_MAX_ITERATIONS).
  { intro T. pose proof (proj1 (proj2 (proj2 (C36_log_complete_and_ordered _ _ _ _ _ _ _ _ _ _ _ _ Hr))) T) as LEN.
    cbn [with_ls with_max_iterations n_max_iterations] in LEN.
    set (log := out_iterations (res_out r)) in *.
    assert (SN : exists init last, log = init ++ [last]).
    { destruct (exists_last (l := log)) as (i & x & E); [intro E; rewrite E in LEN; cbn in LEN; lia|eauto]. }
    destruct SN as (init & last & EL).
    assert (SU : successes init = length init).
    { assert (Q : forall k, (k <= length init)%nat -> successes (firstn k init) = k).
      { induction k as [|k IH]; intro Hk; [reflexivity|].
        destruct (nth_error init k) as [a|] eqn:Ea; [|apply nth_error_None in Ea; lia].
        rewrite (firstn_snoc _ _ _ _ Ea), successes_app, IH by lia.
        assert (La : nth_error log k = Some a) by (rewrite EL, nth_error_app1 by lia; exact Ea).
        destruct (nth_error log (Datatypes.S k)) as [b|] eqn:Eb; [|apply nth_error_None in Eb; rewrite EL, app_length in Eb; cbn in Eb; lia].
        destruct (logged_step _ _ _ _ _ _ _ _ _ _ _ _ VC Hr k a b La Eb) as (_ & NF & _).
        destruct (HG a (nth_error_In _ _ La)) as [[G|G] _]; [|congruence]. cbn [successes]. rewrite G. lia. }
      specialize (Q (length init) ltac:(lia)). rewrite firstn_all in Q. exact Q. }
    assert (LI : (N + 1 <= length init)%nat) by (rewrite EL, app_length in LEN; cbn [length] in LEN; lia).
    assert (HF : exists first, nth_error log 0 = Some first) by (rewrite EL; destruct init; cbn; eauto).
    destruct HF as [first HF].
    destruct (C33_penalty_never_decreases _ _ _ _ _ _ _ _ _ _ _ _ Hr) as [PM _]. destruct (PM 0%nat first HF) as [PM0 _].
    cbn [with_ls with_max_iterations n_equality_penalty_initial] in PM0.
    pose proof (C80_successes_bounded _ _ _ _ _ _ _ _ _ _ _ _ VC Hr init last EL ltac:(lia) e0 (it_penalty first) E0
                 ltac:(intros f Hf; fold log in Hf; congruence)) as SB.
    cbn [with_ls with_max_iterations n_absolute_exit_tol n_relative_exit_tol] in SB. rewrite SU in SB.
    destruct (HG last ltac:(rewrite EL; apply in_or_app; right; left; reflexivity)) as [_ PL].
    specialize (HN (length init) ltac:(lia)).
    assert (Q0 : 0 <= (1 - n_relative_exit_tol pa) ^ length init) by (apply pow_le; lra).
    assert (B : Rmax 1 (it_penalty last) * (err_f e0 / it_penalty first + err_equality e0) <= C).
    { unfold C. assert (D : err_f e0 / it_penalty first <= err_f e0 / n_equality_penalty_initial pa)
        by (apply Rmult_le_compat_l; [exact F0|apply Rinv_le_contravar; assumption]).
      assert (D0 : 0 <= err_f e0 / it_penalty first) by (apply Rmult_le_pos; [exact F0|left; apply Rinv_0_lt_compat; lra]).
      apply Rmult_le_compat; try lra.
      - apply Rle_trans with 1; [lra|apply Rmax_l].
      - apply Rmax_lub; [apply Rmax_l|]. eapply Rle_trans; [exact PL|apply Rmax_r]. }
    pose proof (Rmult_le_compat_r _ _ _ Q0 B). lra. }
  destruct (C35_termination_states _ _ _ _ _ _ _ _ _ _ _ _ Hr) as (_ & _ & _ & T). cbv zeta in T. unfold satisfied.
  destruct (out_termination_state (res_out r)); auto; try congruence; exfalso.
  - destruct T as (init & info & EL & X). destruct (HG info ltac:(rewrite EL; apply in_or_app; right; left; reflexivity)) as [[G|G] _];
      cbn [exit_condition] in X; rewrite G in X; destruct X as [[X|X] _]; discriminate.
  - destruct T as (f & i & info & s & X & _). discriminate.
Qed.

(** ** The penalty of any Solve *)
Section AnySolve.
  Variable ldlt : mat R -> option (mat R).
  Variable qr : mat R -> QRResult R.
  Variable llt : mat R -> option (list R -> list R).
  Variable eigs : mat R -> QPEigenvalues R.
  Variable retract : option (list R -> list R -> R -> list R).
  Context {S : Type}.
  Variable cb : option (S -> NLSIteration R -> S * bool).
  Variable pr : Problem R.
  Variable g : nat -> garbage R.
  Variable pa : NLSParams R.

  Notation solve := (NLS_Solve ldlt qr llt eigs retract cb pa pr g).

  (** C83: equality constraints, no inequality constraints, any line search limit, retraction and callback: if the
      multipliers of the QPs at the points no worse than the initial guess, with any admissible damping, are at most Y, then
      no logged penalty exceeds penalty_limit, and the result is no worse than the initial guess. *)
  Theorem C83_penalty_bounded_by_multipliers : forall vars cs r Y,
    well_posed pa pr vars -> retraction_ok retract -> pr_ineq pr = [] -> pr_eq pr <> [] -> distinct_indices pr ->
    null_space_exact qr llt pr -> value_consistent pr -> 0 <= Y ->
    (forall v lambda errs qp, no_worse pr (n_equality_penalty_initial pa) (penalty_limit pa Y) vars v ->
       n_min_lambda pa <= lambda <= n_max_lambda pa -> LinearizeAndFillQP v lambda pr = Ok (errs, qp) -> multipliers_within qp Y) ->
    solve vars cs = Ok r ->
    no_worse pr (n_equality_penalty_initial pa) (penalty_limit pa Y) vars (res_vars r) /\
    forall info, In info (out_iterations (res_out r)) -> it_penalty info <= penalty_limit pa Y.
  Proof.
    intros vars cs r Y WP RO NI NE DI NX VC HY MW H. pose proof (wp_params _ _ _ WP) as PV. pose proof (wp_penalty _ _ _ WP) as PP.
    pose proof (C34_lambda_in_range _ _ _ _ _ _ _ _ _ _ _ _ H) as LR.
    destruct (solve_history _ _ _ _ _ _ _ _ _ _ _ _ H) as (sts & css & exs & A & B & C & D & HY0).
    pose proof (vars_length ldlt qr llt eigs retract cb pr g pa vars r sts css exs (npv_ls _ PV) RO A HY0) as VL.
    destruct HY0 as (_ & HH & _). set (log := out_iterations (res_out r)) in *.
    set (P := penalty_limit pa Y) in *. set (p0 := n_equality_penalty_initial pa) in *. set (m0 := cost_at pr vars / p0 + eq_l1_at pr vars).
    assert (EXF : exact_factorizations ldlt qr llt pr) by (split; [intro X; contradiction|intros _; exact NX]).
    assert (NWk : forall st, length (ns_vars st) = pdim pr -> p0 <= ns_penalty st <= P ->
       cost_at pr (ns_vars st) / ns_penalty st + eq_l1_at pr (ns_vars st) <= m0 -> no_worse pr p0 P vars (ns_vars st)).
    { intros st LV [PL PU] M. set (v := ns_vars st) in *. unfold no_worse. cbv zeta. fold m0.
      pose proof (cost_nonneg pr v) as C0. pose proof (eq_l1_at_nonneg pr v) as E0.
      assert (0 <= cost_at pr v / ns_penalty st) by (apply Rmult_le_pos; [exact C0|left; apply Rinv_0_lt_compat; lra]).
      splits; [exact LV|lra|]. apply Rle_trans with (ns_penalty st * m0); [|apply Rmult_le_compat_r; lra].
      replace (cost_at pr v) with (ns_penalty st * (cost_at pr v / ns_penalty st)) by (field; lra). apply Rmult_le_compat_l; lra. }
    assert (INV : forall k, (k <= length log)%nat -> p0 <= ns_penalty (sts k) <= P /\
       cost_at pr (ns_vars (sts k)) / ns_penalty (sts k) + eq_l1_at pr (ns_vars (sts k)) <= m0).
    { induction k as [|k IH]; intro Hk.
      - rewrite A. cbn [init_state ns_penalty ns_vars]. fold p0. splits; [lra|apply Rmax_l|unfold m0; lra].
      - destruct (IH ltac:(lia)) as ([PL PU] & M). clear IH.
        destruct (nth_error log k) as [info|] eqn:E; [|apply nth_error_None in E; lia].
        destruct (HH k info E) as (HI & _). apply iterate_spec in HI. destruct HI as [_ HI].
        set (st := sts k) in *. set (st' := sts (Datatypes.S k)) in *.
        assert (LV : length (ns_vars st) = length vars) by (apply VL; lia).
        assert (LV' : length (ns_vars st') = length vars) by (apply VL; lia).
        assert (WPv : well_posed pa pr (ns_vars st)) by (apply (well_posed_vars pa pr vars _ WP); exact LV).
        assert (LD0 : length vars = pdim pr) by apply (wp_vars _ _ _ WP).
        pose proof (NWk st ltac:(congruence) (conj PL PU) M) as NW.
        pose proof (iteration_vars _ _ _ _ _ _ _ _ _ _ _ _ (npv_ls _ PV) HI) as [V1 _].
        destruct HI as (qp & dx & cand & HL & HD & HQ & HC & HP & HS & HU & HLam & _ & HPs & _).
        specialize (LR info (nth_error_In _ _ E)). rewrite HLam in LR. specialize (MW _ _ _ _ NW LR HL).
        destruct (direction_facts ldlt qr llt pr pa _ st _ qp _ dx _ WPv NI DI EXF VC HL HD HQ HC) as (GR & GC & AR & PSD & LDx & FE & ST & _).
        pose proof (select_penalty_bound qp dx (n_equality_penalty_rho pa) Y PSD GR GC LDx FE ST MW HY (npv_rho _ PV)) as SP.
        pose proof (null_space_no_multipliers ldlt qr llt pr pa _ qp _ dx NI NE HD) as NM.
        assert (PB : ns_penalty st <= ns_penalty st' <= P).
        { rewrite <- HPs, HP. unfold update_penalty. destruct (pr_eq pr) eqn:EE; [congruence|]. rewrite NM. set (np := SelectPenalty _ _ _ _) in *.
          pose proof (npv_ps _ PV) as PS. destruct (R_fgtb np (ns_penalty st)) as [G|G]; [|split; lra]. cbn [fmul R_ops]. split.
          - assert (0 < np) by lra. assert (np * 1 <= np * n_equality_penalty_scale_factor pa) by (apply Rmult_le_compat_l; lra). lra.
          - unfold P, penalty_limit. eapply Rle_trans; [|apply Rmax_r]. rewrite Rmult_comm. apply Rmult_le_compat_l; lra. }
        destruct PB as [PB1 PB2]. split; [lra|].
        assert (M1 : cost_at pr (ns_vars st) / ns_penalty st' + eq_l1_at pr (ns_vars st) <= m0).
        { eapply Rle_trans; [|exact M]. apply Rplus_le_compat_r. apply Rmult_le_compat_l; [apply cost_nonneg|]. apply Rinv_le_contravar; lra. }
        destruct (it_step_result info) eqn:ER; try (rewrite V1 by discriminate; exact M1).
        assert (IX : forall v, length v = length vars -> EvaluateNonlinearErrors pr v = Ok (MkErrors (cost_at pr v) (eq_l1_at pr v))).
        { intros v L. apply eval_errors_R. apply (wp_idx pr pa vars); assumption. }
        destruct (C27_sufficient_decrease retract (ls_of pa pr st info dx) (npv_ls _ PV) (npv_tau _ PV) ltac:(cbn [li_c1 ls_of]; rewrite R_1em4; lra) _ _ HS)
          as (ini & lst & _ & _ & _ & _ & DEC & _ & EV).
        cbn [ls_of li_penalty li_pre li_pr] in DEC, EV.
        pose proof HL as HE. apply C25_linearisation_errors in HE; [|exact VC]. rewrite (IX _ LV) in HE. apply Ok_inj in HE.
        assert (X3 : ns_vars st' = cand).
        { unfold UpdateLambdaAndCheckExitConditions in HU. inv_bind HU.
          repeat match type of HU with (if ?b then _ else _) = _ => destruct b end; apply Ok_inj in HU; apply pair_inj in HU; destruct HU as [_ HU]; rewrite <- HU; reflexivity. }
        rewrite X3 in *. rewrite (IX _ LV') in EV. apply Ok_inj in EV. rewrite <- HE, <- EV, HPs in DEC. cbn [err_f err_equality] in DEC.
        eapply Rle_trans; [|exact M1]. assert (0 < ns_penalty st') by lra.
        apply (Rmult_le_reg_l (ns_penalty st')); [assumption|].
        replace (ns_penalty st' * (cost_at pr cand / ns_penalty st' + eq_l1_at pr cand)) with (cost_at pr cand + ns_penalty st' * eq_l1_at pr cand) by (field; lra).
        replace (ns_penalty st' * (cost_at pr (ns_vars st) / ns_penalty st' + eq_l1_at pr (ns_vars st))) with (cost_at pr (ns_vars st) + ns_penalty st' * eq_l1_at pr (ns_vars st)) by (field; lra).
        exact DEC. }
    split.
    - rewrite <- C. destruct (INV (length log) ltac:(lia)). apply NWk; auto. rewrite VL by lia. apply (wp_vars _ _ _ WP).
    - intros info Hin. apply In_nth_error in Hin. destruct Hin as [k E].
      assert (Hk : (k < length log)%nat) by (apply nth_error_Some; fold log in E; rewrite E; discriminate).
      destruct (HH k info E) as (HI & _). apply iterate_spec in HI.
      destruct HI as [_ (qp & dx & cand & _ & _ & _ & _ & _ & _ & _ & _ & _ & HPs & _)]. rewrite HPs. apply INV. lia.
  Qed.

  (** C83: with inequality constraints too, any factorisation: if every multiplier summary logged by the interior point
      solver stays within Y, no logged penalty exceeds max(p0, scale_factor Y). *)
  Theorem C83_penalty_bounded_by_logged_multipliers : forall vars cs r Y, solve vars cs = Ok r ->
    (forall info, In info (out_iterations (res_out r)) -> exists t n m,
       it_qp_outputs info = InteriorPointOut (MkIPSolverOut t n (Some m)) /\ lm_l_infinity m <= Y) ->
    forall info, In info (out_iterations (res_out r)) ->
    it_penalty info <= Rmax (n_equality_penalty_initial pa) (n_equality_penalty_scale_factor pa * Y).
  Proof.
    intros vars cs r Y H LM. pose proof (solve_valid _ _ _ _ _ _ _ _ _ _ _ _ H) as PV.
    pose proof (C33_penalty_update _ _ _ _ _ _ _ _ _ _ _ _ H) as U. cbv zeta in U. set (log := out_iterations (res_out r)) in *.
    assert (G : forall k info, nth_error log k = Some info -> it_penalty info <= Rmax (n_equality_penalty_initial pa) (n_equality_penalty_scale_factor pa * Y)).
    { induction k as [|k IH]; intros info E.
      all: destruct (LM info (nth_error_In _ _ E)) as (t & n & m & EQ & LE).
      all: destruct (U _ _ E) as [X|(_ & lower & _ & X & Q)].
      - rewrite X. apply Rmax_l.
      - rewrite EQ in Q. rewrite X, (Q m eq_refl). cbn [fmul R_ops]. eapply Rle_trans; [|apply Rmax_r]. rewrite Rmult_comm.
        apply Rmult_le_compat_l; [pose proof (npv_ps _ PV); lra|exact LE].
      - rewrite X. cbn [penalty_before]. destruct (nth_error log k) as [i|] eqn:Ei; [apply (IH i eq_refl)|apply Rmax_l].
      - rewrite EQ in Q. rewrite X, (Q m eq_refl). cbn [fmul R_ops]. eapply Rle_trans; [|apply Rmax_r]. rewrite Rmult_comm.
        apply Rmult_le_compat_l; [pose proof (npv_ps _ PV); lra|exact LE]. }
    intros info Hin. apply In_nth_error in Hin. destruct Hin as [k E]. exact (G k info E).
  Qed.
End AnySolve.

(** C83: hence some number of iterations is always enough for an equality constrained problem with bounded multipliers
    (back-tracking; any line search limit, retraction and callback): with more allowed, no Solve from this initial guess ends
    with MAX_ITERATIONS. *)
Theorem C83_enough_iterations : forall qr llt (pr : Problem R) (pa : NLSParams R) vars Y,
  well_posed pa pr vars -> pr_ineq pr = [] -> pr_eq pr <> [] -> distinct_indices pr ->
  null_space_exact qr llt pr -> value_consistent pr -> 0 <= Y -> n_line_search_strategy pa = ARMIJO_BACKTRACK ->
  0 < n_relative_exit_tol pa -> 0 < n_lambda_failure_init pa ->
  (forall v lambda errs qp, no_worse pr (n_equality_penalty_initial pa) (penalty_limit pa Y) vars v ->
     n_min_lambda pa <= lambda <= n_max_lambda pa -> LinearizeAndFillQP v lambda pr = Ok (errs, qp) -> multipliers_within qp Y) ->
  exists K, forall m l ldlt eigs retract (S : Type) (cb : option (S -> NLSIteration R -> S * bool)) g cs r,
    retraction_ok retract ->
    NLS_Solve ldlt qr llt eigs retract cb (with_ls l (with_max_iterations m pa)) pr g vars cs = Ok r ->
    (length (out_iterations (res_out r)) <= K)%nat /\ ((Z.of_nat K < m)%Z -> out_termination_state (res_out r) <> NLS_MAX_ITERATIONS).
Proof.
  intros qr llt pr pa vars Y WP NI NE DI NX VC HY ST RT LF MW.
  destruct (eval_total pa pr vars WP) as [e0 E0]. destruct (errors_pos _ _ _ E0) as [F0 C0].
  pose proof (wp_params _ _ _ WP) as PV0. pose proof (wp_penalty _ _ _ WP) as PP. pose proof (npv_abs _ PV0) as AT. pose proof (npv_rel _ PV0) as RR.
  set (P := penalty_limit pa Y) in *.
  set (C := Rmax 1 P * (err_f e0 / n_equality_penalty_initial pa + err_equality e0)).
  assert (HC : 0 <= C).
  { unfold C. apply Rmult_le_pos; [apply Rle_trans with 1; [lra|apply Rmax_l]|].
    assert (0 <= err_f e0 / n_equality_penalty_initial pa) by (apply Rmult_le_pos; [exact F0|left; apply Rinv_0_lt_compat; exact PP]). lra. }
  assert (EN : exists N, (1 <= N)%nat /\ C * (1 - n_relative_exit_tol pa) ^ N < n_absolute_exit_tol pa).
  { destruct (pow_lt_1_zero (1 - n_relative_exit_tol pa) ltac:(rewrite Rabs_pos_eq; lra) (n_absolute_exit_tol pa / (C + 1))) as [N HN].
    { apply Rdiv_lt_0_compat; lra. }
    exists (Datatypes.S N). split; [lia|]. specialize (HN (Datatypes.S N) ltac:(lia)). rewrite Rabs_pos_eq in HN by (apply pow_le; lra).
    apply Rle_lt_trans with (C * (n_absolute_exit_tol pa / (C + 1))); [apply Rmult_le_compat_l; lra|].
    apply (Rmult_lt_reg_r (C + 1)); [lra|]. replace (C * (n_absolute_exit_tol pa / (C + 1)) * (C + 1)) with (C * n_absolute_exit_tol pa) by (field; lra). nra. }
  destruct EN as (N & N1 & HN).
  assert (EF : exists F, n_max_lambda pa < n_lambda_failure_init pa * 10 ^ F).
  { destruct (Pow_x_infinity 10 ltac:(rewrite Rabs_pos_eq; lra) ((Rabs (n_max_lambda pa) + 1) / n_lambda_failure_init pa)) as [F HF].
    exists F. specialize (HF F (le_n F)). rewrite Rabs_pos_eq in HF by (apply pow_le; lra).
    assert (A : (Rabs (n_max_lambda pa) + 1) <= n_lambda_failure_init pa * 10 ^ F).
    { apply (Rmult_le_reg_r (/ n_lambda_failure_init pa)); [apply Rinv_0_lt_compat; exact LF|].
      replace (n_lambda_failure_init pa * 10 ^ F * / n_lambda_failure_init pa) with (10 ^ F) by (field; lra). unfold Rdiv in HF. lra. }
    pose proof (Rle_abs (n_max_lambda pa)). lra. }
  destruct EF as [F HF].
  exists (N * (F + 1))%nat. intros m l ldlt eigs retract S cb g cs r RO H.
  pose proof (solve_valid _ _ _ _ _ _ _ _ _ _ _ _ H) as PV.
  assert (WPm : well_posed (with_ls l (with_max_iterations m pa)) pr vars) by (destruct WP; constructor; assumption).
  destruct (C83_penalty_bounded_by_multipliers ldlt qr llt eigs retract cb pr g (with_ls l (with_max_iterations m pa)) vars cs r Y WPm RO NI NE DI NX VC HY MW H) as [_ PB].
  apply (C80_iterations_bounded ldlt qr llt eigs retract cb (with_ls l (with_max_iterations m pa)) pr g vars cs r e0 N F P); auto.
  intros info Hin. split; [|exact (PB info Hin)]. apply In_nth_error in Hin. destruct Hin as [k Hk].
  destruct (logged_errors _ _ _ _ _ _ _ _ _ _ _ _ VC H k info Hk) as (_ & _ & _ & _ & IA & _).
  intro E. destruct (IA E) as (IA1 & _). cbn [with_ls with_max_iterations n_line_search_strategy] in IA1. congruence.
Qed.
