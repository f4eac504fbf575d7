(** What the nonlinear solver achieves on problems without inequality constraints, in exact arithmetic with
    exact factorisations: C54 (the line search succeeds), C55 (SATISFIED_FIRST_ORDER_TOL means approximately
    stationary), C56 (a stationary start is recognised), C57 (linear least squares is solved). *)
From Coq Require Import String List Bool Arith ZArith QArith Reals Lra Lia.
From Verif Require Import Scalar Outcome LinAlg Structs Constraint QPModel NullSpace Residual Nonlinear RInst Spec
  Props_Constraint QPBlocks QPAlgebra QPNewton QPAlpha QPStep QPTrace QPInit QPSolve QPDirect NSProps ResProps LinProps
  MeritProps LSProps LSSuccess LSPoly NLSTrace NLSProps NLSReal NLSBox Penalty NLSTotal.
Import ListNotations.
Local Open Scope outcome_scope.
Local Open Scope string_scope.
Local Open Scope list_scope.
Local Open Scope R_scope.

(** ** Quadratic forms *)

(** u^T G v *)
Definition bform (p : QP R) (u v : list R) : R :=
  Rsum (nv p) (fun i => Rsum (nv p) (fun j => vget u i * Gs p i j * vget v j)).
Definition gdot (p : QP R) (u : list R) : R := Rsum (nv p) (fun i => vget (qc p) i * vget u i).
(** A u = 0 *)
Definition qp_tangent (p : QP R) (u : list R) : Prop :=
  forall k, (k < neq p)%nat -> Rsum (nv p) (fun j => Ae p k j * vget u j) = 0.
(** x + t u *)
Definition along (n : nat) (x u : list R) (t : R) : list R := mkvec n (fun i => vget x i + t * vget u i).

Lemma Gs_sym : forall (p : QP R) i j, Gs p i j = Gs p j i.
Proof.
  intros p i j. unfold Gs. destruct (Nat.leb_spec j i), (Nat.leb_spec i j); try lia; [|reflexivity|reflexivity].
  replace i with j by lia. reflexivity.
Qed.
Lemma bform_sym : forall p u v, bform p u v = bform p v u.
Proof.
  intros. unfold bform. rewrite Rsum_swap. apply Rsum_ext. intros i Hi. apply Rsum_ext. intros j Hj.
  rewrite (Gs_sym p j i). ring.
Qed.
Lemma qform_along : forall p x u t,
  qform p (along (nv p) x u t) = qform p x + 2 * t * bform p x u + t * t * qform p u.
Proof.
  intros p x u t.
  assert (E : qform p (along (nv p) x u t) =
              qform p x + t * bform p x u + t * bform p u x + t * t * qform p u).
  { unfold qform, bform, along. rewrite <- !Rsum_scal_l, <- !Rsum_plus. apply Rsum_ext. intros i Hi.
    rewrite <- !Rsum_scal_l, <- !Rsum_plus. apply Rsum_ext. intros j Hj. rewrite !vget_mkvec by assumption. ring. }
  rewrite E, (bform_sym p u x). ring.
Qed.
Lemma gdot_along : forall p x u t, gdot p (along (nv p) x u t) = gdot p x + t * gdot p u.
Proof.
  intros. unfold gdot, along. rewrite <- Rsum_scal_l, <- Rsum_plus. apply Rsum_ext. intros i Hi.
  rewrite vget_mkvec by assumption. ring.
Qed.
Lemma objective_along : forall p x u t, objective p (along (nv p) x u t) =
  objective p x + t * (bform p x u + gdot p u) + t * t * / 2 * qform p u.
Proof.
  intros. unfold objective. fold (gdot p (along (nv p) x u t)) (gdot p x). rewrite qform_along, gdot_along. field.
Qed.
Lemma eq_along : forall p x u t, eq_feasible p x -> qp_tangent p u -> eq_feasible p (along (nv p) x u t).
Proof.
  intros p x u t FE TU k Hk. unfold kkt_eq, along.
  rewrite (Rsum_ext _ _ (fun j => Ae p k j * vget x j + t * (Ae p k j * vget u j))).
  - rewrite Rsum_plus, Rsum_scal_l, (TU k Hk). specialize (FE k Hk). unfold kkt_eq in FE. lra.
  - intros j Hj. rewrite vget_mkvec by exact Hj. ring.
Qed.

Lemma quad_nonneg_zero : forall L Q : R, (forall t, 0 <= t * L + t * t * Q) -> L = 0.
Proof.
  intros L Q H. destruct (Req_dec L 0) as [|N]; [assumption|exfalso].
  set (q := Rabs Q + 1). assert (HQ : 0 < q) by (unfold q; pose proof (Rabs_pos Q); lra).
  assert (Q <= q) by (unfold q; pose proof (Rle_abs Q); lra).
  specialize (H (- L / (2 * q))).
  assert (E : - L / (2 * q) * L + - L / (2 * q) * (- L / (2 * q)) * Q <= - (L * L) / (4 * q)).
  { replace (- L / (2 * q) * L + - L / (2 * q) * (- L / (2 * q)) * Q) with (- (L * L) / (2 * q) + (L * L) / (4 * q * q) * Q) by (field; lra).
    assert (X : (L * L) / (4 * q * q) * Q <= (L * L) / (4 * q * q) * q).
    { apply Rmult_le_compat_l; [|assumption]. apply Rle_mult_inv_pos; [apply sq_nonneg|]. assert (0 < q * q) by (apply Rmult_lt_0_compat; lra). lra. }
    replace ((L * L) / (4 * q * q) * q) with ((L * L) / (4 * q)) in X by (field; lra).
    replace (- (L * L) / (2 * q)) with (- (2 * ((L * L) / (4 * q)))) by (field; lra).
    replace (- (L * L) / (4 * q)) with (- ((L * L) / (4 * q))) by (field; lra). lra. }
  assert (0 < L * L) by (assert (0 <= L * L) by apply sq_nonneg; destruct (Rtotal_order L 0) as [?|[?|?]]; nra).
  assert (0 < (L * L) / (4 * q)) by (apply Rdiv_lt_0_compat; lra).
  replace (- (L * L) / (4 * q)) with (- ((L * L) / (4 * q))) in E by (field; lra). lra.
Qed.

Lemma psd_CS : forall p u v, psd p -> bform p u v * bform p u v <= qform p u * qform p v.
Proof.
  intros p u v P.
  assert (H : forall t, 0 <= qform p u + 2 * t * bform p u v + t * t * qform p v)
    by (intro t; rewrite <- qform_along; apply P).
  pose proof (P u) as PU. pose proof (P v) as PV. set (a := qform p u) in *. set (c := qform p v) in *. set (b := bform p u v) in *.
  destruct (Req_dec c 0) as [Z|N].
  - assert (b = 0).
    { destruct (Req_dec b 0) as [|N]; [assumption|exfalso]. specialize (H (- (a + 1) / (2 * b))). rewrite Z in H.
      replace (a + 2 * (- (a + 1) / (2 * b)) * b + - (a + 1) / (2 * b) * (- (a + 1) / (2 * b)) * 0) with (-1) in H by (field; assumption). lra. }
    rewrite H0, Z. lra.
  - specialize (H (- b / c)). replace (a + 2 * (- b / c) * b + - b / c * (- b / c) * c) with (a - b * b / c) in H by (field; assumption).
    assert (0 < c) by lra. assert (b * b / c <= a) by lra. apply (Rmult_le_compat_r c) in H1; [|lra].
    unfold Rdiv in H1. rewrite Rmult_assoc, Rinv_l, Rmult_1_r in H1 by assumption. exact H1.
Qed.

(** A constrained minimiser of the quadratic satisfies the first order condition on the null space. *)
Lemma minimiser_stationary : forall p x, eq_feasible p x ->
  (forall x', length x' = nv p -> eq_feasible p x' -> objective p x <= objective p x') ->
  forall u, qp_tangent p u -> bform p x u + gdot p u = 0.
Proof.
  intros p x FE MIN u TU. apply (quad_nonneg_zero _ (/ 2 * qform p u)). intro t.
  specialize (MIN (along (nv p) x u t) ltac:(unfold along; apply mkvec_length) (eq_along _ _ _ _ FE TU)).
  rewrite objective_along in MIN. lra.
Qed.

Section Exact.
  Variable ldlt : mat R -> option (mat R).
  Variable qr : mat R -> QRResult R.
  Variable llt : mat R -> option (list R -> list R).
  Variable eigs : mat R -> QPEigenvalues R.
  Variable pr : Problem R.

  (** The factorisations used for a problem without inequality constraints are exact. *)
  Definition exact_factorizations : Prop :=
    (pr_eq pr = [] -> ldlt_exact (pdim pr) ldlt) /\ (pr_eq pr <> [] -> null_space_exact qr llt pr).

  (** What ComputeStepDirection returns. *)
  Lemma direction_exact : forall pa gg v lambda errs qp o dx,
    pr_ineq pr = [] -> distinct_indices pr -> exact_factorizations ->
    LinearizeAndFillQP v lambda pr = Ok (errs, qp) ->
    ComputeStepDirection ldlt qr llt gg pa pr qp = Ok (o, dx) -> QPWasIndefinite o = false ->
    length dx = nv qp /\ eq_feasible qp dx /\ (forall u, qp_tangent qp u -> bform qp dx u + gdot qp u = 0).
  Proof.
    intros pa gg v lambda errs qp o dx NI DI [LX NX] HL HD HQ.
    destruct (C24_linearised_qp _ _ _ _ _ DI HL) as ((GR & GC & CL & AC & AR) & _ & _ & _ & LE & EE & IC).
    assert (NV : nv qp = pdim pr) by exact CL.
    assert (QC : qcons qp = []) by (rewrite NI in IC; inversion IC; reflexivity).
    unfold ComputeStepDirection, use_null_space in HD. rewrite NI in HD. destruct (pr_eq pr) as [|e0 es] eqn:EQ.
    - assert (B0 : neq qp = 0%nat).
      { unfold neq. specialize (LE []). unfold lin_equalities in LE. rewrite EQ in LE. simpl in LE. unfold mkvec in LE. apply map_eq_nil in LE.
        destruct (length (qb qp)); [reflexivity|discriminate]. }
      apply bind_ok_inv in HD. destruct HD as (st & HSt & HD). apply bind_ok_inv in HD. destruct HD as ([st' outs] & HSo & HD).
      apply Ok_inj in HD. apply pair_inj in HD. destruct HD as [_ <-].
      destruct (Setup_ready _ _ _ HSt ltac:(rewrite QC; intros c0 [])) as [W RD].
      assert (CT : 0 < p_termination_complementarity_tol (inner_qp_params pa pr))
        by (change (0 < 1 / 1000000); lra).
      destruct (C18_returns_after_one_iteration _ _ _ _ _ _ W RD QC ltac:(rewrite B0, Nat.add_0_r, NV; apply LX; reflexivity) CT HSo) as (_ & _ & FE & FD).
      assert (RD' : ready qp st').
      { apply (Solve_ready ldlt (inner_qp_params pa pr) qp st st' outs W RD); [|exact HSo].
        unfold inner_qp_params; cbn [p_initial_guess_method]; destruct (pr_eq pr); discriminate. }
      splits.
      + unfold x_block. rewrite xblk_length by apply RD'. apply (dN_nv qp st' RD').
      + exact FE.
      + intros u TU. unfold bform, gdot. rewrite Rsum_swap. rewrite <- Rsum_plus. apply Rsum_0. intros j Hj.
        rewrite (Rsum_ext _ _ (fun i => (Gs qp j i * vget (x_block st') i) * vget u j)) by (intros i Hi; rewrite (Gs_sym qp i j); ring).
        rewrite Rsum_scal_r. specialize (FD j Hj). rewrite B0 in FD. cbn [Rsum] in FD.
        rewrite <- Rmult_plus_distr_r, FD. ring.
    - apply bind_ok_inv in HD. destruct HD as ([t x] & HN & HD).
      destruct t; [|apply Ok_inj in HD; apply pair_inj in HD; destruct HD as [EO _]; rewrite <- EO in HQ; discriminate].
      apply Ok_inj in HD. apply pair_inj in HD. destruct HD as [_ <-].
      destruct (NX ltac:(discriminate) _ _ _ _ HL) as [QX CX].
      destruct (C20_null_space_minimiser qr llt qp _ x QX CX HN) as (LX' & FE & MIN).
      splits; [exact LX'|exact FE|]. apply minimiser_stationary; [exact FE|].
      intros x' Hx' FE'. destruct (list_eq_dec Req_EM_T x' x) as [->|N]; [lra|]. left. apply MIN; assumption.
  Qed.
End Exact.

(** ** Vocabulary: the problem seen from outside *)

(** x + t u *)
Definition ray (x u : list R) (t : R) : list R := vadd x (vscale u t).
(** u is tangent to the equality constraints at x: every constraint has derivative 0 along u. *)
Definition tangent (pr : Problem R) (x u : list R) : Prop :=
  forall r, In r (pr_eq pr) -> forall k, (k < res_dim r)%nat -> jac_dx r x u k = 0.
(** All user functions return correct derivatives everywhere. *)
Definition derivatives_correct (pr : Problem R) : Prop :=
  forall r, In r (pr_costs pr) \/ In r (pr_eq pr) ->
  forall x u, length x = pdim pr -> length u = pdim pr -> jac_correct r x u.
(** s is the derivative of the cost at x along u. *)
Definition cost_slope (pr : Problem R) (x u : list R) (s : R) : Prop :=
  derivable_pt_lim (fun t => cost_at pr (ray x u t)) 0 s.
(** x is feasible and the cost has derivative 0 along all tangent directions. *)
Definition stationary_point (pr : Problem R) (x : list R) : Prop :=
  eq_l1_at pr x = 0 /\ forall u, length u = pdim pr -> tangent pr x u -> cost_slope pr x u 0.

Lemma ray_length : forall x u t, length x = length u -> length (ray x u t) = length x.
Proof. intros. unfold ray. rewrite vadd_length, vscale_length. lia. Qed.

Lemma violation_l1 : forall v lambda (pr : Problem R) errs qp, distinct_indices pr ->
  LinearizeAndFillQP v lambda pr = Ok (errs, qp) -> err_equality errs = eq_l1 qp.
Proof.
  intros v lambda pr errs qp DI HL.
  destruct (C24_linearised_qp _ _ _ _ _ DI HL) as (_ & _ & _ & _ & LE & EE & _).
  rewrite EE. rewrite <- eq_l1_fl1. unfold fl1. cbn [fsum fabs R_ops]. f_equal. f_equal.
  transitivity (lin_equalities pr v (vget [])).
  - unfold lin_equalities. apply flat_map_ext. intro r0. apply mkvec_ext. intros k0 Hk0. unfold lin_residual. f_equal.
    apply Rsum_ext. intros a0 Ha0. assert (Z : vget ([] : list R) (gidx r0 a0) = 0) by (unfold vget; destruct (gidx r0 a0); reflexivity). rewrite Z. reflexivity.
  - rewrite <- LE. transitivity (mkvec (length (qb qp)) (vget (qb qp))); [|apply mkvec_vget]. apply mkvec_ext. intros k0 Hk0.
    unfold kkt_eq. rewrite Rsum_0; [ring|]. intros j Hj. assert (Z : vget ([] : list R) j = 0) by (unfold vget; destruct j; reflexivity). rewrite Z. ring.
Qed.

Lemma Rlsum_zero : forall A (f : A -> R) l, (forall a, In a l -> f a = 0) -> Rlsum (map f l) = 0.
Proof. induction l as [|a l IH]; intro H; simpl; [reflexivity|]. rewrite (H a (or_introl eq_refl)), IH; [ring|]. intros; apply H; right; assumption. Qed.
Lemma Rlsum_zero_inv : forall A (f : A -> R) l, (forall a, In a l -> 0 <= f a) -> Rlsum (map f l) = 0 -> forall a, In a l -> f a = 0.
Proof.
  induction l as [|b l IH]; intros N H a Ha; [destruct Ha|]. simpl in H.
  assert (0 <= f b) by (apply N; left; reflexivity).
  assert (0 <= Rlsum (map f l)).
  { apply Rlsum_nonneg. intros x Hx. apply in_map_iff in Hx. destruct Hx as (c & <- & Hc). apply N. right. exact Hc. }
  destruct Ha as [<-|Ha]; [lra|]. apply IH; [intros; apply N; right; assumption|lra|exact Ha].
Qed.
Lemma Rabs_zero : forall x, Rabs x = 0 -> x = 0.
Proof. intros x H. destruct (Req_dec x 0) as [|N]; [assumption|]. apply Rabs_no_R0 in N. contradiction. Qed.

Lemma tangent_qp : forall v lambda (pr : Problem R) errs qp u, distinct_indices pr ->
  LinearizeAndFillQP v lambda pr = Ok (errs, qp) -> (tangent pr v u <-> qp_tangent qp u).
Proof.
  intros v lambda pr errs qp u DI HL.
  pose proof (eq_rows_sum v lambda pr errs qp u (fun _ w => Rabs w) DI HL) as E. cbv beta in E. fold (neq qp) in E.
  split.
  - intros T k Hk. apply Rabs_zero.
    apply (Rsum_zero_terms (neq qp) (fun k => Rabs (Rsum (nv qp) (fun j => Ae qp k j * vget u j)))); [intros; apply Rabs_pos| |exact Hk].
    rewrite E. apply Rlsum_zero. intros r Hr. apply Rsum_0. intros i Hi. rewrite (T r Hr i Hi). apply Rabs_R0.
  - intros T r Hr k Hk. apply Rabs_zero.
    rewrite Rsum_0 in E by (intros i Hi; rewrite (T i Hi); apply Rabs_R0). symmetry in E.
    pose proof (Rlsum_zero_inv _ _ _ (fun a _ => Rsum_nonneg _ _ (fun i _ => Rabs_pos (jac_dx a v u i))) E r Hr) as Z. cbv beta in Z.
    apply (Rsum_zero_terms _ _ (fun i _ => Rabs_pos (jac_dx r v u i)) Z k Hk).
Qed.

Lemma feasible_tangent : forall (qp : QP R) dx, eq_l1 qp = 0 -> eq_feasible qp dx -> qp_tangent qp dx.
Proof.
  intros qp dx E FE k Hk. specialize (FE k Hk). unfold kkt_eq in FE.
  pose proof (Rsum_zero_terms _ _ (fun i _ => Rabs_pos (vget (qb qp) i)) E k Hk) as Z. apply Rabs_zero in Z. lra.
Qed.

(** The slope of the cost along u is c . u. *)
Lemma slope_gdot : forall v lambda (pr : Problem R) errs qp u, distinct_indices pr -> derivatives_correct pr ->
  LinearizeAndFillQP v lambda pr = Ok (errs, qp) -> length u = length v -> length v = pdim pr ->
  (forall r, In r (pr_costs pr) \/ In r (pr_eq pr) -> idx_ok r (length v)) ->
  cost_slope pr v u (gdot qp u).
Proof.
  intros v lambda pr errs qp u DI DC HL LU LV IX.
  destruct (C24_linearised_qp _ _ _ _ _ DI HL) as ((GR & GC & CL & AC & AR) & _).
  assert (ED : exists dd, ComputeQPCostDerivative qp u = Ok dd).
  { unfold ComputeQPCostDerivative. rewrite CL, AC, LU, LV. unfold pdim. rewrite Nat.eqb_refl. cbn [f_assert bind]. eexists. reflexivity. }
  destruct ED as [dd ED].
  destruct (C26_directional_derivative v lambda pr errs qp u dd 1 DI ltac:(congruence) HL ED (fun r Hr => DC r Hr v u LV (eq_trans LU LV))) as (phi & P1 & P2 & _).
  destruct (cost_derivative _ _ _ AR ED) as (_ & DF & _). rewrite DF in P2. fold (gdot qp u) in P2.
  unfold cost_slope. assert (EQ : forall t, err_f (phi t) = cost_at pr (ray v u t)).
  { intro t. specialize (P1 t). unfold RetractCandidateVars in P1. rewrite LU, Nat.eqb_refl in P1. cbn [ub_unless bind] in P1.
    fold (ray v u t) in P1. rewrite eval_errors_R in P1 by (intros r Hr; rewrite ray_length by congruence; apply IX; exact Hr).
    apply Ok_inj in P1. rewrite <- P1. reflexivity. }
  intros eps He. destruct (P2 eps He) as [d Hd]. exists d. intros h Hh Hh2. rewrite <- !EQ. apply Hd; assumption.
Qed.

Section Results.
  Variable ldlt : mat R -> option (mat R).
  Variable qr : mat R -> QRResult R.
  Variable llt : mat R -> option (list R -> list R).
  Variable eigs : mat R -> QPEigenvalues R.
  Variable retract : option (list R -> list R -> R -> list R).
  Context {S : Type}.
  Variable cb : option (S -> NLSIteration R -> S * bool).
  Variable pr : Problem R.
  Variable g : nat -> garbage R.

  Notation exact_factorizations := (exact_factorizations ldlt qr llt pr).
  Notation solve pa := (solve ldlt qr llt eigs retract cb pa pr g).
  Notation iteration_spec pa := (iteration_spec ldlt qr llt eigs retract pa pr).

  (** Everything an exact iteration produces. *)
  Lemma iteration_exact : forall pa gk st info ex st',
    pr_ineq pr = [] -> distinct_indices pr -> exact_factorizations ->
    iteration_spec pa gk st info ex st' ->
    exists qp dx cand,
      LinearizeAndFillQP (ns_vars st) (ns_lambda st) pr = Ok (it_errors_initial info, qp) /\
      ComputeQPCostDerivative qp dx = Ok (it_directional_derivatives info) /\
      run_line_search retract (ls_of pa pr st info dx) = Ok (it_step_result info, it_line_search_steps info, cand) /\
      (it_step_result info = SS_SUCCESS -> ns_vars st' = cand) /\
      length dx = nv qp /\ nv qp = pdim pr /\ eq_feasible qp dx /\ psd qp /\
      (forall u, qp_tangent qp u -> bform qp dx u + gdot qp u = 0) /\
      d_f (it_directional_derivatives info) = gdot qp dx /\
      d_equality (it_directional_derivatives info) = - eq_l1 qp /\
      err_equality (it_errors_initial info) = eq_l1 qp /\
      (forall u, qform qp u = lin_curvature pr (ns_vars st) (vget u) + Rmax (ns_lambda st) 0 * Rsum (pdim pr) (fun i => vget u i ^ 2)) /\
      (forall u, err_f (it_errors_initial info) + objective qp u =
        lin_cost pr (ns_vars st) (vget u) + / 2 * Rmax (ns_lambda st) 0 * Rsum (pdim pr) (fun i => vget u i ^ 2)).
  Proof.
    intros pa gk st info ex st' NI DI EX (qp & dx & cand & HL & HD & HQ & HC & HP & HS & HU & _).
    exists qp, dx, cand.
    destruct (C24_linearised_qp _ _ _ _ _ DI HL) as ((GR & GC & CL & AC & AR) & OBJ & _ & QF & _ & _ & _).
    destruct (C24_convex _ _ _ _ _ DI HL) as [PSD _].
    destruct (direction_exact ldlt qr llt pr _ _ _ _ _ _ _ _ NI DI EX HL HD HQ) as (LD & FE & ST).
    destruct (cost_derivative _ _ _ AR HC) as (_ & DF & _).
    splits; auto.
    - intro E. rewrite E in HU. unfold UpdateLambdaAndCheckExitConditions in HU. inv_bind HU.
      repeat match type of HU with (if ?b then _ else _) = _ => destruct b end;
        apply Ok_inj in HU; apply pair_inj in HU; destruct HU as [_ <-]; reflexivity.
    - apply (C41_equality_derivative _ _ _ AR HC FE).
    - apply (violation_l1 _ _ _ _ _ DI HL).
  Qed.

  (** All points visited have as many coordinates as the initial guess. *)
  Lemma vars_length : forall pa vars (r : nls_result (F := R) (S := S)) sts css exs, (0 <= n_max_line_search_iterations pa)%Z -> retraction_ok retract ->
    sts 0%nat = init_state pa vars ->
    history ldlt qr llt eigs retract cb pa pr g (Z.to_nat (n_max_iterations pa)) 0 (out_iterations (res_out r))
              (out_termination_state (res_out r)) sts css exs ->
    forall k, (k <= length (out_iterations (res_out r)))%nat -> length (ns_vars (sts k)) = length vars.
  Proof.
    intros pa vars r sts css exs HM RO H0 (_ & HH & _). induction k as [|k IH]; intro Hk; [rewrite H0; reflexivity|].
    destruct (nth_error (out_iterations (res_out r)) k) as [info|] eqn:E; [|apply nth_error_None in E; lia].
    destruct (HH k info E) as (HI & _). apply iterate_spec in HI. destruct HI as [_ HI].
    destruct (iteration_vars _ _ _ _ _ _ _ _ _ _ _ _ HM HI) as [V1 V2]. specialize (IH ltac:(lia)).
    destruct (it_step_result info) eqn:ER; try (rewrite V1 by discriminate; exact IH).
    destruct (V2 eq_refl) as (dx & init & last & _ & RV & _). unfold RetractCandidateVars in RV.
    destruct retract as [f|] eqn:EF.
    - apply Ok_inj in RV. rewrite <- RV, (RO f eq_refl). exact IH.
    - inv_bind RV. apply ub_unless_ok_inv in Hm. apply Nat.eqb_eq in Hm. apply Ok_inj in RV. rewrite <- RV, vadd_length, vscale_length. lia.
  Qed.

  Lemma wp_idx : forall pa v (v' : list R), well_posed pa pr v -> length v' = length v ->
    forall r, In r (pr_costs pr) \/ In r (pr_eq pr) -> idx_ok r (length v').
  Proof.
    intros pa v v' WP L r Hr i Hi. pose proof (wp_index _ _ _ WP r Hr i Hi). pose proof (wp_vars _ _ _ WP). pose proof (wp_dim _ _ _ WP). lia.
  Qed.

  Lemma stationary_test : forall pa st info dx,
    stationary (ls_of pa pr st info dx) = true <->
    Rmax (Rabs (d_f (it_directional_derivatives info))) (Rabs (d_equality (it_directional_derivatives info)))
      < n_absolute_first_derivative_tol pa.
  Proof.
    intros. unfold stationary. cbn [li_dd li_tol ls_of]. unfold DD_LInfinity. rewrite R_fmax. cbn [fabs R_ops].
    match goal with |- fltb ?a ?b = true <-> _ => destruct (R_fltb a b) as [X|X] end; split; intro H; auto; try discriminate.
  Qed.

  (** ** C55 *)

  (** When the solver reports SATISFIED_FIRST_ORDER_TOL, the returned point violates the equality constraints by
      less than the tolerance, and - if it satisfies them exactly - the slope s of the cost along any direction u
      tangent to the constraints obeys s^2 <= tol * (|J u|^2 + lambda |u|^2). *)
  Theorem C55_first_order_tol_means_stationary : forall pa vars cs r,
    well_posed pa pr vars -> retraction_ok retract -> pr_ineq pr = [] -> distinct_indices pr -> exact_factorizations ->
    derivatives_correct pr -> value_consistent pr ->
    solve pa vars cs = Ok r -> out_termination_state (res_out r) = SATISFIED_FIRST_ORDER_TOL ->
    let x := res_vars r in let tol := n_absolute_first_derivative_tol pa in
    eq_l1_at pr x < tol /\
    exists init info, out_iterations (res_out r) = init ++ [info] /\
      (eq_l1_at pr x = 0 -> forall u s, length u = length x -> tangent pr x u -> cost_slope pr x u s ->
        s * s <= tol * (lin_curvature pr x (vget u) + Rmax (it_lambda info) 0 * Rsum (length x) (fun i => vget u i ^ 2))).
  Proof.
    intros pa vars cs r WP RO NI DI EX DC VC H HT x tol. pose proof (solve_valid _ _ _ _ _ _ _ _ _ _ _ _ H) as PV.
    destruct (solve_history _ _ _ _ _ _ _ _ _ _ _ _ H) as (sts & css & exs & A & B & C & D & HY).
    pose proof (vars_length pa vars r sts css exs (npv_ls _ PV) RO A HY) as VL.
    destruct HY as (_ & HH & TT). rewrite HT in TT. destruct TT as (j & info & EL & EN & EE).
    destruct (HH j info EN) as (HI & _). apply iterate_spec in HI. destruct HI as [_ HI].
    pose proof (iteration_vars _ _ _ _ _ _ _ _ _ _ _ _ (npv_ls _ PV) HI) as [V1 _].
    assert (SR : it_step_result info = FIRST_ORDER_SATISFIED).
    { destruct HI as (qp & dx & cand & _ & _ & _ & _ & _ & _ & HU & _). rewrite EE in HU.
      unfold UpdateLambdaAndCheckExitConditions in HU. destruct (it_step_result info); try reflexivity; exfalso; [inv_bind HU|..];
        repeat match type of HU with (if ?b then _ else _) = _ => destruct b end; discriminate. }
    rewrite SR in V1. specialize (V1 ltac:(discriminate)).
    assert (XV : x = ns_vars (sts j)) by (unfold x; rewrite <- C, EL; exact V1).
    assert (LX : length x = pdim pr) by (rewrite XV, VL by lia; apply (wp_vars _ _ _ WP)).
    assert (IX : forall r, In r (pr_costs pr) \/ In r (pr_eq pr) -> idx_ok r (length x))
      by (apply (wp_idx pa vars); [exact WP|]; rewrite LX; symmetry; apply (wp_vars _ _ _ WP)).
    assert (IL : it_lambda info = ns_lambda (sts j)) by (destruct HI as (qp & dx & cand & _ & _ & _ & _ & _ & _ & _ & X & _); exact X).
    destruct (iteration_exact _ _ _ _ _ _ NI DI EX HI)
      as (qp & dx & cand & HL & HC & HS & _ & LD & NV & FE & PSD & ST & DF & DE & EV & QF & _).
    pose proof (C25_linearisation_errors _ _ _ _ _ VC HL) as CE. rewrite <- XV in *. rewrite (eval_errors_R _ _ IX) in CE. apply Ok_inj in CE.
    assert (E1 : eq_l1_at pr x = eq_l1 qp) by (rewrite <- EV, <- CE; reflexivity).
    destruct (C28_line_search_log retract (ls_of pa pr (sts j) info dx) (npv_ls _ PV) _ _ _ HS) as (_ & _ & _ & _ & ini & lst & _ & _ & _ & RS).
    rewrite SR in RS. destruct RS as (_ & _ & STA). apply stationary_test in STA. fold tol in STA. rewrite DF, DE in STA.
    assert (V0 : 0 <= eq_l1 qp) by (apply Rsum_nonneg; intros; apply Rabs_pos).
    assert (T1 : eq_l1 qp < tol).
    { eapply Rle_lt_trans; [|exact STA]. eapply Rle_trans; [|apply Rmax_r]. rewrite Rabs_Ropp. apply Rle_abs. }
    split; [lra|].
    assert (SN : exists init, out_iterations (res_out r) = init ++ [info]).
    { destruct (nth_error_split _ _ EN) as (l1 & l2 & E & El). exists l1. destruct l2; [exact E|]. rewrite E, app_length in EL. simpl in EL. lia. }
    destruct SN as [init SN]. exists init, info. split; [exact SN|].
    intros Z u s LU TU CS. rewrite E1 in Z.
    pose proof (slope_gdot _ _ _ _ _ u DI DC HL LU LX IX) as SG. rewrite (uniqueness_limite _ _ _ _ CS SG).
    assert (TG : qp_tangent qp u) by (apply (tangent_qp _ _ _ _ _ u DI HL); exact TU).
    assert (TD : qp_tangent qp dx) by (apply feasible_tangent; assumption).
    pose proof (ST u TG) as S1. pose proof (ST dx TD) as S2. change (bform qp dx dx) with (qform qp dx) in S2.
    assert (QD : qform qp dx <= tol).
    { assert (X : Rabs (gdot qp dx) < tol) by (eapply Rle_lt_trans; [apply Rmax_l|exact STA]). apply Rabs_def2 in X. lra. }
    replace (gdot qp u) with (- bform qp dx u) by lra. replace (- bform qp dx u * - bform qp dx u) with (bform qp dx u * bform qp dx u) by ring.
    eapply Rle_trans; [apply psd_CS; exact PSD|].
    rewrite IL, LX, <- QF. apply Rmult_le_compat_r; [apply PSD|exact QD].
  Qed.

  (** ** C56 *)

  (** A solve started at a stationary point returns it unchanged after one iteration with
      SATISFIED_FIRST_ORDER_TOL (or QP_INDEFINITE before the first iteration ends, if the reduced Hessian of an
      equality constrained problem is not positive definite). *)
  Theorem C56_stationary_start : forall pa vars cs r,
    well_posed pa pr vars -> pr_ineq pr = [] -> distinct_indices pr -> exact_factorizations ->
    derivatives_correct pr -> value_consistent pr ->
    (1 <= n_max_iterations pa)%Z -> 0 < n_absolute_first_derivative_tol pa ->
    stationary_point pr vars -> solve pa vars cs = Ok r ->
    res_vars r = vars /\
    (out_termination_state (res_out r) = SATISFIED_FIRST_ORDER_TOL /\ length (out_iterations (res_out r)) = 1%nat \/
     out_termination_state (res_out r) = QP_INDEFINITE /\ out_iterations (res_out r) = [] /\ pr_eq pr <> []).
  Proof.
    intros pa vars cs r WP NI DI EX DC VC MI TP [SV SG] H. pose proof (solve_valid _ _ _ _ _ _ _ _ _ _ _ _ H) as PV.
    pose proof (C35_termination_states _ _ _ _ _ _ _ _ _ _ _ _ H) as T35. cbv zeta in T35. destruct T35 as (_ & _ & _ & T35).
    destruct (solve_history _ _ _ _ _ _ _ _ _ _ _ _ H) as (sts & css & exs & A & B & C & D & HL0 & HH & TT).
    destruct (out_iterations (res_out r)) as [|info log] eqn:ELog.
    - cbn [length] in *. split; [rewrite <- C, A; reflexivity|]. right.
      destruct (out_termination_state (res_out r)) eqn:ET;
        try (destruct TT as (? & ? & X & _); discriminate).
      + destruct TT as (_ & X & _). specialize (X eq_refl). lia.
      + destruct T35 as (_ & X & _). auto.
    - destruct (HH 0%nat info eq_refl) as (HI & _ & HX). apply iterate_spec in HI. destruct HI as [_ HI].
      pose proof (iteration_vars _ _ _ _ _ _ _ _ _ _ _ _ (npv_ls _ PV) HI) as [V1 _].
      assert (XV : ns_vars (sts 0%nat) = vars) by (rewrite A; reflexivity).
      destruct (iteration_exact _ _ _ _ _ _ NI DI EX HI)
        as (qp & dx & cand & HL & HC & HS & _ & LD & NV & FE & PSD & ST & DF & DE & EV & QF & _).
      rewrite XV in HL. pose proof (C25_linearisation_errors _ _ _ _ _ VC HL) as CE.
      pose proof (wp_idx pa vars vars WP eq_refl) as IX. rewrite (eval_errors_R _ _ IX) in CE. apply Ok_inj in CE.
      assert (E1 : eq_l1 qp = 0) by (rewrite <- EV, <- CE; exact SV).
      assert (TD : qp_tangent qp dx) by (apply feasible_tangent; assumption).
      assert (LXV : length vars = pdim pr) by apply (wp_vars _ _ _ WP).
      assert (G0 : gdot qp dx = 0).
      { eapply uniqueness_limite; [eapply slope_gdot; eauto; congruence|]. apply SG; [congruence|].
        apply (tangent_qp _ _ _ _ _ dx DI HL). exact TD. }
      destruct (C28_line_search_log retract (ls_of pa pr (sts 0%nat) info dx) (npv_ls _ PV) _ _ _ HS) as (_ & _ & _ & _ & ini & lst & _ & _ & _ & RS).
      assert (STA : stationary (ls_of pa pr (sts 0%nat) info dx) = true).
      { apply stationary_test. rewrite DF, DE, G0, E1, Ropp_0, Rabs_R0. rewrite Rmax_left by lra. exact TP. }
      assert (SR : it_step_result info = FIRST_ORDER_SATISFIED).
      { destruct (it_step_result info); try reflexivity; exfalso.
        - destruct RS as (_ & X & _). congruence.
        - destruct RS as (_ & X & _). congruence.
        - destruct RS as (_ & _ & X & _). congruence.
        - discriminate RS.
        - destruct RS as (_ & X & _). congruence. }
      assert (E0 : exs 0%nat = Some SATISFIED_FIRST_ORDER_TOL).
      { destruct HI as (? & ? & ? & _ & _ & _ & _ & _ & _ & HU & _). rewrite SR in HU. unfold UpdateLambdaAndCheckExitConditions in HU.
        apply Ok_inj in HU. apply pair_inj in HU. symmetry. apply HU. }
      assert (L1 : log = []).
      { destruct log; [reflexivity|exfalso]. cbn [length] in HX. destruct (HX ltac:(lia)) as [X _]. congruence. }
      subst log. cbn [length] in *. split; [rewrite <- C, V1 by congruence; exact XV|]. left. split; [|reflexivity].
      destruct (out_termination_state (res_out r));
        try (destruct TT as (jj & ii & X1 & X2 & X3); assert (jj = 0)%nat by lia; subst jj; congruence).
      + destruct TT as (X & _). destruct (X 0%nat info eq_refl). congruence.
      + destruct TT as (X & _). destruct (X 0%nat info eq_refl). congruence.
      + destruct TT as (jj & ii & X1 & X2 & X3 & _). assert (jj = 0)%nat by lia. subst jj. congruence.
  Qed.

  (** ** C57 *)

  (** Every component of every residual is an affine function of the variables, with the returned Jacobian. *)
  Definition affine_problem : Prop := forall r, In r (pr_costs pr) \/ In r (pr_eq pr) ->
    forall x u t k, (k < res_dim r)%nat -> length u = length x ->
    vget (res_f r (gathered r (ray x u t))) k = vget (res_f r (gathered r x)) k + t * jac_dx r x u k.

  Lemma ray1_sub : forall x v : list R, length x = length v ->
    exists u, length u = length x /\ ray x u 1 = v.
  Proof.
    intros x v L. exists (mkvec (length x) (fun i => vget v i - vget x i)). split; [apply mkvec_length|].
    apply (vget_ext R R_ops).
    - rewrite ray_length by (rewrite mkvec_length; reflexivity). exact L.
    - intros i Hi. rewrite ray_length in Hi by (rewrite mkvec_length; reflexivity).
      unfold ray. rewrite vadd_get by (rewrite vscale_length, mkvec_length; reflexivity). rewrite vscale_get, vget_mkvec by exact Hi. ring.
  Qed.

  Lemma affine_cost : forall x u, affine_problem -> value_consistent pr -> length u = length x ->
    cost_at pr (ray x u 1) = lin_cost pr x (vget u).
  Proof.
    intros x u AF VC L. unfold cost_at, lin_cost. f_equal. apply map_ext_in. intros r Hr. f_equal. apply Rsum_ext. intros k Hk.
    f_equal. rewrite (AF r (or_introl Hr) x u 1 k Hk L), Rmult_1_l. unfold lin_residual. rewrite (VC r (or_introl Hr)). reflexivity.
  Qed.

  Lemma affine_eq : forall x u lambda errs qp, affine_problem -> value_consistent pr -> length u = length x -> distinct_indices pr ->
    LinearizeAndFillQP x lambda pr = Ok (errs, qp) ->
    eq_l1_at pr (ray x u 1) = Rsum (neq qp) (fun k => Rabs (kkt_eq qp u k)).
  Proof.
    intros x u lambda errs qp AF VC L DI HL.
    transitivity (Rlsum (map (fun r => Rsum (res_dim r) (fun k => (fun b v => Rabs (v + b)) (vget (fst (res_fJ r (gathered r x))) k) (jac_dx r x u k))) (pr_eq pr))).
    - unfold eq_l1_at. f_equal. apply map_ext_in. intros r Hr. apply Rsum_ext. intros k Hk.
      rewrite (AF r (or_intror Hr) x u 1 k Hk L), Rmult_1_l, (VC r (or_intror Hr)). f_equal. ring.
    - rewrite <- (eq_rows_sum x lambda pr errs qp u (fun b v => Rabs (v + b)) DI HL). reflexivity.
  Qed.

  Lemma chain_first : forall (i : ls_input (F := R)) steps, chain i steps -> forall s l, steps = s :: l -> step_alpha s = f1.
  Proof.
    intros i steps HC. induction HC as [|s0 E|l0 p s0 HC IH SF]; intros s l Eq; [discriminate|injection Eq as <- _; exact E|].
    destruct l0 as [|x l0]; [|injection Eq as <- _; eapply IH; reflexivity].
    cbn [app] in *. injection Eq as <- _. eapply IH. reflexivity.
  Qed.

  (** One iteration of a feasible affine problem with no damping. *)
  Lemma affine_iteration : forall pa gk st info ex st',
    retract = None -> nls_params_valid pa -> pr_ineq pr = [] -> distinct_indices pr -> exact_factorizations ->
    affine_problem -> value_consistent pr ->
    (forall r, In r (pr_costs pr) \/ In r (pr_eq pr) -> idx_ok r (pdim pr)) ->
    length (ns_vars st) = pdim pr -> ns_lambda st <= 0 -> n_min_lambda pa <= 0 -> eq_l1_at pr (ns_vars st) = 0 ->
    iteration_spec pa gk st info ex st' ->
    length (ns_vars st') = pdim pr /\ ns_lambda st' <= 0 /\ eq_l1_at pr (ns_vars st') = 0 /\
    (it_step_result info = SS_SUCCESS /\ (exists e, it_line_search_steps info = [MkStep 1 e]) /\
       (forall v, length v = pdim pr -> eq_l1_at pr v = 0 -> cost_at pr (ns_vars st') <= cost_at pr v) \/
     it_step_result info = FIRST_ORDER_SATISFIED /\ 
       (forall v, length v = pdim pr -> eq_l1_at pr v = 0 ->
          cost_at pr (ns_vars st') <= cost_at pr v + n_absolute_first_derivative_tol pa / 2)).
  Proof.
    intros pa gk st info ex st' RN PV NI DI EX AF VC IX LV L0 ML FV HI.
    pose proof (iteration_vars _ _ _ _ _ _ _ _ _ _ _ _ (npv_ls _ PV) HI) as [V1 V2].
    destruct (iteration_exact _ _ _ _ _ _ NI DI EX HI)
      as (qp & dx & cand & HL & HC & HS & VS & LD & NV & FE & PSD & ST & DF & DE & EV & QF & OBJ).
    set (x := ns_vars st) in *.
    pose proof (C25_linearisation_errors _ _ _ _ _ VC HL) as CE. rewrite <- LV in IX. rewrite (eval_errors_R _ _ IX) in CE. apply Ok_inj in CE.
    assert (E0 : eq_l1 qp = 0) by (rewrite <- EV, <- CE; exact FV).
    assert (CF : err_f (it_errors_initial info) = cost_at pr x) by (rewrite <- CE; reflexivity).
    assert (CEq : err_equality (it_errors_initial info) = 0) by congruence.
    assert (OB : forall u, length u = pdim pr -> cost_at pr (ray x u 1) = cost_at pr x + objective qp u).
    { intros u Hu. rewrite (affine_cost x u AF VC) by congruence. rewrite <- CF, OBJ, (Rmax_right _ _ L0). ring. }
    pose proof (feasible_tangent _ _ E0 FE) as TD. pose proof (ST dx TD) as S0. change (bform qp dx dx) with (qform qp dx) in S0.
    assert (OD : objective qp dx = / 2 * gdot qp dx) by (unfold objective; fold (gdot qp dx); lra).
    pose proof (PSD dx) as PD.
    (* dx minimises *)
    assert (MIN : forall v, length v = pdim pr -> eq_l1_at pr v = 0 -> cost_at pr x + / 2 * gdot qp dx <= cost_at pr v).
    { intros v Hv Fv. destruct (ray1_sub x v ltac:(congruence)) as (u & LU & <-). rewrite OB by congruence.
      rewrite (affine_eq x u _ _ _ AF VC LU DI HL) in Fv.
      assert (TU : qp_tangent qp u).
      { apply feasible_tangent; [exact E0|]. intros k Hk. apply Rabs_zero.
        apply (Rsum_zero_terms _ _ (fun i _ => Rabs_pos (kkt_eq qp u i)) Fv k Hk). }
      pose proof (objective_along qp dx (mkvec (nv qp) (fun i => vget u i - vget dx i)) 1) as OA.
      set (w := mkvec (nv qp) (fun i => vget u i - vget dx i)) in *.
      assert (TW : qp_tangent qp w).
      { intros k Hk. rewrite (Rsum_ext _ _ (fun j => Ae qp k j * vget u j - Ae qp k j * vget dx j)).
        - rewrite Rsum_minus, (TU k Hk), (TD k Hk). ring.
        - intros j Hj. unfold w. rewrite vget_mkvec by exact Hj. ring. }
      assert (EA : along (nv qp) dx w 1 = u).
      { apply (vget_ext R R_ops); [unfold along; rewrite mkvec_length; congruence|]. intros i Hi. unfold along in *.
        rewrite mkvec_length in Hi. rewrite vget_mkvec by exact Hi. unfold w. rewrite vget_mkvec by exact Hi. ring. }
      rewrite EA, (ST w TW) in OA. pose proof (PSD w). lra. }
    assert (CD : cost_at pr (ray x dx 1) = cost_at pr x + / 2 * gdot qp dx) by (rewrite OB by congruence; rewrite OD; reflexivity).
    assert (FD : eq_l1_at pr (ray x dx 1) = 0).
    { rewrite (affine_eq x dx _ _ _ AF VC ltac:(congruence) DI HL). apply Rsum_0. intros k Hk. rewrite (FE k Hk). apply Rabs_R0. }
    destruct (C28_line_search_log retract (ls_of pa pr st info dx) (npv_ls _ PV) _ _ _ HS) as (LG & CH & L1 & _ & init & last & Es & PT & REJ & RES).
    assert (EA : errors_at retract (ls_of pa pr st info dx) 1 = Ok (MkErrors (cost_at pr (ray x dx 1)) (eq_l1_at pr (ray x dx 1)))).
    { unfold errors_at, point_at, RetractCandidateVars. cbn [li_vars li_dx li_pr ls_of]. rewrite RN. fold x.
      replace (length x =? length dx)%nat with true by (symmetry; apply Nat.eqb_eq; congruence). cbn [ub_unless bind]. fold (ray x dx 1).
      apply eval_errors_R. intros r Hr. rewrite ray_length by congruence. apply IX. exact Hr. }
    (* the first logged step passes the test *)
    assert (FIRST : forall s l, it_line_search_steps info = s :: l -> step_alpha s = 1 /\ armijo (ls_of pa pr st info dx) s = true).
    { intros s l El. pose proof (chain_first _ _ CH s l El) as A1. cbn [f1 R_ops] in A1. split; [exact A1|].
      assert (IS : In s (it_line_search_steps info)) by (rewrite El; left; reflexivity).
      unfold logged in LG. rewrite Forall_forall in LG. specialize (LG s IS). rewrite A1, EA in LG. apply Ok_inj in LG.
      unfold armijo, merit, slope. cbn [li_pre li_dd li_penalty li_c1 ls_of]. rewrite <- LG, A1. cbn [err_f err_equality].
      rewrite CF, CEq, DF, DE, E0, CD, FD. cbn [fadd fmul fneg R_ops]. rewrite R_1em4.
      match goal with |- fleb ?a ?b = true => destruct (R_fleb a b) as [_|B]; [reflexivity|exfalso; apply B] end. lra. }
    assert (INIT : init = []).
    { destruct init as [|s init]; [reflexivity|exfalso]. cbn [app] in Es. destruct (FIRST _ _ Es) as [_ P].
      inversion REJ as [|? ? RJ _]; subst. destruct RJ. congruence. }
    subst init. cbn [app] in Es. destruct (FIRST _ _ Es) as [A1 P1].
    assert (SR : it_step_result info = SS_SUCCESS \/ it_step_result info = FIRST_ORDER_SATISFIED).
    { destruct (it_step_result info); auto; exfalso.
      - destruct RES as ((_ & X) & _). congruence.
      - destruct RES as (_ & _ & _ & X). unfold ascending, slope in X. cbn [li_dd li_penalty ls_of] in X.
        match type of X with fgtb ?a ?b = true => destruct (R_fgtb a b) as [Y|]; [|discriminate] end.
        rewrite DF, DE, E0 in Y. cbn [fadd fmul f0 R_ops] in Y. lra.
      - discriminate RES.
      - destruct RES as ((_ & X) & _). congruence. }
    destruct SR as [SR|SR].
    - (* SUCCESS *)
      assert (VX : ns_vars st' = ray x dx 1).
      { rewrite (VS SR). unfold point_at, RetractCandidateVars in PT. cbn [li_vars li_dx ls_of] in PT. rewrite RN, A1 in PT. fold x in PT.
        replace (length x =? length dx)%nat with true in PT by (symmetry; apply Nat.eqb_eq; congruence). cbn [ub_unless bind] in PT.
        apply Ok_inj in PT. symmetry. exact PT. }
      rewrite VX. splits.
      + rewrite ray_length by congruence. exact LV.
      + destruct HI as (? & ? & ? & _ & _ & _ & _ & _ & _ & HU & _). rewrite SR in HU. unfold UpdateLambdaAndCheckExitConditions in HU.
        inv_bind HU. pose proof (npv_ds _ PV) as D1. pose proof (npv_dr _ PV) as D2.
        assert (X : ns_lambda st' = match ns_opt st with ATTEMPTING_RESTORE_LM => fmax (fmul (ns_lambda st) (n_lambda_decrease_on_restore pa)) (n_min_lambda pa)
                     | NOMINAL => fmax (fmul (ns_lambda st) (n_lambda_decrease_on_success pa)) (n_min_lambda pa) end).
        { repeat match type of HU with (if ?b then _ else _) = _ => destruct b end; apply Ok_inj in HU; apply pair_inj in HU; destruct HU as [_ <-]; reflexivity. }
        rewrite X. destruct (ns_opt st); rewrite R_fmax; cbn [fmul R_ops]; apply Rmax_lub; try lra; nra.
      + exact FD.
      + left. splits; [exact SR| |].
        * destruct last as [a e]. cbn [step_alpha] in A1. subst a. exists e. exact Es.
        * intros v Hv Fv. rewrite CD. apply MIN; assumption.
    - (* FIRST_ORDER *)
      rewrite SR in V1. specialize (V1 ltac:(discriminate)). rewrite V1. fold x. splits; auto.
      + destruct HI as (? & ? & ? & _ & _ & _ & _ & _ & _ & HU & _). rewrite SR in HU. unfold UpdateLambdaAndCheckExitConditions in HU.
        apply Ok_inj in HU. apply pair_inj in HU. destruct HU as [_ <-]. exact L0.
      + right. split; [exact SR|]. intros v Hv Fv. rewrite SR in RES. destruct RES as (_ & _ & STA). apply stationary_test in STA. rewrite DF, DE, E0 in STA.
        assert (X : Rabs (gdot qp dx) < n_absolute_first_derivative_tol pa) by (eapply Rle_lt_trans; [apply Rmax_l|exact STA]).
        apply Rabs_def2 in X. pose proof (MIN v Hv Fv). lra.
  Qed.

  (** Linear least squares (affine costs; affine equality constraints satisfied by the initial guess; no inequality
      constraints; no damping, which is the default): every iteration takes the full step or is accepted as
      first-order stationary, the result satisfies the constraints and its cost is within half the first order
      tolerance of the global minimum. Only a reduced Hessian that is not positive definite prevents this. *)
  Theorem C57_linear_least_squares_solved : forall pa vars cs r,
    retract = None -> well_posed pa pr vars -> pr_ineq pr = [] -> distinct_indices pr -> exact_factorizations ->
    affine_problem -> value_consistent pr ->
    n_lambda_initial pa <= 0 -> eq_l1_at pr vars = 0 -> (1 <= n_max_iterations pa)%Z ->
    solve pa vars cs = Ok r ->
    (forall info, In info (out_iterations (res_out r)) ->
       it_step_result info = FIRST_ORDER_SATISFIED \/
       it_step_result info = SS_SUCCESS /\ exists e, it_line_search_steps info = [MkStep 1 e]) /\
    eq_l1_at pr (res_vars r) = 0 /\
    (out_termination_state (res_out r) = QP_INDEFINITE /\ out_iterations (res_out r) = [] /\ pr_eq pr <> [] \/
     forall v, length v = length vars -> eq_l1_at pr v = 0 ->
       cost_at pr (res_vars r) <= cost_at pr v + n_absolute_first_derivative_tol pa / 2).
  Proof.
    intros pa vars cs r RN WP NI DI EX AF VC L0 FV MI H. pose proof (solve_valid _ _ _ _ _ _ _ _ _ _ _ _ H) as PV.
    pose proof (C35_termination_states _ _ _ _ _ _ _ _ _ _ _ _ H) as T35. cbv zeta in T35. destruct T35 as (_ & _ & _ & T35).
    destruct (solve_history _ _ _ _ _ _ _ _ _ _ _ _ H) as (sts & css & exs & A & B & C & D & HLn & HH & TT).
    set (log := out_iterations (res_out r)) in *.
    assert (IX : forall r0, In r0 (pr_costs pr) \/ In r0 (pr_eq pr) -> idx_ok r0 (pdim pr)).
    { pose proof (wp_idx pa vars vars WP eq_refl) as X. rewrite (wp_vars _ _ _ WP) in X. exact X. }
    assert (ML : n_min_lambda pa <= 0) by (pose proof (npv_li _ PV); lra).
    assert (G : forall k, (k <= length log)%nat ->
      length (ns_vars (sts k)) = pdim pr /\ ns_lambda (sts k) <= 0 /\ eq_l1_at pr (ns_vars (sts k)) = 0 /\
      ((1 <= k)%nat -> forall v, length v = pdim pr -> eq_l1_at pr v = 0 ->
         cost_at pr (ns_vars (sts k)) <= cost_at pr v + n_absolute_first_derivative_tol pa / 2) /\
      forall j info, (j < k)%nat -> nth_error log j = Some info ->
        it_step_result info = FIRST_ORDER_SATISFIED \/ it_step_result info = SS_SUCCESS /\ exists e, it_line_search_steps info = [MkStep 1 e]).
    { induction k as [|k IH]; intro Hk.
      - rewrite A. cbn [init_state ns_vars ns_lambda]. splits; auto; try (intros; lia). apply (wp_vars _ _ _ WP).
      - destruct (nth_error log k) as [info|] eqn:E; [|apply nth_error_None in E; lia].
        destruct (IH ltac:(lia)) as (I1 & I2 & I3 & I4 & I5). destruct (HH k info E) as (HI & _). apply iterate_spec in HI. destruct HI as [_ HI].
        destruct (affine_iteration _ _ _ _ _ _ RN PV NI DI EX AF VC IX I1 I2 ML I3 HI) as (J1 & J2 & J3 & J4).
        pose proof (npv_fd _ PV) as TOL. splits; auto.
        + intros _ v Hv Fv. destruct J4 as [(_ & _ & X)|(_ & X)]; specialize (X v Hv Fv); lra.
        + intros j i Hj Hn. destruct (Nat.eq_dec j k) as [->|N]; [|apply (I5 j i); [lia|exact Hn]].
          rewrite E in Hn. injection Hn as <-. destruct J4 as [(X & Y & _)|(X & _)]; auto. }
    destruct (G (length log) ltac:(lia)) as (G1 & G2 & G3 & G4 & G5). rewrite C in *. splits.
    - intros info Hin. apply In_nth_error in Hin. destruct Hin as [j Hj]. apply (G5 j info); [|exact Hj]. apply nth_error_Some. congruence.
    - exact G3.
    - destruct log as [|i0 l0] eqn:EL.
      + left. cbn [length] in *. destruct (out_termination_state (res_out r)) eqn:ET;
          try (destruct TT as (? & ? & X & _); discriminate).
        * destruct TT as (_ & X & _). specialize (X eq_refl). lia.
        * destruct T35 as (_ & X & _). auto.
      + right. intros v Hv Fv. apply G4; [cbn [length]; lia| |exact Fv]. rewrite Hv. apply (wp_vars _ _ _ WP).
  Qed.
End Results.

(** ** C54: the nonlinear solver with enough line search iterations *)

(** The same parameters with another max_line_search_iterations. *)
Definition with_ls (m : Z) (pa : NLSParams R) : NLSParams R :=
  MkNLSParams (n_max_iterations pa) (n_max_qp_iterations pa) (n_termination_kkt_tolerance pa) (n_absolute_exit_tol pa)
    (n_relative_exit_tol pa) (n_absolute_first_derivative_tol pa) m (n_line_search_strategy pa) (n_armijo_search_tau pa)
    (n_equality_penalty_initial pa) (n_equality_penalty_scale_factor pa) (n_equality_penalty_rho pa) (n_lambda_initial pa)
    (n_lambda_failure_init pa) (n_lambda_decrease_on_success pa) (n_lambda_decrease_on_restore pa) (n_max_lambda pa)
    (n_min_lambda pa) (n_log_qp_eigenvalues pa).

Definition good_step (sr : StepSizeSelectionResult) : Prop := sr = SS_SUCCESS \/ sr = FIRST_ORDER_SATISFIED.

Lemma ls_loop_fuel : forall retract (i : ls_input (F := R)) n n' iter alpha steps cand res out cand',
  (n <= n')%nat -> loop retract i n iter alpha steps cand = Ok (res, out, cand') -> res <> SS_MAX_ITERATIONS ->
  loop retract i n' iter alpha steps cand = Ok (res, out, cand').
Proof.
  intros retract i. induction n as [|n IH]; intros n' iter alpha steps cand res out cand' Hn H HR; unfold loop in *; cbn [ls_loop] in H.
  - apply Ok_inj in H. apply pair_inj in H. destruct H as [H _]. apply pair_inj in H. destruct H as [H _]. congruence.
  - destruct n' as [|n']; [lia|]. cbn [ls_loop].
    apply bind_ok_inv in H. destruct H as (oa & E & H). rewrite E. cbn [bind]. destruct oa as [a|]; [|exact H].
    apply bind_ok_inv in H. destruct H as (c & E2 & H). rewrite E2. cbn [bind].
    apply bind_ok_inv in H. destruct H as (es & E3 & H). rewrite E3. cbn [bind].
    repeat match goal with |- (if ?b then _ else _) = _ => destruct b; [exact H|] end.
    apply IH; [lia|exact H|exact HR].
Qed.

Lemma line_search_stable : forall retract (i : ls_input (F := R)) m m' res steps cand, (m <= m')%Z ->
  run_line_search retract (with_max m i) = Ok (res, steps, cand) -> res <> SS_MAX_ITERATIONS ->
  run_line_search retract (with_max m' i) = Ok (res, steps, cand).
Proof.
  intros retract i m m' res steps cand Hm H HR. unfold run_line_search, SelectStepSize in *.
  apply bind_ok_inv in H. destruct H as (u1 & E1 & H). apply bind_ok_inv in H. destruct H as (u2 & E2 & H).
  cbn [with_max li_max li_tol li_pr li_vars li_dx li_pre li_dd li_penalty li_c1 li_strategy li_tau] in *.
  rewrite E1, E2. cbn [bind].
  apply (ls_loop_fuel retract i (Z.to_nat (m + 1))); [lia|exact H|exact HR].
Qed.

(** A direction whose logged derivatives are both below the tolerance is accepted as stationary. *)
Lemma small_slope_stationary : forall retract (i : ls_input (F := R)) m, (0 <= m)%Z -> 0 < li_penalty i ->
  (exists e, errors_at retract i 1 = Ok e) -> Rmax (Rabs (d_f (li_dd i))) (Rabs (d_equality (li_dd i))) < li_tol i ->
  exists steps cand, run_line_search retract (with_max m i) = Ok (FIRST_ORDER_SATISFIED, steps, cand).
Proof.
  intros retract i m Hm HP [e He] D. unfold run_line_search, SelectStepSize.
  cbn [with_max li_max li_tol li_pr li_vars li_dx li_pre li_dd li_penalty li_c1 li_strategy li_tau].
  destruct (R_fgtb (li_penalty i) f0) as [_|B]; [|exfalso; apply B; exact HP].
  rewrite R_valid. cbn [f_assert negb bind]. replace (Z.to_nat (m + 1)) with (S (Z.to_nat m)) by lia. cbn [ls_loop].
  unfold next_alpha. cbn [Nat.eqb bind]. change (f1 : R) with 1.
  unfold errors_at, point_at in He. apply bind_ok_inv in He. destruct He as (c & E1 & E2). rewrite E1. cbn [bind]. rewrite E2. cbn [bind].
  rewrite R_valid. unfold DD_LInfinity. rewrite R_fmax. cbn [fabs R_ops].
  match goal with |- context [fltb ?a ?b] => destruct (R_fltb a b) as [_|B]; [|exfalso; apply B; exact D] end.
  eexists; eexists; reflexivity.
Qed.

Section Enough.
  Variable ldlt : mat R -> option (mat R).
  Variable qr : mat R -> QRResult R.
  Variable llt : mat R -> option (list R -> list R).
  Variable eigs : mat R -> QPEigenvalues R.
  Context {S : Type}.
  Variable cb : option (S -> NLSIteration R -> S * bool).
  Variable pr : Problem R.
  Variable g : nat -> garbage R.
  Variable pa : NLSParams R.

  Notation iterate m := (nls_iterate ldlt qr llt eigs None (with_ls m pa) pr).

  Lemma penalty_positive : forall qp dx o p, nls_params_valid pa -> 0 < p -> 0 < update_penalty pa pr qp dx o p.
  Proof.
    intros qp dx o p PV PP. unfold update_penalty. destruct (pr_eq pr); [exact PP|].
    match goal with |- context [fgtb ?a ?b] => destruct (R_fgtb a b) as [X|X]; [|exact PP] end.
    pose proof (npv_ps _ PV). cbn [fmul R_ops]. set (np := SelectPenalty _ _ _ _) in *. clearbody np. nra.
  Qed.

  (** Facts about the direction of an iteration. *)
  Lemma direction_facts : forall gg st ep qp o dx dd,
    well_posed pa pr (ns_vars st) -> pr_ineq pr = [] -> distinct_indices pr -> exact_factorizations ldlt qr llt pr -> value_consistent pr ->
    LinearizeAndFillQP (ns_vars st) (ns_lambda st) pr = Ok (ep, qp) ->
    ComputeStepDirection ldlt qr llt gg pa pr qp = Ok (o, dx) -> QPWasIndefinite o = false -> ComputeQPCostDerivative qp dx = Ok dd ->
    mrows (qG qp) = nv qp /\ mcols (qG qp) = nv qp /\ mrows (qA qp) = neq qp /\ psd qp /\ length dx = nv qp /\ eq_feasible qp dx /\
    (forall u, qp_tangent qp u -> bform qp dx u + gdot qp u = 0) /\
    d_f dd = gdot qp dx /\ d_equality dd = - eq_l1 qp /\ eq_l1_at pr (ns_vars st) = eq_l1 qp.
  Proof.
    intros gg st ep qp o dx dd WP NI DI EX VC HL HD HQ HC.
    destruct (C24_linearised_qp _ _ _ _ _ DI HL) as ((GR & GC & CL & AC & AR) & _).
    destruct (C24_convex _ _ _ _ _ DI HL) as [PSD _].
    destruct (direction_exact ldlt qr llt pr _ _ _ _ _ _ _ _ NI DI EX HL HD HQ) as (LD & FE & ST).
    destruct (cost_derivative _ _ _ AR HC) as (_ & DF & _). fold (gdot qp dx) in DF.
    pose proof (C41_equality_derivative _ _ _ AR HC FE) as DE.
    pose proof (violation_l1 _ _ _ _ _ DI HL) as EV.
    pose proof (C25_linearisation_errors _ _ _ _ _ VC HL) as CE.
    assert (NV : nv qp = pdim pr) by exact CL.
    assert (IX : forall r, In r (pr_costs pr) \/ In r (pr_eq pr) -> idx_ok r (length (ns_vars st)))
      by (apply (wp_idx pr pa (ns_vars st)); [exact WP|reflexivity]).
    rewrite (eval_errors_R _ _ IX) in CE. apply Ok_inj in CE.
    splits; auto; try congruence; try (rewrite NV; assumption). rewrite <- EV, <- CE. reflexivity.
  Qed.

  (** The null space solver supplies no multipliers. *)
  Lemma null_space_no_multipliers : forall gg qp o dx, pr_ineq pr = [] -> pr_eq pr <> [] ->
    ComputeStepDirection ldlt qr llt gg pa pr qp = Ok (o, dx) -> MaybeGetLagrangeMultipliers o = None.
  Proof.
    intros gg qp o dx NI NE HD. unfold ComputeStepDirection, use_null_space in HD. rewrite NI in HD. destruct (pr_eq pr); [congruence|].
    apply bind_ok_inv in HD. destruct HD as ([t x] & _ & HD). destruct t; apply Ok_inj in HD; apply pair_inj in HD; destruct HD as [<- _]; reflexivity.
  Qed.

  Lemma eq_l1_pos_constrained : forall v lambda ep qp, distinct_indices pr -> LinearizeAndFillQP v lambda pr = Ok (ep, qp) -> 0 < eq_l1 qp -> pr_eq pr <> [].
  Proof.
    intros v lambda ep qp DI HL HB E. destruct (C24_linearised_qp _ _ _ _ _ DI HL) as (_ & _ & _ & _ & LE & _ & _). specialize (LE []).
    unfold lin_equalities in LE. rewrite E in LE. simpl in LE. unfold mkvec in LE. apply map_eq_nil in LE.
    unfold eq_l1, neq in HB. destruct (length (qb qp)); [simpl in HB; lra|discriminate].
  Qed.

  Lemma null_space_slope : forall gg st ep qp o dx dd, nls_params_valid pa -> pr_ineq pr = [] -> distinct_indices pr ->
    LinearizeAndFillQP (ns_vars st) (ns_lambda st) pr = Ok (ep, qp) ->
    ComputeStepDirection ldlt qr llt gg pa pr qp = Ok (o, dx) -> ComputeQPCostDerivative qp dx = Ok dd -> eq_feasible qp dx ->
    1 / 4503599627370496 <= eq_l1 qp -> mrows (qG qp) = nv qp -> mcols (qG qp) = nv qp -> mrows (qA qp) = neq qp -> 0 < ns_penalty st ->
    let pen := update_penalty pa pr qp dx o (ns_penalty st) in
    merit_slope dd pen <= - n_equality_penalty_rho pa * pen * eq_l1 qp - / 2 * Rmax 0 (qform qp dx).
  Proof.
    intros gg st ep qp o dx dd PV NI DI HL HD HC FE HB GR GC AR PP pen.
    pose proof (eq_l1_pos_constrained _ _ _ _ DI HL ltac:(lra)) as NE.
    pose proof (null_space_no_multipliers _ _ _ _ NI NE HD) as NSO.
    apply (C41_null_space_descent qp dx _ _ _ GR GC AR HC FE (npv_rho _ PV) HB).
    pose proof (penalty_positive qp dx o _ PV PP) as PEN. unfold pen, update_penalty in *. destruct (pr_eq pr); [congruence|]. rewrite NSO in *.
    set (np := SelectPenalty qp dx None (n_equality_penalty_rho pa)) in *.
    destruct (R_fgtb np (ns_penalty st)) as [G|G]; [|lra]. cbn [fmul R_ops] in *.
    pose proof (npv_ps _ PV) as PS. assert (0 < np) by lra.
    rewrite <- (Rmult_1_r np) at 1. apply Rmult_le_compat_l; lra.
  Qed.

  (** One iteration whose merit slope is negative, or whose derivatives are both below the tolerance. *)
  Lemma iteration_core : forall gg k st,
    well_posed pa pr (ns_vars st) -> pr_ineq pr = [] -> distinct_indices pr -> exact_factorizations ldlt qr llt pr ->
    derivatives_correct pr -> value_consistent pr -> 0 < ns_penalty st ->
    (forall ep qp o dx dd, LinearizeAndFillQP (ns_vars st) (ns_lambda st) pr = Ok (ep, qp) ->
       ComputeStepDirection ldlt qr llt gg pa pr qp = Ok (o, dx) -> QPWasIndefinite o = false -> ComputeQPCostDerivative qp dx = Ok dd ->
       DD_Total dd (update_penalty pa pr qp dx o (ns_penalty st)) < 0 \/
       Rmax (Rabs (d_f dd)) (Rabs (d_equality dd)) < n_absolute_first_derivative_tol pa) ->
    exists N o, (0 <= N)%Z /\ (forall m, (N <= m)%Z -> iterate m gg k st = o) /\
      forall st' info ex, o = Ok (IterDone st' info ex) ->
        good_step (it_step_result info) /\ length (ns_vars st') = length (ns_vars st) /\ 0 < ns_penalty st'.
  Proof.
    intros gg k st WP NI DI EX DC VC PP HSL.
    pose proof (wp_params _ _ _ WP) as PV.
    unfold nls_iterate.
    destruct (LinearizeAndFillQP (ns_vars st) (ns_lambda st) pr) as [[ep qp]|w|e] eqn:HL.
    2,3: (eexists 0%Z, _; split; [lia|]; split; [intros; cbn [bind]; reflexivity|discriminate]).
    cbn [bind].
    assert (CSD : forall m, ComputeStepDirection ldlt qr llt gg (with_ls m pa) pr qp = ComputeStepDirection ldlt qr llt gg pa pr qp) by reflexivity.
    destruct (ComputeStepDirection ldlt qr llt gg pa pr qp) as [[o dx]|w|e] eqn:HD.
    2,3: (eexists 0%Z, _; split; [lia|]; split; [intros m _; rewrite CSD; cbn [bind]; reflexivity|discriminate]).
    destruct (QPWasIndefinite o) eqn:HQ.
    { eexists 0%Z, _. split; [lia|]. split; [intros m _; rewrite CSD; cbn [bind]; rewrite HQ; reflexivity|discriminate]. }
    destruct (ComputeQPCostDerivative qp dx) as [dd|w|e] eqn:HC.
    2,3: (eexists 0%Z, _; split; [lia|]; split; [intros m _; rewrite CSD; cbn [bind]; rewrite HQ, HC; cbn [bind]; reflexivity|discriminate]).
    assert (UP : forall m, update_penalty (with_ls m pa) pr qp dx o (ns_penalty st) = update_penalty pa pr qp dx o (ns_penalty st)) by reflexivity.
    set (pen := update_penalty pa pr qp dx o (ns_penalty st)) in *.
    assert (PEN : 0 < pen).
    { unfold pen, update_penalty. destruct (pr_eq pr); [exact PP|].
      match goal with |- context [fgtb ?a ?b] => destruct (R_fgtb a b) as [X|X]; [|exact PP] end.
      pose proof (npv_ps _ PV). cbn [fmul R_ops]. set (np := SelectPenalty _ _ _ _) in *. clearbody np. nra. }
    set (i := LSIn 0%Z (n_absolute_first_derivative_tol pa) pr (ns_vars st) dx ep dd pen (flit lit_1em4) (n_line_search_strategy pa) (n_armijo_search_tau pa)).
    (* facts about the direction *)
    destruct (C24_linearised_qp _ _ _ _ _ DI HL) as ((GR & GC & CL & AC & AR) & _).
    destruct (C24_convex _ _ _ _ _ DI HL) as [PSD _].
    destruct (direction_exact ldlt qr llt pr _ _ _ _ _ _ _ _ NI DI EX HL HD HQ) as (LD & FE & ST).
    destruct (cost_derivative _ _ _ AR HC) as (_ & DF & _). fold (gdot qp dx) in DF.
    pose proof (C41_equality_derivative _ _ _ AR HC FE) as DE.
    pose proof (violation_l1 _ _ _ _ _ DI HL) as EV.
    pose proof (C25_linearisation_errors _ _ _ _ _ VC HL) as CE.
    assert (NV : nv qp = pdim pr) by exact CL.
    assert (LV : length (ns_vars st) = pdim pr) by apply (wp_vars _ _ _ WP).
    assert (IX : forall r, In r (pr_costs pr) \/ In r (pr_eq pr) -> idx_ok r (length (ns_vars st)))
      by (apply (wp_idx pr pa (ns_vars st)); [exact WP|reflexivity]).
    rewrite (eval_errors_R _ _ IX) in CE. apply Ok_inj in CE.
    destruct (C26_merit_derivative (ns_vars st) (ns_lambda st) pr ep qp dx dd pen DI ltac:(congruence) HL HC (fun r Hr => DC r Hr _ _ LV (eq_trans LD NV)) FE)
      as (phi & P1 & P2).
    assert (P0 : phi 0 = ep).
    { specialize (P1 0). unfold RetractCandidateVars in P1.
      replace (length (ns_vars st) =? length dx)%nat with true in P1 by (symmetry; apply Nat.eqb_eq; congruence). cbn [ub_unless bind] in P1.
      replace (vadd (ns_vars st) (vscale dx 0)) with (ns_vars st) in P1.
      - rewrite (eval_errors_R _ _ IX) in P1. apply Ok_inj in P1. congruence.
      - apply (vget_ext R R_ops); [rewrite vadd_length, vscale_length; lia|]. intros j Hj.
        rewrite vadd_get by (rewrite vscale_length; congruence). rewrite vscale_get. ring. }
    assert (LS : exists N res steps cand, (0 <= N)%Z /\ good_step res /\
       forall m, (N <= m)%Z -> run_line_search None (with_max m i) = Ok (res, steps, cand)).
    { destruct (HSL ep qp o dx dd eq_refl HD HQ HC) as [SL|SL]; fold pen in SL || idtac.
      - destruct (C81_line_search_succeeds None i phi (npv_tau _ PV) ltac:(cbn [li_c1 i]; rewrite R_1em4; lra) PEN P1 P0 P2 SL) as (N & HN & HM).
        destruct (HM N ltac:(lia)) as (res & steps & cand & E & G & _). exists N, res, steps, cand. splits; [exact HN|exact G|].
        intros m Hm. apply (line_search_stable None i N m); [exact Hm|exact E|]. destruct G as [->| ->]; discriminate.
      - destruct (small_slope_stationary None i 0%Z ltac:(lia) PEN) as (steps & cand & E).
        + eexists. apply (P1 1).
        + exact SL.
        + exists 0%Z, FIRST_ORDER_SATISFIED, steps, cand. splits; [lia|right; reflexivity|]. intros m Hm.
          apply (line_search_stable None i 0%Z m); [exact Hm|exact E|discriminate]. }
    destruct LS as (N & res & steps & cand & HN & GS & LS).
    destruct (UpdateLambdaAndCheckExitConditions pa res ep pen steps cand (ns_vars st) (ns_lambda st) (ns_opt st)) as [[ex st']|w|e] eqn:HU.
    2,3: exists N; eexists; (split; [exact HN|]); split;
      [intros m Hm; rewrite CSD; cbn [bind]; rewrite HQ, HC; cbn [bind]; rewrite UP;
       specialize (LS m Hm); unfold run_line_search in LS; cbn [with_max i li_max li_tol li_pr li_vars li_dx li_pre li_dd li_penalty li_c1 li_strategy li_tau] in LS;
       cbn [with_ls n_max_line_search_iterations n_absolute_first_derivative_tol n_line_search_strategy n_armijo_search_tau];
       rewrite LS; cbn [bind];
       match goal with |- context [UpdateLambdaAndCheckExitConditions ?a ?b ?c ?d ?e ?f ?g ?h ?i] =>
         change (UpdateLambdaAndCheckExitConditions a b c d e f g h i) with (UpdateLambdaAndCheckExitConditions pa b c d e f g h i) end;
       rewrite HU; cbn [bind]; reflexivity|discriminate].
    exists N; eexists; (split; [exact HN|]); split.
    - intros m Hm; rewrite CSD; cbn [bind]; rewrite HQ, HC; cbn [bind]; rewrite UP.
      specialize (LS m Hm); unfold run_line_search in LS; cbn [with_max i li_max li_tol li_pr li_vars li_dx li_pre li_dd li_penalty li_c1 li_strategy li_tau] in LS.
      cbn [with_ls n_max_line_search_iterations n_absolute_first_derivative_tol n_line_search_strategy n_armijo_search_tau].
      rewrite LS; cbn [bind].
      match goal with |- context [UpdateLambdaAndCheckExitConditions ?a ?b ?c ?d ?e ?f ?g ?h ?i] =>
         change (UpdateLambdaAndCheckExitConditions a b c d e f g h i) with (UpdateLambdaAndCheckExitConditions pa b c d e f g h i) end.
      rewrite HU; cbn [bind with_ls n_log_qp_eigenvalues]; reflexivity.
    - intros st1 info ex1 E. apply Ok_inj in E. injection E as <- <- <-. cbn [it_step_result it_penalty].
      split; [exact GS|].
      assert (LC : length cand = length (ns_vars st)).
      { destruct (C28_line_search_log None (with_max N i) ltac:(cbn [with_max li_max]; lia) _ _ _ (LS N ltac:(lia))) as (_ & _ & _ & _ & init & last & _ & PT & _).
        unfold point_at, RetractCandidateVars in PT. cbn [with_max i li_vars li_dx] in PT.
        replace (length (ns_vars st) =? length dx)%nat with true in PT by (symmetry; apply Nat.eqb_eq; congruence). cbn [ub_unless bind] in PT.
        apply Ok_inj in PT. rewrite <- PT, vadd_length, vscale_length. rewrite LV, LD, NV. apply Nat.min_id. }
      unfold UpdateLambdaAndCheckExitConditions in HU. destruct GS as [->| ->].
      + inv_bind HU. repeat match type of HU with (if ?b then _ else _) = _ => destruct b end;
          apply Ok_inj in HU; apply pair_inj in HU; destruct HU as [_ <-]; cbn [ns_vars ns_penalty]; split; assumption.
      + apply Ok_inj in HU; apply pair_inj in HU; destruct HU as [_ <-]; split; [reflexivity|exact PEN].
  Qed.

  (** From any state, one iteration with back-tracking and enough line search iterations ends in SUCCESS or
      FIRST_ORDER_SATISFIED, if the current point satisfies the equality constraints exactly, or violates them by at
      least machine epsilon and equality_penalty_rho > 0. The iteration does not depend on how many more line search
      iterations are allowed. *)
  Theorem C54_iteration_never_stuck : forall gg k st,
    well_posed pa pr (ns_vars st) -> pr_ineq pr = [] -> distinct_indices pr -> exact_factorizations ldlt qr llt pr ->
    derivatives_correct pr -> value_consistent pr ->
    0 < n_absolute_first_derivative_tol pa ->
    0 < ns_penalty st ->
    eq_l1_at pr (ns_vars st) = 0 \/ 1 / 4503599627370496 <= eq_l1_at pr (ns_vars st) /\ 0 < n_equality_penalty_rho pa ->
    exists N o, (0 <= N)%Z /\ (forall m, (N <= m)%Z -> iterate m gg k st = o) /\
      forall st' info ex, o = Ok (IterDone st' info ex) ->
        good_step (it_step_result info) /\ length (ns_vars st') = length (ns_vars st) /\ 0 < ns_penalty st'.
  Proof.
    intros gg k st WP NI DI EX DC VC TP PP HV. pose proof (wp_params _ _ _ WP) as PV.
    apply iteration_core; auto. intros ep qp o dx dd HL HD HQ HC. set (pen := update_penalty pa pr qp dx o (ns_penalty st)).
    assert (PEN : 0 < pen) by (apply penalty_positive; assumption).
    destruct (direction_facts _ _ _ _ _ _ _ WP NI DI EX VC HL HD HQ HC) as (GR & GC & AR & PSD & LD & FE & ST & DF & DE & VQ). rewrite VQ in HV.
    unfold DD_Total. cbn [fadd fmul R_ops]. destruct HV as [Z|[HB HR]].
    - assert (TD : qp_tangent qp dx) by (apply feasible_tangent; assumption). pose proof (ST dx TD) as S0. change (bform qp dx dx) with (qform qp dx) in S0.
      pose proof (PSD dx) as P. rewrite DF, DE, Z.
      destruct (Req_dec (gdot qp dx) 0) as [G|G]; [right|left; lra]. rewrite G, Ropp_0, Rabs_R0, Rmax_left by lra. exact TP.
    - left. pose proof (null_space_slope _ _ _ _ _ _ _ PV NI DI HL HD HC FE HB GR GC AR PP) as X. fold pen in X.
      unfold merit_slope in X. pose proof (Rmax_l 0 (qform qp dx)).
      assert (0 < n_equality_penalty_rho pa * pen * eq_l1 qp) by (apply Rmult_lt_0_compat; [apply Rmult_lt_0_compat; lra|lra]).
      lra.
  Qed.

  Lemma loop_never_stuck : forall n k log st cs,
    well_posed pa pr (ns_vars st) -> pr_ineq pr = [] -> pr_eq pr = [] -> distinct_indices pr -> exact_factorizations ldlt qr llt pr ->
    derivatives_correct pr -> value_consistent pr ->
    0 < n_absolute_first_derivative_tol pa -> 0 < ns_penalty st ->
    exists N o, (0 <= N)%Z /\ (forall m, (N <= m)%Z -> nls_loop ldlt qr llt eigs None cb n (with_ls m pa) pr g k log st cs = o) /\
      forall r, o = Ok r -> exists log', out_iterations (res_out r) = log ++ log' /\ Forall (fun info => good_step (it_step_result info)) log'.
  Proof.
    induction n as [|n IH]; intros k log st cs WP NI NE DI EX DC VC TP PP.
    - eexists 0%Z, _. split; [lia|]. split; [intros m _; cbn [nls_loop]; reflexivity|].
      intros r E. apply Ok_inj in E. subst r. exists []. cbn [res_out out_iterations]. rewrite app_nil_r. auto.
    - assert (Z0 : eq_l1_at pr (ns_vars st) = 0) by (unfold eq_l1_at; rewrite NE; reflexivity).
      destruct (C54_iteration_never_stuck (g k) (Z.of_nat k) st WP NI DI EX DC VC TP PP (or_introl Z0)) as (N1 & o1 & HN1 & E1 & G1).
      destruct o1 as [[|st' info ex]|w|e].
      2: { destruct (G1 _ _ _ eq_refl) as (GS & LV & PP').
        destruct (call_cb cb cs info) as [cs' pc] eqn:EC. destruct ex as [t|].
        - exists N1; eexists. split; [exact HN1|]. split.
          + intros m Hm. cbn [nls_loop]. rewrite E1 by exact Hm. cbn [bind]. rewrite EC. reflexivity.
          + intros r E. apply Ok_inj in E. subst r. exists [info]. cbn [res_out out_iterations]. auto.
        - destruct pc.
          + destruct (IH (Datatypes.S k) (log ++ [info]) st' cs' (well_posed_vars _ _ _ _ WP LV) NI NE DI EX DC VC TP PP') as (N2 & o2 & HN2 & E2 & G2).
            exists (Z.max N1 N2), o2. split; [lia|]. split.
            * intros m Hm. cbn [nls_loop]. rewrite E1 by lia. cbn [bind]. rewrite EC. apply E2. lia.
            * intros r E. destruct (G2 r E) as (log' & A & B). exists (info :: log'). rewrite A, <- app_assoc. split; [reflexivity|]. constructor; assumption.
          + exists N1; eexists. split; [exact HN1|]. split.
            * intros m Hm. cbn [nls_loop]. rewrite E1 by exact Hm. cbn [bind]. rewrite EC. reflexivity.
            * intros r E. apply Ok_inj in E. subst r. exists [info]. cbn [res_out out_iterations]. auto. }
      1: { exists N1; eexists. split; [exact HN1|]. split.
        - intros m Hm. cbn [nls_loop]. rewrite E1 by exact Hm. cbn [bind]. reflexivity.
        - intros r E. apply Ok_inj in E. subst r. exists []. cbn [res_out out_iterations]. rewrite app_nil_r. auto. }
      all: (exists N1; eexists; split; [exact HN1|]; split;
        [intros m Hm; cbn [nls_loop]; rewrite E1 by exact Hm; cbn [bind]; reflexivity|discriminate]).
  Qed.

  (** An unconstrained solve, with either line search strategy: there is a number N of line search iterations such that for every
      larger value of max_line_search_iterations the solve is one and the same, all its steps succeed (or the solve stops
      as first-order stationary), so lambda is never raised and MAX_LAMBDA is never returned. *)
  Theorem C54_unconstrained_never_stuck : forall vars cs,
    well_posed pa pr vars -> pr_ineq pr = [] -> pr_eq pr = [] -> distinct_indices pr -> exact_factorizations ldlt qr llt pr ->
    derivatives_correct pr -> value_consistent pr ->
    0 < n_absolute_first_derivative_tol pa ->
    exists N o, (0 <= N)%Z /\
      (forall m, (N <= m)%Z -> NLS_Solve ldlt qr llt eigs None cb (with_ls m pa) pr g vars cs = o) /\
      forall r, o = Ok r ->
        (forall info, In info (out_iterations (res_out r)) -> good_step (it_step_result info)) /\
        out_termination_state (res_out r) <> MAX_LAMBDA.
  Proof.
    intros vars cs WP NI NE DI EX DC VC TP.
    set (st0 := MkNS vars (n_lambda_initial pa) (n_equality_penalty_initial pa) NOMINAL).
    destruct (loop_never_stuck (Z.to_nat (n_max_iterations pa)) 0 [] st0 cs WP NI NE DI EX DC VC TP (wp_penalty _ _ _ WP)) as (N & o & HN & E & G).
    exists N, o. split; [exact HN|].
    assert (EQ : forall m, (N <= m)%Z -> NLS_Solve ldlt qr llt eigs None cb (with_ls m pa) pr g vars cs = o).
    { intros m Hm. unfold NLS_Solve.
      assert (PVm : nls_params_valid (with_ls m pa)).
      { destruct (wp_params _ _ _ WP). constructor; try assumption. cbn [with_ls n_max_line_search_iterations]. lia. }
      destruct (C49_params_checked (with_ls m pa)) as [[-> _]|[_ X]]; [|destruct (X PVm)]. cbn [bind]. apply E. exact Hm. }
    split; [exact EQ|]. intros r Er. destruct (G r Er) as (log' & A & B). cbn [app] in A. rewrite Forall_forall in B.
    assert (ALL : forall info, In info (out_iterations (res_out r)) -> good_step (it_step_result info)) by (rewrite A; exact B).
    split; [exact ALL|]. intro ML.
    pose proof (EQ N ltac:(lia)) as HS. rewrite Er in HS.
    pose proof (C35_termination_states _ _ _ _ _ _ _ _ _ _ _ _ HS) as T. cbv zeta in T. destruct T as (_ & _ & _ & T). rewrite ML in T.
    destruct T as (init & info & EL & X). specialize (ALL info). rewrite EL in ALL. specialize (ALL ltac:(apply in_or_app; right; left; reflexivity)).
    cbn [exit_condition] in X. destruct ALL as [Y|Y]; rewrite Y in X; destruct X as [[X|X] _]; discriminate.
  Qed.
End Enough.
