(** Concrete problems that meet the hypotheses of the theorems in Optimality.v: the Rosenbrock problems of
    Examples.v and a linear least squares problem, with and without an equality constraint. *)
From Coq Require Import String List Bool Arith ZArith QArith Reals Lra Lia.
From Verif Require Import Scalar Outcome LinAlg Structs Constraint QPModel NullSpace Residual Nonlinear RInst Spec
  Props_Constraint QPBlocks QPAlgebra QPNewton QPAlpha QPStep QPTrace QPInit QPSolve QPDirect ResProps LinProps MeritProps
  LSProps NSProps LSSuccess NLSTrace NLSProps NLSReal NLSBox Penalty NLSTotal QPRegular QPBarrier QPIter Optimality Examples.
Import ListNotations.
Local Open Scope outcome_scope.
Local Open Scope string_scope.
Local Open Scope list_scope.
Local Open Scope R_scope.

(** The residual (x0 - 1, 2 x1 - x0) and its Jacobian. *)
Definition lin_f (p : list R) : list R := [vget p 0 - 1; 2 * vget p 1 - vget p 0].
Definition lin_J : mat R := Mat 2 2 [[1; 0]; [-1; 2]].
Definition lin : residual R := MkRes 2 [0; 1]%Z lin_f (fun p => (lin_f p, lin_J)).

(** A cost on its own, and with the equality constraint x0 = 1. *)
Definition free_pr (c : residual R) : Problem R := MkProblem 2%Z [c] [] [].
Definition eq_pr (c : residual R) : Problem R := MkProblem 2%Z [c] [] [fix0].

Lemma len2 : forall x : list R, length x = 2%nat -> exists a b, x = [a; b].
Proof. intros [|a [|b [|]]] H; try discriminate. exists a, b. reflexivity. Qed.

(** d/dt (p0 + p1 t + p2 t^2) at 0 is p1. *)
Lemma poly_slope : forall (f : R -> R) p0 p1 p2, (forall t, f t = p0 + p1 * t + p2 * (t * t)) -> derivable_pt_lim f 0 p1.
Proof.
  intros f p0 p1 p2 H eps He. assert (HD : 0 < eps / (Rabs p2 + 1)).
  { apply Rdiv_lt_0_compat; [exact He|]. pose proof (Rabs_pos p2). lra. }
  exists (mkposreal _ HD). intros h Hh Hb. cbn [pos] in Hb. rewrite !H.
  replace ((p0 + p1 * (0 + h) + p2 * ((0 + h) * (0 + h)) - (p0 + p1 * 0 + p2 * (0 * 0))) / h - p1) with (p2 * h) by (field; exact Hh).
  rewrite Rabs_mult. pose proof (Rabs_pos p2). pose proof (Rabs_pos h).
  apply Rmult_lt_compat_r with (r := Rabs p2 + 1) in Hb; [|lra]. unfold Rdiv in Hb. rewrite Rmult_assoc, Rinv_l, Rmult_1_r in Hb by lra. nra.
Qed.

Ltac peval := cbv [jac_dx gathered gidx Rsum vget mget vadd vscale combine map res_f res_fJ res_index snd fst nth Z.to_nat
  Pos.to_nat Pos.iter_op Init.Nat.add mdata length ros ros_f ros_J fix0 lin lin_f lin_J fadd fmul R_ops f0 Q2R Qnum Qden].
Lemma ros_correct : forall x u, length x = 2%nat -> length u = 2%nat -> jac_correct ros x u.
Proof.
  intros x u LX LU. destruct (len2 x LX) as (a & b & ->). destruct (len2 u LU) as (c & d & ->).
  intros k Hk. split; [reflexivity|].
  assert (K : k = 0%nat \/ k = 1%nat) by (cbn [res_dim ros] in Hk; lia). destruct K as [-> | ->].
  - eapply (poly_slope _ (a - 3) _ 0). intro t. peval. ring.
  - eapply (poly_slope _ (10 * (b - a * a)) _ (- 10 * (c * c))). intro t. peval. ring.
Qed.
Lemma fix0_correct : forall x u, length x = 2%nat -> length u = 2%nat -> jac_correct fix0 x u.
Proof.
  intros x u LX LU. destruct (len2 x LX) as (a & b & ->). destruct (len2 u LU) as (c & d & ->).
  intros k Hk. split; [reflexivity|].
  assert (K : k = 0%nat) by (cbn [res_dim fix0] in Hk; lia). subst k.
  eapply (poly_slope _ (a - 1) _ 0). intro t. peval. ring.
Qed.
Lemma lin_correct : forall x u, length x = 2%nat -> length u = 2%nat -> jac_correct lin x u.
Proof.
  intros x u LX LU. destruct (len2 x LX) as (a & b & ->). destruct (len2 u LU) as (c & d & ->).
  intros k Hk. split; [reflexivity|].
  assert (K : k = 0%nat \/ k = 1%nat) by (cbn [res_dim lin] in Hk; lia). destruct K as [-> | ->].
  - eapply (poly_slope _ (a - 1) _ 0). intro t. peval. ring.
  - eapply (poly_slope _ (2 * b - a) _ 0). intro t. peval. ring.
Qed.

(** [c] is [ros] or [lin]. *)
Definition ex_cost (c : residual R) : Prop := c = ros \/ c = lin.

Section Problems.
  Variable c : residual R.
  Hypothesis HC : ex_cost c.

  Lemma c_index : forall i, In i (res_index c) -> (0 <= i < 2)%Z.
  Proof. destruct HC as [-> | ->]; intros i [<-|[<-|[]]]; lia. Qed.
  Lemma c_nodup : NoDup (res_index c).
  Proof. destruct HC as [-> | ->]; exact ros_nodup. Qed.
  Lemma c_correct : forall x u, length x = 2%nat -> length u = 2%nat -> jac_correct c x u.
  Proof. destruct HC as [-> | ->]; [exact ros_correct|exact lin_correct]. Qed.
  Lemma c_value : forall p, fst (res_fJ c p) = res_f c p.
  Proof. destruct HC as [-> | ->]; reflexivity. Qed.

  Lemma free_well_posed : forall pa vars, nls_params_valid pa -> 0 < n_equality_penalty_initial pa -> length vars = 2%nat ->
    well_posed pa (free_pr c) vars.
  Proof.
    intros pa vars PV PP LV. constructor; try exact PV; try exact PP; try exact LV.
    - reflexivity.
    - intros r [[<-|[]]|[]] i Hi. exact (c_index i Hi).
    - intros l [].
  Qed.
  Lemma eq_well_posed : forall pa vars, nls_params_valid pa -> 0 < n_equality_penalty_initial pa -> length vars = 2%nat ->
    well_posed pa (eq_pr c) vars.
  Proof.
    intros pa vars PV PP LV. constructor; try exact PV; try exact PP; try exact LV.
    - reflexivity.
    - intros r [[<-|[]]|[<-|[]]] i Hi; [exact (c_index i Hi)|]. destruct Hi as [<-|[]]. cbn [pr_dimension eq_pr]. lia.
    - intros l [].
  Qed.
  Lemma free_distinct : distinct_indices (free_pr c).
  Proof. split; [intros r [<-|[]]; exact c_nodup|intros r []]. Qed.
  Lemma eq_distinct : distinct_indices (eq_pr c).
  Proof. split; intros r [<-|[]]; [exact c_nodup|]. constructor; [intros []|constructor]. Qed.
  Lemma free_consistent : value_consistent (free_pr c).
  Proof. intros r [[<-|[]]|[]] p. apply c_value. Qed.
  Lemma eq_consistent : value_consistent (eq_pr c).
  Proof. intros r [[<-|[]]|[<-|[]]] p; [apply c_value|reflexivity]. Qed.
  Lemma free_derivatives : derivatives_correct (free_pr c).
  Proof. intros r [[<-|[]]|[]] x u. exact (c_correct x u). Qed.
  Lemma eq_derivatives : derivatives_correct (eq_pr c).
  Proof. intros r [[<-|[]]|[<-|[]]] x u; [exact (c_correct x u)|exact (fix0_correct x u)]. Qed.

  Lemma free_exact : forall qr llt, exact_factorizations ldlt2 qr llt (free_pr c).
  Proof. intros qr llt. split; [intros _; exact ldlt2_inverse|]. intro E. destruct (E eq_refl). Qed.

  Lemma eq_matrix : forall v lambda errs qp, LinearizeAndFillQP v lambda (eq_pr c) = Ok (errs, qp) -> qA qp = Mat 1 2 [[1; 0]].
  Proof.
    intros v lambda errs qp HL.
    unfold LinearizeAndFillQP in HL. inv_bind HL. destruct a as [[? ?] ?]. inv_bind HL. destruct a as [[rows ?] ?]. inv_bind HL.
    apply Ok_inj in HL. apply pair_inj in HL. destruct HL as [_ <-]. cbn [qA].
    change (total_eq_size (eq_pr c)) with 1%nat. change (pdim (eq_pr c)) with 2%nat. f_equal.
    match goal with X : linearize_eq _ _ = _ |- _ => rename X into HE end.
    clear - HE. unfold linearize_eq in HE. cbn [pr_eq eq_pr ofold] in HE.
    apply bind_ok_inv in HE. destruct HE as (acc & HE & HO). apply Ok_inj in HO.
    apply bind_ok_inv in HE. destruct HE as (? & _ & HE).
    apply bind_ok_inv in HE. destruct HE as ([J br] & HJ & HE). apply Ok_inj in HE. rewrite HO in HE. inj_pairs HE.
    match goal with X : _ = rows |- _ => rewrite <- X end. cbn [app].
    unfold UpdateJacobian in HJ. apply bind_ok_inv in HJ. destruct HJ as (p & _ & HJ).
    apply bind_ok_inv in HJ. destruct HJ as (Jo & HJ & HP). apply Ok_inj in HP. apply pair_inj in HP. destruct HP as [<- _].
    cbn [res_index fix0 length seq ofold] in HJ. apply bind_ok_inv in HJ. destruct HJ as (J1 & HJ & HO'). apply Ok_inj in HO'.
    apply bind_ok_inv in HJ. destruct HJ as (? & _ & HJ). apply Ok_inj in HJ. rewrite <- HO', <- HJ.
    reflexivity.
  Qed.
  Lemma eq_exact : exact_factorizations ldlt2 ns_ex_qr ns_ex_llt (eq_pr c).
  Proof.
    split; [discriminate|]. intros _ v lambda errs qp HL. rewrite (eq_matrix _ _ _ _ HL).
    split; [exact ns_ex_qr_ok|]. apply ns_ex_llt_ok. reflexivity.
  Qed.
End Problems.

(** The default parameters with back-tracking. *)
Definition armijo_params : NLSParams R :=
  MkNLSParams 10%Z 10%Z (1 / 1000000) (1 / 1000000000000) (1 / 100000) (1 / 1000000) 2%Z ARMIJO_BACKTRACK (8 / 10) 1 (101 / 100)
    (1 / 10) 0 (1 / 100) (1 / 10) (8 / 10) 1 0 false.
Lemma armijo_valid : nls_params_valid armijo_params.
Proof.
  constructor;
    cbn [armijo_params n_max_iterations n_max_qp_iterations n_termination_kkt_tolerance n_absolute_exit_tol n_relative_exit_tol
         n_absolute_first_derivative_tol n_max_line_search_iterations n_armijo_search_tau n_equality_penalty_initial
         n_equality_penalty_scale_factor n_equality_penalty_rho n_lambda_initial n_lambda_failure_init
         n_lambda_decrease_on_success n_lambda_decrease_on_restore n_max_lambda n_min_lambda]; try lia; try lra.
Qed.

Section Solved.
  Context {S : Type}.
  Variable cb : option (S -> NLSIteration R -> S * bool).
  Variable eigs : mat R -> QPEigenvalues R.
  Variable g : nat -> garbage R.

  (** Both costs curve upwards everywhere, so both solves return. *)
  Notation Solve pa pr := (NLS_Solve ldlt2 ns_ex_qr ns_ex_llt eigs None cb pa pr g).

  Lemma lin_curved : forall v lambda errs qp, 0 <= lambda -> LinearizeAndFillQP v lambda (free_pr lin) = Ok (errs, qp) -> curved_on_null_space qp.
  Proof.
    intros v lambda errs qp HLam HL d LD (i & Hi & NZ) _.
    destruct (C24_linearised_qp _ _ _ _ _ (free_distinct lin (or_intror eq_refl)) HL) as ((_ & _ & CL & _) & _ & _ & QF & _).
    assert (N2 : nv qp = 2%nat) by (unfold nv; rewrite CL; reflexivity).
    rewrite QF. rewrite N2 in *. destruct (len2 d LD) as (a & b & ->).
    assert (DM : 0 <= Rmax lambda 0 * Rsum (Z.to_nat (pr_dimension (free_pr lin))) (fun i => vget [a; b] i ^ 2)).
    { apply Rmult_le_pos; [apply Rmax_r|]. apply Rsum_nonneg. intros. apply pow2_ge_0. }
    unfold lin_curvature. cbn [pr_costs free_pr map Rlsum res_dim lin Rsum]. rewrite !lin_residual_diff.
    cbv [gidx Rsum vget mget lin lin_J res_index length nth Z.to_nat res_fJ snd mdata Pos.to_nat Pos.iter_op] in *.
    assert (NN : a <> 0 \/ b <> 0) by (destruct i as [|[|i]]; [left; exact NZ|right; exact NZ|lia]).
    match goal with |- 0 < ?e + _ => assert (X : 0 < e); [|revert DM X; generalize e; intros; simpl in *; lra] end.
    simpl. destruct (Req_dec a 0) as [Z|Z].
    - assert (b <> 0) by tauto. subst a. assert (0 < b * b) by (apply Rsqr_pos_lt; assumption). nra.
    - assert (0 < a * a) by (apply Rsqr_pos_lt; assumption).
      pose proof (sq_nonneg (- a + 2 * b)). nra.
  Qed.

  Lemma free_returns : forall c pa vars cs, ex_cost c -> nls_params_valid pa -> 0 < n_equality_penalty_initial pa ->
    n_min_lambda pa = 0 -> length vars = 2%nat -> exists r, Solve pa (free_pr c) vars cs = Ok r.
  Proof.
    intros c pa vars cs HC PV PP ML LV. apply C52_regular_solve_always_returns.
    - exact ldlt2_singular.
    - exact (free_well_posed c HC pa vars PV PP LV).
    - intros f E. discriminate.
    - intros _ E. destruct (E eq_refl).
    - intros _ v lambda errs qp Hv HLam HL. rewrite ML in HLam. split.
      + intros y _ k Hk. exfalso. unfold neq in Hk.
        pose proof (free_well_posed c HC pa v PV PP Hv) as WP.
        destruct (linearise_total (free_pr c) v lambda Hv (wp_index _ _ _ WP)
                    (fun k Hc => proj1 (wp_cons _ _ _ WP k Hc)) eq_refl) as (e' & q' & HL' & _ & _ & _ & _ & _ & BL & _).
        rewrite HL in HL'. apply Ok_inj in HL'. apply pair_inj in HL'. destruct HL' as [_ <-]. rewrite BL in Hk. cbv in Hk. lia.
      + destruct HC as [-> | ->]; [|apply (lin_curved v lambda errs qp); auto].
        apply (ros_curved (free_pr ros) v lambda errs qp); auto. apply free_distinct. left. reflexivity.
  Qed.
  Lemma eq_returns : forall c pa vars cs, ex_cost c -> nls_params_valid pa -> 0 < n_equality_penalty_initial pa ->
    length vars = 2%nat -> exists r, Solve pa (eq_pr c) vars cs = Ok r.
  Proof.
    intros c pa vars cs HC PV PP LV. apply C52_regular_solve_always_returns.
    - exact ldlt2_singular.
    - exact (eq_well_posed c HC pa vars PV PP LV).
    - intros f E. discriminate.
    - intros _ _. split; [cbn [eq_pr]; cbv; lia|]. intros v lambda errs qp HL. rewrite (eq_matrix c _ _ _ _ HL). reflexivity.
    - intros [E|E]; [destruct (E eq_refl)|discriminate].
  Qed.

  (** C54: Rosenbrock's function with back-tracking, from every start: with enough line search iterations the
      solve returns and every step succeeds. *)
  Example C54_rosenbrock : forall vars cs, length vars = 2%nat ->
    exists N, forall m, (N <= m)%Z -> exists r, Solve (with_ls m armijo_params) (free_pr ros) vars cs = Ok r /\
      forall info, In info (out_iterations (res_out r)) -> good_step (it_step_result info).
  Proof.
    intros vars cs LV. pose proof (or_introl eq_refl : ex_cost ros) as HC.
    destruct (C54_unconstrained_never_stuck ldlt2 ns_ex_qr ns_ex_llt eigs cb (free_pr ros) g armijo_params vars cs) as (N & o & HN & HE & HG).
    - apply free_well_posed; auto; [exact armijo_valid|cbn [armijo_params n_equality_penalty_initial]; lra].
    - reflexivity.
    - reflexivity.
    - apply free_distinct; exact HC.
    - apply free_exact.
    - apply free_derivatives; exact HC.
    - apply free_consistent; exact HC.
    - cbn [armijo_params n_absolute_first_derivative_tol]. lra.
    - exists N. intros m Hm. destruct (free_returns ros (with_ls m armijo_params) vars cs HC) as [r Hr]; auto.
      + destruct armijo_valid. constructor; try assumption. cbn [with_ls n_max_line_search_iterations]. lia.
      + cbn [with_ls armijo_params n_equality_penalty_initial]. lra.
      + exists r. split; [exact Hr|]. apply (HG r). rewrite <- Hr. symmetry. apply HE. exact Hm.
  Qed.

  Lemma lin_affine : affine_problem (eq_pr lin) /\ affine_problem (free_pr lin).
  Proof.
    assert (L : forall x u t k, (k < 2)%nat -> length u = length x ->
      vget (res_f lin (gathered lin (ray x u t))) k = vget (res_f lin (gathered lin x)) k + t * jac_dx lin x u k).
    { intros x u t k Hk L. cbv [gathered jac_dx]. cbn [lin res_index res_f res_fJ snd map length Rsum lin_f lin_J gidx].
      unfold ray. cbv [gidx]. cbn [lin res_index nth Z.to_nat]. change (Pos.to_nat 1) with 1%nat.
      rewrite !vadd_get by (rewrite vscale_length; congruence). rewrite !vscale_get.
      generalize (vget x 0), (vget x 1), (vget u 0), (vget u 1). intros.
      destruct k as [|[|k]]; [| |lia]; cbv [vget mget lin_J lin_f mdata nth fadd fmul R_ops]; ring. }
    assert (K : forall x u t k, (k < 1)%nat -> length u = length x ->
      vget (res_f fix0 (gathered fix0 (ray x u t))) k = vget (res_f fix0 (gathered fix0 x)) k + t * jac_dx fix0 x u k).
    { intros x u t k Hk LU. cbv [gathered jac_dx]. cbn [fix0 res_index res_f res_fJ snd map length Rsum gidx].
      unfold ray. cbv [gidx]. cbn [fix0 res_index nth Z.to_nat].
      rewrite !vadd_get by (rewrite vscale_length; congruence). rewrite !vscale_get.
      generalize (vget x 0), (vget u 0). intros.
      destruct k as [|k]; [|lia]; cbv [vget mget mdata nth fadd fmul R_ops]; ring. }
    split; intros r [[<-|[]]|HR] x u t k Hk LU; try (destruct HR as [<-|[]]); try (destruct HR; fail); auto.
  Qed.

  Lemma lin_cost_min : cost_at (eq_pr lin) [1; / 2] = 0.
  Proof. cbv [cost_at eq_pr pr_costs map Rlsum]. cbn [lin res_dim Rsum]. peval. field. Qed.

  (** C57: the unconstrained linear problem is solved from every start: the cost ends below 5e-7 and every iteration
      takes a full step (or stops). *)
  Example C57_linear_free : forall vars cs, length vars = 2%nat ->
    exists r, Solve default_NLSParams (free_pr lin) vars cs = Ok r /\ cost_at (free_pr lin) (res_vars r) <= / 2000000.
  Proof.
    intros vars cs LV. pose proof (or_intror eq_refl : ex_cost lin) as HC.
    assert (PP : 0 < n_equality_penalty_initial (default_NLSParams : NLSParams R)) by (cbn [n_equality_penalty_initial default_NLSParams f1 R_ops]; lra).
    destruct (free_returns lin default_NLSParams vars cs HC ex_params_valid PP eq_refl LV) as [r Hr]. exists r. split; [exact Hr|].
    destruct (C57_linear_least_squares_solved ldlt2 ns_ex_qr ns_ex_llt eigs None cb (free_pr lin) g default_NLSParams vars cs r) as (_ & _ & [(_ & _ & X)|X]); auto.
    - apply free_well_posed; auto. exact ex_params_valid.
    - apply free_distinct; exact HC.
    - apply free_exact.
    - apply lin_affine.
    - apply free_consistent; exact HC.
    - cbn [n_lambda_initial default_NLSParams f0 R_ops]. lra.
    - cbn [n_max_iterations default_NLSParams]. lia.
    - destruct (X eq_refl).
    - specialize (X [1; / 2] (eq_sym LV) eq_refl).
      change (cost_at (free_pr lin) [1; / 2]) with (cost_at (eq_pr lin) [1; / 2]) in X. rewrite lin_cost_min in X.
      cbn [n_absolute_first_derivative_tol default_NLSParams flit R_ops] in X. unfold lit_1em6, Q2R in X. cbn [Qnum Qden] in X. lra.
  Qed.

  (** C56 and C55: started at its minimiser (1, 1/2), which satisfies the constraint, the linear problem with the
      constraint x0 = 1 is recognised as solved after one iteration. *)
  Lemma lin_slope : forall pr u, pr_costs pr = [lin] -> length u = 2%nat -> cost_slope pr [1; / 2] u 0.
  Proof.
    intros pr u HP LU. destruct (len2 u LU) as (a & b & ->).
    apply (poly_slope _ 0 0 (/ 2 * (a * a) + / 2 * ((2 * b - a) * (2 * b - a)))). intro t.
    unfold cost_at. rewrite HP. cbv [map Rlsum ray]. cbn [lin res_dim Rsum]. peval. field.
  Qed.
  Lemma lin_stationary : stationary_point (eq_pr lin) [1; / 2].
  Proof.
    split.
    - cbv [eq_l1_at eq_pr pr_eq map Rlsum]. cbn [fix0 res_dim Rsum]. peval.
      match goal with |- 0 + Rabs ?e + 0 = 0 => replace e with 0 by ring end. rewrite Rabs_R0. ring.
    - intros u LU _. apply lin_slope; [reflexivity|exact LU].
  Qed.

  Example C56_minimiser_recognised : forall cs, exists r, Solve default_NLSParams (free_pr lin) [1; / 2] cs = Ok r /\
    res_vars r = [1; / 2] /\ out_termination_state (res_out r) = SATISFIED_FIRST_ORDER_TOL.
  Proof.
    intros cs. pose proof (or_intror eq_refl : ex_cost lin) as HC.
    assert (PP : 0 < n_equality_penalty_initial (default_NLSParams : NLSParams R)) by (cbn [n_equality_penalty_initial default_NLSParams f1 R_ops]; lra).
    destruct (free_returns lin default_NLSParams [1; / 2] cs HC ex_params_valid PP eq_refl eq_refl) as [r Hr]. exists r. split; [exact Hr|].
    destruct (C56_stationary_start ldlt2 ns_ex_qr ns_ex_llt eigs None cb (free_pr lin) g default_NLSParams [1; / 2] cs r) as (A & [[B _]|(_ & _ & B)]); auto.
    - apply free_well_posed; auto. exact ex_params_valid.
    - apply free_distinct; exact HC.
    - apply free_exact.
    - apply free_derivatives; exact HC.
    - apply free_consistent; exact HC.
    - cbn [n_max_iterations default_NLSParams]. lia.
    - cbn [n_absolute_first_derivative_tol default_NLSParams flit R_ops]. unfold lit_1em6, Q2R. cbn [Qnum Qden]. lra.
    - split; [reflexivity|]. intros u LU _. apply lin_slope; [reflexivity|exact LU].
    - destruct (B eq_refl).
  Qed.
  (** The same for the constrained problem, through the null space solver. *)
  Example C56_constrained : forall cs, exists r, Solve default_NLSParams (eq_pr lin) [1; / 2] cs = Ok r /\ res_vars r = [1; / 2].
  Proof.
    intros cs. pose proof (or_intror eq_refl : ex_cost lin) as HC.
    assert (PP : 0 < n_equality_penalty_initial (default_NLSParams : NLSParams R)) by (cbn [n_equality_penalty_initial default_NLSParams f1 R_ops]; lra).
    destruct (eq_returns lin default_NLSParams [1; / 2] cs HC ex_params_valid PP eq_refl) as [r Hr]. exists r. split; [exact Hr|].
    apply (C56_stationary_start ldlt2 ns_ex_qr ns_ex_llt eigs None cb (eq_pr lin) g default_NLSParams [1; / 2] cs r); auto.
    - apply eq_well_posed; auto. exact ex_params_valid.
    - apply eq_distinct; exact HC.
    - apply eq_exact.
    - apply eq_derivatives; exact HC.
    - apply eq_consistent; exact HC.
    - cbn [n_max_iterations default_NLSParams]. lia.
    - cbn [n_absolute_first_derivative_tol default_NLSParams flit R_ops]. unfold lit_1em6, Q2R. cbn [Qnum Qden]. lra.
    - exact lin_stationary.
  Qed.
End Solved.
