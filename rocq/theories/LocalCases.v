(** Concrete cases for C92 and C93: a minimiser with non-zero residual, a damped solve of the Rosenbrock function, and a minimiser on an affine constraint (see the index in DESIGN.md, section 4.3). *)
From Coq Require Import String List Bool Arith ZArith QArith Reals Lra Lia.
From Verif Require Import Penalty Scalar Outcome LinAlg Structs Constraint QPModel NullSpace Residual Nonlinear RInst Spec
  Props_Constraint QPBlocks QPAlgebra ResProps LinProps MeritProps LSProps NLSTrace NLSProps NLSReal NLSTotal
  Optimality QPRegular NSProps Examples Examples2 NLSRate CasesMore QPStep NLSQuadratic NLSQuadraticLocal QuadraticCases Factorisations NLSRegular NLSLocal.
Import ListNotations.
Local Open Scope outcome_scope.
Local Open Scope string_scope.
Local Open Scope list_scope.
Local Open Scope R_scope.

(** Residuals x and 1/8 + x^2/4: the minimum 0 has residual norm 1/8. *)
Definition cup : residual R := MkRes 2 [0]%Z (fun p => [vget p 0; 1 / 8 + vget p 0 * vget p 0 / 4])
  (fun p => ([vget p 0; 1 / 8 + vget p 0 * vget p 0 / 4], Mat 2 1 [[1]; [vget p 0 / 2]])).
Definition cup_pr : Problem R := MkProblem 1%Z [cup] [] [].

(** The parameters of the armijo example, with lambda starting at 1/2. *)
Definition damped_params : NLSParams R :=
  MkNLSParams 10%Z 10%Z (1 / 1000000) (1 / 1000000000000) (1 / 100000) (1 / 1000000) 2%Z ARMIJO_BACKTRACK (8 / 10) 1 (101 / 100)
    (1 / 10) (1 / 2) (1 / 100) (1 / 10) (8 / 10) 1 0 false.
Lemma damped_valid : nls_params_valid damped_params.
Proof.
  constructor;
    cbn [damped_params n_max_iterations n_max_qp_iterations n_termination_kkt_tolerance n_absolute_exit_tol n_relative_exit_tol
         n_absolute_first_derivative_tol n_max_line_search_iterations n_armijo_search_tau n_equality_penalty_initial
         n_equality_penalty_scale_factor n_equality_penalty_rho n_lambda_initial n_lambda_failure_init
         n_lambda_decrease_on_success n_lambda_decrease_on_restore n_max_lambda n_min_lambda]; try lia; try lra.
Qed.

Lemma len1 : forall x : list R, length x = 1%nat -> exists a, x = [a].
Proof. intros [|a [|]] H; try discriminate. exists a. reflexivity. Qed.

Ltac ceval := cbv [jac_dx gathered gidx Rsum vget mget vadd vscale combine map res_f res_fJ res_index snd fst nth Z.to_nat
  Pos.to_nat Pos.iter_op Init.Nat.add mdata length cup fadd fmul R_ops f0].

Lemma cup_jac : forall a u, jv [a] [u] cup 0 = u /\ jv [a] [u] cup 1 = a / 2 * u.
Proof. intros. unfold jv. split; ceval; ring. Qed.
Lemma cup_rdot : forall f h, rdot cup_pr f h = f cup 0%nat * h cup 0%nat + f cup 1%nat * h cup 1%nat.
Proof. intros. unfold rdot. cbn [cup_pr pr_costs map Rlsum cup res_dim Rsum]. ring. Qed.

Lemma cup_minimiser : small_residual_minimiser cup_pr [0] 1 (1 / 2) 1.
Proof.
  assert (V : rv [0] cup 0 = 0 /\ rv [0] cup 1 = 1 / 8) by (unfold rv; split; ceval; field). destruct V as [V0 V1].
  constructor; try lra; try reflexivity.
  - intros u LU _. destruct (len1 u LU) as (c & ->). destruct (cup_jac 0 c) as [J0 J1]. rewrite cup_rdot, V0, V1, J0, J1. field.
  - intros u LU _. destruct (len1 u LU) as (c & ->). destruct (cup_jac 0 c) as [J0 J1]. rewrite cup_rdot, J0, J1. cbn [length Rsum]. unfold vget. cbn [nth].
    right. field.
  - intros x y u LX LY LU _ _. destruct (len1 x LX) as (a & ->). destruct (len1 y LY) as (b & ->). destruct (len1 u LU) as (c & ->).
    destruct (cup_jac a c) as [J0 J1]. destruct (cup_jac b c) as [K0 K1]. cbv zeta. rewrite cup_rdot, J0, J1, K0, K1.
    rewrite Rpow_mult_distr, distance_sq. unfold dist2. cbn [length Rsum]. unfold vget. cbn [nth]. right. field.
  - rewrite cup_rdot, V0, V1. replace (0 * 0 + 1 / 8 * (1 / 8)) with ((1 / 8) ^ 2) by field. rewrite sqrt_pow2 by lra. lra.
Qed.

Lemma cup_derivatives : derivatives_correct cup_pr.
Proof.
  intros r [[<-|[]]|[]] x u LX LU. destruct (len1 x LX) as (a & ->). destruct (len1 u LU) as (c & ->).
  intros k Hk. split; [reflexivity|].
  assert (K : k = 0%nat \/ k = 1%nat) by (cbn [res_dim cup] in Hk; lia). destruct K as [-> | ->].
  - eapply (poly_slope _ a _ 0). intro t. ceval. ring.
  - eapply (poly_slope _ (1 / 8 + a * a / 4) _ (c * c / 4)). intro t. ceval. field.
Qed.
Lemma cup_well_posed : forall vars, length vars = 1%nat -> well_posed damped_params cup_pr vars.
Proof.
  intros vars LV. constructor; try exact damped_valid; try exact LV.
  - cbn [n_equality_penalty_initial damped_params]. lra.
  - reflexivity.
  - intros r [[<-|[]]|[]] i Hi. destruct Hi as [<-|[]]. cbn [pr_dimension cup_pr]. lia.
  - intros c [].
Qed.

(** C92, non-zero residual and damping: with lambda starting at 1/2, from every start in [-1/8, 1/8], Solve returns, its error is at most
    the factor 0.52 to the number of steps times that of the start, and after 10 iterations at most 2e-4. *)
Example C92_case : exists ldlt qr llt, forall eigs g vars, length vars = 1%nat -> distance vars [0] <= 1 / 8 ->
  exists r, NLS_Solve ldlt qr llt eigs None (@None (unit -> NLSIteration R -> unit * bool)) damped_params cup_pr g vars tt = Ok r /\
    distance (res_vars r) [0] <= (369 / 705) ^ successes (out_iterations (res_out r)) * (1 / 8) /\
    (out_termination_state (res_out r) = NLS_MAX_ITERATIONS -> distance (res_vars r) [0] <= 2 / 10000).
Proof.
  destruct C84_exact_factorisations_exist as (ldlt & qr & llt & EX & FS & _). exists ldlt, qr, llt. intros eigs g vars LV HD.
  assert (DI : distinct_indices cup_pr).
  { split; [|intros r []]. intros r [<-|[]]. constructor; [intros []|constructor]. }
  assert (VC : value_consistent cup_pr) by (intros r [[<-|[]]|[]] p; reflexivity).
  destruct (C92_linear_rate ldlt qr llt eigs unit None damped_params cup_pr g [0] 1 (1 / 2) 1 (1 / 8) cup_minimiser ltac:(lra) ltac:(lra)
    eq_refl eq_refl DI cup_derivatives VC (EX _) FS vars tt (cup_well_posed vars LV) HD) as (_ & r & H & D & MX).
  assert (Q : linear_factor 1 (Rmax (n_lambda_initial damped_params) 0) = 737 / 1412).
  { cbn [damped_params n_lambda_initial]. rewrite Rmax_left by lra. unfold linear_factor, mu. field. }
  rewrite Q in D, MX. exists r. split; [exact H|]. split.
  - eapply Rle_trans; [exact D|]. apply Rmult_le_compat; [apply pow_le; lra|apply distance_nonneg|apply pow_incr; lra|exact HD].
  - intro E. specialize (MX E). change (Z.to_nat (n_max_iterations damped_params)) with 10%nat in MX. eapply Rle_trans; [exact MX|].
    apply Rle_trans with ((737 / 1412) ^ 10 * (1 / 8)); [apply Rmult_le_compat_l; [apply pow_le; lra|exact HD]|]. lra.
Qed.
(** Points other than the minimum qualify. *)
Example C92_case_start : distance [1 / 8] [0] = 1 / 8.
Proof. unfold distance. cbn [length Rsum]. unfold vget. cbn [nth]. replace (0 + (1 / 8 - 0) ^ 2) with ((1 / 8) ^ 2) by ring. apply sqrt_pow2. lra. Qed.

(** C92, regular zeros: the Rosenbrock function with the damped parameters; and the bounds fall superlinearly. *)
Example C92_case_rosenbrock : exists rho q N, 0 < rho /\ 0 < q < 1 /\ forall eigs g vars, length vars = 2%nat -> distance vars ros_min <= rho ->
  exists r, NLS_Solve ldlt2 ns_ex_qr ns_ex_llt eigs None (@None (unit -> NLSIteration R -> unit * bool)) damped_params (free_pr ros) g vars tt = Ok r /\
    (forall k info, nth_error (out_iterations (res_out r)) k = Some info -> it_lambda info = (1 / 10) ^ k * (1 / 2)) /\
    distance (res_vars r) ros_min <= q ^ successes (out_iterations (res_out r)) * distance vars ros_min /\
    (length (out_iterations (res_out r)) <= N)%nat.
Proof.
  assert (HC : ex_cost ros) by (left; reflexivity).
  assert (WP : well_posed damped_params (free_pr ros) ros_min).
  { apply free_well_posed; auto; [exact damped_valid|cbn [damped_params n_equality_penalty_initial]; lra]. }
  destruct (C92_regular_zero_damped damped_params (free_pr ros) ros_min 1 20 WP eq_refl eq_refl (free_distinct _ HC) (free_derivatives _ HC)
    (free_consistent _ HC) ros_regular_zero ltac:(lra) ltac:(lra) ros_lipschitz) as (rho & q & N & RP & QP & H).
  exists rho, q, N. split; [exact RP|]. split; [exact QP|]. intros eigs g vars LV HD.
  destruct (H ldlt2 ns_ex_qr ns_ex_llt eigs unit (@None (unit -> NLSIteration R -> unit * bool)) g vars tt ldlt2_inverse ldlt2_singular LV HD) as (r & E & P1 & P2 & P3 & _).
  exists r. split; [exact E|]. split; [|split; assumption].
  intros k info Hn. destruct (P1 k info Hn) as [-> _]. clear. induction k as [|k IH].
  - cbn [damping damped_params n_lambda_initial pow]. ring.
  - cbn [damping]. rewrite IH. cbn [damped_params n_lambda_decrease_on_success n_min_lambda pow].
    assert (0 <= (1 / 10) ^ k) by (apply pow_le; lra). rewrite Rmax_left by lra. ring.
Qed.
Example C92_case_superlinear : exists rho Lam m, 0 < rho /\ Lam * rho <= m / 16 /\ small_residual_minimiser (free_pr ros) ros_min 1 Lam m /\
  cost_at (free_pr ros) ros_min = 0 /\ n_min_lambda damped_params <= 0.
Proof.
  assert (HC : ex_cost ros) by (left; reflexivity).
  assert (WP : well_posed damped_params (free_pr ros) ros_min).
  { apply free_well_posed; auto; [exact damped_valid|cbn [damped_params n_equality_penalty_initial]; lra]. }
  destruct (regular_zero_small damped_params (free_pr ros) ros_min 1 20 WP eq_refl (free_distinct _ HC) ros_regular_zero eq_refl ltac:(lra) ltac:(lra) ros_lipschitz) as (Lam & m & SM).
  pose proof (sm_m _ _ _ _ _ SM). pose proof (sm_Lam _ _ _ _ _ SM).
  exists (m / 16 / (Lam + 1)), Lam, m. splits; auto.
  - apply Rdiv_lt_0_compat; lra.
  - apply Rle_trans with ((Lam + 1) * (m / 16 / (Lam + 1))); [|right; field; lra]. apply Rmult_le_compat_r; [left; apply Rdiv_lt_0_compat; lra|lra].
  - apply ros_regular_zero.
  - cbn [damped_params n_min_lambda]. lra.
Qed.

(** C93: residuals x and 1/64 + x^2/8 and the constraint y = x. Without the constraint y would be undetermined. *)
Definition dish : residual R := MkRes 2 [0]%Z (fun p => [vget p 0; 1 / 64 + vget p 0 * vget p 0 / 8])
  (fun p => ([vget p 0; 1 / 64 + vget p 0 * vget p 0 / 8], Mat 2 1 [[1]; [vget p 0 / 4]])).
Definition diag : residual R := MkRes 1 [0; 1]%Z (fun p => [vget p 1 - vget p 0]) (fun p => ([vget p 1 - vget p 0], Mat 1 2 [[-1; 1]])).
Definition dish_pr : Problem R := MkProblem 2%Z [dish] [] [diag].
Definition origin : list R := [0; 0].

Ltac deval := cbv [jac_dx gathered gidx Rsum vget mget vadd vscale ray combine map res_f res_fJ res_index snd fst nth Z.to_nat
  Pos.to_nat Pos.iter_op Init.Nat.add mdata length dish diag fadd fmul R_ops f0].
Lemma dish_jac : forall a b u w, jv [a; b] [u; w] dish 0 = u /\ jv [a; b] [u; w] dish 1 = a / 4 * u.
Proof. intros. unfold jv. split; deval; ring. Qed.
Lemma dish_rdot : forall f h, rdot dish_pr f h = f dish 0%nat * h dish 0%nat + f dish 1%nat * h dish 1%nat.
Proof. intros. unfold rdot. cbn [dish_pr pr_costs map Rlsum dish res_dim Rsum]. ring. Qed.
Lemma dish_tangent : forall x u w, length x = 2%nat -> tangent dish_pr x [u; w] -> w = u.
Proof.
  intros x u w LX T. destruct (len2 x LX) as (a & b & ->). specialize (T diag (or_introl eq_refl) 0%nat ltac:(cbn [res_dim diag]; lia)).
  revert T. deval. intro T. lra.
Qed.
Lemma dish_feasible : forall a b, eq_l1_at dish_pr [a; b] = Rabs (b - a).
Proof. intros. unfold eq_l1_at. cbn [dish_pr pr_eq map Rlsum diag res_dim Rsum]. deval. replace (0 + Rabs (b - a) + 0) with (Rabs (b - a)) by ring. reflexivity. Qed.
Lemma dish_affine : affine_constraints dish_pr.
Proof.
  intros r [<-|[]] x u t k Hk LU. assert (K : k = 0%nat) by (cbn [res_dim diag] in Hk; lia). subst k.
  assert (RG : forall i, vget (ray x u t) i = vget x i + t * vget u i).
  { intro i. unfold ray. rewrite vadd_get by (rewrite vscale_length; congruence). rewrite vscale_get. ring. }
  change (vget (ray x u t) 1 - vget (ray x u t) 0 = vget x 1 - vget x 0 + t * (0 + -1 * vget u 0 + 1 * vget u 1)).
  rewrite !RG. ring.
Qed.
Lemma dish_minimiser : small_residual_minimiser dish_pr origin 1 (1 / 4) (1 / 2).
Proof.
  assert (V : rv origin dish 0 = 0 /\ rv origin dish 1 = 1 / 64) by (unfold rv, origin; split; deval; field). destruct V as [V0 V1].
  constructor; try lra; try reflexivity.
  - unfold origin. rewrite dish_feasible. replace (0 - 0) with 0 by ring. apply Rabs_R0.
  - intros u LU _. destruct (len2 u LU) as (c & d & ->). destruct (dish_jac 0 0 c d) as [J0 J1]. rewrite dish_rdot, V0, V1. unfold origin. rewrite J0, J1. field.
  - intros u LU T. destruct (len2 u LU) as (c & d & ->). apply dish_tangent in T; [|reflexivity]. subst d. destruct (dish_jac 0 0 c c) as [J0 J1].
    rewrite dish_rdot. unfold origin. rewrite J0, J1. cbn [length Rsum]. unfold vget. cbn [nth]. pose proof (pow2_ge_0 c). nra.
  - intros x y u LX LY LU _ _. destruct (len2 x LX) as (a & b & ->). destruct (len2 y LY) as (a' & b' & ->). destruct (len2 u LU) as (c & d & ->).
    destruct (dish_jac a b c d) as [J0 J1]. destruct (dish_jac a' b' c d) as [K0 K1]. cbv zeta. rewrite dish_rdot, J0, J1, K0, K1.
    rewrite Rpow_mult_distr, distance_sq. unfold dist2. cbn [length Rsum origin]. unfold vget. cbn [nth].
    assert (0 <= (b - b') ^ 2 * (c ^ 2 + d ^ 2)) by (apply Rmult_le_pos; [apply pow2_ge_0|pose proof (pow2_ge_0 c); pose proof (pow2_ge_0 d); lra]).
    assert (0 <= (a - a') ^ 2 * d ^ 2) by (apply Rmult_le_pos; apply pow2_ge_0). nra.
  - rewrite dish_rdot, V0, V1. replace (0 * 0 + 1 / 64 * (1 / 64)) with ((1 / 64) ^ 2) by field. rewrite sqrt_pow2 by lra. lra.
Qed.
Lemma dish_derivatives : derivatives_correct dish_pr.
Proof.
  intros r [[<-|[]]|[<-|[]]] x u LX LU; destruct (len2 x LX) as (a & b & ->); destruct (len2 u LU) as (c & d & ->); intros k Hk; (split; [reflexivity|]).
  - assert (K : k = 0%nat \/ k = 1%nat) by (cbn [res_dim dish] in Hk; lia). destruct K as [-> | ->].
    + eapply (poly_slope _ a _ 0). intro t. deval. ring.
    + eapply (poly_slope _ (1 / 64 + a * a / 8) _ (c * c / 8)). intro t. deval. field.
  - assert (K : k = 0%nat) by (cbn [res_dim diag] in Hk; lia). subst k.
    eapply (poly_slope _ (b - a) _ 0). intro t. deval. ring.
Qed.
Lemma dish_distinct : distinct_indices dish_pr.
Proof.
  split; intros r [<-|[]].
  - constructor; [intros []|constructor].
  - constructor; [intros [X|[]]; discriminate|constructor; [intros []|constructor]].
Qed.
Lemma dish_well_posed : forall vars, length vars = 2%nat -> well_posed damped_params dish_pr vars.
Proof.
  intros vars LV. constructor; try exact damped_valid; try exact LV.
  - cbn [n_equality_penalty_initial damped_params]. lra.
  - reflexivity.
  - intros r [[<-|[]]|[<-|[]]] i Hi; cbn [pr_dimension dish_pr]; [destruct Hi as [<-|[]]|destruct Hi as [<-|[<-|[]]]]; lia.
  - intros c [].
Qed.
Lemma dish_rows : forall v lambda errs qp, LinearizeAndFillQP v lambda dish_pr = Ok (errs, qp) -> length v = 2%nat -> rows_independent (qA qp).
Proof.
  intros v lambda errs qp HL LV y Hy k Hk.
  destruct (C24_linearised_qp _ _ _ _ _ dish_distinct HL) as ((_ & _ & CL & AC & AR) & _).
  destruct (qp_rows dish_pr 0 ltac:(cbv; lia) dish_distinct) as (r & i & Hr & Hi & X). destruct Hr as [<-|[]].
  assert (I0 : i = 0%nat) by (cbn [res_dim diag] in Hi; lia). subst i.
  destruct (X v lambda errs qp [1; 0] HL) as [NE E]. destruct (len2 v LV) as (a & b & ->).
  assert (MR : mrows (qA qp) = 1%nat) by (unfold neq in NE; rewrite AR, NE; reflexivity).
  assert (NV : nv qp = 2%nat) by exact CL. rewrite NV in E.
  assert (JD : jac_dx diag [a; b] [1; 0] 0 = -1) by (deval; ring).
  rewrite JD in E. unfold Ae in E. cbn [Rsum] in E. unfold vget in E. cbn [nth] in E.
  specialize (Hy 0%nat ltac:(rewrite AC; cbv; lia)). rewrite MR in Hy, Hk. cbn [Rsum] in Hy. assert (k = 0%nat) by lia. subst k.
  assert (M : mget (qA qp) 0 0 = -1) by lra. rewrite M in Hy. lra.
Qed.

(** C93: from every feasible start within 1/8 of the minimiser, with lambda starting at 1/2: all points visited satisfy y = x, and the error
    falls by the factor 0.78 in every step. *)
Example C93_case : exists ldlt qr llt, forall eigs g vars, length vars = 2%nat -> distance vars origin <= 1 / 8 -> eq_l1_at dish_pr vars = 0 ->
  exists r, NLS_Solve ldlt qr llt eigs None (@None (unit -> NLSIteration R -> unit * bool)) damped_params dish_pr g vars tt = Ok r /\
    (forall info, In info (out_iterations (res_out r)) -> err_equality (it_errors_initial info) = 0) /\ eq_l1_at dish_pr (res_vars r) = 0 /\
    distance (res_vars r) origin <= (78 / 100) ^ successes (out_iterations (res_out r)) * (1 / 8).
Proof.
  destruct C93_exact_steps_exist as (ldlt & qr & llt & X). exists ldlt, qr, llt. intros eigs g vars LV HD HF.
  assert (WP : well_posed damped_params dish_pr vars) by (apply dish_well_posed; exact LV).
  destruct (linearise_total dish_pr vars 0 (wp_vars _ _ _ WP) (wp_index _ _ _ WP) (fun c Hc => proj1 (wp_cons _ _ _ WP c Hc)) (wp_dim _ _ _ WP))
    as (errs & qp & HL & _).
  assert (ST : exact_steps ldlt qr llt dish_pr).
  { apply (X damped_params dish_pr vars 0 errs qp WP dish_distinct dish_affine HL). intros _. split; [cbv; lia|]. apply (dish_rows _ _ _ _ HL LV). }
  assert (VC : value_consistent dish_pr) by (intros r [[<-|[]]|[<-|[]]] p; reflexivity).
  destruct (C93_linear_rate ldlt qr llt eigs unit None damped_params dish_pr g origin 1 (1 / 4) (1 / 2) (1 / 8) dish_minimiser ltac:(lra) ltac:(lra)
    eq_refl dish_affine dish_distinct dish_derivatives VC ST vars tt WP HD HF) as (_ & r & H & D & _).
  destruct (C93_affine_constraints ldlt qr llt eigs unit None damped_params dish_pr g origin 1 (1 / 4) (1 / 2) (1 / 8) dish_minimiser ltac:(lra) ltac:(lra)
    eq_refl dish_affine dish_distinct dish_derivatives VC ST vars tt WP HD HF) as (r' & H' & P).
  rewrite H in H'. apply Ok_inj in H'. subst r'. unfold local_outcome in P. cbv zeta in P. destruct P as (_ & P1 & P2 & _).
  exists r. split; [exact H|]. split; [exact P1|]. split; [exact P2|].
  assert (Q : linear_factor (1 / 2) (Rmax (n_lambda_initial damped_params) 0) = 2273 / 2948).
  { cbn [damped_params n_lambda_initial]. rewrite Rmax_left by lra. unfold linear_factor, mu. field. }
  rewrite Q in D. eapply Rle_trans; [exact D|]. apply Rmult_le_compat; [apply pow_le; lra|apply distance_nonneg|apply pow_incr; lra|exact HD].
Qed.
Example C93_case_start : eq_l1_at dish_pr [1 / 16; 1 / 16] = 0 /\ distance [1 / 16; 1 / 16] origin <= 1 / 8.
Proof.
  split.
  - rewrite dish_feasible. replace (1 / 16 - 1 / 16) with 0 by ring. apply Rabs_R0.
  - unfold distance, origin. cbn [length Rsum]. unfold vget. cbn [nth]. rewrite <- (sqrt_pow2 (1 / 8)) by lra. apply sqrt_le_1_alt. lra.
Qed.

(** Any accuracy: from every feasible start within 1/8 of the minimiser there are parameters that put the result within eps of it; the absolute
    tolerance is never met, since the cost is at least 1 / 8192. *)
Definition sharp_params (N : nat) (tol : R) : NLSParams R :=
  MkNLSParams (Z.of_nat N) 10%Z (1 / 1000000) (1 / 1000000000000) 0 tol 2%Z ARMIJO_BACKTRACK (8 / 10) 1 (101 / 100)
    (1 / 10) (1 / 2) (1 / 100) (1 / 10) (8 / 10) 1 0 false.
Lemma sharp_valid : forall N tol, 0 < tol -> nls_params_valid (sharp_params N tol).
Proof.
  intros N tol TP. constructor;
    cbn [sharp_params n_max_iterations n_max_qp_iterations n_termination_kkt_tolerance n_absolute_exit_tol n_relative_exit_tol
         n_absolute_first_derivative_tol n_max_line_search_iterations n_armijo_search_tau n_equality_penalty_initial
         n_equality_penalty_scale_factor n_equality_penalty_rho n_lambda_initial n_lambda_failure_init
         n_lambda_decrease_on_success n_lambda_decrease_on_restore n_max_lambda n_min_lambda]; try lia; try lra.
Qed.
Lemma dish_cost : forall x, 1 / 8192 <= cost_at dish_pr x.
Proof.
  intro x. rewrite cost_rn, dish_rdot. set (a := vget x 0).
  assert (V0 : rv x dish 0 = a) by (unfold rv, a; deval; reflexivity).
  assert (V1 : rv x dish 1 = 1 / 64 + a * a / 8) by (unfold rv, a; deval; reflexivity).
  rewrite V0, V1. pose proof (pow2_ge_0 a) as A. cbn [pow] in A. rewrite Rmult_1_r in A. nra.
Qed.
Example C93_any_accuracy_case : exists ldlt qr llt, forall eigs g vars eps, length vars = 2%nat -> distance vars origin <= 1 / 8 ->
  eq_l1_at dish_pr vars = 0 -> 0 < eps ->
  exists pa r, nls_params_valid pa /\
    NLS_Solve ldlt qr llt eigs None (@None (unit -> NLSIteration R -> unit * bool)) pa dish_pr g vars tt = Ok r /\
    distance (res_vars r) origin <= eps.
Proof.
  destruct C93_exact_steps_exist as (ldlt & qr & llt & X). exists ldlt, qr, llt. intros eigs g vars eps LV HD HF EP.
  assert (WP : well_posed damped_params dish_pr vars) by (apply dish_well_posed; exact LV).
  destruct (linearise_total dish_pr vars 0 (wp_vars _ _ _ WP) (wp_index _ _ _ WP) (fun c Hc => proj1 (wp_cons _ _ _ WP c Hc)) (wp_dim _ _ _ WP))
    as (errs & qp & HL & _).
  assert (ST : exact_steps ldlt qr llt dish_pr).
  { apply (X damped_params dish_pr vars 0 errs qp WP dish_distinct dish_affine HL). intros _. split; [cbv; lia|]. apply (dish_rows _ _ _ _ HL LV). }
  assert (VC : value_consistent dish_pr) by (intros r [[<-|[]]|[<-|[]]] p; reflexivity).
  destruct (C93_any_accuracy ldlt qr llt eigs unit None dish_pr g origin 1 (1 / 4) (1 / 2) (1 / 8) dish_minimiser ltac:(lra) ltac:(lra)
    eq_refl dish_affine dish_distinct dish_derivatives VC ST vars tt eps (1 / 2) HD HF EP ltac:(lra)) as (N & tol & TP & A).
  assert (SV : nls_params_valid (sharp_params N tol)) by (apply sharp_valid; exact TP).
  destruct (A (sharp_params N tol)) as (r & H & D).
  - destruct WP as [_ _ W1 W2 W3 W4]. constructor; try assumption. cbn [n_equality_penalty_initial sharp_params]. lra.
  - cbn [n_lambda_initial sharp_params]. lra.
  - cbn [n_max_iterations sharp_params]. lia.
  - cbn [n_absolute_first_derivative_tol sharp_params]. lra.
  - cbn [n_relative_exit_tol sharp_params]. rewrite Rmult_0_l. lra.
  - exists (sharp_params N tol), r. split; [exact SV|]. split; [exact H|]. destruct D as [D|[D|D]]; [exact D|exfalso|exfalso].
    + pose proof (dish_cost (res_vars r)) as C. cbn [n_absolute_exit_tol sharp_params] in D. lra.
    + pose proof (C35_termination_states _ _ _ _ _ _ _ _ _ _ _ _ H) as T. cbv zeta in T. destruct T as (_ & _ & _ & T).
      rewrite D in T. destruct T as (f & ini & info & s & CB & _). discriminate CB.
Qed.

(** C93 needs affine constraints: residual x and the curved constraint y = x^2. *)
Definition first_coordinate : residual R := MkRes 1 [0]%Z (fun p => [vget p 0]) (fun p => ([vget p 0], Mat 1 1 [[1]])).
Definition parabola : residual R := MkRes 1 [0; 1]%Z (fun p => [vget p 1 - vget p 0 * vget p 0])
  (fun p => ([vget p 1 - vget p 0 * vget p 0], Mat 1 2 [[-2 * vget p 0; 1]])).
Definition par_pr : Problem R := MkProblem 2%Z [first_coordinate] [] [parabola].

Ltac qeval := cbv [jac_dx gathered gidx Rsum vget mget vadd vscale ray combine map res_f res_fJ res_index snd fst nth Z.to_nat
  Pos.to_nat Pos.iter_op Init.Nat.add mdata length first_coordinate parabola fadd fmul R_ops f0].
Lemma par_rdot : forall f h, rdot par_pr f h = f first_coordinate 0%nat * h first_coordinate 0%nat.
Proof. intros. unfold rdot. cbn [par_pr pr_costs map Rlsum first_coordinate res_dim Rsum]. ring. Qed.
Lemma par_jac : forall a b u w, jv [a; b] [u; w] first_coordinate 0 = u /\ rv [a; b] first_coordinate 0 = a.
Proof. intros. unfold jv, rv. split; qeval; ring. Qed.
Lemma par_feasible : forall a b, eq_l1_at par_pr [a; b] = Rabs (b - a * a).
Proof. intros. unfold eq_l1_at. cbn [par_pr pr_eq map Rlsum parabola res_dim Rsum]. qeval. replace (0 + Rabs (b - a * a) + 0) with (Rabs (b - a * a)) by ring. reflexivity. Qed.
Lemma par_cost : forall a b, cost_at par_pr [a; b] = / 2 * a ^ 2.
Proof. intros. rewrite cost_rn, par_rdot. destruct (par_jac a b 0 0) as [_ ->]. ring. Qed.
Lemma par_tangent : forall a b u w, tangent par_pr [a; b] [u; w] <-> w = 2 * a * u.
Proof.
  intros a b u w. split.
  - intro T. specialize (T parabola (or_introl eq_refl) 0%nat ltac:(cbn [res_dim parabola]; lia)). revert T. qeval. intro T. lra.
  - intros -> r [<-|[]] k Hk. assert (K : k = 0%nat) by (cbn [res_dim parabola] in Hk; lia). subst k. qeval. ring.
Qed.
Lemma par_minimiser : small_residual_minimiser par_pr origin 1 0 1.
Proof.
  constructor; try lra; try reflexivity.
  - unfold origin. rewrite par_feasible. replace (0 - 0 * 0) with 0 by ring. apply Rabs_R0.
  - intros u LU _. destruct (len2 u LU) as (c & d & ->). rewrite par_rdot. unfold origin. destruct (par_jac 0 0 c d) as [_ ->]. ring.
  - intros u LU T. destruct (len2 u LU) as (c & d & ->). apply par_tangent in T. subst d.
    rewrite par_rdot. unfold origin. destruct (par_jac 0 0 c (2 * 0 * c)) as [-> _]. cbn [length Rsum]. unfold vget. cbn [nth]. right. ring.
  - intros x y u LX LY LU _ _. destruct (len2 x LX) as (a & b & ->). destruct (len2 y LY) as (a' & b' & ->). destruct (len2 u LU) as (c & d & ->).
    cbv zeta. rewrite par_rdot. destruct (par_jac a b c d) as [-> _]. destruct (par_jac a' b' c d) as [-> _]. right. ring.
Qed.
Lemma par_derivatives : derivatives_correct par_pr.
Proof.
  intros r [[<-|[]]|[<-|[]]] x u LX LU; destruct (len2 x LX) as (a & b & ->); destruct (len2 u LU) as (c & d & ->); intros k Hk; (split; [reflexivity|]).
  - assert (K : k = 0%nat) by (cbn [res_dim first_coordinate] in Hk; lia). subst k.
    eapply (poly_slope _ a _ 0). intro t. qeval. ring.
  - assert (K : k = 0%nat) by (cbn [res_dim parabola] in Hk; lia). subst k.
    eapply (poly_slope _ (b - a * a) _ (- (c * c))). intro t. qeval. ring.
Qed.
Lemma par_distinct : distinct_indices par_pr.
Proof.
  split; intros r [<-|[]].
  - constructor; [intros []|constructor].
  - constructor; [intros [X|[]]; discriminate|constructor; [intros []|constructor]].
Qed.
Lemma par_consistent : value_consistent par_pr.
Proof. intros r [[<-|[]]|[<-|[]]] p; reflexivity. Qed.
Lemma par_well_posed : forall pa vars, nls_params_valid pa -> 0 < n_equality_penalty_initial pa -> length vars = 2%nat -> well_posed pa par_pr vars.
Proof.
  intros pa vars PV PP LV. constructor; try exact PV; try exact PP; try exact LV.
  - reflexivity.
  - intros r [[<-|[]]|[<-|[]]] i Hi; cbn [pr_dimension par_pr]; [destruct Hi as [<-|[]]|destruct Hi as [<-|[<-|[]]]]; lia.
  - intros c [].
Qed.
(** Exact steps exist for this problem, too. *)
Lemma par_exact_steps : exact_steps exact_ldlt exact_qr exact_llt par_pr.
Proof.
  constructor.
  - split; [discriminate|]. intros _ v l e q _. split; [apply exact_qr_ok|apply exact_llt_ok].
  - discriminate.
  - intros _. split; [cbv; lia|]. intros v lambda errs qp LV HL. apply (proj2 (exact_qr_ok (qA qp))). intros y Hy k Hk.
    destruct (C24_linearised_qp _ _ _ _ _ par_distinct HL) as ((_ & _ & CL & AC & AR) & _).
    destruct (qp_rows par_pr 0 ltac:(cbv; lia) par_distinct) as (r & i & Hr & Hi & X). destruct Hr as [<-|[]].
    assert (I0 : i = 0%nat) by (cbn [res_dim parabola] in Hi; lia). subst i.
    destruct (X v lambda errs qp [0; 1] HL) as [NE E]. destruct (len2 v LV) as (a & b & ->).
    assert (MR : mrows (qA qp) = 1%nat) by (unfold neq in NE; rewrite AR, NE; reflexivity).
    assert (NV : nv qp = 2%nat) by exact CL. rewrite NV in E.
    assert (JD : jac_dx parabola [a; b] [0; 1] 0 = 1) by (qeval; ring).
    rewrite JD in E. unfold Ae in E. cbn [Rsum] in E. unfold vget in E. cbn [nth] in E.
    specialize (Hy 1%nat ltac:(rewrite AC; cbv; lia)). rewrite MR in Hy, Hk. cbn [Rsum] in Hy. assert (k = 0%nat) by lia. subst k.
    assert (M : mget (qA qp) 0 1 = 1) by lra. rewrite M in Hy. lra.
Qed.

(** All hypotheses of C93 but one hold for this problem and the minimiser 0, but from no feasible start (t, t^2) with t^2 at least the first order
    tolerance does the conclusion: the full step -(t, 2 t^2) removes all of the cost t^2 / 2, but leaves a violation of t^2, which the
    penalty does not allow. So the first step is not a full one, however close the start is to the minimiser. *)
Theorem C93_curved_constraint_refuted : exists ldlt qr llt,
  small_residual_minimiser par_pr origin 1 0 1 /\ distinct_indices par_pr /\ derivatives_correct par_pr /\ value_consistent par_pr /\
  exact_steps ldlt qr llt par_pr /\
  forall eigs (S : Type) (cb : option (S -> NLSIteration R -> S * bool)) (pa : NLSParams R) g t cs,
  nls_params_valid pa -> 1 / 2 <= n_equality_penalty_initial pa -> n_lambda_initial pa = 0 -> (1 <= n_max_iterations pa)%Z ->
  t <> 0 -> n_absolute_first_derivative_tol pa <= t ^ 2 ->
  well_posed pa par_pr [t; t ^ 2] /\ eq_l1_at par_pr [t; t ^ 2] = 0 /\
  forall r, NLS_Solve ldlt qr llt eigs None cb pa par_pr g [t; t ^ 2] cs = Ok r ->
    (forall info, nth_error (out_iterations (res_out r)) 0 = Some info -> forall e,
       ~ (it_step_result info = SS_SUCCESS /\ it_line_search_steps info = [MkStep 1 e])) /\
    ~ local_outcome pa par_pr origin 0 1 1 [t; t ^ 2] r.
Proof.
  exists exact_ldlt, exact_qr, exact_llt. splits; auto using par_minimiser, par_distinct, par_derivatives, par_consistent, par_exact_steps.
  intros eigs S cb pa g t cs PV PI LI MI T0 TT. assert (WP : well_posed pa par_pr [t; t ^ 2]) by (apply par_well_posed; auto; lra).
  split; [exact WP|]. assert (FX : eq_l1_at par_pr [t; t ^ 2] = 0).
  { rewrite par_feasible. replace (t ^ 2 - t * t) with 0 by ring. apply Rabs_R0. }
  split; [exact FX|]. intros r H. assert (TP : 0 < t ^ 2) by (pose proof (Rsqr_pos_lt _ T0) as Q; unfold Rsqr in Q; lra).
  assert (FIRST : forall info, nth_error (out_iterations (res_out r)) 0 = Some info ->
     it_step_result info <> FIRST_ORDER_SATISFIED /\ forall e, ~ (it_step_result info = SS_SUCCESS /\ it_line_search_steps info = [MkStep 1 e])).
  { intros info Hn.
    pose proof (proj1 (C33_penalty_never_decreases _ _ _ _ _ _ _ _ _ _ _ _ H) 0%nat info Hn) as [PEN _].
    destruct (solve_history _ _ _ _ _ _ _ _ _ _ _ _ H) as (sts & css & exs & A & _ & _ & _ & _ & HH & _).
    destruct (HH _ _ Hn) as (HI & _ & _). apply iterate_spec in HI. destruct HI as [_ HI]. rewrite A in HI.
    destruct (iteration_exact _ _ _ _ _ _ _ _ _ _ _ _ (eq_refl : pr_ineq par_pr = []) par_distinct (xs_factorizations _ _ _ _ par_exact_steps) HI)
      as (qp & dx & cand & HL & HC & HS & _ & LD & NV & FE & PSD & ST & DF & DE & EV & QF & OBJ).
    cbn [init_state ns_vars ns_lambda] in HL, QF, OBJ, HS. rewrite LI in *. rewrite Rmax_left in QF, OBJ by lra.
    pose proof (wp_idx par_pr pa _ [t; t ^ 2] WP eq_refl) as IX.
    pose proof (C25_linearisation_errors _ _ _ _ _ par_consistent HL) as CE. rewrite (eval_errors_R _ _ IX) in CE. apply Ok_inj in CE.
    assert (E0 : eq_l1 qp = 0) by (rewrite <- EV, <- CE; exact FX).
    assert (CF : err_f (it_errors_initial info) = / 2 * t ^ 2) by (rewrite <- CE; apply par_cost).
    assert (CQ : err_equality (it_errors_initial info) = 0) by congruence.
    pose proof (feasible_tangent qp dx E0 FE) as TA.
    assert (NV2 : nv qp = 2%nat) by exact NV. destruct (len2 dx ltac:(congruence)) as (d0 & d1 & ->).
    assert (D1 : d1 = 2 * t * d0) by (apply (par_tangent t (t ^ 2)); apply (tangent_qp _ _ _ _ _ [d0; d1] par_distinct HL); exact TA).
    assert (IX2 : forall r, In r (pr_costs par_pr) -> idx_ok r (length origin)) by (intros r0 Hr; apply (IX r0 (or_introl Hr))).
    assert (D0 : d0 = - t).
    { assert (TV : qp_tangent qp [1; 2 * t]) by (apply (tangent_qp _ _ _ _ _ [1; 2 * t] par_distinct HL); apply par_tangent; ring).
      change (pdim par_pr) with (length origin) in QF, OBJ. rewrite <- CE in OBJ. cbn [err_f] in OBJ.
      pose proof (normal_equations par_pr origin par_consistent qp [t; t ^ 2] [d0; d1] 0 IX2 LD NV [1; 2 * t] eq_refl (ST _ TV) QF OBJ) as N.
      rewrite par_rdot in N. destruct (par_jac t (t ^ 2) d0 d1) as [J0 R0]. destruct (par_jac t (t ^ 2) 1 (2 * t)) as [J1 _].
      rewrite J0, R0, J1 in N. lra. }
    assert (QD : gdot qp [d0; d1] = - t ^ 2).
    { pose proof (ST _ TA) as Q. change (bform qp [d0; d1] [d0; d1]) with (qform qp [d0; d1]) in Q. rewrite QF in Q.
      rewrite (curvature_rdot par_pr), par_rdot in Q. destruct (par_jac t (t ^ 2) d0 d1) as [J0 _]. rewrite J0, D0 in Q. rewrite D0. rewrite D0 in *. lra. }
    rewrite QD in DF. rewrite E0, Ropp_0 in DE. split.
    - intro SR. rewrite SR in HS. destruct (C28_line_search_log None (ls_of pa par_pr (init_state pa [t; t ^ 2]) info [d0; d1]) (npv_ls _ PV) _ _ _ HS) as (_ & _ & _ & _ & ini & last & _ & _ & _ & RES).
      destruct RES as (_ & _ & STA). apply stationary_test in STA. rewrite DF, DE in STA.
      pose proof (Rmax_l (Rabs (- t ^ 2)) (Rabs 0)) as Q. rewrite Rabs_Ropp, Rabs_pos_eq in Q by lra. rewrite Rabs_Ropp, (Rabs_pos_eq (t ^ 2)) in STA by lra. lra.
    - intros e [SR SE]. rewrite SR, SE in HS.
      destruct (C27_success_passed_armijo None (ls_of pa par_pr (init_state pa [t; t ^ 2]) info [d0; d1]) (npv_ls _ PV) _ _ HS) as (ini & last & EL & AR & _ & _ & RE & EE).
      assert (last = MkStep 1 e) by (apply (app_inj_tail [] ini (MkStep 1 e) last) in EL; destruct EL; congruence). subst last.
      cbn [li_penalty li_pre li_dd li_c1 li_vars li_dx li_pr ls_of step_alpha step_errors init_state ns_vars] in AR, RE, EE.
      unfold RetractCandidateVars in RE. cbn [length Nat.eqb ub_unless bind] in RE. apply Ok_inj in RE.
      assert (CA : cand = [0; - t ^ 2]).
      { rewrite <- RE. cbn [vadd vscale combine map fadd fmul R_ops fst snd]. rewrite D1, D0. f_equal; [ring|]. f_equal. ring. }
      rewrite CA, eval_errors_R in EE by (intros r0 Hr; exact (wp_idx par_pr pa _ [0; - t ^ 2] WP eq_refl r0 Hr)). apply Ok_inj in EE.
      rewrite par_cost, par_feasible in EE. subst e.
      match type of AR with fleb ?a ?b = true => destruct (R_fleb a b) as [B|]; [|discriminate AR] end.
      unfold Errors_Total, DD_Total in B. cbn [err_f err_equality fadd fmul R_ops] in B. rewrite CF, CQ, DF, DE, R_1em4 in B.
      replace (- t ^ 2 - 0 * 0) with (- t ^ 2) in B by ring. rewrite Rabs_Ropp, Rabs_pos_eq in B by lra.
      assert (1 / 2 * t ^ 2 <= it_penalty info * t ^ 2) by (apply Rmult_le_compat_r; lra). lra. }
  split; [intros info Hn; apply (FIRST info Hn)|]. intro LO. unfold local_outcome in LO. cbv zeta in LO.
  destruct LO as (P1 & _ & _ & _ & P2 & P3 & _).
  destruct (out_iterations (res_out r)) as [|info l] eqn:EL.
  - pose proof (C35_termination_states _ _ _ _ _ _ _ _ _ _ _ _ H) as T35. cbv zeta in T35. destruct T35 as (_ & _ & _ & T35).
    destruct P2 as [P2|[P2|P2]].
    + unfold satisfied in P2. rewrite EL in T35. destruct (out_termination_state (res_out r)); try (destruct P2 as [P2|[P2|P2]]; discriminate P2); destruct T35 as (ini & ? & X & _); destruct ini; discriminate X.
    + specialize (P3 P2). cbn [successes] in P3. lia.
    + rewrite P2, EL in T35. destruct T35 as (? & ini & ? & ? & _ & X & _). destruct ini; discriminate X.
  - destruct (FIRST info eq_refl) as [F1 F2]. destruct (P1 0%nat info eq_refl) as (_ & [[SR (e & E)]|[SR _]]); [exact (F2 e (conj SR E))|exact (F1 SR)].
Qed.
Example C93_curved_case : nls_params_valid (default_NLSParams : NLSParams R) /\ 1 / 2 <= n_equality_penalty_initial (default_NLSParams : NLSParams R) /\
  n_lambda_initial (default_NLSParams : NLSParams R) = 0 /\ (1 <= n_max_iterations (default_NLSParams : NLSParams R))%Z /\
  n_absolute_first_derivative_tol (default_NLSParams : NLSParams R) <= (1 / 100) ^ 2.
Proof.
  split; [exact ex_params_valid|].
  cbn [n_equality_penalty_initial n_lambda_initial n_max_iterations n_absolute_first_derivative_tol default_NLSParams flit f0 f1 R_ops].
  unfold lit_1em6, Q2R. cbn [Qnum Qden]. splits; try lia; try lra.
Qed.
