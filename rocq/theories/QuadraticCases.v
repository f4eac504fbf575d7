(** Concrete case for C91: the Rosenbrock function near its minimum (see the index in DESIGN.md, section 4.3). *)
From Coq Require Import String List Bool Arith ZArith QArith Reals Lra Lia.
From Verif Require Import Scalar Outcome LinAlg Structs Constraint QPModel NullSpace Residual Nonlinear RInst Spec
  Props_Constraint QPBlocks QPAlgebra ResProps LinProps MeritProps LSProps NLSTrace NLSProps NLSReal NLSTotal
  Optimality QPRegular NSProps Examples Examples2 NLSRate CasesMore QPStep NLSQuadratic NLSQuadraticLocal.
Import ListNotations.
Local Open Scope outcome_scope.
Local Open Scope string_scope.
Local Open Scope list_scope.
Local Open Scope R_scope.

Definition ros_min : list R := [3; 9].
Definition ros_radius : R := 1 / 200000.

Lemma ros_near : forall a b, distance [a; b] ros_min <= ros_radius -> - ros_radius <= a - 3 <= ros_radius.
Proof.
  intros a b H. unfold ros_radius in *. pose proof (distance_nonneg [a; b] ros_min) as P.
  pose proof (pow_incr _ _ 2 (conj P H)) as Q. rewrite distance_sq in Q. unfold dist2 in Q. cbn [length ros_min Rsum vget nth] in Q.
  unfold vget in Q. cbn [nth] in Q.
  assert (X : Rabs (a - 3) <= 1 / 200000).
  { apply Rsqr_incr_0_var; [|lra]. rewrite <- Rsqr_abs. unfold Rsqr. pose proof (pow2_ge_0 (b - 9)). lra. }
  pose proof (Rle_abs (a - 3)). pose proof (Rle_abs (- (a - 3))) as Y. rewrite Rabs_Ropp in Y. lra.
Qed.

Lemma ros_basin : quadratic_basin (free_pr ros) ros_min ros_radius 10 (1 / 9) 62.
Proof.
  assert (N0 : forall a b, gathered ros [a; b] = [a; b]) by reflexivity.
  constructor; try (unfold ros_radius; lra).
  - reflexivity.
  - intros x LX H. destruct (len2 x LX) as (a & b & ->). rewrite distance_sq. unfold dist2, lin_cost.
    cbn [free_pr pr_costs map Rlsum res_dim ros]. unfold lin_residual. rewrite N0. cbn [ros_min length Rsum res_index ros res_fJ fst snd].
    unfold gidx, mget, ros_f, ros_J. cbn [nth Z.to_nat mdata res_index ros]. unfold vget. cbn [nth ros_min].
    change (Pos.to_nat 1) with 1%nat. cbn [nth].
    assert (0 <= ((a - 3) ^ 2 + (b - 9) ^ 2) ^ 2 - ((a - 3) ^ 2) ^ 2).
    { pose proof (pow2_ge_0 (a - 3)). pose proof (pow2_ge_0 (b - 9)). nra. }
    match goal with |- ?l <= ?r => apply Rle_trans with (/ 2 * (10 * (a - 3) ^ 2) ^ 2); [right; ring|] end. nra.
  - intros x LX H v. destruct (len2 x LX) as (a & b & ->). pose proof (ros_near _ _ H) as NA. unfold lin_curvature.
    cbn [free_pr pr_costs map Rlsum res_dim ros]. unfold lin_residual. rewrite N0. cbn [ros_min length Rsum res_index ros res_fJ fst snd].
    unfold gidx, mget, ros_f, ros_J. cbn [nth Z.to_nat mdata res_index ros]. unfold vget. cbn [nth ros_min].
    change (Pos.to_nat 1) with 1%nat. unfold ros_radius in NA.
    set (v0 := v 0%nat). set (v1 := v 1%nat). set (w := v1 - 2 * a * v0).
    assert (A2 : a ^ 2 <= 19 / 2) by nra.
    assert (X : v1 ^ 2 <= 2 * w ^ 2 + 76 * v0 ^ 2).
    { replace v1 with (w + 2 * a * v0) by (unfold w; ring). pose proof (pow2_ge_0 (w - 2 * a * v0)). pose proof (pow2_ge_0 v0). nra. }
    match goal with |- ?l <= ?r => apply Rle_trans with (v0 ^ 2 + 100 * w ^ 2); [|right; unfold w; ring] end.
    pose proof (pow2_ge_0 v0). pose proof (pow2_ge_0 w). lra.
  - intros x LX H. destruct (len2 x LX) as (a & b & ->). pose proof (ros_near _ _ H) as NA. 
    replace ((62 * distance [a; b] ros_min) ^ 2) with (62 ^ 2 * distance [a; b] ros_min ^ 2) by ring. rewrite distance_sq. unfold dist2, cost_at.
    cbn [free_pr pr_costs map Rlsum res_dim ros res_f]. rewrite N0. cbn [ros_min length Rsum]. unfold ros_f, vget. cbn [nth ros_min].
    unfold ros_radius in NA.
    set (p := a - 3) in *. set (q := b - 9). replace (b - a * a) with (q - p * (p + 6)) by (unfold p, q; ring).
    assert (C : (p + 6) ^ 2 <= 3701 / 100) by nra. set (c := p + 6) in *.
    assert (X : (q - p * c) ^ 2 <= (1 + c ^ 2) * (p ^ 2 + q ^ 2)) by (pose proof (pow2_ge_0 (p + q * c)); nra).
    pose proof (pow2_ge_0 p). pose proof (pow2_ge_0 q). nra.
Qed.

(** C91: with the default parameters, from anywhere in that ball, Solve returns after at most one iteration, within 3e-9 of the minimum. *)
Example C91_case : forall eigs g vars, length vars = 2%nat -> distance vars ros_min <= ros_radius ->
  exists r, NLS_Solve ldlt2 ns_ex_qr ns_ex_llt eigs None (@None (unit -> NLSIteration R -> unit * bool)) default_NLSParams (free_pr ros) g vars tt = Ok r /\
    satisfied (out_termination_state (res_out r)) /\ (length (out_iterations (res_out r)) <= 1)%nat.
Proof.
  intros eigs g vars LV BALL. assert (HC : ex_cost ros) by (left; reflexivity).
  assert (WP : well_posed default_NLSParams (free_pr ros) vars).
  { apply free_well_posed; auto; [exact ex_params_valid|cbn [default_NLSParams n_equality_penalty_initial f1 R_ops]; lra]. }
  destruct (C91_local_quadratic_convergence ldlt2 ns_ex_qr ns_ex_llt eigs (@None (unit -> NLSIteration R -> unit * bool)) default_NLSParams (free_pr ros) g
    ros_min ros_radius 10 (1 / 9) 62 ros_basin eq_refl eq_refl (free_distinct _ HC) ldlt2_inverse (free_consistent _ HC) ldlt2_singular vars tt WP) as (r & H & P).
  - cbn [default_NLSParams n_lambda_initial f0 R_ops]. lra.
  - exact BALL.
  - cbv zeta in P. destruct P as (_ & _ & _ & T & _ & N). exists r. split; [exact H|].
    assert (D0 : 0 <= distance vars ros_min) by apply distance_nonneg.
    destruct (N 1%nat (le_n 1)) as [L X].
    { cbn [squared_bound default_NLSParams n_absolute_exit_tol flit R_ops]. unfold Q2R. cbn [Qnum Qden]. unfold ros_radius in BALL.
      set (d := distance vars ros_min) in *. assert (D2 : 0 <= d ^ 2 <= (1 / 200000) ^ 2) by (split; [apply pow2_ge_0|apply pow_incr; lra]).
      assert (0 <= d ^ 2 * d ^ 2 <= (1 / 200000) ^ 2 * (1 / 200000) ^ 2) by (split; [apply Rmult_le_pos; apply D2|apply Rmult_le_compat; lra]).
      replace (/ 2 * (62 * (10 / (1 / 9) * d ^ 2)) ^ 2) with (/ 2 * (62 * 90) ^ 2 * (d ^ 2 * d ^ 2)) by field. lra. }
    specialize (X ltac:(cbn; lia)). split; [|exact L].
    destruct T as [T|[T|T]]; [exact T|congruence|].
    pose proof (C35_termination_states _ _ _ _ _ _ _ _ _ _ _ _ H) as T35. cbv zeta in T35. destruct T35 as (_ & _ & _ & T35).
    rewrite T in T35. destruct T35 as (f & ? & ? & ? & E & _). discriminate.
Qed.
(** The ball contains other points than the minimum, and a start for which the bound after one step is about 2e-9. *)
Example C91_case_start : distance [3 + 3 / 1000000; 9 + 4 / 1000000] ros_min = ros_radius /\
  squared_bound (10 / (1 / 9)) ros_radius 1 = 9 / 4000000000.
Proof.
  split.
  - unfold distance, ros_radius. cbn [ros_min length Rsum]. unfold vget, ros_min. cbn [nth].
    replace (0 + (3 + 3 / 1000000 - 3) ^ 2 + (9 + 4 / 1000000 - 9) ^ 2) with ((1 / 200000) ^ 2) by field. apply sqrt_pow2. lra.
  - unfold ros_radius. cbn [squared_bound]. field.
Qed.

(** C91, every regular zero: the hypotheses hold for the minimum of the Rosenbrock function. *)
Lemma ros_lipschitz : jacobian_lipschitz (free_pr ros) ros_min 1 20.
Proof.
  intros r Hr x y u k LX LY LU _ _ Hk. cbn [free_pr pr_costs] in Hr. destruct Hr as [<-|[]]. cbn [ros res_dim] in Hk.
  destruct (len2 x LX) as (a & b & ->). destruct (len2 y LY) as (c & d & ->). destruct (len2 u LU) as (p & q & ->).
  unfold jac_dx. replace (gathered ros [a; b]) with [a; b] by reflexivity. replace (gathered ros [c; d]) with [c; d] by reflexivity.
  unfold distance. cbn [ros_min length Rsum res_index ros res_fJ fst snd].
  unfold gidx, mget, ros_f, ros_J. cbn [nth Z.to_nat mdata res_index ros]. unfold vget. cbn [nth ros_min].
  change (Pos.to_nat 1) with 1%nat. cbn [nth].
  assert (A : Rabs (a - c) <= sqrt (0 + (a - c) ^ 2 + (b - d) ^ 2)).
  { rewrite <- sqrt_Rsqr_abs. apply sqrt_le_1_alt. unfold Rsqr. pose proof (pow2_ge_0 (b - d)). lra. }
  assert (B : Rabs p <= sqrt (0 + p ^ 2 + q ^ 2)).
  { rewrite <- sqrt_Rsqr_abs. apply sqrt_le_1_alt. unfold Rsqr. pose proof (pow2_ge_0 q). lra. }
  pose proof (Rabs_pos (a - c)). pose proof (Rabs_pos p).
  assert (AB : Rabs (a - c) * Rabs p <= sqrt (0 + (a - c) ^ 2 + (b - d) ^ 2) * sqrt (0 + p ^ 2 + q ^ 2)) by (apply Rmult_le_compat; assumption).
  destruct k as [|[|k]]; [| |lia]; cbn [nth].
  - match goal with |- Rabs ?e <= _ => replace e with 0 by ring end. rewrite Rabs_R0.
    assert (0 <= Rabs (a - c) * Rabs p) by (apply Rmult_le_pos; assumption). lra.
  - match goal with |- Rabs ?e <= _ => replace e with ((-20) * ((a - c) * p)) by ring end. rewrite !Rabs_mult.
    replace (Rabs (-20)) with 20 by (rewrite Rabs_left; lra). lra.
Qed.
Lemma ros_regular_zero : regular_zero (free_pr ros) ros_min.
Proof.
  split.
  - unfold cost_at. cbn [free_pr pr_costs map Rlsum res_dim ros res_f]. replace (gathered ros ros_min) with ros_min by reflexivity.
    cbn [Rsum]. unfold ros_f, ros_min, vget. cbn [nth]. ring.
  - intros u LU H i Hi. destruct (len2 u LU) as (p & q & ->).
    pose proof (H ros 0%nat (or_introl eq_refl) ltac:(cbn; lia)) as H0. pose proof (H ros 1%nat (or_introl eq_refl) ltac:(cbn; lia)) as H1. revert H0 H1.
    unfold jac_dx. replace (gathered ros ros_min) with ros_min by reflexivity. cbn [length Rsum res_index ros res_fJ fst snd].
    unfold gidx, mget, ros_f, ros_J. cbn [nth Z.to_nat mdata res_index ros]. unfold vget. cbn [nth ros_min].
    change (Pos.to_nat 1) with 1%nat. cbn [nth]. intros.
    destruct i as [|[|i]]; [| |cbn in Hi; lia]; cbn [nth]; lra.
Qed.
(** With the default parameters and the factorisation of the case above, the ball and the bound exist for that minimum. *)
Example C91_case_ball : exists rho N, 0 < rho /\ forall eigs g vars, length vars = 2%nat -> distance vars ros_min <= rho ->
  exists r, NLS_Solve ldlt2 ns_ex_qr ns_ex_llt eigs None (@None (unit -> NLSIteration R -> unit * bool)) default_NLSParams (free_pr ros) g vars tt = Ok r /\
    (length (out_iterations (res_out r)) <= N)%nat.
Proof.
  assert (HC : ex_cost ros) by (left; reflexivity).
  assert (WP : well_posed default_NLSParams (free_pr ros) ros_min).
  { apply free_well_posed; auto; [exact ex_params_valid|cbn [default_NLSParams n_equality_penalty_initial f1 R_ops]; lra]. }
  destruct (C91_converges_from_nearby default_NLSParams (free_pr ros) ros_min 1 20 WP eq_refl eq_refl (free_distinct _ HC) (free_derivatives _ HC)
    (free_consistent _ HC) ros_regular_zero ltac:(lra) ltac:(lra) ros_lipschitz ltac:(cbn [default_NLSParams n_lambda_initial f0 R_ops]; lra))
    as (rho & K & N & RP & _ & _ & H).
  exists rho, N. split; [exact RP|]. intros eigs g vars LV HD.
  destruct (H ldlt2 ns_ex_qr ns_ex_llt eigs unit (@None (unit -> NLSIteration R -> unit * bool)) g vars tt ldlt2_inverse ldlt2_singular LV HD) as (r & E & P).
  exists r. split; [exact E|apply P].
Qed.
