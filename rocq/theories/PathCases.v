(** Concrete cases for C89. *)
From Coq Require Import String List Bool Arith ZArith QArith Reals Lra Lia.
From Verif Require Import Scalar Outcome LinAlg Structs Constraint QPModel RInst Spec
  Props_Constraint QPBlocks QPAlgebra QPNewton QPAlpha QPStep QPTrace QPInit QPSolve QPIter Optimality NLSInequality QPPath Examples CasesQP.
Import ListNotations.
Local Open Scope outcome_scope.
Local Open Scope string_scope.
Local Open Scope list_scope.
Local Open Scope R_scope.

(** minimise 1/2 |x|^2 - x0 - x1 subject to x0 >= 0, from x = (2, 1), s = 2, z = 1 (so mu = 2), with the default tolerances 1e-9
    and 1e-6, sigma = 3/4 = 1 - 1 / (4 sqrt 1) and at most [n] iterations. *)
Definition path_st : ip_solver R :=
  MkIP (Some ex_qp) (MkDims 2 1 0) [2; 1; 2; 1] [0; 0; 0; 0] (Mat 2 2 [[1; 0]; [0; 1]]) [0; 0; 0; 0] [0; 0; 0; 0].
Definition path_params (n : Z) (strat : BarrierStrategy) : IPParams R :=
  MkIPParams 1 (3 / 4) (/ 1000000000) (/ 1000000) n strat false USER_PROVIDED true.

Lemma path_setting : forall n strat, (0 < n)%Z -> strat <> PREDICTOR_CORRECTOR ->
  short_step_setting ldlt2 (path_params n strat) ex_qp path_st /\ first_mu (path_params n strat) ex_qp path_st = 2.
Proof.
  intros n strat Hn NP.
  assert (FM : first_mu (path_params n strat) ex_qp path_st = 2).
  { unfold first_mu, path_params, complementarity, nineq, s_block, z_block, sblk, zblk, vseg, vget, tsize.
    cbn [p_initialize_mu_with_complementarity ex_qp qcons length path_st ip_vars ip_dims dN dM dK Nat.add tsize Nat.sub skipn firstn Rsum nth INR]. field. }
  split; [|exact FM]. constructor; try rewrite FM.
  - exact ex_qp_wf.
  - exact ex_qp_psd.
  - unfold nineq. cbn. lia.
  - exact ldlt2_inverse.
  - exact ldlt2_factors_ex_qp.
  - unfold ip_params_valid, path_params. cbn [p_initial_mu p_sigma p_termination_kkt_tol p_max_iterations fltb fleb f0 f1 R_ops].
    splits; try exact Hn; match goal with |- Rltb ?a ?b = true => destruct (Rltb_spec a b) | |- Rleb ?a ?b = true => destruct (Rleb_spec a b) end; try reflexivity; lra.
  - reflexivity.
  - exact NP.
  - change (INR (nineq ex_qp)) with 1. rewrite sqrt_1. cbn [path_params p_sigma]. lra.
  - constructor; reflexivity.
  - unfold strictly_feasible, interior, kkt_dual, kkt_eq, kkt_ineq, nv, neq, nineq, Gs, cv, ca, cb, con, mget, x_block, s_block, y_block, z_block, xblk, sblk, yblk, zblk, vseg, vget, tsize.
    cbn [ex_qp qc qb qcons qG mdata length path_st ip_vars ip_dims dN dM dK Nat.add tsize Nat.sub skipn firstn].
    splits.
    + intros m Hm. assert (m = 0)%nat by lia. subst m. cbn [nth]. lra.
    + intros i Hi. destruct i as [|[|i]]; [| |lia]; cbn [Rsum nth Nat.leb lvar la Z.to_nat Nat.eqb]; ring.
    + intros k Hk. lia.
    + intros m Hm. assert (m = 0)%nat by lia. subst m. cbn [nth lvar la lb Z.to_nat]. ring.
  - unfold centred, nineq, s_block, z_block, sblk, zblk, vseg, vget, tsize.
    cbn [ex_qp qcons length path_st ip_vars ip_dims dN dM dK Nat.add tsize Nat.sub skipn firstn Rsum nth]. lra.
Qed.

(** 70 iterations (FIXED_DECREASE), respectively 110 (COMPLEMENTARITY, whose rate is 5/6), are enough for the default tolerances; the
    objective of the result is then within 1e-6 of the minimum, -1, attained at (1, 1). *)
Example C89_case :
  (exists st' out, IP_Solve ldlt2 (path_params 71 FIXED_DECREASE) path_st = Ok (st', out) /\ qp_termination_state out = SATISFIED_KKT_TOL /\
     (length (qp_iterations out) <= 71)%nat /\ Forall full_step (qp_iterations out) /\ objective ex_qp (x_block st') <= - 1 + / 1000000) /\
  (exists st' out, IP_Solve ldlt2 (path_params 111 COMPLEMENTARITY) path_st = Ok (st', out) /\ qp_termination_state out = SATISFIED_KKT_TOL /\
     (length (qp_iterations out) <= 111)%nat /\ Forall full_step (qp_iterations out) /\ objective ex_qp (x_block st') <= - 1 + / 1000000).
Proof.
  assert (F : eq_feasible ex_qp [1; 1] /\ ineq_feasible ex_qp [1; 1] /\ objective ex_qp [1; 1] = - 1).
  { unfold eq_feasible, ineq_feasible, objective, qform, kkt_eq, nv, neq, nineq, Gs, cv, ca, cb, con, mget, vget.
    cbn [ex_qp qc qb qcons qG mdata length Rsum nth Nat.leb]. splits.
    - intros k Hk. lia.
    - intros m Hm. assert (m = 0)%nat by lia. subst m. cbn [nth lvar la lb Z.to_nat]. lra.
    - lra. }
  destruct F as (F1 & F2 & F3).
  split.
  - destruct (path_setting 71 FIXED_DECREASE ltac:(lia) ltac:(discriminate)) as [S M0].
    destruct (C89_short_steps_converge _ _ _ _ S 70) as (st' & out & A1 & A2 & A3 & A4 & _ & A5); rewrite ?M0; unfold rate;
      cbn [path_params p_barrier_strategy p_sigma p_termination_complementarity_tol p_termination_kkt_tol p_max_iterations pow].
    + lra.
    + lra.
    + lia.
    + exists st', out. splits; auto. specialize (A5 _ F1 F2). rewrite F3 in A5. change (INR (nineq ex_qp)) with 1 in A5.
      cbn [path_params p_termination_complementarity_tol] in A5. lra.
  - destruct (path_setting 111 COMPLEMENTARITY ltac:(lia) ltac:(discriminate)) as [S M0].
    assert (RE : rate (path_params 111 COMPLEMENTARITY) ex_qp = 5 / 6).
    { unfold rate. change (INR (nineq ex_qp)) with 1. cbn [path_params p_barrier_strategy p_sigma]. field. }
    destruct (C89_short_steps_converge _ _ _ _ S 110) as (st' & out & A1 & A2 & A3 & A4 & _ & A5); rewrite ?M0, ?RE;
      cbn [path_params p_termination_complementarity_tol p_termination_kkt_tol p_max_iterations pow].
    + lra.
    + lra.
    + lia.
    + exists st', out. splits; auto. specialize (A5 _ F1 F2). rewrite F3 in A5. change (INR (nineq ex_qp)) with 1 in A5.
      cbn [path_params p_termination_complementarity_tol] in A5. lra.
Qed.

(** The hypotheses of the other two theorems. *)
Example C89_converges_case : exists N, forall n, (Z.of_nat N < n)%Z ->
  exists st' out, IP_Solve ldlt2 (path_params n COMPLEMENTARITY) path_st = Ok (st', out) /\
    qp_termination_state out = SATISFIED_KKT_TOL /\ (length (qp_iterations out) <= N + 1)%nat.
Proof.
  destruct (path_setting 1 COMPLEMENTARITY ltac:(lia) ltac:(discriminate)) as [S M0].
  destruct (C89_converges _ _ _ _ S) as [N HN].
  - unfold rate. change (INR (nineq ex_qp)) with 1. cbn [path_params p_barrier_strategy p_sigma]. lra.
  - cbn [path_params p_termination_complementarity_tol]. lra.
  - exists N. exact HN.
Qed.
Example C89_iterations_case : p_barrier_strategy (path_params 1 FIXED_DECREASE) = FIXED_DECREASE /\
  p_sigma (path_params 1 FIXED_DECREASE) = 1 - 1 / (4 * sqrt (INR (nineq ex_qp))) /\ forall tol, 0 < tol ->
  exists N, 4 * sqrt (INR (nineq ex_qp)) * ln (5 / 4 * 2 / tol) <= INR N.
Proof.
  splits; [reflexivity| |].
  - change (INR (nineq ex_qp)) with 1. rewrite sqrt_1. cbn [path_params p_sigma]. lra.
  - intros tol _. set (a := 4 * sqrt (INR (nineq ex_qp)) * ln (5 / 4 * 2 / tol)). exists (Z.to_nat (up a)).
    rewrite INR_IZR_INZ. pose proof (proj1 (archimed a)) as UP. destruct (Z_le_gt_dec 0 (up a)).
    + rewrite Z2Nat.id by lia. lra.
    + assert (IZR (up a) <= 0) by (apply IZR_le; lia). assert (0 <= IZR (Z.of_nat (Z.to_nat (up a)))) by (apply IZR_le; lia). lra.
Qed.
