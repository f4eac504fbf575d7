(** Concrete executions that meet the hypotheses of the binary64 theorems (FloatQP.v, FloatNLS.v). *)
From Coq Require Import String List Bool Arith ZArith QArith Reals Lra Lia.
From Flocq Require Import Core BinarySingleNaN.
From Verif Require Import Scalar Outcome LinAlg Structs Constraint QPModel NullSpace Residual Nonlinear
  QPBlocks LinProps NLSTrace FloatInst FloatProps FloatQP FloatNLS FloatRun.
Import ListNotations.
Local Open Scope list_scope.

Lemma ok_of_test : forall (A : Type) (o : outcome A) (t : A -> bool),
  match o with Ok a => t a | _ => false end = true -> exists a, o = Ok a /\ t a = true.
Proof. intros A [a|w|e] t H; try discriminate. eauto. Qed.

(** C32, C33, C34 in binary64: the first guess of TestRosenbrock is solved, with several successful steps;
    the hypotheses of the theorems hold, and the theorems apply to this execution. *)
Example C32_binary64_case :
  value_consistent ros_pr /\ pr_eq ros_pr = [] /\
  exists r, NLSTrace.solve inverse qr_d llt_d eig_d None no_cb (params 5 1 2 (d lit_1em6)) ros_pr g_d (pt (-5) (-3)) tt = Ok r /\
    (2 <= length (out_iterations (res_out r)))%nat /\ forallb (fun i => match it_step_result i with SS_SUCCESS => true | _ => false end) (out_iterations (res_out r)) = true.
Proof.
  split; [|split; [reflexivity|]].
  - intros r [[<-|[]]|[]] p. reflexivity.
  - destruct (ok_of_test _ (NLSTrace.solve inverse qr_d llt_d eig_d None no_cb (params 5 1 2 (d lit_1em6)) ros_pr g_d (pt (-5) (-3)) tt)
      (fun r => Nat.leb 2 (length (out_iterations (res_out r))) && forallb (fun i => match it_step_result i with SS_SUCCESS => true | _ => false end) (out_iterations (res_out r)))) as (r & E & T).
    + vm_compute. reflexivity.
    + exists r. apply andb_true_iff in T. destruct T as [T1 T2]. apply Nat.leb_le in T1. auto.
Qed.

(** C33, C34: the sphere problem with equality constraints, where lambda starts at 0.001 and the penalty changes. *)
Example C33_binary64_case :
  is_finite (n_min_lambda params_sph) = true /\ is_finite (n_max_lambda params_sph) = true /\
  exists r, NLSTrace.solve inverse qr_d llt_d eig_d None no_cb params_sph sph g_d (map d [5; 7; -3; -8; 2; -1]%Q) tt = Ok r /\
    existsb (fun i => Bltb (n_equality_penalty_initial params_sph) (it_penalty i)) (out_iterations (res_out r)) = true /\
    existsb (fun i => Bltb (it_lambda i) (n_lambda_initial params_sph)) (out_iterations (res_out r)) = true.
Proof.
  split; [vm_compute; reflexivity|]. split; [vm_compute; reflexivity|].
  destruct (ok_of_test _ (NLSTrace.solve inverse qr_d llt_d eig_d None no_cb params_sph sph g_d (map d [5; 7; -3; -8; 2; -1]%Q) tt)
      (fun r => existsb (fun i => Bltb (n_equality_penalty_initial params_sph) (it_penalty i)) (out_iterations (res_out r)) &&
                existsb (fun i => Bltb (it_lambda i) (n_lambda_initial params_sph)) (out_iterations (res_out r)))) as (r & E & T).
  - vm_compute. reflexivity.
  - exists r. apply andb_true_iff in T. destruct T as [T1 T2]. auto.
Qed.

(** A computable sufficient condition for [tame]. *)
Definition tameb (v dv : double) : bool :=
  is_finite v && is_finite dv && Bleb (ddiv (dofZ 1) (dofZ (2 ^ 50))) v && Bleb (Babs dv) (dofZ (2 ^ 50)).
Local Open Scope R_scope.
Lemma tameb_tame : forall v dv, tameb v dv = true -> tame v dv.
Proof.
  intros v dv H. unfold tameb in H. rewrite !andb_true_iff in H. destruct H as [[[Fv Fd] L] U].
  destruct (dofZ_exact 1 ltac:(reflexivity)) as [F1 E1]. destruct (dofZ_exact (2 ^ 50) ltac:(reflexivity)) as [F2 E2].
  assert (P50 : IZR (2 ^ 50) = bpow radix2 50) by reflexivity. rewrite P50 in E2. pose proof (bpow_gt_0 radix2 50) as G50.
  pose proof (ddiv_approx _ _ F1 F2 ltac:(rewrite E2; lra)) as A. rewrite E1, E2 in A.
  assert (R : rnd (1 / bpow radix2 50) = bpow radix2 (-50)).
  { replace (1 / bpow radix2 50) with (bpow radix2 (-50)) by (change (-50)%Z with (- (50))%Z; rewrite bpow_opp; field; lra).
    apply rnd_fmt, fmt_bpow; lia. }
  pose proof big_gt_1 as BG. pose proof (bpow_gt_0 radix2 (-50)) as G.
  assert (B1 : bpow radix2 (-50) < 1) by (apply (bpow_lt radix2 (-50) 0); lia).
  apply approximates_R in A; [|rewrite R, Rabs_pos_eq; lra]. destruct A as [A1 A2]. rewrite R in A2.
  apply Bleb_true in L, U. destruct L as (_ & _ & L). destruct U as (_ & _ & U).
  rewrite !ev_finite in L by assumption. rewrite A2 in L.
  rewrite ev_finite in U by (destruct dv; auto). rewrite ev_finite, B2R_Babs, E2 in U by assumption.
  assert (M : bpow radix2 (-1060) <= bpow radix2 (-50)) by (apply bpow_le; lia).
  unfold tame. repeat split; auto; try lra. 
  apply Rle_trans with (bpow radix2 (-1060) * bpow radix2 50).
  - apply Rmult_le_compat_l; [apply bpow_ge_0|]. pose proof (Rle_abs (- B2R dv)). rewrite Rabs_Ropp in H0. lra.
  - rewrite <- bpow_plus. eapply Rle_trans; [|exact L]. apply bpow_le. lia.
Qed.

(** C06, C07, C15 in binary64: TestWithInequalitiesActive of qp_test.cc; the state after the initial guess
    and its evaluation, and the first iteration. *)
Definition act_start : outcome (ip_solver double) :=
  bind (Setup (g_d 0) (Some active)) (fun st =>
  bind (ComputeInitialGuess inverse (ip_params kPico (d lit_0_1) (d lit_0_1) 10 NAIVE) active st) (fun st0 =>
  Ok (EvaluateKKTConditions true active st0))).
Definition shapedb (p : QP double) (st : ip_solver double) : bool :=
  Nat.eqb (dM (ip_dims st)) (length (qcons p)) && Nat.eqb (length (ip_vars st)) (tsize (ip_dims st)) &&
  Nat.eqb (length (ip_delta st)) (tsize (ip_dims st)).
Definition tame_dirb (st st' : ip_solver double) : bool :=
  let dd := ip_dims st in
  forallb (fun m => tameb (nth m (sblk dd (ip_vars st)) f0) (nth m (sblk dd (ip_delta st')) f0) &&
                    tameb (nth m (zblk dd (ip_vars st)) f0) (nth m (zblk dd (ip_delta st')) f0)) (seq 0 (dM dd)).
Example C06_binary64_case : exists st st' out,
  act_start = Ok st /\ shaped active st /\ (0 < length (qcons active))%nat /\
  Iterate inverse active (d lit_0_1) COMPLEMENTARITY st = Ok (st', out) /\ tame_direction seq_red st st'.
Proof.
  destruct (ok_of_test _ act_start (fun st => shapedb active st &&
     match Iterate inverse active (d lit_0_1) COMPLEMENTARITY st with Ok (st', _) => tame_dirb st st' | _ => false end)) as (st & E & T).
  - vm_compute. reflexivity.
  - apply andb_true_iff in T. destruct T as [T1 T2].
    destruct (Iterate inverse active (d lit_0_1) COMPLEMENTARITY st) as [[st' out]|w|e] eqn:EI; try discriminate.
    exists st, st', out. split; [exact E|]. unfold shapedb in T1. rewrite !andb_true_iff, !Nat.eqb_eq in T1. destruct T1 as [[S1 S2] S3].
    split; [constructor; assumption|]. split; [vm_compute; lia|]. split; [exact EI|].
    unfold tame_dirb in T2. rewrite forallb_forall in T2. intros m Hm.
    specialize (T2 m ltac:(apply in_seq; split; [lia|exact Hm])). apply andb_true_iff in T2. destruct T2 as [X Y].
    split; apply tameb_tame; assumption.
Qed.

(** C09 in binary64: the complementarity error is computed as |r|^2 - 2 mu sum r + M mu^2, which cancels: with s = 1e8 + 1, z = 1 and mu = 1e8
    the product is off by 1, but the reported error is 0. *)
Definition cancel_qp : QP double := MkQP (Mat 1 1 [[f1]]) [f0] (Mat 0 1 []) [] [LIC 0%Z f1 f0].
Definition cancel_st : ip_solver double :=
  MkIP (Some cancel_qp) (MkDims 1 1 0) [d 100000001; d 100000001; f1] [f0; f0; f0] (Mat 1 1 [[f1]]) [f0; f0; f0] [f0; f0; f0].
Definition is_zero (x : double) : bool := match x with B754_zero _ => true | _ => false end.
Definition off_by_one (mu sz : double) (rs : list double) : bool :=
  match rs with [r] => Beqb (fsub r mu) f1 && Beqb sz r | _ => false end.
Lemma off_by_one_ok : forall mu sz rs, off_by_one mu sz rs = true -> exists r, rs = [r] /\ Beqb (fsub r mu) f1 = true /\ Beqb sz r = true.
Proof.
  intros mu sz [|r [|? ?]] T; try discriminate. exists r. unfold off_by_one in T. apply andb_true_iff in T. tauto.
Qed.
Theorem C09_binary64_cancellation_refuted :
  let st := EvaluateKKTConditions true cancel_qp cancel_st in
  is_zero (r_comp (ComputeErrors st (d 100000000))) = true /\
  exists r, sblk (ip_dims st) (ip_r st) = [r] /\ Beqb (fsub r (d 100000000)) f1 = true /\
    Beqb (fmul (vget (s_block st) 0) (vget (z_block st) 0)) r = true.
Proof.
  cbv zeta. split; [vm_compute; reflexivity|]. apply off_by_one_ok. vm_compute. reflexivity.
Qed.
