(** Concrete problems that meet the hypotheses of the theorems about the nonlinear solver: a Rosenbrock style
    cost with a bound (interior point method) and with an equality constraint (null space method). *)
From Coq Require Import String List Bool Arith ZArith QArith Reals Lra Lia.
From Verif Require Import Scalar Outcome LinAlg Structs Constraint QPModel NullSpace Residual Nonlinear RInst Spec
  Props_Constraint QPBlocks QPAlgebra QPNewton QPAlpha QPStep QPTrace QPInit QPSolve QPDirect ResProps LinProps MeritProps
  LSProps NSProps NLSTrace NLSProps NLSReal NLSBox Penalty NLSTotal QPRegular QPBarrier QPIter.
Import ListNotations.
Local Open Scope outcome_scope.
Local Open Scope string_scope.
Local Open Scope list_scope.
Local Open Scope R_scope.

(** The residual (x0 - 3, 10 (x1 - x0^2)) and its Jacobian. *)
Definition ros_f (p : list R) : list R := [vget p 0 - 3; 10 * (vget p 1 - vget p 0 * vget p 0)].
Definition ros_J (p : list R) : mat R := Mat 2 2 [[1; 0]; [- 20 * vget p 0; 10]].
Definition ros : residual R := MkRes 2 [0; 1]%Z ros_f (fun p => (ros_f p, ros_J p)).
(** The equality constraint x0 - 1 = 0, on variable 0 only. *)
Definition fix0 : residual R := MkRes 1 [0]%Z (fun p => [vget p 0 - 1]) (fun p => ([vget p 0 - 1], Mat 1 1 [[1]])).

(** x0 <= 2 and x1 >= -1. *)
Definition ros_box : list (lic R) := [Var_le 0%Z 2; Var_ge 1%Z (-1)].

Definition ex_ip : Problem R := MkProblem 2%Z [ros] ros_box [].
Definition ex_ns : Problem R := MkProblem 2%Z [ros] [] [fix0].
Definition ex_free : Problem R := MkProblem 2%Z [ros] [] [].

(** Factorisation of 2 x 2 matrices. *)
Definition det2 (H : mat R) : R := sget H 0 0 * sget H 1 1 - sget H 1 0 * sget H 1 0.
Definition ldlt2 (H : mat R) : option (mat R) :=
  if (mrows H =? 2)%nat && Reqb (det2 H) 0 then None
  else Some (Mat 2 2 [[sget H 1 1 / det2 H; - sget H 1 0 / det2 H]; [- sget H 1 0 / det2 H; sget H 0 0 / det2 H]]).

Lemma sget_01 : forall H : mat R, sget H 0 1 = sget H 1 0.
Proof. reflexivity. Qed.

Lemma ldlt2_singular : fails_only_if_singular ldlt2.
Proof.
  intros H n HR HC HN NS. unfold ldlt2 in HN. destruct (Nat.eqb_spec (mrows H) 2) as [E2|E2]; [|discriminate].
  destruct (Reqb_spec (det2 H) 0) as [E|E]; [|discriminate]. assert (n = 2%nat) by congruence. subst n. rewrite E2 in *.
  unfold det2 in E.
  destruct (Req_dec (sget H 1 1) 0) as [Z|Z].
  - assert (B : sget H 1 0 = 0) by (rewrite Z in E; nra).
    assert (X : (fun i : nat => if (i =? 1)%nat then 1 else 0) 1%nat = 0).
    { apply (NS (fun i : nat => if (i =? 1)%nat then 1 else 0)); [|lia]. intros i Hi.
      destruct i as [|[|i]]; [| |lia]; cbn [Rsum Nat.eqb]; rewrite ?sget_01, ?Z, ?B; ring. }
    simpl in X. lra.
  - assert (X : (fun i : nat => if (i =? 0)%nat then sget H 1 1 else - sget H 1 0) 0%nat = 0).
    { apply (NS (fun i : nat => if (i =? 0)%nat then sget H 1 1 else - sget H 1 0)); [|lia]. intros i Hi.
      destruct i as [|[|i]]; [| |lia]; cbn [Rsum Nat.eqb]; rewrite ?sget_01; lra. }
    simpl in X. contradiction.
Qed.

Lemma ldlt2_inverse : ldlt_exact 2 ldlt2.
Proof.
  intros H Hi HR _ E. unfold ldlt2 in E. rewrite HR in E. cbn [Nat.eqb andb] in E.
  destruct (Reqb_spec (det2 H) 0) as [Z|Z]; [discriminate|]. injection E as <-.
  intros i k Hi' Hk. destruct i as [|[|i]]; [| |lia]; (destruct k as [|[|k]]; [| |lia]); cbn [Rsum Nat.eqb]; rewrite ?sget_01;
    unfold mget; cbn [mdata nth]; unfold det2 in *; field; exact Z.
Qed.

(** ** Well-posedness *)
Lemma ex_params_valid : nls_params_valid (default_NLSParams : NLSParams R).
Proof.
  unfold default_NLSParams. constructor;
    cbn [n_max_iterations n_max_qp_iterations n_termination_kkt_tolerance n_absolute_exit_tol n_relative_exit_tol
         n_absolute_first_derivative_tol n_max_line_search_iterations n_armijo_search_tau n_equality_penalty_initial
         n_equality_penalty_scale_factor n_equality_penalty_rho n_lambda_initial n_lambda_failure_init
         n_lambda_decrease_on_success n_lambda_decrease_on_restore n_max_lambda n_min_lambda f0 f1 flit R_ops];
    unfold lit_1em6, lit_0_1, Q2R; cbn [Qnum Qden]; try lia; try lra.
Qed.

Lemma ros_index : forall i, In i (res_index ros) -> (0 <= i < 2)%Z.
Proof. intros i [<-|[<-|[]]]; lia. Qed.

Lemma ex_ip_well_posed : forall vars, length vars = 2%nat -> well_posed default_NLSParams ex_ip vars.
Proof.
  intros vars LV. constructor; try exact ex_params_valid; try exact LV.
  - cbn [n_equality_penalty_initial default_NLSParams f1 R_ops]. lra.
  - reflexivity.
  - intros r [[<-|[]]|[]] i Hi. exact (ros_index i Hi).
  - intros c [<-|[<-|[]]]; cbn [lvar la Var_le Var_ge pr_dimension ex_ip f1 fneg R_ops]; (split; [lia|lra]).
Qed.

Lemma ex_ns_well_posed : forall vars, length vars = 2%nat -> well_posed default_NLSParams ex_ns vars.
Proof.
  intros vars LV. constructor; try exact ex_params_valid; try exact LV.
  - cbn [n_equality_penalty_initial default_NLSParams f1 R_ops]. lra.
  - reflexivity.
  - intros r [[<-|[]]|[<-|[]]] i Hi; [exact (ros_index i Hi)|]. destruct Hi as [<-|[]]. cbn [pr_dimension ex_ns]. lia.
  - intros c [].
Qed.

Lemma ros_nodup : NoDup (res_index ros).
Proof. constructor; [intros [E|[]]; discriminate|]. constructor; [intros []|constructor]. Qed.
Lemma ex_ip_distinct : distinct_indices ex_ip.
Proof. split; [intros r [<-|[]]; exact ros_nodup|intros r []]. Qed.
Lemma ex_ns_distinct : distinct_indices ex_ns.
Proof. split; intros r [<-|[]]; [exact ros_nodup|]. constructor; [intros []|constructor]. Qed.
Lemma ex_ip_consistent : value_consistent ex_ip.
Proof. intros r [[<-|[]]|[]] p. reflexivity. Qed.
Lemma ex_ns_consistent : value_consistent ex_ns.
Proof. intros r [[<-|[]]|[<-|[]]] p; reflexivity. Qed.

(** The Gauss-Newton curvature dx0^2 + (10 dx1 - 20 x0 dx0)^2 vanishes only at 0. *)
Lemma ros_curved : forall pr v lambda errs qp, pr_costs pr = [ros] -> pr_dimension pr = 2%Z -> distinct_indices pr -> 0 <= lambda ->
  LinearizeAndFillQP v lambda pr = Ok (errs, qp) -> curved_on_null_space qp.
Proof.
  intros pr v lambda errs qp HCo HDi DI HLam HL d LD (i & Hi & NZ) _.
  destruct (C24_linearised_qp _ _ _ _ _ DI HL) as ((_ & _ & CL & _) & _ & _ & QF & _).
  rewrite QF. unfold lin_curvature. rewrite HCo. cbn [map Rlsum res_dim ros Rsum]. rewrite !lin_residual_diff.
  assert (N2 : nv qp = 2%nat) by (unfold nv; rewrite CL, HDi; reflexivity).
  assert (DM : 0 <= Rmax lambda 0 * Rsum (Z.to_nat (pr_dimension pr)) (fun i => vget d i ^ 2)).
  { apply Rmult_le_pos; [apply Rmax_r|]. apply Rsum_nonneg. intros. nra. }
  cbn [res_index ros length Rsum gidx nth Z.to_nat res_fJ snd ros_J mget mdata]. unfold gidx, mget. cbn [res_index ros nth Z.to_nat mdata ros_J res_fJ snd].
  change (Z.to_nat 0) with 0%nat. change (Z.to_nat 1) with 1%nat.
  rewrite N2 in Hi.
  set (x := vget (gathered ros v) 0) in *. set (d0 := vget d 0) in *. set (d1 := vget d 1) in *.
  assert (NN : d0 <> 0 \/ d1 <> 0) by (destruct i as [|[|i]]; [left; exact NZ|right; exact NZ|lia]).
  change (Pos.to_nat 1) with 1%nat in *. fold d1.
  destruct (Req_dec d0 0) as [Z|Z].
  - assert (d1 <> 0) by tauto. rewrite Z in *. assert (0 < d1 * d1) by (pose proof (sq_nonneg d1); nra). nra.
  - assert (0 < d0 * d0) by (pose proof (sq_nonneg d0); nra).
    pose proof (pow2_ge_0 (0 + -20 * x * d0 + 10 * d1)).
    replace ((0 + 1 * d0 + 0 * d1) ^ 2) with (d0 * d0) by ring. lra.
Qed.

Lemma ex_min_lambda : n_min_lambda (default_NLSParams : NLSParams R) = 0.
Proof. reflexivity. Qed.

(** ** Both problems are solved from every starting point, whatever the uninitialised memory contains. *)
Section Solved.
  Context {S : Type}.
  Variable cb : option (S -> NLSIteration R -> S * bool).
  Variable eigs : mat R -> QPEigenvalues R.
  Variable g : nat -> garbage R.

  Example ex_ip_solved : forall vars cs, length vars = 2%nat ->
    exists r, NLS_Solve ldlt2 ns_ex_qr ns_ex_llt eigs None cb default_NLSParams ex_ip g vars cs = Ok r.
  Proof.
    intros vars cs LV. apply C52_regular_solve_always_returns.
    - exact ldlt2_singular.
    - exact (ex_ip_well_posed vars LV).
    - intros f E. discriminate.
    - intros E. discriminate.
    - intros _ v lambda errs qp Hv HLam HL. rewrite ex_min_lambda in HLam. split.
      + intros y _ k Hk. exfalso. unfold neq in Hk.
        destruct (linearise_total ex_ip v lambda Hv (wp_index _ _ _ (ex_ip_well_posed v Hv))
                    (fun c Hc => proj1 (wp_cons _ _ _ (ex_ip_well_posed v Hv) c Hc)) eq_refl) as (e' & q' & HL' & _ & _ & _ & _ & _ & BL & _).
        rewrite HL in HL'. apply Ok_inj in HL'. apply pair_inj in HL'. destruct HL' as [_ <-]. rewrite BL in Hk. cbv in Hk. lia.
      + apply (ros_curved ex_ip v lambda errs qp); auto. exact ex_ip_distinct.
  Qed.
  Lemma ex_ns_full_rank : full_rank ns_ex_qr ex_ns.
  Proof.
    split; [cbv; lia|]. intros v lambda errs qp HL. unfold LinearizeAndFillQP in HL. do 3 (inv_bind HL; try destruct a as [[? ?] ?]; try destruct a0 as [[? ?] ?]).
    apply Ok_inj in HL. apply pair_inj in HL. destruct HL as [_ <-]. reflexivity.
  Qed.

  Example ex_ns_solved : forall vars cs, length vars = 2%nat ->
    exists r, NLS_Solve ldlt2 ns_ex_qr ns_ex_llt eigs None cb default_NLSParams ex_ns g vars cs = Ok r.
  Proof.
    intros vars cs LV. apply C52_regular_solve_always_returns.
    - exact ldlt2_singular.
    - exact (ex_ns_well_posed vars LV).
    - intros f E. discriminate.
    - intros _ _. exact ex_ns_full_rank.
    - intros [E|E]; [destruct (E eq_refl)|discriminate].
  Qed.
End Solved.

(** C42: the box of [ex_ip] is satisfiable, and the origin lies in it. *)
Example ex_ip_box : satisfiable ex_ip /\ in_box ex_ip [0; 0].
Proof.
  split.
  - exists [0; 0]. intros c [<-|[<-|[]]]; unfold cvalue; cbn [la lb lvar Var_le Var_ge f1 fneg R_ops Z.to_nat];
      [unfold vget; cbn [nth]; lra|change (Pos.to_nat 1) with 1%nat; unfold vget; cbn [nth]; lra].
  - intros c [<-|[<-|[]]]; unfold cvalue; cbn [la lb lvar Var_le Var_ge f1 fneg R_ops Z.to_nat];
      [unfold vget; cbn [nth]; lra|change (Pos.to_nat 1) with 1%nat; unfold vget; cbn [nth]; lra].
Qed.

(** C41: without inequality constraints the factorisations used above are exact. *)
Example ex_free_exact : pr_ineq ex_free = [] /\ distinct_indices ex_free /\ ldlt_exact (pdim ex_free) ldlt2.
Proof. splits; [reflexivity|split; [intros r [<-|[]]; exact ros_nodup|intros r []]|exact ldlt2_inverse]. Qed.

Example ex_ns_exact : null_space_exact ns_ex_qr ns_ex_llt ex_ns.
Proof.
  intros v lambda errs qp HL.
  assert (EA : qA qp = Mat 1 2 [[1; 0]]).
  { unfold LinearizeAndFillQP in HL. inv_bind HL. destruct a as [[? ?] ?]. inv_bind HL. destruct a as [[rows ?] ?]. inv_bind HL.
    apply Ok_inj in HL. apply pair_inj in HL. destruct HL as [_ <-]. cbn [qA].
    change (total_eq_size ex_ns) with 1%nat. change (pdim ex_ns) with 2%nat. f_equal.
    match goal with X : linearize_eq _ _ = _ |- _ => rename X into HE end.
    clear - HE. unfold linearize_eq in HE. cbn [pr_eq ex_ns ofold] in HE.
    apply bind_ok_inv in HE. destruct HE as (acc & HE & HO). apply Ok_inj in HO.
    apply bind_ok_inv in HE. destruct HE as (? & _ & HE).
    apply bind_ok_inv in HE. destruct HE as ([J br] & HJ & HE). apply Ok_inj in HE. rewrite HO in HE. inj_pairs HE.
    match goal with X : _ = rows |- _ => rewrite <- X end. cbn [app].
    unfold UpdateJacobian in HJ. apply bind_ok_inv in HJ. destruct HJ as (p & _ & HJ).
    apply bind_ok_inv in HJ. destruct HJ as (Jo & HJ & HP). apply Ok_inj in HP. apply pair_inj in HP. destruct HP as [<- _].
    cbn [res_index fix0 length seq ofold] in HJ. apply bind_ok_inv in HJ. destruct HJ as (J1 & HJ & HO'). apply Ok_inj in HO'.
    apply bind_ok_inv in HJ. destruct HJ as (? & _ & HJ). apply Ok_inj in HJ. rewrite <- HO', <- HJ.
    reflexivity. }
  rewrite EA. split; [exact ns_ex_qr_ok|]. apply ns_ex_llt_ok. reflexivity.
Qed.

(** C06/C08/C17: an interior state of a QP with a bound on which every strategy's iteration returns, with
    an exact factorisation: minimise 1/2 |x|^2 - x0 - x1 subject to x0 >= 0, x = (2, 1), s = z = 1. *)
Definition ex_qp : QP R := MkQP (Mat 2 2 [[1; 0]; [0; 1]]) [-1; -1] (Mat 0 2 []) [] [LIC 0%Z 1 0].
Definition ex_qp_st : ip_solver R :=
  MkIP (Some ex_qp) (MkDims 2 1 0) [2; 1; 1; 1] [0; 0; 0; 0] (Mat 2 2 [[1; 0]; [0; 1]]) [0; 0; 0; 0] [0; 0; 0; 0].
Example ex_qp_iterates : forall mu strat,
  wf_qp ex_qp /\ ready ex_qp ex_qp_st /\ interior ex_qp ex_qp_st /\
  ldlt_exact (nv ex_qp + neq ex_qp) ldlt2 /\
  exists st' out, Iterate ldlt2 ex_qp mu strat ex_qp_st = Ok (st', out).
Proof.
  intros mu strat.
  assert (W : wf_qp ex_qp).
  { constructor; try reflexivity. intros c [<-|[]]. unfold nv. simpl. lia. }
  assert (RD : ready ex_qp ex_qp_st) by (constructor; reflexivity).
  assert (I : interior ex_qp ex_qp_st).
  { intros m Hm. unfold nineq in Hm. simpl in Hm. assert (m = 0%nat) by lia. subst m.
    unfold s_block, z_block, sblk, zblk, vseg, vget. simpl. lra. }
  split; [exact W|]. split; [exact RD|]. split; [exact I|]. split; [exact ldlt2_inverse|].
  destruct (Iterate_outcome ldlt2 ex_qp mu strat ex_qp_st W RD I) as [[[st' out] E]|[_ (w & H & HW & RK & EL)]].
  - exists st', out. exact E.
  - exfalso. destruct RK as (R1 & R2 & RX & _). unfold ldlt2 in EL. rewrite R1 in EL. cbn [nv neq ex_qp qc qb length Nat.add Nat.eqb andb] in EL.
    destruct (Reqb_spec (det2 H) 0) as [Z|Z]; [|discriminate]. unfold det2 in Z.
    rewrite (RX 0%nat 0%nat), (RX 1%nat 1%nat), (RX 1%nat 0%nat) in Z by (unfold nv; simpl; lia).
    specialize (HW 0%nat ltac:(unfold nineq; simpl; lia)).
    unfold Gs, nineq, cv, ca, con in Z. cbn in Z. unfold mget in Z. cbn in Z. lra.
Qed.
