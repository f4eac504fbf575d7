(** The dual residual under an iteration (C19), and problems without inequality constraints, which a single
    iteration solves exactly (C18). Exact arithmetic. *)
From Coq Require Import String List Bool Arith ZArith QArith Reals Lra Lia.
From Verif Require Import Scalar Outcome LinAlg Structs Constraint QPModel RInst Spec
  Props_Constraint QPBlocks QPAlgebra QPNewton QPAlpha QPStep QPTrace QPInit QPSolve.
Import ListNotations.
Local Open Scope outcome_scope.
Local Open Scope string_scope.
Local Open Scope list_scope.
Local Open Scope R_scope.

(** C19, dual part: with an exact factorisation the dual residual is reduced by the factor 1 - alpha_dual,
    up to a term that vanishes when both step lengths agree. *)
Theorem C19_dual_residual : forall ldlt (p : QP R) mu strat (st st' : ip_solver R) out,
  wf_qp p -> ready p st -> Iterate ldlt p mu strat st = Ok (st', out) ->
  ldlt_exact (nv p + neq p) ldlt ->
  let ap := primal (ip_alpha out) in let ad := dual (ip_alpha out) in
  forall i, (i < nv p)%nat ->
    ap * kkt_dual p (x_block st') (y_block st') (z_block st') i =
    ap * (1 - ad) * kkt_dual p (x_block st) (y_block st) (z_block st) i
    + (ap - ad) * Rsum (nv p) (fun j => Gs p i j * (vget (x_block st') j - vget (x_block st) j)).
Proof.
  intros ldlt p mu strat st st' out W RD H EX ap ad i Hi.
  destruct (Iterate_ready _ _ _ _ _ _ _ RD H) as [RD' D'].
  destruct (Iterate_inv _ _ _ _ _ _ _ RD H)
    as (Hinv & stb & mu2 & SP & EL & RDb & V & RR & HI & D & _ & _ & _ & E').
  pose proof (upd_ready p stb mu2 RDb) as RDu.
  destruct (apply_update_blocks (SolveForUpdate mu2 p stb) (ip_alpha out) (rd_vars _ _ RDu) (rd_delta _ _ RDu))
    as (_ & Bx & Bs & By & Bz).
  destruct (eval_r_blocks p st W RD) as (Rd & _ & _ & _).
  assert (INV : sym_right_inverse (nv p + neq p)
              (reduced_H true p (ip_dims stb) (sblk (ip_dims stb) (ip_vars stb)) (zblk (ip_dims stb) (ip_vars stb)))
              (ip_Hinv stb)) by (rewrite D, V, HI; apply EX; [unfold reduced_H; rewrite ?mkmat_rows, (dN_nv p st RD), (dK_ne p st RD); reflexivity
              |unfold reduced_H; rewrite ?mkmat_cols, (dN_nv p st RD), (dK_ne p st RD); reflexivity|exact EL]).
  assert (S0 : forall m, (m < nineq p)%nat -> vget (sblk (ip_dims stb) (ip_vars stb)) m <> 0).
  { intros m Hm. rewrite D, V. rewrite forallb_forall in SP.
    assert (X : fgtb (vget (sblk (ip_dims st) (ip_vars st)) m) f0 = true).
    { apply SP. unfold vget. apply nth_In. rewrite sblk_length by apply RD. rewrite (dM_ni p st RD). exact Hm. }
    destruct (R_fgtb (vget (sblk (ip_dims st) (ip_vars st)) m) f0) as [Y|]; [|discriminate]. cbn [f0 R_ops] in Y. lra. }
  destruct (C08_update_solves_newton_system p stb mu2 W RDb S0 INV) as (ND & _). cbv zeta in ND.
  specialize (ND i Hi). rewrite RR, D in ND. rewrite (Rd i Hi) in ND.
  change (ip_dims (SolveForUpdate mu2 p stb)) with (ip_dims stb) in *.
  change (ip_vars (SolveForUpdate mu2 p stb)) with (ip_vars stb) in *.
  fold ap in Bx, Bs. fold ad in By, Bz.
  rewrite D, V in *.
  unfold x_block, y_block, z_block. rewrite D', E'.
  set (dl := ip_delta (SolveForUpdate mu2 p stb)) in *.
  set (X' := xblk (ip_dims st) (ip_vars (apply_update (SolveForUpdate mu2 p stb) (ip_alpha out)))) in *.
  set (Y' := yblk (ip_dims st) (ip_vars (apply_update (SolveForUpdate mu2 p stb) (ip_alpha out)))) in *.
  set (Z' := zblk (ip_dims st) (ip_vars (apply_update (SolveForUpdate mu2 p stb) (ip_alpha out)))) in *.
  set (X := xblk (ip_dims st) (ip_vars st)) in *. set (Y := yblk (ip_dims st) (ip_vars st)) in *. set (Z := zblk (ip_dims st) (ip_vars st)) in *.
  set (dx := xblk (ip_dims st) dl) in *. set (dy := yblk (ip_dims st) dl) in *. set (dz := zblk (ip_dims st) dl) in *.
  assert (E1 : Rsum (nv p) (fun j => Gs p i j * vget X' j) =
               Rsum (nv p) (fun j => Gs p i j * vget X j) + ap * Rsum (nv p) (fun j => Gs p i j * vget dx j)).
  { rewrite <- Rsum_scal_l, <- Rsum_plus. apply Rsum_ext. intros j Hj. rewrite Bx. ring. }
  assert (E2 : Rsum (neq p) (fun k => Ae p k i * vget Y' k) =
               Rsum (neq p) (fun k => Ae p k i * vget Y k) + ad * Rsum (neq p) (fun k => Ae p k i * vget dy k)).
  { rewrite <- Rsum_scal_l, <- Rsum_plus. apply Rsum_ext. intros j Hj. rewrite By. ring. }
  assert (E3 : Rsum (nineq p) (fun m => if (cv p m =? i)%nat then ca p m * vget Z' m else 0) =
               Rsum (nineq p) (fun m => if (cv p m =? i)%nat then ca p m * vget Z m else 0) +
               ad * Rsum (nineq p) (fun m => if (cv p m =? i)%nat then ca p m * vget dz m else 0)).
  { rewrite <- Rsum_scal_l, <- Rsum_plus. apply Rsum_ext. intros j Hj. rewrite Bz. destruct (cv p j =? i)%nat; ring. }
  assert (E4 : Rsum (nv p) (fun j => Gs p i j * (vget X' j - vget X j)) = ap * Rsum (nv p) (fun j => Gs p i j * vget dx j)).
  { rewrite <- Rsum_scal_l. apply Rsum_ext. intros j Hj. rewrite Bx. ring. }
  rewrite E4. unfold kkt_dual in *. rewrite E1, E2, E3.
  set (g := Rsum (nv p) (fun j => Gs p i j * vget dx j)) in *.
  set (b := Rsum (neq p) (fun k => Ae p k i * vget dy k)) in *.
  set (c := Rsum (nineq p) (fun m => if (cv p m =? i)%nat then ca p m * vget dz m else 0)) in *.
  match type of ND with _ = - ?r => set (rr := r) in * end.
  transitivity (ap * (rr + ap * g - ad * b - ad * c)); [unfold rr; ring|].
  assert (b + c = g + rr) by lra. replace (ap * g - ad * b - ad * c) with (ap * g - ad * (b + c)) by ring.
  replace (ap * (rr + ap * g - ad * b - ad * c)) with (ap * (rr + ap * g - ad * (b + c))) by ring. rewrite H0. ring.
Qed.

(** C18: a problem without inequality constraints is solved by exactly one iteration, provided the
    factorisation is exact: Solve reports SATISFIED_KKT_TOL after one iteration, and x, y satisfy the first
    order conditions exactly, for every initial guess method. termination_complementarity_tol must be positive, which nothing checks. *)
Theorem C18_returns_after_one_iteration : forall ldlt params (p : QP R) st st' out,
  wf_qp p -> ready p st -> qcons p = [] ->
  ldlt_exact (nv p + neq p) ldlt ->
  0 < p_termination_complementarity_tol params ->
  IP_Solve ldlt params st = Ok (st', out) ->
  qp_termination_state out = SATISFIED_KKT_TOL /\
  length (qp_iterations out) = 1%nat /\
  eq_feasible p (x_block st') /\
  forall i, (i < nv p)%nat ->
    Rsum (nv p) (fun j => Gs p i j * vget (x_block st') j) + vget (qc p) i
    = Rsum (neq p) (fun k => Ae p k i * vget (y_block st') k).
Proof.
  intros ldlt params p st st' out W RD NC EX CT H.
  assert (N0 : nineq p = 0%nat) by (unfold nineq; rewrite NC; reflexivity).
  destruct (C12_Solve_run _ _ _ _ _ H) as (p' & st1 & mu & tr & Hp & PV & _ & HS & HR & HI & HL & _ & HN & HC).
  assert (p' = p) by (rewrite (rd_p _ _ RD) in Hp; congruence). subst p'.
  assert (IN : forall s, interior p s) by (intros s m Hm; lia).
  destruct (start_ok _ _ _ _ _ _ W RD (fun _ => IN st) HS) as [E1 _].
  pose proof (evaluated_ready _ _ E1) as RD1.
  destruct HR as [mu st1|mu st1 it mu' st2 tr S HR]; [cbn in HN; lia|].
  inversion S as [? ? st2' outs HIt]; subst.
  repeat match goal with X := EvaluateKKTConditions _ _ _ |- _ => subst X end.
  destruct (Iterate_ready _ _ _ _ _ _ _ RD1 HIt) as [RD2 D2].
  destruct (Iterate_inv _ _ _ _ _ _ _ RD1 HIt) as (q1 & q2 & q3 & _ & _ & _ & _ & _ & _ & _ & AL & _).
  destruct (AL N0) as (_ & EA & _).
  pose proof (C19_infeasibility_contracts _ _ _ _ _ _ _ W RD1 HIt) as [_ CE]. specialize (CE EX).
  pose proof (C19_dual_residual _ _ _ _ _ _ _ W RD1 HIt EX) as CD. cbv zeta in CD.
  rewrite EA in CE, CD. cbn [primal dual] in CE, CD.
  set (s2 := EvaluateKKTConditions true p st2') in *.
  assert (XB : x_block s2 = x_block st2') by reflexivity.
  assert (YB : y_block s2 = y_block st2') by reflexivity.
  assert (ZB : z_block s2 = z_block st2') by reflexivity.
  assert (FE : forall k, (k < neq p)%nat -> kkt_eq p (x_block s2) k = 0) by (intros k Hk; rewrite XB, CE by exact Hk; ring).
  assert (FD : forall i, (i < nv p)%nat -> kkt_dual p (x_block s2) (y_block s2) (z_block s2) i = 0).
  { intros i Hi. rewrite XB, YB, ZB. pose proof (CD i Hi) as X. rewrite Rmult_1_l in X. rewrite X. ring. }
  assert (EV : evaluated p s2) by (exists st2'; auto).
  assert (NZ : forall n (f : nat -> R), (forall i, (i < n)%nat -> f i = 0) -> norm2 n f = 0).
  { intros n f Hf. unfold norm2. rewrite Rsum_0; [apply sqrt_0|]. intros i Hi. rewrite Hf by exact Hi. ring. }
  assert (TM : tolerances_met params (mu, MkQPIter (ComputeErrors st1 mu) (ComputeErrors s2 mu) outs, s2)).
  { unfold tolerances_met. cbn [fst snd kkt_final].
    rewrite (evaluated_errors p s2 mu W EV). rewrite N0. rewrite (NZ _ _ FD), (NZ _ _ FE).
    rewrite !(NZ 0%nat) by (intros; lia). split.
    - destruct PV as (_ & _ & _ & PT & _).
      destruct (R_fltb f0 (p_termination_kkt_tol params)) as [Y|]; [|discriminate]. cbn [f0 R_ops] in Y.
      match goal with |- fltb ?a ?b = true => destruct (R_fltb a b) as [|T]; [reflexivity|exfalso; apply T] end.
      unfold KKT_Max, fmax_list. cbn [r_dual r_comp r_primal_eq r_primal_ineq fold_left]. rewrite !R_fmax. assert (M0 : Rmax 0 0 = 0) by (apply Rmax_left; lra). rewrite !M0. exact Y.
    - unfold ComputeMu, HasInequalityConstraints.
      assert (DM : dM (ip_dims s2) = 0%nat) by (rewrite (dM_ni p s2 (evaluated_ready _ _ EV)); exact N0).
      rewrite DM. cbn [Nat.ltb Nat.leb]. match goal with |- fltb ?a ?b = true => destruct (R_fltb a b) as [|T]; [reflexivity|exfalso; apply T] end.
      cbn. exact CT. }
  assert (TR : tr = []).
  { destruct HC as [(_ & _ & C)|(_ & tr0 & e & ET & _ & C)].
    - exfalso. eapply C; [left; reflexivity|exact TM].
    - destruct tr0 as [|e0 tr0]; [injection ET as _ ET; exact ET|].
      injection ET as E0 ET. exfalso. apply (C e0); [left; reflexivity|]. rewrite <- E0. exact TM. }
  subst tr. cbn [map last snd length] in *. splits.
  - destruct HC as [(_ & _ & C)|(T & _)]; [exfalso; eapply C; [left; reflexivity|exact TM]|exact T].
  - rewrite HI. reflexivity.
  - exact FE.
  - intros i Hi. specialize (FD i Hi). unfold kkt_dual in FD. rewrite N0 in FD. cbn [Rsum] in FD. lra.
Qed.
