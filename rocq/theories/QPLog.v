(** C68: the iteration log of the interior point Solve, as a history. Consecutive entries describe the same
    iterate (any arithmetic), and over the reals the logged primal infeasibilities are exactly the initial ones
    times the product of (1 - alpha_primal) so far. *)
From Coq Require Import String List Bool Arith ZArith Reals Lra Lia.
From Verif Require Import Scalar Outcome LinAlg Structs Constraint QPModel QPBlocks RInst Spec
  Props_Constraint QPAlgebra QPNewton QPAlpha QPStep QPTrace QPInit QPSolve.
Import ListNotations.
Local Open Scope list_scope.

(** ** Any arithmetic *)
Section Any.
  Context {F : Type} {O : Ops F}.
  Variable ldlt : mat F -> option (mat F).

  (** The three errors that do not mention mu. *)
  Definition same_infeasibility (a b : KKTError F) : Prop :=
    r_dual a = r_dual b /\ r_primal_eq a = r_primal_eq b /\ r_primal_ineq a = r_primal_ineq b.

  Lemma run_initial : forall params p mu st tr, ip_run ldlt params p mu st tr ->
    forall it its, map (fun e => snd (fst e)) tr = it :: its -> kkt_initial it = ComputeErrors st mu.
  Proof.
    intros params p mu st tr HR it its E. inversion HR as [|? ? it0 mu' st' tr' S HR']; subst; [discriminate|].
    cbn [map fst snd] in E. injection E as E1 _. subst it0. inversion S; subst. reflexivity.
  Qed.

  Lemma run_chain : forall params p mu st tr, ip_run ldlt params p mu st tr ->
    forall l1 it it' l2, map (fun e => snd (fst e)) tr = l1 ++ it :: it' :: l2 ->
      same_infeasibility (kkt_initial it') (kkt_final it).
  Proof.
    intros params p mu st tr HR.
    induction HR as [mu st|mu st it0 mu' st' tr S HR IH]; intros l1 it it' l2 E; [destruct l1; discriminate|].
    destruct l1 as [|a l1]; cbn [map fst snd app] in E; injection E as E1 E2.
    - subst it0. rewrite (run_initial _ _ _ _ _ HR _ _ E2). inversion S; subst.
      cbn [kkt_final]. unfold same_infeasibility, ComputeErrors. cbn [r_dual r_primal_eq r_primal_ineq].
      repeat split.
    - apply (IH _ _ _ _ E2).
  Qed.

  (** C68: in the log of a Solve that returned, the infeasibilities with which an iteration starts are exactly those
      with which the previous one ended, and the last ones are those of the returned variables. Only r_comp, which
      depends on the barrier parameter, may jump. *)
  Theorem C68_log_continuous : forall params st st' out,
    IP_Solve ldlt params st = Ok (st', out) ->
    (forall l1 it it' l2, qp_iterations out = l1 ++ it :: it' :: l2 ->
       same_infeasibility (kkt_initial it') (kkt_final it)) /\
    (exists l it mu, qp_iterations out = l ++ [it] /\ kkt_final it = ComputeErrors st' mu).
  Proof.
    intros params st st' out H. apply C12_Solve_run in H.
    destruct H as (p & st1 & mu & tr & _ & _ & _ & _ & HR & HI & HL & _ & HN & _).
    split; [intros l1 it it' l2 E; rewrite HI in E; apply (run_chain _ _ _ _ _ HR _ _ _ _ E)|].
    rewrite HI. clear HI. revert HN st' HL.
    induction HR as [mu st1|mu st1 it0 mu' st2 tr S HR IH]; intros HN st' HL; [cbn in HN; lia|].
    destruct tr as [|e tr].
    - exists [], it0, mu. split; [reflexivity|]. cbn in HL. subst st'. inversion S; subst. reflexivity.
    - destruct (IH) with (st' := st') as (l & it & mu2 & E1 & E2).
      + cbn in HN |- *. lia.
      + rewrite HL. cbn [map snd]. symmetry. apply (last_cons _ (map snd (e :: tr))). 
      + exists (it0 :: l), it, mu2. split; [|exact E2]. cbn [map fst snd] in E1 |- *. rewrite E1. reflexivity.
  Qed.
End Any.

Local Open Scope R_scope.

(** The part of the infeasibility that the iterations [l] leave: product of 1 - alpha_primal. *)
Definition remaining (l : list (QPInteriorPointIteration R)) : R :=
  fold_right (fun it acc => (1 - primal (ip_alpha (ip_outputs it))) * acc) 1 l.

Lemma norm2_scal : forall n a g, 0 <= a -> norm2 n (fun i => a * g i) = a * norm2 n g.
Proof.
  intros n a g Ha. unfold norm2.
  rewrite (Rsum_ext n _ (fun i => (a * a) * (g i * g i))) by (intros; ring).
  rewrite Rsum_scal_l, sqrt_mult_alt by nra. rewrite sqrt_square by exact Ha. reflexivity.
Qed.

Lemma norm2_ext : forall n g h, (forall i, (i < n)%nat -> g i = h i) -> norm2 n g = norm2 n h.
Proof. intros n g h H. unfold norm2. f_equal. apply Rsum_ext. intros i Hi. rewrite H by exact Hi. reflexivity. Qed.

(** Each trip multiplies the infeasibilities by 1 - alpha_primal. *)
Lemma run_each : forall ldlt params (p : QP R) mu st tr, wf_qp p ->
  evaluated p st -> interior p st -> ip_run ldlt params p mu st tr ->
  forall it, In it (map (fun e => snd (fst e)) tr) ->
    0 < primal (ip_alpha (ip_outputs it)) <= 1 /\
    r_primal_ineq (kkt_final it) = (1 - primal (ip_alpha (ip_outputs it))) * r_primal_ineq (kkt_initial it) /\
    (ldlt_exact (nv p + neq p) ldlt ->
     r_primal_eq (kkt_final it) = (1 - primal (ip_alpha (ip_outputs it))) * r_primal_eq (kkt_initial it)).
Proof.
  intros ldlt params p mu st tr W EV INT HR.
  induction HR as [mu st|mu st it0 mu' st' tr S HR IH]; intros it Hin; [destruct Hin|].
  inversion S as [? ? st1 outs HI]; subst.
  pose proof (evaluated_ready _ _ EV) as RD.
  destruct (C06_iteration_keeps_interior _ _ _ _ _ _ _ RD INT HI) as [RD1 INT1].
  destruct (Iterate_alpha _ _ _ _ _ _ _ RD INT HI) as [AL _].
  destruct (C19_infeasibility_contracts _ _ _ _ _ _ _ W RD HI) as [CI CE].
  assert (E2 : evaluated p (EvaluateKKTConditions true p st1)) by (exists st1; auto).
  destruct Hin as [<-|Hin]; [|apply (IH E2 INT1 it Hin)].
  cbn [fst snd kkt_final kkt_initial ip_outputs].
  subst st2. rewrite (evaluated_errors p st mu W EV), (evaluated_errors p _ mu W E2).
  cbn [r_primal_eq r_primal_ineq].
  change (x_block (EvaluateKKTConditions true p st1)) with (x_block st1).
  change (s_block (EvaluateKKTConditions true p st1)) with (s_block st1).
  splits; try lra.
  - rewrite <- norm2_scal by lra. apply norm2_ext. exact CI.
  - intro EX. rewrite <- norm2_scal by lra. apply norm2_ext. apply CE. exact EX.
Qed.

Section R.
  Variable ldlt : mat R -> option (mat R).
  Variable params : IPParams R.
  Variables (p : QP R) (st st' : ip_solver R) (out : QPInteriorPointSolverOutputs R).
  Hypothesis W : wf_qp p.
  Hypothesis RD : ready p st.
  Hypothesis HU : p_initial_guess_method params = USER_PROVIDED -> interior p st.
  Hypothesis HS : IP_Solve ldlt params st = Ok (st', out).

  (** C68: every logged iteration multiplies the logged norm of A_i x + b_i - s by 1 - alpha_primal, whatever the
      factorisation returned, and that of A_e x + b_e if the factorisation is exact. *)
  Theorem C68_each_iteration : forall it, In it (qp_iterations out) ->
    0 <= 1 - primal (ip_alpha (ip_outputs it)) < 1 /\
    r_primal_ineq (kkt_final it) = (1 - primal (ip_alpha (ip_outputs it))) * r_primal_ineq (kkt_initial it) /\
    (ldlt_exact (nv p + neq p) ldlt ->
     r_primal_eq (kkt_final it) = (1 - primal (ip_alpha (ip_outputs it))) * r_primal_eq (kkt_initial it)).
  Proof.
    intros it Hin.
    destruct (C12_Solve_run _ _ _ _ _ HS) as (p' & st1 & mu & tr & Hp & _ & _ & Hst & HR & HI & _).
    assert (p' = p) by (rewrite (rd_p _ _ RD) in Hp; congruence). subst p'.
    destruct (start_ok _ _ _ _ _ _ W RD HU Hst) as [E1 I1].
    rewrite HI in Hin.
    destruct (run_each _ _ _ _ _ _ W E1 I1 HR it Hin) as (A & B & C). splits; auto; lra.
  Qed.

  (** C68: after any number of iterations the logged infeasibility is the first one times the product of the
      1 - alpha_primal so far. *)
  Theorem C68_infeasibility_product : forall first rest l1 it l2,
    qp_iterations out = first :: rest -> qp_iterations out = l1 ++ it :: l2 ->
    r_primal_ineq (kkt_final it) = remaining (l1 ++ [it]) * r_primal_ineq (kkt_initial first) /\
    (ldlt_exact (nv p + neq p) ldlt ->
     r_primal_eq (kkt_final it) = remaining (l1 ++ [it]) * r_primal_eq (kkt_initial first)).
  Proof.
    intros first rest l1.
    assert (Hrem : forall l it, remaining (l ++ [it]) = (1 - primal (ip_alpha (ip_outputs it))) * remaining l).
    { intros l it. unfold remaining. induction l as [|a l IH]; cbn [app fold_right]; [reflexivity|].
      rewrite IH. ring. }
    induction l1 as [|it0 l1 IH] using rev_ind; intros it l2 EF E.
    - cbn [app] in *. rewrite EF in E. injection E as E0 _. subst it. cbn [remaining fold_right].
      destruct (C68_each_iteration first) as (_ & A & B); [rewrite EF; left; reflexivity|].
      rewrite !Rmult_1_r. split; [exact A|exact B].
    - rewrite <- app_assoc in E. cbn [app] in E.
      destruct (IH it0 (it :: l2) EF E) as [A B].
      destruct (C68_log_continuous _ _ _ _ _ HS) as [CH _].
      destruct (CH _ _ _ _ E) as (_ & Ceq & Cin).
      destruct (C68_each_iteration it) as (_ & A2 & B2); [rewrite E; apply in_or_app; right; right; left; reflexivity|].
      rewrite Hrem. split.
      + rewrite A2, Cin, A. ring.
      + intro EX. rewrite (B2 EX), Ceq, (B EX). ring.
  Qed.

  (** C68: in particular the infeasibility of the returned x and s is the product over the whole log, it is not larger than
      at the start, and it is zero if some iteration took a full primal step. *)
  Theorem C68_returned_infeasibility : forall first rest, qp_iterations out = first :: rest ->
    norm2 (nineq p) (kkt_ineq p (x_block st') (s_block st'))
      = remaining (qp_iterations out) * r_primal_ineq (kkt_initial first) /\
    (ldlt_exact (nv p + neq p) ldlt ->
     norm2 (neq p) (kkt_eq p (x_block st')) = remaining (qp_iterations out) * r_primal_eq (kkt_initial first)) /\
    0 <= remaining (qp_iterations out) < 1 /\
    ((exists it, In it (qp_iterations out) /\ primal (ip_alpha (ip_outputs it)) = 1) ->
       (forall m, (m < nineq p)%nat -> ca p m * vget (x_block st') (cv p m) + cb p m = vget (s_block st') m) /\
       (ldlt_exact (nv p + neq p) ldlt -> forall k, (k < neq p)%nat -> kkt_eq p (x_block st') k = 0)).
  Proof.
    intros first rest EF.
    destruct (C12_Solve_run _ _ _ _ _ HS) as (p' & st1 & mu & tr & Hp & _ & _ & Hst & HR & HI & HL & _ & HN & _).
    assert (p' = p) by (rewrite (rd_p _ _ RD) in Hp; congruence). subst p'.
    destruct (start_ok _ _ _ _ _ _ W RD HU Hst) as [E1 I1].
    pose proof (run_invariant _ _ _ _ _ _ W (evaluated_ready _ _ E1) I1 HR) as INV.
    assert (EV : evaluated p st').
    { destruct tr as [|e tr] using rev_ind; [cbn in HN; lia|]. rewrite map_app in HL. cbn [map] in HL. rewrite last_last in HL. subst st'.
      destruct e as [[m0 i0] s0]. apply (INV m0 i0 s0). apply in_or_app. right. left. reflexivity. }
    destruct (C68_log_continuous _ _ _ _ _ HS) as [_ (l & it & mu2 & EL & EK)].
    destruct (C68_infeasibility_product first rest l it [] EF EL) as [A B].
    rewrite <- EL in A, B. rewrite EK, (evaluated_errors p st' mu2 W EV) in A, B.
    cbn [r_primal_eq r_primal_ineq] in A, B.
    assert (REM : 0 <= remaining (qp_iterations out) < 1).
    { pose proof C68_each_iteration as CE. rewrite EF in CE |- *. clear - CE.
      assert (G : forall l, (forall it, In it l -> 0 <= 1 - primal (ip_alpha (ip_outputs it)) < 1) ->
                0 <= remaining l <= 1).
      { induction l as [|a l IH]; intro H; cbn [remaining fold_right]; [lra|].
        assert (H1 := H a (or_introl eq_refl)). assert (H2 := IH (fun x Hx => H x (or_intror Hx))).
        change (fold_right _ 1 l) with (remaining l). nra. }
      assert (H1 := G rest (fun it Hin => proj1 (CE it (or_intror Hin)))).
      assert (H2 := proj1 (CE first (or_introl eq_refl))).
      cbn [remaining fold_right]. change (fold_right _ 1 rest) with (remaining rest). nra. }
    split; [exact A|]. split; [exact B|]. split; [exact REM|]. intros (itf & Hin & HF).
    assert (R0 : remaining (qp_iterations out) = 0).
    { clear - Hin HF. induction (qp_iterations out) as [|a l IH]; [destruct Hin|].
      cbn [remaining fold_right]. change (fold_right _ 1 l) with (remaining l).
      destruct Hin as [->|Hin]; [rewrite HF; ring|rewrite (IH Hin); ring]. }
    split.
    - intros m Hm. rewrite R0, Rmult_0_l in A.
      assert (Z : kkt_ineq p (x_block st') (s_block st') m = 0).
      { unfold norm2 in A. apply sqrt_eq_0 in A; [|apply Rsum_nonneg; intros; nra].
        assert (Q := Rsum_zero_terms (nineq p) (fun i => kkt_ineq p (x_block st') (s_block st') i * kkt_ineq p (x_block st') (s_block st') i)).
        assert (Q2 : forall i, (i < nineq p)%nat -> 0 <= kkt_ineq p (x_block st') (s_block st') i * kkt_ineq p (x_block st') (s_block st') i) by (intros; nra).
        specialize (Q Q2 A m Hm). cbn beta in Q. nra. }
      unfold kkt_ineq in Z. lra.
    - intros EX k Hk. specialize (B EX). rewrite R0, Rmult_0_l in B.
      unfold norm2 in B. apply sqrt_eq_0 in B; [|apply Rsum_nonneg; intros; nra].
      assert (Q := Rsum_zero_terms (neq p) (fun i => kkt_eq p (x_block st') i * kkt_eq p (x_block st') i)).
      assert (Q2 : forall i, (i < neq p)%nat -> 0 <= kkt_eq p (x_block st') i * kkt_eq p (x_block st') i) by (intros; nra).
      specialize (Q Q2 B k Hk). cbn beta in Q. nra.
  Qed.
End R.
