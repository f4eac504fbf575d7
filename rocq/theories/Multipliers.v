(** C53: the summary of the equality multipliers reported by the QP solver, and C38: when the nonlinear solver logs
    one. Exact arithmetic. *)
From Coq Require Import String List Bool Arith ZArith QArith Reals Lra Lia.
From Verif Require Import Scalar Outcome LinAlg Structs Constraint QPModel NullSpace Residual Nonlinear RInst Spec
  Props_Constraint QPBlocks QPAlgebra QPNewton QPAlpha QPStep QPTrace QPInit QPSolve Props_Structs ResProps LinProps MeritProps LSProps
  NLSTrace NLSProps NLSReal NLSBox NLSTotal.
Import ListNotations.
Local Open Scope outcome_scope.
Local Open Scope string_scope.
Local Open Scope list_scope.
Local Open Scope R_scope.

(** [m] is the smallest element of [l]. *)
Definition is_min (m : R) (l : list R) : Prop := In m l /\ forall x, In x l -> m <= x.

Lemma fold_min : forall l x, In (fold_left Rmin l x) (x :: l) /\ forall y, In y (x :: l) -> fold_left Rmin l x <= y.
Proof.
  induction l as [|a l IH]; intro x; cbn [fold_left].
  - split; [left; reflexivity|]. intros y [->|[]]; lra.
  - destruct (IH (Rmin x a)) as [A B]. split.
    + destruct A as [A|A]; [|right; right; exact A]. rewrite <- A.
      destruct (Rmin_case_strong x a (fun z => z = x \/ z = a)); auto.
      * left; auto.
      * right; left; auto.
    + intros y Hy. assert (M : fold_left Rmin l (Rmin x a) <= Rmin x a) by (apply B; left; reflexivity).
      pose proof (Rmin_l x a); pose proof (Rmin_r x a).
      destruct Hy as [<-|[<-|Hy]]; try lra. apply B; right; exact Hy.
Qed.
Lemma fold_max : forall l x, is_max (fold_left Rmax l x) (x :: l).
Proof.
  induction l as [|a l IH]; intro x; cbn [fold_left].
  - split; [left; reflexivity|]. intros y [->|[]]; lra.
  - destruct (IH (Rmax x a)) as [A B]. split.
    + destruct A as [A|A]; [|right; right; exact A]. rewrite <- A.
      destruct (Rmax_case_strong x a (fun z => z = x \/ z = a)); auto.
      * left; auto.
      * right; left; auto.
    + intros y Hy. assert (M : Rmax x a <= fold_left Rmax l (Rmax x a)) by (apply B; left; reflexivity).
      pose proof (Rmax_l x a); pose proof (Rmax_r x a).
      destruct Hy as [<-|[<-|Hy]]; try lra. apply B; right; exact Hy.
Qed.

(** C53: after a solve the summary is absent exactly if there are no equality constraints, and otherwise holds the
    smallest multiplier and the largest absolute value of a multiplier of the returned point. *)
Theorem C53_multiplier_summary : forall ldlt params (qp : QP R) st st' out, wf_qp qp -> ready qp st ->
  (p_initial_guess_method params = USER_PROVIDED -> interior qp st) ->
  IP_Solve ldlt params st = Ok (st', out) ->
  length (y_block st') = length (qb qp) /\
  match qp_lagrange_multipliers out with
  | None => length (qb qp) = 0%nat
  | Some lm => is_min (lm_min lm) (y_block st') /\ is_max (lm_l_infinity lm) (map Rabs (y_block st'))
  end.
Proof.
  intros ldlt params qp st st' out W RD NU H.
  pose proof (Solve_ready _ _ _ _ _ _ W RD NU H) as RD'.
  destruct (C12_Solve_run _ _ _ _ _ H) as (p' & st1 & mu & tr & _ & _ & _ & _ & _ & _ & _ & LM & _).
  assert (LY : length (y_block st') = length (qb qp))
    by (unfold y_block; rewrite yblk_length by apply RD'; apply (dK_ne qp st' RD')).
  split; [exact LY|]. rewrite LM. unfold ComputeLagrangeMultiplierSummary.
  change (yblk (ip_dims st') (ip_vars st')) with (y_block st'). rewrite <- LY. clear - LY.
  destruct (y_block st') as [|y0 y] eqn:EY; [reflexivity|].
  change ((0 <? length (y0 :: y))%nat) with true. cbn [lm_min lm_l_infinity]. split.
  - apply (fold_min y y0).
  - unfold flinf. cbn [fmaxcoeff fabs R_ops map]. apply fold_max.
Qed.

Section Log.
  Variable ldlt : mat R -> option (mat R).
  Variable qr : mat R -> QRResult R.
  Variable llt : mat R -> option (list R -> list R).
  Variable eigs : mat R -> QPEigenvalues R.
  Variable retract : option (list R -> list R -> R -> list R).
  Context {S : Type}.
  Variable cb : option (S -> NLSIteration R -> S * bool).
  Variable pa : NLSParams R.
  Variable pr : Problem R.
  Variable g : nat -> garbage R.

  (** C38: an iteration that used the interior point solver logs a multiplier summary exactly if the problem has
      equality constraints. *)
  Theorem C38_multipliers_logged : forall vars cs r,
    NLS_Solve ldlt qr llt eigs retract cb pa pr g vars cs = Ok r ->
    forall info o, In info (out_iterations (res_out r)) -> it_qp_outputs info = InteriorPointOut o ->
    (qp_lagrange_multipliers o = None <-> eq_rows pr = 0%nat).
  Proof.
    intros vars cs r H info o Hin HO. apply In_nth_error in Hin. destruct Hin as [k Hk].
    destruct (solve_history _ _ _ _ _ _ _ _ _ _ _ _ H) as (sts & css & exs & _ & _ & _ & _ & _ & HH & _).
    destruct (HH k info Hk) as (HI & _). apply iterate_spec in HI.
    destruct HI as [_ (qp & dx & cand & HL & HC & _)].
    unfold ComputeStepDirection in HC. rewrite HO in HC.
    destruct (use_null_space pr).
    { apply bind_ok_inv in HC. destruct HC as ([t x] & _ & HC). destruct t; discriminate. }
    apply bind_ok_inv in HC. destruct HC as (st & HS & HC).
    apply bind_ok_inv in HC. destruct HC as ([st' outs] & HI & HC).
    apply Ok_inj, pair_inj in HC. destruct HC as [EQ _]. injection EQ as ->.
    assert (EA : mrows (qA qp) = eq_rows pr).
    { unfold LinearizeAndFillQP in HL. do 3 (apply bind_ok_inv in HL; destruct HL as (a & _ & HL); destruct a as [[? ?] ?] || idtac).
      apply Ok_inj, pair_inj in HL. destruct HL as [_ <-]. cbn [qA mrows]. apply total_eq_rows. }
    pose proof HI as HI0. apply C12_Solve_run in HI0.
    destruct HI0 as (p' & ? & ? & ? & Hp' & _ & HN & _).
    destruct (C04_Setup_accepts_iff_consistent (g k) (Some qp)) as (SO & _).
    destruct (SO st HS) as (p2 & E2 & _ & E3 & _). injection E2 as <-. rewrite E3 in Hp'. injection Hp' as <-.
    destruct (Setup_ready _ _ _ HS HN) as [W RD].
    assert (NU : p_initial_guess_method (inner_qp_params pa pr) = USER_PROVIDED -> interior qp st)
      by (unfold inner_qp_params; cbn [p_initial_guess_method]; destruct (pr_eq pr); discriminate).
    destruct (C53_multiplier_summary _ _ _ _ _ _ W RD NU HI) as [LY M].
    rewrite <- EA, (wf_Ar _ W). change (neq qp) with (length (qb qp)).
    destruct (qp_lagrange_multipliers o) as [lm|]; [|tauto]. split; [discriminate|]. intro E0. exfalso.
    destruct M as [[IN _] _]. rewrite <- LY in E0. destruct (y_block st'); [destruct IN|discriminate].
  Qed.
End Log.
