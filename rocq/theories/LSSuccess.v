(** C54: Armijo back-tracking always succeeds on a descent direction, given enough iterations. *)
From Coq Require Import String List Bool Arith ZArith QArith Reals Lra Lia.
From Verif Require Import Scalar Outcome LinAlg Structs Constraint QPModel NullSpace Residual Nonlinear RInst
  Props_Constraint Spec QPStep ResProps LinProps MeritProps LSProps.
Import ListNotations.
Local Open Scope outcome_scope.
Local Open Scope string_scope.
Local Open Scope list_scope.
Local Open Scope R_scope.

(** The same line search with another max_line_search_iterations. *)
Definition with_max (n : Z) (i : ls_input (F := R)) : ls_input :=
  LSIn n (li_tol i) (li_pr i) (li_vars i) (li_dx i) (li_pre i) (li_dd i) (li_penalty i) (li_c1 i)
       (li_strategy i) (li_tau i).

Lemma R_valid : forall e : Errors R, Errors_ContainsInvalidValues e = false.
Proof. reflexivity. Qed.

(** Step sizes of back-tracking. *)
Lemma chain_armijo : forall (i : ls_input (F := R)), li_strategy i = ARMIJO_BACKTRACK ->
  forall steps, chain i steps -> forall l s, steps = l ++ [s] -> step_alpha s = li_tau i ^ length l.
Proof.
  intros i HS steps HC. induction HC as [|s E|l p s HC IH SF]; intros l' s' Eq.
  - destruct l'; discriminate.
  - destruct l' as [|x l']; [|destruct l'; discriminate]. injection Eq as <-. exact E.
  - rewrite app_assoc in Eq. apply app_inj_tail in Eq. destruct Eq as [<- <-].
    unfold step_follows in SF. rewrite HS in SF. rewrite SF, (IH l p eq_refl).
    rewrite app_length. cbn [length]. rewrite Nat.add_comm. cbn [Nat.add fmul R_ops pow]. ring.
Qed.

(** A right derivative below the slope demanded by Armijo gives an interval of acceptable steps. *)
Lemma armijo_interval : forall phi D c1, right_derivative phi D -> D < 0 -> 0 <= c1 < 1 ->
  exists delta, 0 < delta /\ forall t, 0 < t < delta -> phi t <= phi 0 + D * t * c1.
Proof.
  intros phi D c1 HD HN HC.
  assert (E : 0 < (1 - c1) * - D) by (apply Rmult_lt_0_compat; lra).
  destruct (HD _ E) as (delta & Hd & H). exists delta. split; [exact Hd|]. intros t Ht. specialize (H t Ht).
  apply Rabs_def2 in H. destruct H as [H _].
  assert (Q : (phi t - phi 0) / t < c1 * D) by lra.
  assert (Q2 : (phi t - phi 0) / t * t < c1 * D * t) by (apply Rmult_lt_compat_r; lra).
  replace ((phi t - phi 0) / t * t) with (phi t - phi 0) in Q2 by (field; lra). lra.
Qed.

Section Total.
  Variable retract : option (list R -> list R -> R -> list R).
  Variable i : ls_input (F := R).
  Variable phi : R -> Errors R.
  Hypothesis HP : forall t, errors_at retract i t = Ok (phi t).
  Hypothesis HS : li_strategy i = ARMIJO_BACKTRACK.

  Lemma loop_total : forall n iter alpha steps cand,
    exists r, loop retract i n iter alpha steps cand = Ok r.
  Proof.
    induction n as [|n IH]; intros iter alpha steps cand; unfold loop; cbn [ls_loop]; [eexists; reflexivity|].
    assert (NA : exists a, next_alpha (li_strategy i) (li_tau i) iter alpha steps (li_pre i) (li_dd i) (li_penalty i)
                 = Ok (Some a)).
    { unfold next_alpha. rewrite HS. destruct (iter =? 0)%nat; eexists; reflexivity. }
    destruct NA as [a ->]. cbn [bind].
    pose proof (HP a) as E. unfold errors_at, point_at in E. apply bind_ok_inv in E. destruct E as (c & Ec & Ee).
    rewrite Ec. cbn [bind]. rewrite Ee. cbn [bind]. rewrite R_valid.
    repeat match goal with |- exists r, (if ?b then _ else _) = _ => destruct b; [eexists; reflexivity|] end.
    apply IH.
  Qed.
End Total.

(** C54: for any merit curve phi along the search direction whose right derivative at 0 is the logged
    slope, and any negative slope, there is a number of iterations [n] such that back-tracking with at least
    [n] iterations ends in SUCCESS after at most [n + 1] evaluations (or in FIRST_ORDER_SATISFIED, if the slope is
    below the tolerance). *)
Theorem C54_backtracking_succeeds : forall retract (i : ls_input (F := R)) (phi : R -> Errors R),
  li_strategy i = ARMIJO_BACKTRACK -> 0 < li_tau i < 1 -> 0 <= li_c1 i < 1 -> 0 < li_penalty i ->
  (forall t, bind (RetractCandidateVars retract (li_vars i) (li_dx i) t) (EvaluateNonlinearErrors (li_pr i)) = Ok (phi t)) ->
  phi 0 = li_pre i ->
  right_derivative (fun t => Errors_Total (phi t) (li_penalty i)) (DD_Total (li_dd i) (li_penalty i)) ->
  DD_Total (li_dd i) (li_penalty i) < 0 ->
  exists n : Z, (0 <= n)%Z /\ forall m, (n <= m)%Z ->
    exists res steps cand, run_line_search retract (with_max m i) = Ok (res, steps, cand) /\
      (res = SS_SUCCESS \/ res = FIRST_ORDER_SATISFIED) /\ (length steps <= Z.to_nat n + 1)%nat.
Proof.
  intros retract i phi HS HT HC HPen HP H0 HD HN.
  destruct (armijo_interval _ _ _ HD HN HC) as (delta & Hd & HI).
  destruct (pow_lt_1_zero (li_tau i) ltac:(rewrite Rabs_pos_eq; lra) delta Hd) as (k & Hk).
  specialize (Hk k ltac:(lia)). rewrite Rabs_pos_eq in Hk by (apply pow_le; lra).
  exists (Z.of_nat k). split; [lia|]. intros m Hm.
  assert (TOT : exists r, run_line_search retract (with_max m i) = Ok r).
  { unfold run_line_search, SelectStepSize. cbn [with_max li_max li_tol li_pr li_vars li_dx li_pre li_dd li_penalty li_c1 li_strategy li_tau].
    destruct (R_fgtb (li_penalty i) f0) as [_|B]; [|exfalso; apply B; exact HPen].
    rewrite R_valid. cbn [f_assert negb bind]. apply (loop_total retract i phi HP HS). }
  destruct TOT as [[[res steps] cand] E]. exists res, steps, cand. split; [exact E|].
  destruct (C28_line_search_log retract (with_max m i) ltac:(cbn [with_max li_max]; lia) _ _ _ E)
    as (LG & CH & L1 & L2 & init & last & Es & PT & REJ & RES).
  assert (AL : forall l1 s l2, steps = l1 ++ s :: l2 -> step_alpha s = li_tau i ^ length l1).
  { intros l1 s l2 Eq. assert (C2 : chain (with_max m i) (l1 ++ [s])).
    { revert CH. rewrite Eq. clear. induction l2 as [|x l2 IH] using rev_ind; intro CH; [exact CH|].
      apply IH. eapply chain_prefix. rewrite <- app_assoc. cbn [app]. exact CH. }
    apply (chain_armijo (with_max m i) HS _ C2 l1 s eq_refl). }
  (* the (k+1)-st step, if there is one, passes the test *)
  assert (PASS : forall l1 s l2, steps = l1 ++ s :: l2 -> length l1 = k -> armijo (with_max m i) s = true).
  { intros l1 s l2 Eq Ek. pose proof (AL _ _ _ Eq) as A. rewrite Ek in A.
    assert (Hin : In s steps) by (rewrite Eq; apply in_or_app; right; left; reflexivity).
    unfold logged in LG. rewrite Forall_forall in LG. specialize (LG s Hin).
    assert (ES : Ok (phi (step_alpha s)) = Ok (step_errors s)) by (rewrite <- LG; rewrite <- (HP (step_alpha s)); reflexivity).
    injection ES as ES. unfold armijo. cbn [with_max li_pre li_dd li_penalty li_c1]. rewrite <- ES, <- H0.
    match goal with |- fleb ?a ?b = true => destruct (R_fleb a b) as [_|B]; [reflexivity|exfalso; apply B] end.
    cbn [fadd fmul R_ops]. apply HI. rewrite A. split; [apply pow_lt; lra|exact Hk]. }
  assert (SHORT : (length init <= k)%nat).
  { destruct (Nat.le_gt_cases (length init) k) as [|G]; [assumption|exfalso].
    destruct (nth_error init k) as [s|] eqn:EN; [|apply nth_error_None in EN; lia].
    apply nth_error_split in EN. destruct EN as (l1 & l2 & Ei & Ek).
    assert (Eq : steps = l1 ++ s :: (l2 ++ [last])) by (rewrite Es, Ei, <- app_assoc; reflexivity).
    pose proof (PASS _ _ _ Eq Ek) as P. rewrite Ei in REJ. apply Forall_app in REJ. destruct REJ as [_ REJ].
    inversion REJ as [|? ? RJ _]; subst. destruct RJ as [_ RJ]. congruence. }
  split; [|rewrite Es, app_length; cbn [length]; lia].
  destruct res; auto; exfalso.
  - (* MAX_ITERATIONS *)
    destruct RES as ((_ & RJ) & _ & _ & LE). cbn [with_max li_max] in LE.
    rewrite Es, app_length in LE. cbn [length] in LE.
    rewrite (PASS init last [] Es) in RJ by lia. discriminate.
  - (* POSITIVE_DERIVATIVE *)
    destruct RES as (_ & _ & _ & AS). change (fgtb (DD_Total (li_dd i) (li_penalty i)) f0 = true) in AS.
    destruct (R_fgtb (DD_Total (li_dd i) (li_penalty i)) f0) as [B|]; [|discriminate]. cbn [f0 R_ops] in B. lra.
  - (* NON_FINITE *) discriminate.
  - destruct RES as (_ & _ & _ & SG & _). cbn [with_max li_strategy] in SG. congruence.
Qed.
