(** C79: the numbering of the variables and the order of the costs and equality constraints do not change the nonlinear
    solve (exact arithmetic, exact factorisations). *)
From Coq Require Import String List Bool Arith ZArith QArith Reals Lra Lia Permutation.
From Verif Require Import Scalar Outcome LinAlg Structs Constraint QPModel NullSpace Residual Nonlinear RInst Spec
  Props_Constraint QPBlocks QPAlgebra QPNewton QPAlpha QPTrace QPInit QPStep QPSolve QPPerm QPRelabel NSProps NSRelabel
  ResProps LinProps MeritProps Penalty NLSTotal NLSSame.
Import ListNotations.
Local Open Scope outcome_scope.
Local Open Scope string_scope.
Local Open Scope list_scope.
Local Open Scope R_scope.

(** ** Specification *)

(** Index [i'] of the renumbered problem and index [i] of the original one denote the same variable. *)
Definition same_variable (sg : nat -> nat) (i i' : Z) : Prop := i = Z.of_nat (sg (Z.to_nat i')).

(** The same functions of the same variables. *)
Record renumbered_residual (sg : nat -> nat) (r r' : residual R) : Prop := {
  rr_dim : res_dim r' = res_dim r;
  rr_f : forall u, res_f r' u = res_f r u;
  rr_fJ : forall u, res_fJ r' u = res_fJ r u;
  rr_index : Forall2 (same_variable sg) (res_index r) (res_index r') }.

Definition renumbered_constraint (sg : nat -> nat) (c c' : lic R) : Prop :=
  la c' = la c /\ lb c' = lb c /\ same_variable sg (lvar c) (lvar c').

(** [pr'] is [pr] with its variables renumbered by [sg] (variable i of pr' is variable sg i of pr) and its costs and
    equality constraints listed in any order. *)
Record renumbered_problem (sg : nat -> nat) (pr pr' : Problem R) : Prop := {
  rp_dim : pr_dimension pr' = pr_dimension pr;
  rp_sg : renumbering (Z.to_nat (pr_dimension pr)) sg;
  rp_costs : exists l, Permutation (pr_costs pr) l /\ Forall2 (renumbered_residual sg) l (pr_costs pr');
  rp_eq : exists l, Permutation (pr_eq pr) l /\ Forall2 (renumbered_residual sg) l (pr_eq pr');
  rp_ineq : Forall2 (renumbered_constraint sg) (pr_ineq pr) (pr_ineq pr') }.

(** The two retractions do the same, each in its numbering. *)
Definition renumbered_retraction (n : nat) (sg : nat -> nat) (retract retract' : option (list R -> list R -> R -> list R)) : Prop :=
  match retract, retract' with
  | None, None => True
  | Some f, Some f' => forall v v' dx dx' a, picks n sg v v' -> picks n sg dx dx' -> picks n sg (f v dx a) (f' v' dx' a)
  | _, _ => False
  end.

(** The factorisations used for this problem are exact. *)
Definition exact_for (ldlt : mat R -> option (mat R)) (qr : mat R -> QRResult R) (llt : mat R -> option (list R -> list R))
    (pr : Problem R) : Prop :=
  (pr_ineq pr <> [] \/ pr_eq pr = [] -> ldlt_exact (pdim pr + eq_rows pr) ldlt) /\
  (pr_ineq pr = [] -> pr_eq pr <> [] -> null_space_exact qr llt pr).

(** The QR factorisation reports full rank if the linearised constraints are independent. *)
Definition ranks_exact (qr : mat R -> QRResult R) (pr : Problem R) : Prop :=
  forall v lambda errs qp, LinearizeAndFillQP v lambda pr = Ok (errs, qp) -> rank_exact (qA qp) (qr (qA qp)).

(** Whether the factorisations succeed (the LDLT of the interior point method, the rank of the null space method) does not
    depend on the numbering. *)
Definition fail_alike (ldlt ldlt' : mat R -> option (mat R)) (qr qr' : mat R -> QRResult R) (pr pr' : Problem R) : Prop :=
  (pr_ineq pr <> [] \/ pr_eq pr = [] -> success_ignores_numbering (pdim pr + eq_rows pr) ldlt ldlt') /\
  (pr_ineq pr = [] -> pr_eq pr <> [] -> ranks_exact qr pr /\ ranks_exact qr' pr').

(** ** The model described by the two problems *)
Record renumbered_model (sg tau : nat -> nat) (pr pr' : Problem R) : Prop := {
  rm_dim : pr_dimension pr' = pr_dimension pr;
  rm_sg : renumbering (pdim pr) sg;
  rm_rows : eq_rows pr' = eq_rows pr;
  rm_tau : renumbering (eq_rows pr) tau;
  rm_ineq : Forall2 (renumbered_constraint sg) (pr_ineq pr) (pr_ineq pr');
  rm_eq : pr_eq pr = [] <-> pr_eq pr' = [];
  rm_cost : forall v v' dx dx', picks (pdim pr) sg v v' -> (forall i, (i < pdim pr)%nat -> dx' i = dx (sg i)) ->
    lin_cost pr' v' dx' = lin_cost pr v dx;
  rm_con : forall v v' dx dx' k, picks (pdim pr) sg v v' -> (forall i, (i < pdim pr)%nat -> dx' i = dx (sg i)) -> (k < eq_rows pr)%nat ->
    nth k (lin_equalities pr' v' dx') 0 = nth (tau k) (lin_equalities pr v dx) 0;
  rm_value : forall v v', picks (pdim pr) sg v v' -> cost_at pr' v' = cost_at pr v;
  rm_viol : forall v v', picks (pdim pr) sg v v' -> eq_l1_at pr' v' = eq_l1_at pr v }.

Lemma lin_eq_length : forall (pr : Problem R) v dx, length (lin_equalities pr v dx) = eq_rows pr.
Proof.
  intros pr v dx. unfold lin_equalities, eq_rows. induction (pr_eq pr) as [|r l IH]; [reflexivity|].
  cbn [flat_map map]. rewrite app_length, mkvec_length, IH. reflexivity.
Qed.

Lemma Forall2_len : forall A B (Q : A -> B -> Prop) l l', Forall2 Q l l' -> length l = length l'.
Proof. intros A B Q l l' F. induction F; cbn [length]; congruence. Qed.

Section Residuals.
  Variable n : nat.
  Variable sg : nat -> nat.

  Lemma gathered_relR : forall r r' v v', renumbered_residual sg r r' -> (forall i, In i (res_index r') -> (0 <= i < Z.of_nat n)%Z) ->
    picks n sg v v' -> gathered r' v' = gathered r v.
  Proof.
    intros r r' v v' [_ _ _ RI] B (_ & _ & X). unfold gathered.
    revert B. induction RI as [|i i' l l' S F IH]; intro B; [reflexivity|]. cbn [map]. f_equal.
    - rewrite S, Nat2Z.id. apply X. specialize (B i' (or_introl eq_refl)). lia.
    - apply IH. intros; apply B; right; assumption.
  Qed.

  Lemma lin_residual_relR : forall r r' v v' dx dx' k, renumbered_residual sg r r' ->
    (forall i, In i (res_index r') -> (0 <= i < Z.of_nat n)%Z) -> picks n sg v v' ->
    (forall i, (i < n)%nat -> dx' i = dx (sg i)) -> lin_residual r' v' dx' k = lin_residual r v dx k.
  Proof.
    intros r r' v v' dx dx' k RR B PV DX. unfold lin_residual. rewrite (gathered_relR r r' v v' RR B PV).
    rewrite (rr_fJ _ _ _ RR). f_equal.
    pose proof (Forall2_len _ _ _ _ _ (rr_index _ _ _ RR)) as L. rewrite <- L. apply Rsum_ext. intros a Ha. f_equal.
    unfold gidx.
    assert (S : same_variable sg (nth a (res_index r) 0%Z) (nth a (res_index r') 0%Z)).
    { pose proof (rr_index _ _ _ RR) as F. clear - F Ha. revert a Ha.
      induction F as [|i i' l l' S F IH]; intros a Ha; [cbn in Ha; lia|]. destruct a as [|a]; [exact S|]. apply IH. cbn in Ha. lia. }
    rewrite S, Nat2Z.id. apply DX. specialize (B _ (nth_In (res_index r') 0%Z ltac:(rewrite <- L; exact Ha))). lia.
  Qed.
End Residuals.

(** The row permutation induced by the order of the equality constraints. *)
Lemma renumbered_problem_model : forall sg pr pr', indices_ok pr' -> renumbered_problem sg pr pr' ->
  exists tau, renumbered_model sg tau pr pr'.
Proof.
  intros sg pr pr' IO [RD RS (lc & PC & FC) (le & PE & FE) RI].
  set (n := pdim pr).
  assert (PD : Z.of_nat n = pr_dimension pr').
  { unfold n, pdim. rewrite <- RD. pose proof (io_dim _ IO). lia. }
  assert (BC : forall r', In r' (pr_costs pr') -> forall i, In i (res_index r') -> (0 <= i < Z.of_nat n)%Z).
  { intros r' Hr. rewrite PD. apply (io_range _ IO). left. exact Hr. }
  assert (BE : forall r', In r' (pr_eq pr') -> forall i, In i (res_index r') -> (0 <= i < Z.of_nat n)%Z).
  { intros r' Hr. rewrite PD. apply (io_range _ IO). right. exact Hr. }
  (* rows as pairs *)
  set (rows := fun l : list (residual R) => flat_map (fun r => map (fun k => (r, k)) (seq 0 (res_dim r))) l).
  assert (LR : forall l, length (rows l) = list_sum (map res_dim l)).
  { intro l. unfold rows. induction l as [|r l IH]; [reflexivity|]. cbn [flat_map map]. rewrite app_length, map_length, seq_length, IH. reflexivity. }
  assert (PR : Permutation (rows (pr_eq pr)) (rows le)) by (unfold rows; apply Permutation_flat_map; exact PE).
  set (d0 := (MkRes 0 [] (fun u => u) (fun u => (u, Mat 0 0 [])) : residual R, 0%nat)).
  apply (Permutation_nth _ _ d0) in PR. destruct PR as (EL & tau & BT & IT & NT).
  assert (SUM : eq_rows pr' = eq_rows pr).
  { unfold eq_rows. rewrite <- !LR, <- EL, !LR. clear - FE. induction FE as [|r r' l l' S F IH]; [reflexivity|].
    cbn [map list_sum fold_right]. rewrite (rr_dim _ _ _ S). unfold list_sum in IH. rewrite IH. reflexivity. }
  assert (LIN : forall l v dx, flat_map (fun r => mkvec (res_dim r) (lin_residual r v dx)) l = map (fun rk => lin_residual (fst rk) v dx (snd rk)) (rows l)).
  { intros l v dx. unfold rows. induction l as [|r l IH]; [reflexivity|]. cbn [flat_map]. rewrite map_app, <- IH, map_map. reflexivity. }
  assert (LEQ : forall v v' dx dx', picks n sg v v' -> (forall i, (i < n)%nat -> dx' i = dx (sg i)) ->
    lin_equalities pr' v' dx' = flat_map (fun r => mkvec (res_dim r) (lin_residual r v dx)) le).
  { intros v v' dx dx' PV DX. unfold lin_equalities. revert BE. clear - FE PV DX. induction FE as [|r r' l l' S F IH]; intro BE; [reflexivity|].
    cbn [flat_map]. rewrite IH by (intros; eapply BE; [right; eassumption|eassumption]). f_equal. rewrite (rr_dim _ _ _ S). apply mkvec_ext. intros k _.
    apply (lin_residual_relR n sg); auto. apply BE. left. reflexivity. }
  assert (RT : renumbering (eq_rows pr) tau).
  { unfold eq_rows. rewrite <- LR. split; [intros i Hi; apply BT; exact Hi|intros i j Hi Hj E; apply IT; assumption]. }
  exists tau. constructor; auto.
  - split; intro E.
    + rewrite E in PE. apply Permutation_nil in PE. subst le. inversion FE. reflexivity.
    + rewrite E in FE. inversion FE. subst le. apply Permutation_nil, Permutation_sym. exact PE.
  - intros v v' dx dx' PV DX. unfold lin_cost. rewrite (Rlsum_perm _ _ (Permutation_map _ PC)). f_equal.
    revert BC. clear - FC PV DX. induction FC as [|r r' l l' S F IH]; intro BC; [reflexivity|]. cbn [map]. rewrite IH by (intros; eapply BC; [right; eassumption|eassumption]).
    f_equal. f_equal. rewrite (rr_dim _ _ _ S). apply Rsum_ext. intros k _. f_equal.
    apply (lin_residual_relR n sg); auto. apply BC. left. reflexivity.
  - intros v v' dx dx' k PV DX Hk. rewrite (LEQ v v' dx dx' PV DX), LIN. unfold lin_equalities. rewrite LIN.
    rewrite !(nth_indep _ 0 (lin_residual (fst d0) v dx (snd d0))).
    2: { rewrite map_length, LR. apply RT. exact Hk. }
    2: { rewrite map_length, EL, LR. exact Hk. }
    rewrite !(map_nth (fun rk => lin_residual (fst rk) v dx (snd rk))). rewrite NT; [reflexivity|]. rewrite LR. exact Hk.
  - intros v v' PV. unfold cost_at. rewrite (Rlsum_perm _ _ (Permutation_map _ PC)). f_equal.
    revert BC. clear - FC PV. induction FC as [|r r' l l' S F IH]; intro BC; [reflexivity|]. cbn [map]. rewrite IH by (intros; eapply BC; [right; eassumption|eassumption]).
    f_equal. rewrite (rr_dim _ _ _ S), (gathered_relR n sg r r' v v' S (BC r' (or_introl eq_refl)) PV), (rr_f _ _ _ S). reflexivity.
  - intros v v' PV. unfold eq_l1_at. rewrite (Rlsum_perm _ _ (Permutation_map _ PE)). f_equal.
    revert BE. clear - FE PV. induction FE as [|r r' l l' S F IH]; intro BE; [reflexivity|]. cbn [map]. rewrite IH by (intros; eapply BE; [right; eassumption|eassumption]).
    f_equal. rewrite (rr_dim _ _ _ S), (gathered_relR n sg r r' v v' S (BE r' (or_introl eq_refl)) PV), (rr_f _ _ _ S). reflexivity.
Qed.

(** ** The linearised problems *)
Section Pair.
  Variables pr pr' : Problem R.
  Variables sg tau : nat -> nat.
  Hypothesis RM : renumbered_model sg tau pr pr'.
  Hypothesis IO : indices_ok pr.
  Hypothesis IO' : indices_ok pr'.
  Let n := pdim pr.
  Let RX : renumbering n sg := rm_sg _ _ _ _ RM.

  Lemma pdim' : pdim pr' = n.
  Proof. unfold n, pdim. rewrite (rm_dim _ _ _ _ RM). reflexivity. Qed.

  Lemma uvec_picks : forall i, (i < n)%nat -> picks n sg (uvec n (sg i)) (uvec n i).
  Proof.
    intros i Hi. apply picks_intro; try apply mkvec_length. intros k Hk. unfold uvec.
    rewrite !(vget_mkvec R R_ops) by (try exact Hk; apply RX; exact Hk).
    destruct (Nat.eqb_spec k i) as [M|N]; destruct (Nat.eqb_spec (sg k) (sg i)) as [E|E]; try reflexivity.
    - exfalso. apply E. rewrite M. reflexivity.
    - exfalso. apply N. apply RX; assumption.
  Qed.

  Lemma uvec2_picks : forall i j, (i < n)%nat -> (j < n)%nat -> picks n sg (uvec2 n (sg i) (sg j)) (uvec2 n i j).
  Proof.
    intros i j Hi Hj. apply picks_intro; try apply mkvec_length. intros k Hk. unfold uvec2.
    rewrite !(vget_mkvec R R_ops) by (try exact Hk; apply RX; exact Hk).
    assert (E : forall m, (m < n)%nat -> (k =? m)%nat = (sg k =? sg m)%nat).
    { intros m Hm. destruct (Nat.eqb_spec k m) as [M|N]; destruct (Nat.eqb_spec (sg k) (sg m)) as [X|X]; try reflexivity.
      - exfalso. apply X. rewrite M. reflexivity.
      - exfalso. apply N. apply RX; assumption. }
    rewrite (E i Hi), (E j Hj). reflexivity.
  Qed.

  Lemma linearise_relR : forall v v' l, picks n sg v v' ->
    exists e q q', LinearizeAndFillQP v l pr = Ok (e, q) /\ LinearizeAndFillQP v' l pr' = Ok (e, q') /\ renumbered sg tau q q' /\
      setup_consistent q /\ setup_consistent q' /\
      (forall c, In c (qcons q) -> (0 <= lvar c)%Z) /\ (forall c, In c (qcons q') -> (0 <= lvar c)%Z) /\
      (mrows (qG q) = n /\ mcols (qG q) = n /\ length (qc q) = n /\ mrows (qA q) = eq_rows pr /\ mcols (qA q) = n /\ length (qb q) = eq_rows pr) /\
      (mrows (qG q') = n /\ mcols (qG q') = n /\ length (qc q') = n /\ mrows (qA q') = eq_rows pr /\ mcols (qA q') = n /\ length (qb q') = eq_rows pr) /\
      (pr_ineq pr = [] -> qcons q = []).
  Proof.
    intros v v' l PV. destruct PV as (LV & LV' & XV). assert (PV : picks n sg v v') by (apply picks_intro; assumption).
    destruct (linearise_total pr v l LV (io_range _ IO) (io_cons _ IO) (io_dim _ IO)) as (e1 & q1 & E1 & GR1 & GC1 & CL1 & AR1 & AC1 & BL1 & QC1).
    assert (LV2 : length v' = pdim pr') by (rewrite pdim'; exact LV').
    destruct (linearise_total pr' v' l LV2 (io_range _ IO') (io_cons _ IO') (io_dim _ IO')) as (e2 & q2 & E2 & GR2 & GC2 & CL2 & AR2 & AC2 & BL2 & QC2).
    rewrite pdim' in GR2, GC2, CL2, AC2. rewrite (rm_rows _ _ _ _ RM) in AR2, BL2. fold n in GR1, GC1, CL1, AC1.
    destruct (linearise_wf _ _ _ _ _ (io_distinct _ IO) E1) as (_ & _ & _ & F1 & Q1).
    destruct (linearise_wf _ _ _ _ _ (io_distinct _ IO') E2) as (_ & _ & _ & F2 & Q2).
    destruct (C24_linearised_qp _ _ _ _ _ (io_distinct _ IO) E1) as (_ & OB1 & _ & _ & EQ1 & _).
    destruct (C24_linearised_qp _ _ _ _ _ (io_distinct _ IO') E2) as (_ & OB2 & _ & _ & EQ2 & _).
    rewrite (rm_dim _ _ _ _ RM) in OB2. change (Z.to_nat (pr_dimension pr)) with n in OB1, OB2.
    assert (EE : e1 = e2).
    { apply errors_eta.
      - rewrite F1, F2. symmetry. apply (rm_cost _ _ _ _ RM v v'); [exact PV|reflexivity].
      - rewrite Q1, Q2. apply Rlsum_perm, Permutation_map. apply (Permutation_nth _ _ 0). rewrite !lin_eq_length. split; [apply (rm_rows _ _ _ _ RM)|].
        exists tau. destruct (rm_tau _ _ _ _ RM) as [B I]. splits; [exact B|exact I|].
        intros k Hk. apply (rm_con _ _ _ _ RM v v'); auto. }
    assert (NV1 : nv q1 = n) by exact CL1. assert (NV2 : nv q2 = n) by exact CL2.
    assert (OB : forall dx dx', picks n sg dx dx' -> objective q2 dx' = objective q1 dx).
    { intros dx dx' (_ & _ & DX). specialize (OB1 dx). specialize (OB2 dx').
      rewrite (rm_cost _ _ _ _ RM v v' (vget dx) (vget dx') PV DX) in OB2. rewrite <- EE in OB2.
      rewrite (picks_sum n sg (fun i => vget dx i ^ 2) (fun i => vget dx' i ^ 2) RX) in OB2
        by (intros i Hi; rewrite (DX i Hi); reflexivity). lra. }
    assert (NEG : forall q dx, qform q (mkvec (nv q) (fun k => - vget dx k)) = qform q dx).
    { intros q dx. unfold qform. apply Rsum_ext. intros i Hi. apply Rsum_ext. intros j Hj. rewrite !(vget_mkvec R R_ops) by assumption. ring. }
    assert (OBN : forall q dx, objective q dx - objective q (mkvec (nv q) (fun k => - vget dx k)) = 2 * Rsum (nv q) (fun i => vget (qc q) i * vget dx i)).
    { intros q dx. unfold objective. rewrite NEG.
      rewrite (Rsum_ext (nv q) (fun i => vget (qc q) i * vget (mkvec (nv q) (fun k => - vget dx k)) i) (fun i => - (vget (qc q) i * vget dx i)))
        by (intros i Hi; rewrite (vget_mkvec R R_ops) by exact Hi; ring).
      rewrite Rsum_opp. ring. }
    assert (LIN : forall dx dx', picks n sg dx dx' -> Rsum n (fun i => vget (qc q2) i * vget dx' i) = Rsum n (fun i => vget (qc q1) i * vget dx i)).
    { intros dx dx' P. pose proof (OBN q1 dx) as A. pose proof (OBN q2 dx') as B. rewrite NV1 in A. rewrite NV2 in B.
      rewrite (OB dx dx' P) in B. rewrite (OB (mkvec n (fun k => - vget dx k)) (mkvec n (fun k => - vget dx' k))) in B; [lra|].
      apply picks_intro; try apply mkvec_length. intros i Hi. rewrite !(vget_mkvec R R_ops) by (try exact Hi; apply RX; exact Hi).
      rewrite (proj2 (proj2 P) i Hi). reflexivity. }
    assert (QF : forall dx dx', picks n sg dx dx' -> qform q2 dx' = qform q1 dx).
    { intros dx dx' P. pose proof (OB dx dx' P) as A. unfold objective in A. rewrite NV1, NV2, (LIN dx dx' P) in A. lra. }
    assert (K0 : forall q k, kkt_eq q [] k = vget (qb q) k).
    { intros q k. unfold kkt_eq. rewrite Rsum_0; [ring|]. intros i Hi. unfold vget. destruct i; cbn; ring. }
    assert (KE : forall dx dx' k, (forall i, (i < n)%nat -> vget dx' i = vget dx (sg i)) -> (k < eq_rows pr)%nat -> kkt_eq q2 dx' k = kkt_eq q1 dx (tau k)).
    { intros dx dx' k DX Hk.
      pose proof (rm_con _ _ _ _ RM v v' (vget dx) (vget dx') k PV DX Hk) as A.
      rewrite <- EQ1, <- EQ2, BL1, BL2 in A. rewrite !mkvec_nth in A by (try exact Hk; apply (rm_tau _ _ _ _ RM); exact Hk). exact A. }
    assert (U : forall q k j, (j < n)%nat -> Rsum n (fun i => Ae q k i * vget (uvec n j) i) = Ae q k j).
    { intros q k j Hj. rewrite (Rsum_ext _ _ (fun i => if (i =? j)%nat then Ae q k i else 0)).
      - exact (Rsum_delta n j (fun i => Ae q k i) Hj).
      - intros i Hi. unfold uvec. rewrite (vget_mkvec R R_ops) by exact Hi. destruct (i =? j)%nat; ring. }
    assert (PDZ : forall p0, indices_ok p0 -> Z.of_nat (pdim p0) = pr_dimension p0) by (intros p0 I0; unfold pdim; pose proof (io_dim _ I0); lia).
    pose proof (PDZ pr IO) as PD. pose proof (PDZ pr' IO') as PD'. fold n in PD. rewrite pdim' in PD'.
    assert (NE1 : neq q1 = eq_rows pr) by exact BL1. assert (NE2 : neq q2 = eq_rows pr) by exact BL2.
    assert (B : forall k, (k < eq_rows pr)%nat -> vget (qb q2) k = vget (qb q1) (tau k)).
    { intros k Hk. rewrite <- !K0. apply KE; [|exact Hk]. intros i _. unfold vget. destruct i; destruct (sg _); reflexivity. }
    exists e1, q1, q2. rewrite EE at 2. splits; auto.
    - constructor; rewrite ?NV1, ?NV2, ?NE1, ?NE2.
      + reflexivity.
      + reflexivity.
      + unfold nineq. rewrite QC1, QC2, !map_length. symmetry. apply (Forall2_len _ _ _ _ _ (rm_ineq _ _ _ _ RM)).
      + exact RX.
      + apply (rm_tau _ _ _ _ RM).
      + assert (DG : forall i, (i < n)%nat -> Gs q2 i i = Gs q1 (sg i) (sg i)).
        { intros i Hi. rewrite <- (qform_unit q1 (sg i)), <- (qform_unit q2 i) by (rewrite ?NV1, ?NV2; first [exact Hi|apply RX; exact Hi]).
          rewrite NV1, NV2. apply QF. apply uvec_picks. exact Hi. }
        intros i j Hi Hj. destruct (Nat.eq_dec i j) as [->|N]; [apply DG; exact Hj|].
        assert (Si : (sg i < n)%nat) by (apply RX; exact Hi). assert (Sj : (sg j < n)%nat) by (apply RX; exact Hj).
        assert (N' : sg i <> sg j) by (intro X; apply N; apply RX; assumption).
        pose proof (qform_unit2 q1 (sg i) (sg j) ltac:(lia) ltac:(lia) N') as A. pose proof (qform_unit2 q2 i j ltac:(lia) ltac:(lia) N) as C.
        rewrite NV1 in A. rewrite NV2 in C. rewrite (QF _ _ (uvec2_picks i j Hi Hj)) in C.
        rewrite (QPSolve.Gs_sym q1 (sg j) (sg i)) in A. rewrite (QPSolve.Gs_sym q2 j i) in C.
        pose proof (DG i Hi). pose proof (DG j Hj). lra.
      + intros i Hi. rewrite <- (linear_unit n (qc q2) i Hi), <- (linear_unit n (qc q1) (sg i) (proj1 RX i Hi)).
        apply LIN. apply uvec_picks. exact Hi.
      + intros k j Hk Hj. pose proof (KE (uvec n (sg j)) (uvec n j) k (proj2 (proj2 (uvec_picks j Hj))) Hk) as A.
        unfold kkt_eq in A. rewrite NV1, NV2, !U, (B k Hk) in A by (try exact Hj; apply RX; exact Hj). lra.
      + exact B.
      + intros m Hm. unfold nineq in Hm. rewrite QC1, map_length in Hm. unfold ca, Spec.cb, cv, con. rewrite QC1, QC2.
        pose proof (rm_ineq _ _ _ _ RM) as F. pose proof (Forall2_len _ _ _ _ _ F) as FL.
        rewrite !(nth_indep _ lic0 (ShiftTo lic0 (vget v (Z.to_nat (lvar lic0))))) by (rewrite map_length; first [exact Hm|rewrite FL in Hm; exact Hm]).
        rewrite (map_nth (fun c : lic R => ShiftTo c (vget v (Z.to_nat (lvar c))))).
        rewrite (nth_indep (map _ (pr_ineq pr')) _ (ShiftTo lic0 (vget v' (Z.to_nat (lvar lic0))))) by (rewrite map_length; rewrite FL in Hm; exact Hm).
        rewrite (map_nth (fun c : lic R => ShiftTo c (vget v' (Z.to_nat (lvar c))))).
        assert (RC : renumbered_constraint sg (nth m (pr_ineq pr) lic0) (nth m (pr_ineq pr') lic0)).
        { clear - F Hm. revert m Hm. induction F as [|c c' l0 l' S F IH]; intros m Hm; [cbn in Hm; lia|]. destruct m as [|m]; [exact S|]. apply IH. cbn in Hm. lia. }
        assert (IC : In (nth m (pr_ineq pr') lic0) (pr_ineq pr')) by (apply nth_In; rewrite FL in Hm; exact Hm).
        destruct RC as (RA & RB & RV). pose proof (io_cons _ IO' _ IC) as BC. unfold same_variable in RV.
        cbn [ShiftTo la lb lvar]. rewrite RA, RB, RV, Nat2Z.id, (XV (Z.to_nat (lvar (nth m (pr_ineq pr') lic0)))) by lia.
        splits; reflexivity.
    - unfold setup_consistent. splits; try congruence.
      { intros _. rewrite AC1, GR1. split; [reflexivity|]. pose proof (io_dim _ IO). lia. }
      intros c Hc. rewrite QC1 in Hc. apply in_map_iff in Hc. destruct Hc as (c0 & <- & Hc). cbn [ShiftTo lvar].
      pose proof (io_cons _ IO c0 Hc). rewrite GR1. lia.
    - unfold setup_consistent. splits; try congruence.
      { intros _. rewrite AC2, GR2. split; [reflexivity|]. pose proof (io_dim _ IO). lia. }
      intros c Hc. rewrite QC2 in Hc. apply in_map_iff in Hc. destruct Hc as (c0 & <- & Hc). cbn [ShiftTo lvar].
      pose proof (io_cons _ IO' c0 Hc). rewrite GR2. lia.
    - intros c Hc. rewrite QC1 in Hc. apply in_map_iff in Hc. destruct Hc as (c0 & <- & Hc). cbn [ShiftTo lvar].
      pose proof (io_cons _ IO c0 Hc). lia.
    - intros c Hc. rewrite QC2 in Hc. apply in_map_iff in Hc. destruct Hc as (c0 & <- & Hc). cbn [ShiftTo lvar].
      pose proof (io_cons _ IO' c0 Hc). lia.
    - intro E. rewrite QC1, E. reflexivity.
  Qed.

  Variables ldlt ldlt' : mat R -> option (mat R).
  Variables qr qr' : mat R -> QRResult R.
  Variables llt llt' : mat R -> option (list R -> list R).
  Variables eigs eigs' : mat R -> QPEigenvalues R.
  Variables retract retract' : option (list R -> list R -> R -> list R).
  Context {S : Type}.
  Variable cb : option (S -> NLSIteration R -> S * bool).
  Variable pa : NLSParams R.
  Hypothesis EF : exact_for ldlt qr llt pr.
  Hypothesis EF' : exact_for ldlt' qr' llt' pr'.
  Hypothesis RT : renumbered_retraction n sg retract retract'.
  Hypothesis EG : n_log_qp_eigenvalues pa = false \/ forall v v' l e q q', picks n sg v v' ->
    LinearizeAndFillQP v l pr = Ok (e, q) -> LinearizeAndFillQP v' l pr' = Ok (e, q') -> eigs' (qG q') = eigs (qG q).
  Variable MIS : Prop.
  Hypothesis HM : fail_alike ldlt ldlt' qr qr' pr pr' \/ MIS.

  Lemma ineq_nil : pr_ineq pr = [] <-> pr_ineq pr' = [].
  Proof.
    pose proof (Forall2_len _ _ _ _ _ (rm_ineq _ _ _ _ RM)) as L.
    destruct (pr_ineq pr); destruct (pr_ineq pr'); cbn [length] in L; try lia; split; congruence.
  Qed.

  Lemma null_space_relR : use_null_space pr' = use_null_space pr.
  Proof.
    unfold use_null_space. pose proof ineq_nil as A. pose proof (rm_eq _ _ _ _ RM) as B.
    destruct (pr_ineq pr); destruct (pr_ineq pr'); destruct (pr_eq pr); destruct (pr_eq pr'); try reflexivity; exfalso;
      first [discriminate (proj1 A eq_refl)|discriminate (proj2 A eq_refl)|discriminate (proj1 B eq_refl)|discriminate (proj2 B eq_refl)].
  Qed.

  Lemma params_relR : inner_qp_params pa pr' = inner_qp_params pa pr.
  Proof.
    unfold inner_qp_params. pose proof (rm_eq _ _ _ _ RM) as B.
    destruct (pr_eq pr); destruct (pr_eq pr'); try reflexivity; exfalso; first [discriminate (proj1 B eq_refl)|discriminate (proj2 B eq_refl)].
  Qed.

  Lemma direction_relR : forall g g' v v' l, picks n sg v v' ->
    forall e q q', LinearizeAndFillQP v l pr = Ok (e, q) -> LinearizeAndFillQP v' l pr' = Ok (e, q') ->
    orelN MIS (fun a a' => fst a' = fst a /\ picks n sg (snd a) (snd a'))
      (ComputeStepDirection ldlt qr llt g pa pr q) (ComputeStepDirection ldlt' qr' llt' g' pa pr' q').
  Proof.
    intros g g' v v' l PV e q q' E1 E2.
    destruct (linearise_relR v v' l PV) as (e0 & q0 & q0' & E1' & E2' & RQ & SC & SC' & NN & NN' & D & D' & _).
    rewrite E1 in E1'. rewrite E2 in E2'. apply Ok_inj in E1'. apply Ok_inj in E2'. apply pair_inj in E1'. apply pair_inj in E2'.
    destruct E1' as [_ <-]. destruct E2' as [_ <-]. clear e0.
    destruct D as (D1 & D2 & D3 & D4 & D5 & D6). destruct D' as (D1' & D2' & D3' & D4' & D5' & D6').
    assert (NV : nv q = n) by exact D3. assert (NE : neq q = eq_rows pr) by exact D6.
    unfold ComputeStepDirection. rewrite null_space_relR, params_relR, pdim'. fold n.
    destruct (use_null_space pr) eqn:EU.
    - assert (IQ : pr_ineq pr = [] /\ pr_eq pr <> []).
      { unfold use_null_space in EU. destruct (pr_ineq pr); [|discriminate]. destruct (pr_eq pr); [discriminate|]. split; [reflexivity|discriminate]. }
      destruct IQ as [IQ1 IQ2].
      assert (IQ2' : pr_eq pr' <> []) by (intro X; apply IQ2; apply (rm_eq _ _ _ _ RM); exact X).
      destruct (proj2 EF IQ1 IQ2 v l e q E1) as [QR LT].
      destruct (proj2 EF' (proj1 ineq_nil IQ1) IQ2' v' l e q' E2) as [QR' LT'].
      assert (HMn : (rank_exact (qA q) (qr (qA q)) /\ rank_exact (qA q') (qr' (qA q'))) \/ MIS).
      { destruct HM as [[_ H]|H]; [left|right; exact H]. destruct (H IQ1 IQ2) as [A B]. split; [apply (A v l e q E1)|apply (B v' l e q' E2)]. }
      pose proof (ns_relR q q' sg tau RQ qr qr' llt llt' QR QR' LT LT' MIS HMn) as X. rewrite NV, NE in X.
      specialize (X D1 D2 D4 D5 D1' D2' D4' D5' (vzero n) (vzero n) (zero_picks n sg)).
      apply (orelN_bind MIS _ _ _ _ _ _ _ _ _ _ X). intros [t x] [t' x'] [ET PX]. cbn [fst snd] in ET, PX. subst t'.
      destruct t; apply orelN_ok; cbn [fst snd]; (split; [reflexivity|]); [exact PX|apply zero_picks].
    - assert (IQ : pr_ineq pr <> [] \/ pr_eq pr = []).
      { unfold use_null_space in EU. destruct (pr_ineq pr); [right|left; discriminate]. destruct (pr_eq pr); [reflexivity|discriminate]. }
      assert (IQ' : pr_ineq pr' <> [] \/ pr_eq pr' = []).
      { destruct IQ as [A|A]; [left; intro X; apply A; apply ineq_nil; exact X|right; apply (rm_eq _ _ _ _ RM); exact A]. }
      pose proof (proj1 EF IQ) as LX. pose proof (proj1 EF' IQ') as LX'.
      rewrite pdim', (rm_rows _ _ _ _ RM) in LX'. fold n in LX. rewrite <- NV, <- NE in LX, LX'.
      destruct (C04_Setup_accepts_iff_consistent g (Some q)) as (_ & A & _). destruct (A q eq_refl SC) as [st HS].
      destruct (C04_Setup_accepts_iff_consistent g' (Some q')) as (_ & A' & _). destruct (A' q' eq_refl SC') as [st' HS'].
      destruct (setup_ready g q st HS NN) as [W RD]. destruct (setup_ready g' q' st' HS' NN') as [W' RD'].
      rewrite HS, HS'. cbn [bind].
      assert (HMi : success_ignores_numbering (nv q + neq q) ldlt ldlt' \/ MIS).
      { destruct HM as [[H _]|H]; [left|right; exact H]. rewrite NV, NE. apply (H IQ). }
      assert (LVv : length (ip_vars st) = (nv q + 2 * nineq q + neq q)%nat)
        by (rewrite (rd_vars _ _ RD), (rd_dims _ _ RD); unfold tsize; cbn [dN dM dK]; lia).
      assert (LVv' : length (ip_vars st') = length (ip_vars st)).
      { rewrite LVv, (rd_vars _ _ RD'), (rd_dims _ _ RD'), <- (rn_nv _ _ _ _ RQ), <- (rn_neq _ _ _ _ RQ), <- (rn_nineq _ _ _ _ RQ). unfold tsize. cbn [dN dM dK]. lia. }
      assert (NU : p_initial_guess_method (inner_qp_params pa pr) <> USER_PROVIDED).
      { unfold inner_qp_params. cbn [p_initial_guess_method]. destruct (pr_eq pr); discriminate. }
      pose proof (relabel_final q q' sg tau ldlt ldlt' RQ NN NN' LX LX' MIS (inner_qp_params pa pr) g g' st st' _ _ HMi HS HS' LVv LVv'
        ltac:(intro C; contradiction)) as X.
      replace (SetVariables st (ip_vars st)) with st in X by (destruct st; reflexivity).
      replace (SetVariables st' (ip_vars st')) with st' in X by (destruct st'; reflexivity).
      apply orelN_of_F in X.
      apply (orelN_bind MIS _ _ _ _ _ _ _ _ _ _ X). intros [s o] [s' o'] [EO (PX & _)]. cbn [fst snd] in EO, PX. subst o'.
      apply orelN_ok. cbn [fst snd]. rewrite NV in PX. auto.
  Qed.

  Lemma derivative_relR : forall q q' dx dx', renumbered sg tau q q' -> nv q = n ->
    mrows (qA q) = neq q -> mrows (qA q') = neq q -> mcols (qA q) = n -> mcols (qA q') = n -> picks n sg dx dx' ->
    ComputeQPCostDerivative q' dx' = ComputeQPCostDerivative q dx.
  Proof.
    intros q q' dx dx' RQ NV A1 A1' A2 A2' (LD & LD' & DX).
    assert (LC : length (qc q) = n) by exact NV.
    assert (LC' : length (qc q') = n) by (rewrite <- NV; apply (rn_nv _ _ _ _ RQ)).
    unfold ComputeQPCostDerivative. rewrite LC, LC', LD, LD', A2, A2'.
    destruct (n =? n)%nat; cbn [f_assert bind]; [|reflexivity]. f_equal. f_equal.
    - change (@fdot R R_ops) with Rdot. rewrite !(Rdot_n n) by assumption. apply (picks_sum n sg _ _ RX). intros i Hi.
      rewrite (DX i Hi). pose proof (rn_c _ _ _ _ RQ i ltac:(lia)) as E. rewrite E. reflexivity.
    - rewrite !fold_add_Rsum. f_equal. rewrite A1, A1'. apply (picks_sum (neq q) tau _ _ (rn_tau _ _ _ _ RQ)). intros k Hk.
      rewrite (rn_b _ _ _ _ RQ k Hk). f_equal. change (@fdot R R_ops) with Rdot.
      rewrite !(Rdot_n n) by (unfold mrow; rewrite ?mkvec_length; assumption).
      apply (picks_sum n sg _ _ RX). intros j Hj. unfold mrow. rewrite A2, A2', !(vget_mkvec R R_ops) by (try exact Hj; apply RX; exact Hj).
      pose proof (rn_A _ _ _ _ RQ k j Hk ltac:(lia)) as E. unfold Ae in E. rewrite E, (DX j Hj). reflexivity.
  Qed.

  Lemma fl1_relR : forall m f u u', renumbering m f -> picks m f u u' -> fl1 u' = fl1 u.
  Proof.
    intros m f u u' RF P. unfold fl1. cbn [fsum fabs R_ops]. symmetry. apply Rlsum_perm, Permutation_map. apply (picks_perm m f); assumption.
  Qed.

  Lemma penalty_relR : forall q q' dx dx' o p, renumbered sg tau q q' -> nv q = n ->
    mrows (qG q) = n -> mcols (qG q) = n -> mrows (qG q') = n -> mcols (qG q') = n -> picks n sg dx dx' ->
    update_penalty pa pr' q' dx' o p = update_penalty pa pr q dx o p.
  Proof.
    intros q q' dx dx' o p RQ NV G1 G2 G1' G2' PD.
    assert (SPEN : SelectPenalty q' dx' (MaybeGetLagrangeMultipliers o) (n_equality_penalty_rho pa) =
                   SelectPenalty q dx (MaybeGetLagrangeMultipliers o) (n_equality_penalty_rho pa)).
    { unfold SelectPenalty. destruct (MaybeGetLagrangeMultipliers o); [reflexivity|].
      assert (PB : picks (neq q) tau (qb q) (qb q')).
      { apply picks_intro; [reflexivity|apply (rn_neq _ _ _ _ RQ)|apply (rn_b _ _ _ _ RQ)]. }
      rewrite (fl1_relR _ _ _ _ (rn_tau _ _ _ _ RQ) PB).
      pose proof (rn_nv _ _ _ _ RQ) as NV'.
      rewrite (quad_form q' dx') by (rewrite ?NV', ?NV; first [assumption|apply PD]).
      rewrite (quad_form q dx) by (rewrite ?NV; first [assumption|apply PD]).
      assert (DXq : forall i, (i < nv q)%nat -> vget dx' i = vget dx (sg i)) by (rewrite NV; apply PD).
      rewrite (qform_relR q q' sg tau RQ dx dx' DXq). change (@fdot R R_ops) with Rdot.
      rewrite (Rdot_n n (qc q')), (Rdot_n n (qc q)) by (first [apply PD|exact NV|rewrite <- NV; exact NV']).
      pose proof (linear_relR q q' sg tau RQ dx dx' DXq) as LL. rewrite NV', NV in LL. rewrite LL. reflexivity. }
    unfold update_penalty. rewrite SPEN. pose proof (rm_eq _ _ _ _ RM) as B.
    destruct (pr_eq pr); destruct (pr_eq pr'); try reflexivity; exfalso; first [discriminate (proj1 B eq_refl)|discriminate (proj2 B eq_refl)].
  Qed.

  Lemma evaluate_relR : forall v v', picks n sg v v' -> EvaluateNonlinearErrors pr' v' = EvaluateNonlinearErrors pr v.
  Proof.
    intros v v' PV.
    assert (X : forall p0 (u : list R), indices_ok p0 -> length u = pdim p0 -> forall r, In r (pr_costs p0) \/ In r (pr_eq p0) -> idx_ok r (length u)).
    { intros p0 u I L r Hr i Hi. rewrite L. unfold pdim. rewrite Z2Nat.id by (pose proof (io_dim _ I); lia). exact (io_range _ I r Hr i Hi). }
    rewrite (eval_errors_R pr v (X pr v IO (proj1 PV))).
    rewrite (eval_errors_R pr' v' (X pr' v' IO' ltac:(rewrite pdim'; apply PV))).
    rewrite (rm_value _ _ _ _ RM v v' PV), (rm_viol _ _ _ _ RM v v' PV). reflexivity.
  Qed.

  Lemma retract_relR : forall v v' dx dx' a, picks n sg v v' -> picks n sg dx dx' ->
    orelN MIS (picks n sg) (RetractCandidateVars retract v dx a) (RetractCandidateVars retract' v' dx' a).
  Proof.
    intros v v' dx dx' a PV PD. pose proof RT as RT0. unfold renumbered_retraction in RT0. unfold RetractCandidateVars.
    destruct retract as [f|]; destruct retract' as [f'|]; try contradiction.
    - apply orelN_ok. apply RT0; assumption.
    - destruct PV as (L & L' & X). destruct PD as (M & M' & Y). rewrite L, L', M, M', Nat.eqb_refl. cbn [ub_unless bind].
      apply orelN_ok. apply picks_intro; try (rewrite vadd_length, vscale_length; lia).
      intros i Hi. rewrite !vadd_get by (rewrite vscale_length; congruence). rewrite !vscale_get, (X i Hi), (Y i Hi). reflexivity.
  Qed.

  Lemma ls_relR : forall v v' dx dx' tol ep dd pen c1 strat ta, picks n sg v v' -> picks n sg dx dx' ->
    forall m iter alpha steps cand cand', picks n sg cand cand' ->
    orelN MIS (fun a a' => fst a' = fst a /\ picks n sg (snd a) (snd a'))
      (ls_loop retract m iter alpha steps cand pr v dx tol ep dd pen c1 strat ta)
      (ls_loop retract' m iter alpha steps cand' pr' v' dx' tol ep dd pen c1 strat ta).
  Proof.
    intros v v' dx dx' tol ep dd pen c1 strat ta PV PD. induction m as [|m IH]; intros iter alpha steps cand cand' PC; cbn [ls_loop].
    - apply orelN_ok. auto.
    - apply (orelN_bind MIS _ _ _ _ eq _ _ _ _ _ (orelN_same MIS _ _)). intros oa ? <-.
      destruct oa as [a|]; [|apply orelN_ok; auto].
      apply (orelN_bind MIS _ _ _ _ (picks n sg)); [apply retract_relR; assumption|]. intros c c' PC'.
      rewrite (evaluate_relR c c' PC').
      apply (orelN_bind MIS _ _ _ _ eq _ _ _ _ _ (orelN_same MIS _ _)). intros es ? <-.
      repeat match goal with |- context [if ?b then Ok _ else _] => destruct b; [apply orelN_ok; auto|] end.
      apply IH. exact PC'.
  Qed.

  Definition nsrel (st st' : nls_state R) : Prop :=
    picks n sg (ns_vars st) (ns_vars st') /\ ns_lambda st' = ns_lambda st /\ ns_penalty st' = ns_penalty st /\ ns_opt st' = ns_opt st.

  Definition iterrel (r r' : iter_result) : Prop :=
    match r, r' with
    | IterIndefinite, IterIndefinite => True
    | IterDone st info ex, IterDone st' info' ex' => nsrel st st' /\ info' = info /\ ex' = ex
    | _, _ => False
    end.

  Lemma update_relR : forall sr ep pen steps cand cand' v v' lam opt, picks n sg v v' -> picks n sg cand cand' ->
    orelN MIS (fun a a' => fst a' = fst a /\ nsrel (snd a) (snd a'))
      (UpdateLambdaAndCheckExitConditions pa sr ep pen steps cand v lam opt)
      (UpdateLambdaAndCheckExitConditions pa sr ep pen steps cand' v' lam opt).
  Proof.
    intros sr ep pen steps cand cand' v v' lam opt PV PC. unfold UpdateLambdaAndCheckExitConditions.
    assert (K : forall ex u u' la0 pe op, picks n sg u u' ->
      orelN MIS (fun a a' : option NLSTerminationState * nls_state R => fst a' = fst a /\ nsrel (snd a) (snd a'))
        (Ok (ex, MkNS u la0 pe op)) (Ok (ex, MkNS u' la0 pe op))).
    { intros. apply orelN_ok. cbn [fst snd]. unfold nsrel. cbn [ns_vars ns_lambda ns_penalty ns_opt]. auto. }
    destruct sr.
    1: { apply (orelN_bind MIS _ _ _ _ eq _ _ _ _ _ (orelN_same MIS _ _)). intros u ? <-.
         repeat match goal with |- context [if ?b then Ok _ else _] => destruct b; [apply K; assumption|] end. apply K; assumption. }
    all: repeat match goal with |- context [if ?b then Ok _ else _] => destruct b; [apply K; assumption|] end; apply K; assumption.
  Qed.

  Lemma iterate_relR : forall g g' k st st', nsrel st st' ->
    orelN MIS iterrel (nls_iterate ldlt qr llt eigs retract pa pr g k st) (nls_iterate ldlt' qr' llt' eigs' retract' pa pr' g' k st').
  Proof.
    intros g g' k [v la0 pe op] [v' la1 pe1 op1] (PV & EL & EP & EO). cbn [ns_vars ns_lambda ns_penalty ns_opt] in *. subst la1 pe1 op1.
    destruct (linearise_relR v v' la0 PV) as (e & q & q' & E1 & E2 & RQ & _ & _ & _ & _ & D & D' & _).
    destruct D as (D1 & D2 & D3 & D4 & D5 & D6). destruct D' as (D1' & D2' & D3' & D4' & D5' & D6').
    assert (NV : nv q = n) by exact D3. assert (NE : neq q = eq_rows pr) by exact D6.
    unfold nls_iterate. cbn [ns_vars ns_lambda ns_penalty ns_opt]. rewrite E1, E2. cbn [bind].
    apply (orelN_bind MIS _ _ _ _ _ _ _ _ _ _ (direction_relR g g' v v' la0 PV e q q' E1 E2)).
    intros [o dx] [o' dx'] [EO PD]. cbn [fst snd] in EO, PD. subst o'.
    destruct (QPWasIndefinite o); [apply orelN_ok; exact I|].
    rewrite (derivative_relR q q' dx dx' RQ NV) by (try congruence; exact PD).
    apply (orelN_bind MIS _ _ _ _ eq _ _ _ _ _ (orelN_same MIS _ _)). intros dd ? <-.
    rewrite (penalty_relR q q' dx dx' o pe RQ NV) by (try congruence; exact PD).
    set (pen := update_penalty pa pr q dx o pe). unfold SelectStepSize.
    apply (orelN_bind MIS _ _ _ _ (fun a a' => fst a' = fst a /\ picks n sg (snd a) (snd a'))).
    { apply (orelN_bind MIS _ _ _ _ eq _ _ _ _ _ (orelN_same MIS _ _)). intros u ? <-.
      apply (orelN_bind MIS _ _ _ _ eq _ _ _ _ _ (orelN_same MIS _ _)). intros u2 ? <-.
      apply ls_relR; assumption. }
    intros [[sr steps] cand] [[sr' steps'] cand'] [ES PC]. cbn [fst snd] in ES, PC. apply pair_inj in ES. destruct ES as [-> ->].
    apply (orelN_bind MIS _ _ _ _ _ _ _ _ _ _ (update_relR sr e pen steps cand cand' v v' la0 op PV PC)).
    intros [ex s1] [ex' s1'] [EX NR]. cbn [fst snd] in EX, NR. subst ex'. apply orelN_ok. cbn [iterrel].
    split; [exact NR|]. split; [|reflexivity]. destruct NR as (_ & _ & _ & ->).
    assert (EE : (if n_log_qp_eigenvalues pa then Some (eigs' (qG q')) else None) = (if n_log_qp_eigenvalues pa then Some (eigs (qG q)) else None)).
    { destruct (n_log_qp_eigenvalues pa); [|reflexivity]. destruct EG as [|H]; [discriminate|]. f_equal. apply (H v v' la0 e q q' PV E1 E2). }
    rewrite EE. reflexivity.
  Qed.

  Lemma loop_relR : forall g g' m iter log st st' cs, nsrel st st' ->
    orelN MIS (fun r r' : nls_result => res_out r' = res_out r /\ picks n sg (res_vars r) (res_vars r') /\ res_cb r' = res_cb r)
      (nls_loop ldlt qr llt eigs retract cb m pa pr g iter log st cs)
      (nls_loop ldlt' qr' llt' eigs' retract' cb m pa pr' g' iter log st' cs).
  Proof.
    intros g g'. induction m as [|m IH]; intros iter log st st' cs NS; cbn [nls_loop].
    - apply orelN_ok. cbn [res_out res_vars res_cb]. splits; try reflexivity. apply NS.
    - apply (orelN_bind MIS _ _ _ _ _ _ _ _ _ _ (iterate_relR (g iter) (g' iter) (Z.of_nat iter) st st' NS)).
      intros [|s1 info ex] [|s1' info' ex'] IR; try contradiction.
      + apply orelN_ok. cbn [res_out res_vars res_cb]. splits; try reflexivity. apply NS.
      + destruct IR as (NR & -> & ->). destruct (call_cb cb cs info) as [cs' pc].
        destruct ex; [apply orelN_ok; cbn [res_out res_vars res_cb]; splits; try reflexivity; apply NR|].
        destruct pc; [apply IH; exact NR|apply orelN_ok; cbn [res_out res_vars res_cb]; splits; try reflexivity; apply NR].
  Qed.

  Lemma solve_relR : forall g g' vars vars' cs, picks n sg vars vars' ->
    orelN MIS (fun r r' : nls_result => res_out r' = res_out r /\ picks n sg (res_vars r) (res_vars r') /\ res_cb r' = res_cb r)
      (NLS_Solve ldlt qr llt eigs retract cb pa pr g vars cs) (NLS_Solve ldlt' qr' llt' eigs' retract' cb pa pr' g' vars' cs).
  Proof.
    intros g g' vars vars' cs PV. unfold NLS_Solve. apply (orelN_bind MIS _ _ _ _ eq _ _ _ _ _ (orelN_same MIS _ _)). intros u ? <-.
    apply loop_relR. unfold nsrel. cbn [ns_vars ns_lambda ns_penalty ns_opt]. auto.
  Qed.
End Pair.

Lemma eigs_relR : forall pr pr' sg tau (eigs eigs' : mat R -> QPEigenvalues R), renumbered_model sg tau pr pr' ->
  indices_ok pr -> indices_ok pr' -> (forall G G', renumbered_matrix (pdim pr) G G' -> eigs' G' = eigs G) ->
  forall v v' l e q q', picks (pdim pr) sg v v' ->
    LinearizeAndFillQP v l pr = Ok (e, q) -> LinearizeAndFillQP v' l pr' = Ok (e, q') -> eigs' (qG q') = eigs (qG q).
Proof.
  intros pr pr' sg tau eigs eigs' RM IO IO' H v v' l e q q' PV E1 E2.
  destruct (linearise_relR pr pr' sg tau RM IO IO' v v' l PV) as (e0 & q0 & q0' & E1' & E2' & RQ & _ & _ & _ & _ & D & D' & _).
  rewrite E1 in E1'. rewrite E2 in E2'. apply Ok_inj in E1'. apply Ok_inj in E2'. apply pair_inj in E1'. apply pair_inj in E2'.
  destruct E1' as [_ <-]. destruct E2' as [_ <-].
  destruct D as (D1 & D2 & D3 & _). destruct D' as (D1' & D2' & _).
  apply H. unfold renumbered_matrix. splits; auto. exists sg. split; [apply (rm_sg _ _ _ _ RM)|]. intros i j Hi Hj.
  apply (rn_G _ _ _ _ RQ i j); unfold nv; rewrite D3; assumption.
Qed.

(** ** The theorems *)

(** C79. [pr'] is [pr] with its variables renumbered and its costs and equality constraints reordered; the initial
    variables and the retraction are renumbered accordingly. Two Solves, with any exact factorisations whose success does
    not depend on the numbering, fail with the same error or return the same outputs - every field of every logged
    iteration and the termination state -, the same callback state, and the same variables up to the numbering. *)
Theorem C79_numbering_irrelevant : forall ldlt ldlt' qr qr' llt llt' eigs eigs' retract retract'
  (S : Type) (cb : option (S -> NLSIteration R -> S * bool)) sg pr pr' pa g g' vars vars' cs,
  renumbered_problem sg pr pr' -> indices_ok pr -> indices_ok pr' ->
  exact_for ldlt qr llt pr -> exact_for ldlt' qr' llt' pr' -> fail_alike ldlt ldlt' qr qr' pr pr' ->
  renumbered_retraction (pdim pr) sg retract retract' ->
  (n_log_qp_eigenvalues pa = false \/ forall G G', renumbered_matrix (pdim pr) G G' -> eigs' G' = eigs G) ->
  picks (pdim pr) sg vars vars' ->
  match NLS_Solve ldlt qr llt eigs retract cb pa pr g vars cs, NLS_Solve ldlt' qr' llt' eigs' retract' cb pa pr' g' vars' cs with
  | Ok r, Ok r' => res_out r' = res_out r /\ picks (pdim pr) sg (res_vars r) (res_vars r') /\ res_cb r' = res_cb r
  | Throw e, Throw e' => e = e'
  | UB m, UB m' => m = m'
  | _, _ => False
  end.
Proof.
  intros ldlt ldlt' qr qr' llt llt' eigs eigs' retract retract' S cb sg pr pr' pa g g' vars vars' cs RP IO IO' EF EF' FA RT EG PV.
  destruct (renumbered_problem_model sg pr pr' IO' RP) as [tau RM].
  assert (EG' : n_log_qp_eigenvalues pa = false \/ forall v v' l e q q', picks (pdim pr) sg v v' ->
    LinearizeAndFillQP v l pr = Ok (e, q) -> LinearizeAndFillQP v' l pr' = Ok (e, q') -> eigs' (qG q') = eigs (qG q)).
  { destruct EG as [A|A]; [left; exact A|right]. apply (eigs_relR pr pr' sg tau eigs eigs' RM IO IO' A). }
  destruct (solve_relR pr pr' sg tau RM IO IO' ldlt ldlt' qr qr' llt llt' eigs eigs' retract retract' cb pa EF EF' RT EG' False (or_introl FA)
              g g' vars vars' cs PV) as [H|[[] _]]. exact H.
Qed.

(** C79, nothing assumed about when the factorisations fail: whenever both Solves return, they agree. *)
Theorem C79_numbering_irrelevant_when_both_return : forall ldlt ldlt' qr qr' llt llt' eigs eigs' retract retract'
  (S : Type) (cb : option (S -> NLSIteration R -> S * bool)) sg pr pr' pa g g' vars vars' cs r r',
  renumbered_problem sg pr pr' -> indices_ok pr -> indices_ok pr' ->
  exact_for ldlt qr llt pr -> exact_for ldlt' qr' llt' pr' ->
  renumbered_retraction (pdim pr) sg retract retract' ->
  (n_log_qp_eigenvalues pa = false \/ forall G G', renumbered_matrix (pdim pr) G G' -> eigs' G' = eigs G) ->
  picks (pdim pr) sg vars vars' ->
  NLS_Solve ldlt qr llt eigs retract cb pa pr g vars cs = Ok r ->
  NLS_Solve ldlt' qr' llt' eigs' retract' cb pa pr' g' vars' cs = Ok r' ->
  res_out r' = res_out r /\ picks (pdim pr) sg (res_vars r) (res_vars r') /\ res_cb r' = res_cb r.
Proof.
  intros ldlt ldlt' qr qr' llt llt' eigs eigs' retract retract' S cb sg pr pr' pa g g' vars vars' cs r r' RP IO IO' EF EF' RT EG PV H H'.
  destruct (renumbered_problem_model sg pr pr' IO' RP) as [tau RM].
  assert (EG' : n_log_qp_eigenvalues pa = false \/ forall v v' l e q q', picks (pdim pr) sg v v' ->
    LinearizeAndFillQP v l pr = Ok (e, q) -> LinearizeAndFillQP v' l pr' = Ok (e, q') -> eigs' (qG q') = eigs (qG q)).
  { destruct EG as [A|A]; [left; exact A|right]. apply (eigs_relR pr pr' sg tau eigs eigs' RM IO IO' A). }
  destruct (solve_relR pr pr' sg tau RM IO IO' ldlt ldlt' qr qr' llt llt' eigs eigs' retract retract' cb pa EF EF' RT EG' True (or_intror I)
              g g' vars vars' cs PV) as [X|[_ X]]; rewrite H, H' in X; [exact X|]. destruct X as [[]|[]].
Qed.

Lemma renumbered_problem_refl : forall pr : Problem R, indices_ok pr -> renumbered_problem (fun i => i) pr pr.
Proof.
  intros pr IO.
  assert (SV : forall i, (0 <= i)%Z -> same_variable (fun i => i) i i) by (intros i Hi; unfold same_variable; rewrite Z2Nat.id; auto).
  assert (RR : forall l, (forall r, In r l -> In r (pr_costs pr) \/ In r (pr_eq pr)) -> Forall2 (renumbered_residual (fun i => i)) l l).
  { induction l as [|r l IH]; intro H; constructor; [|apply IH; intros; apply H; right; assumption].
    constructor; auto. pose proof (io_range _ IO r (H r (or_introl eq_refl))) as B. revert B.
    induction (res_index r) as [|i ix IHi]; intro B; constructor; [apply SV; apply (B i (or_introl eq_refl))|].
    apply IHi. intros; apply B; right; assumption. }
  constructor.
  - reflexivity.
  - split; auto.
  - exists (pr_costs pr). split; [apply Permutation_refl|]. apply RR. auto.
  - exists (pr_eq pr). split; [apply Permutation_refl|]. apply RR. auto.
  - pose proof (io_cons _ IO) as B. revert B. induction (pr_ineq pr) as [|c l IH]; intro B; constructor.
    + split; [reflexivity|]. split; [reflexivity|]. apply SV. apply (B c (or_introl eq_refl)).
    + apply IH. intros; apply B; right; assumption.
Qed.

(** C79, consequence: which exact factorisations are used (pivoting, signs of reflections, ...) and what uninitialised memory
    contained leaves no trace in the result of a Solve. *)
Theorem C79_factorisation_irrelevant : forall ldlt ldlt' qr qr' llt llt' eigs retract
  (S : Type) (cb : option (S -> NLSIteration R -> S * bool)) pr pa g g' vars cs r r',
  indices_ok pr -> length vars = pdim pr -> keeps_length retract ->
  exact_for ldlt qr llt pr -> exact_for ldlt' qr' llt' pr ->
  NLS_Solve ldlt qr llt eigs retract cb pa pr g vars cs = Ok r ->
  NLS_Solve ldlt' qr' llt' eigs retract cb pa pr g' vars cs = Ok r' ->
  r' = r.
Proof.
  intros ldlt ldlt' qr qr' llt llt' eigs retract S cb pr pa g g' vars cs r r' IO LV KL EF EF' H H'.
  destruct (renumbered_problem_model (fun i => i) pr pr IO (renumbered_problem_refl pr IO)) as [tau RM].
  assert (RT : renumbered_retraction (pdim pr) (fun i => i) retract retract).
  { unfold renumbered_retraction. destruct retract as [f|] eqn:ER; [|exact I]. intros v v' dx dx' a PV PD.
    pose proof (KL f eq_refl v dx a) as L.
    rewrite (picks_id _ _ _ PV), (picks_id _ _ _ PD). unfold picks. rewrite L. destruct PV as (-> & _). auto. }
  assert (EG : n_log_qp_eigenvalues pa = false \/ forall v v' l e q q', picks (pdim pr) (fun i => i) v v' ->
    LinearizeAndFillQP v l pr = Ok (e, q) -> LinearizeAndFillQP v' l pr = Ok (e, q') -> eigs (qG q') = eigs (qG q)).
  { right. intros v v' l e q q' PV E1 E2. rewrite (picks_id _ _ _ PV), E1 in E2. apply Ok_inj in E2. apply pair_inj in E2.
    destruct E2 as [_ <-]. reflexivity. }
  destruct (solve_relR pr pr (fun i => i) tau RM IO IO ldlt ldlt' qr qr' llt llt' eigs eigs retract retract cb pa EF EF' RT EG True (or_intror I)
              g g' vars vars cs) as [X|[_ X]].
  - unfold picks. auto.
  - rewrite H, H' in X. destruct X as (A & B & C). apply picks_id in B. destruct r as [a b c], r' as [a' b' c']. cbn [res_out res_vars res_cb] in *. congruence.
  - rewrite H, H' in X. destruct X as [[]|[]].
Qed.
