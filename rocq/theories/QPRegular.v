(** C52: the linear system that the interior point method factorises is non-singular for every regular
    problem, so a factorisation that succeeds on non-singular matrices never fails. Exact arithmetic. *)
From Coq Require Import String List Bool Arith ZArith QArith Reals Lra Lia.
From Verif Require Import Scalar Outcome LinAlg Structs Constraint QPModel NullSpace Residual Nonlinear RInst Spec
  Props_Constraint QPBlocks QPAlgebra QPNewton QPAlpha QPStep QPTrace QPInit QPSolve ResProps LinProps NLSReal NLSBox NLSTotal.
Import ListNotations.
Local Open Scope outcome_scope.
Local Open Scope string_scope.
Local Open Scope list_scope.
Local Open Scope R_scope.

(** The n x n symmetric matrix given by the lower triangle of [H] has a trivial kernel. *)
Definition nonsingular (n : nat) (H : mat R) : Prop :=
  forall u : nat -> R, (forall i, (i < n)%nat -> Rsum n (fun j => sget H i j * u j) = 0) ->
  forall i, (i < n)%nat -> u i = 0.

(** The rows of A_eq are linearly independent. *)
Definition independent_rows (p : QP R) : Prop :=
  forall y : nat -> R, (forall j, (j < nv p)%nat -> Rsum (neq p) (fun k => Ae p k j * y k) = 0) ->
  forall k, (k < neq p)%nat -> y k = 0.

(** The objective curves upwards along every direction that keeps A_eq x + b_eq. *)
Definition curved_on_null_space (p : QP R) : Prop :=
  forall d : list R, length d = nv p -> (exists i, (i < nv p)%nat /\ vget d i <> 0) ->
  (forall k, (k < neq p)%nat -> Rsum (nv p) (fun j => Ae p k j * vget d j) = 0) -> 0 < qform p d.

(** A factorisation that gives up only on singular matrices. *)
Definition fails_only_if_singular (ldlt : mat R -> option (mat R)) : Prop :=
  forall H n, mrows H = n -> mcols H = n -> ldlt H = None -> ~ nonsingular n H.

Theorem C52_reduced_system_nonsingular : forall (p : QP R) w H,
  wf_qp p -> independent_rows p -> curved_on_null_space p ->
  (forall m, (m < nineq p)%nat -> 0 <= w m) -> reduced_kkt p w H ->
  nonsingular (nv p + neq p) H.
Proof.
  intros p w H W IR CN WP (_ & _ & HG & HA & H0) u HU.
  set (v := fun k => u (nv p + k)%nat).
  (* rows of the constraints: A u = 0 *)
  assert (AU : forall k, (k < neq p)%nat -> Rsum (nv p) (fun j => Ae p k j * u j) = 0).
  { intros k Hk. specialize (HU (nv p + k)%nat ltac:(lia)). rewrite Rsum_app in HU.
    rewrite (Rsum_0 (neq p)) in HU by (intros l Hl; rewrite H0 by assumption; ring).
    rewrite <- HU, Rplus_0_r. apply Rsum_ext. intros j Hj. destruct (HA k j Hk Hj) as [-> _]. reflexivity. }
  set (D := fun i => Rsum (nineq p) (fun m => if (cv p m =? i)%nat then ca p m * w m * ca p m else 0)).
  assert (GU : forall i, (i < nv p)%nat ->
            Rsum (nv p) (fun j => Gs p i j * u j) + D i * u i + Rsum (neq p) (fun k => Ae p k i * v k) = 0).
  { intros i Hi. specialize (HU i ltac:(lia)). rewrite Rsum_app in HU. rewrite <- HU. f_equal.
    - rewrite (Rsum_ext (nv p) (fun j => sget H i j * u j)
        (fun j => Gs p i j * u j + (if (j =? i)%nat then D i * u j else 0))).
      + rewrite Rsum_plus. rewrite (Rsum_delta (nv p) i (fun j => D i * u j) Hi). reflexivity.
      + intros j Hj. rewrite HG by assumption. unfold D. rewrite (Nat.eqb_sym j i). destruct (Nat.eqb_spec i j); [subst; ring|ring].
    - apply Rsum_ext. intros k Hk. destruct (HA k i Hk Hi) as [_ E]. unfold v. rewrite E. reflexivity. }
  assert (D0 : forall i, 0 <= D i).
  { intro i. apply Rsum_nonneg. intros m Hm. destruct (cv p m =? i)%nat; [|lra].
    specialize (WP m Hm). pose proof (sq_nonneg (ca p m)). replace (ca p m * w m * ca p m) with (w m * (ca p m * ca p m)) by ring.
    apply Rmult_le_pos; assumption. }
  set (d := mkvec (nv p) u).
  assert (DG : forall i, (i < nv p)%nat -> vget d i = u i) by (intros i Hi; unfold d; apply vget_mkvec; exact Hi).
  assert (Q0 : qform p d + Rsum (nv p) (fun i => D i * (u i * u i)) = 0).
  { assert (E : Rsum (nv p) (fun i => u i * (Rsum (nv p) (fun j => Gs p i j * u j) + D i * u i + Rsum (neq p) (fun k => Ae p k i * v k))) = 0)
      by (apply Rsum_0; intros i Hi; rewrite (GU i Hi); ring).
    rewrite <- E.
    transitivity (Rsum (nv p) (fun i => u i * Rsum (nv p) (fun j => Gs p i j * u j)) + Rsum (nv p) (fun i => D i * (u i * u i))
                  + Rsum (nv p) (fun i => u i * Rsum (neq p) (fun k => Ae p k i * v k))).
    - assert (Z : Rsum (nv p) (fun i => u i * Rsum (neq p) (fun k => Ae p k i * v k)) = 0).
      { rewrite (Rsum_ext (nv p) _ (fun i => Rsum (neq p) (fun k => v k * (Ae p k i * u i))))
          by (intros i Hi; rewrite <- Rsum_scal_l; apply Rsum_ext; intros; ring).
        rewrite Rsum_swap. apply Rsum_0. intros k Hk. rewrite Rsum_scal_l, (AU k Hk). ring. }
      rewrite Z, Rplus_0_r. f_equal. unfold qform. apply Rsum_ext. intros i Hi. rewrite <- Rsum_scal_l. apply Rsum_ext.
      intros j Hj. rewrite !DG by assumption. ring.
    - rewrite <- !Rsum_plus. apply Rsum_ext. intros i Hi. ring. }
  assert (DN : 0 <= Rsum (nv p) (fun i => D i * (u i * u i))).
  { apply Rsum_nonneg. intros i Hi. apply Rmult_le_pos; [apply D0|apply sq_nonneg]. }
  assert (U0 : forall i, (i < nv p)%nat -> u i = 0).
  { intros i Hi. destruct (Req_dec (u i) 0) as [E|E]; [exact E|exfalso].
    assert (0 < qform p d).
    { apply CN; [apply mkvec_length| |].
      - exists i. split; [exact Hi|]. rewrite DG by exact Hi. exact E.
      - intros k Hk. rewrite <- (AU k Hk). apply Rsum_ext. intros j Hj. rewrite DG by exact Hj. reflexivity. }
    lra. }
  assert (V0 : forall k, (k < neq p)%nat -> v k = 0).
  { apply IR. intros j Hj. rewrite <- (GU j Hj). rewrite (U0 j Hj).
    rewrite (Rsum_0 (nv p)) by (intros i Hi; rewrite (U0 i Hi); ring). ring. }
  intros i Hi. destruct (lt_dec i (nv p)) as [L|L]; [apply U0; exact L|].
  replace i with (nv p + (i - nv p))%nat by lia. apply V0. lia.
Qed.

(** The requirements are sharp without inequality constraints: dependent rows make the system singular. *)
Theorem C52_dependent_rows_singular : forall (p : QP R) w H (y : nat -> R),
  reduced_kkt p w H -> (forall j, (j < nv p)%nat -> Rsum (neq p) (fun k => Ae p k j * y k) = 0) ->
  (exists k, (k < neq p)%nat /\ y k <> 0) -> ~ nonsingular (nv p + neq p) H.
Proof.
  intros p w H y (_ & _ & HG & HA & H0) DEP (k0 & Hk0 & NZ) NS.
  apply NZ. specialize (NS (fun i => if (i <? nv p)%nat then 0 else y (i - nv p)%nat)).
  assert (E : (if (nv p + k0 <? nv p)%nat then 0 else y (nv p + k0 - nv p)%nat) = 0).
  { apply NS; [|lia]. intros i Hi. rewrite Rsum_app.
    rewrite (Rsum_0 (nv p)) by (intros j Hj; replace (j <? nv p)%nat with true by (symmetry; apply Nat.ltb_lt; exact Hj); ring).
    rewrite Rplus_0_l.
    rewrite (Rsum_ext (neq p) _ (fun k => sget H i (nv p + k) * y k)).
    2: { intros k Hk. replace (nv p + k <? nv p)%nat with false by (symmetry; apply Nat.ltb_ge; lia).
         replace (nv p + k - nv p)%nat with k by lia. reflexivity. }
    destruct (lt_dec i (nv p)) as [L|L].
    - rewrite <- (DEP i L). apply Rsum_ext. intros k Hk. destruct (HA k i Hk L) as [_ ->]. reflexivity.
    - replace i with (nv p + (i - nv p))%nat by lia. apply Rsum_0. intros k Hk. rewrite H0 by lia. ring. }
  replace (nv p + k0 <? nv p)%nat with false in E by (symmetry; apply Nat.ltb_ge; lia).
  replace (nv p + k0 - nv p)%nat with k0 in E by lia. exact E.
Qed.

(** C52: on regular problems the interior point Solve always returns. *)
Theorem C52_regular_qp_always_solved : forall ldlt g params (p : QP R) st,
  fails_only_if_singular ldlt -> ip_params_valid params ->
  Setup g (Some p) = Ok st ->
  (forall c, In c (qcons p) -> (0 <= lvar c)%Z /\ la c <> 0) ->
  p_initial_guess_method params <> USER_PROVIDED ->
  independent_rows p -> curved_on_null_space p ->
  exists st' out, IP_Solve ldlt params st = Ok (st', out).
Proof.
  intros ldlt g params p st FL PV HS HC HU IR CN.
  destruct (Setup_ready _ _ _ HS (fun c Hc => proj1 (HC c Hc))) as [W RD].
  destruct (C06_only_factorization_fails ldlt params p st W RD PV (or_introl (conj HU (fun c Hc => proj2 (HC c Hc)))))
    as [E|[_ (w & H & WP & RK & EL)]]; [exact E|exfalso].
  apply (FL H (nv p + neq p)%nat (proj1 RK) (proj1 (proj2 RK)) EL).
  apply (C52_reduced_system_nonsingular p w H W IR CN WP RK).
Qed.

(** C52 for the nonlinear solver: Solve always returns if every linearised QP it can meet is regular. *)
Theorem C52_regular_solve_always_returns : forall ldlt qr llt eigs retract (S : Type)
    (cb : option (S -> NLSIteration R -> S * bool)) pa (pr : Problem R) g vars cs,
  fails_only_if_singular ldlt -> well_posed pa pr vars -> retraction_ok retract ->
  (pr_ineq pr = [] -> pr_eq pr <> [] -> full_rank qr pr) ->
  (* if the interior point method is used: *)
  (pr_ineq pr <> [] \/ pr_eq pr = [] -> forall v lambda errs qp, length v = Z.to_nat (pr_dimension pr) -> n_min_lambda pa <= lambda ->
     LinearizeAndFillQP v lambda pr = Ok (errs, qp) -> independent_rows qp /\ curved_on_null_space qp) ->
  exists r, NLS_Solve ldlt qr llt eigs retract cb pa pr g vars cs = Ok r.
Proof.
  intros ldlt qr llt eigs retract S cb pa pr g vars cs FL WP RO FR RG.
  destruct (C51_solve_returns ldlt qr llt eigs retract cb pa pr g vars cs WP RO FR)
    as [E|[_ (IPM & v & lambda & errs & qp & LV & LL & HL & w & H & WN & RK & EL)]]; [exact E|exfalso].
  apply (FL H (nv qp + neq qp)%nat (proj1 RK) (proj1 (proj2 RK)) EL).
  destruct (linearise_total pr v lambda LV (wp_index _ _ _ WP) (fun c Hc => proj1 (wp_cons _ _ _ WP c Hc)) (wp_dim _ _ _ WP))
      as (errs' & qp' & HL' & GR & GC & CL & AR & AC & BL & QC).
  rewrite HL in HL'. apply Ok_inj in HL'. apply pair_inj in HL'. destruct HL' as [<- <-].
  destruct (RG IPM _ _ _ _ LV LL HL) as [IR CN].
  apply (C52_reduced_system_nonsingular qp w H); auto.
  constructor; unfold nv, neq; try congruence.
  intros c Hc. rewrite QC in Hc. apply in_map_iff in Hc. destruct Hc as (c1 & <- & Hc1).
  pose proof (wp_cons _ _ _ WP c1 Hc1) as [X _]. pose proof (wp_dim _ _ _ WP). cbn [ShiftTo lvar]. rewrite CL. unfold pdim. lia.
Qed.

(** In particular with positive damping throughout (min_lambda > 0) and constraint gradients that are
    independent at every point. *)
Corollary C52_damped_solve_always_returns : forall ldlt qr llt eigs retract (S : Type)
    (cb : option (S -> NLSIteration R -> S * bool)) pa (pr : Problem R) g vars cs,
  fails_only_if_singular ldlt -> well_posed pa pr vars -> retraction_ok retract ->
  (pr_ineq pr = [] -> pr_eq pr <> [] -> full_rank qr pr) ->
  distinct_indices pr -> 0 < n_min_lambda pa ->
  (pr_ineq pr <> [] \/ pr_eq pr = [] -> forall v lambda errs qp, length v = Z.to_nat (pr_dimension pr) ->
     LinearizeAndFillQP v lambda pr = Ok (errs, qp) -> independent_rows qp) ->
  exists r, NLS_Solve ldlt qr llt eigs retract cb pa pr g vars cs = Ok r.
Proof.
  intros ldlt qr llt eigs retract S cb pa pr g vars cs FL WP RO FR DI ML IR.
  apply C52_regular_solve_always_returns; auto.
  intros IPM v lambda errs qp LV LL HL. split; [apply (IR IPM _ _ _ _ LV HL)|].
  intros d LD NZ _. destruct (C24_convex _ _ _ _ _ DI HL) as [_ PD]. apply PD; [lra|exact NZ].
Qed.
