(** C65: the nonlinear solver depends on the cost terms and constraints only through the functions they
    describe: the order of the cost terms, the way residuals are stacked, and terms that are
    identically zero do not matter. *)
From Coq Require Import String List Bool Arith ZArith QArith Reals Lra Lia Permutation.
From Verif Require Import Scalar Outcome LinAlg Structs Constraint QPModel NullSpace Residual Nonlinear RInst Spec
  Props_Constraint QPStep ResProps LinProps MeritProps NLSTotal.
Import ListNotations.
Local Open Scope outcome_scope.
Local Open Scope string_scope.
Local Open Scope list_scope.

(** ** Any arithmetic: two problems that linearise and evaluate alike are solved alike *)
Section AnyArith.
  Context {F : Type} {O : Ops F}.
  Variable ldlt : mat F -> option (mat F).
  Variable qr : mat F -> QRResult F.
  Variable llt : mat F -> option (list F -> list F).
  Variable eigs : mat F -> QPEigenvalues F.
  Variable retract : option (list F -> list F -> F -> list F).
  Context {S : Type}.
  Variable cb : option (S -> NLSIteration F -> S * bool).

  (** A user supplied retraction keeps the number of variables. *)
  Definition keeps_length : Prop := forall f, retract = Some f -> forall v dx a, length (f v dx a) = length v.

  Variables pr1 pr2 : Problem F.

  (** The two problems are indistinguishable through linearisation and evaluation at points with the
      right number of variables. *)
  Record same_problem : Prop := {
    sp_dim : pr_dimension pr1 = pr_dimension pr2;
    sp_ineq : pr_ineq pr1 = [] <-> pr_ineq pr2 = [];
    sp_eq : pr_eq pr1 = [] <-> pr_eq pr2 = [];
    sp_lin : forall v l, length v = Z.to_nat (pr_dimension pr1) -> LinearizeAndFillQP v l pr1 = LinearizeAndFillQP v l pr2;
    sp_eval : forall v, length v = Z.to_nat (pr_dimension pr1) -> EvaluateNonlinearErrors pr1 v = EvaluateNonlinearErrors pr2 v }.

  Hypothesis KL : keeps_length.
  Hypothesis SP : same_problem.
  Let n0 := Z.to_nat (pr_dimension pr1).

  Lemma retract_length : forall v dx a v', length v = n0 -> RetractCandidateVars retract v dx a = Ok v' -> length v' = n0.
  Proof.
    intros v dx a v' LV H. unfold RetractCandidateVars in H. destruct retract as [f|] eqn:E.
    - apply Ok_inj in H. subst v'. rewrite (KL f E). exact LV.
    - apply bind_ok_inv in H. destruct H as (u & Hu & H). apply ub_unless_ok_inv in Hu. apply Nat.eqb_eq in Hu.
      apply Ok_inj in H. subst v'. unfold vadd, vscale. rewrite map_length, combine_length, map_length, <- Hu, Nat.min_id. exact LV.
  Qed.

  Lemma ls_loop_same : forall vars dx abs_tol ep dd penalty c1 strategy tau, length vars = n0 ->
    forall n iter alpha steps cand, length cand = n0 ->
    ls_loop retract n iter alpha steps cand pr1 vars dx abs_tol ep dd penalty c1 strategy tau =
    ls_loop retract n iter alpha steps cand pr2 vars dx abs_tol ep dd penalty c1 strategy tau /\
    forall r, ls_loop retract n iter alpha steps cand pr1 vars dx abs_tol ep dd penalty c1 strategy tau = Ok r -> length (snd r) = n0.
  Proof.
    intros vars dx abs_tol ep dd penalty c1 strategy tau LV. induction n as [|n IH]; intros iter alpha steps cand LC; cbn [ls_loop].
    - split; [reflexivity|]. intros r H. apply Ok_inj in H. subst r. exact LC.
    - destruct (next_alpha strategy tau iter alpha steps ep dd penalty) as [oa|w|w]; cbn [bind]; try (split; [reflexivity|discriminate]).
      destruct oa as [a|]; [|split; [reflexivity|intros r H; apply Ok_inj in H; subst r; exact LC]].
      destruct (RetractCandidateVars retract vars dx a) as [c|w|w] eqn:ER; cbn [bind]; try (split; [reflexivity|discriminate]).
      pose proof (retract_length _ _ _ _ LV ER) as LC'.
      rewrite (sp_eval SP c LC'). destruct (EvaluateNonlinearErrors pr2 c) as [es|w|w]; cbn [bind]; try (split; [reflexivity|discriminate]).
      repeat match goal with |- context [if ?b then Ok _ else _] => destruct b;
        [split; [reflexivity|intros r H; apply Ok_inj in H; subst r; exact LC']|] end.
      apply IH. exact LC'.
  Qed.

  Lemma step_direction_same : forall g pa qp,
    ComputeStepDirection ldlt qr llt g pa pr1 qp = ComputeStepDirection ldlt qr llt g pa pr2 qp.
  Proof.
    intros g pa qp. unfold ComputeStepDirection, use_null_space, inner_qp_params, pdim. rewrite (sp_dim SP).
    pose proof (sp_ineq SP) as HI. pose proof (sp_eq SP) as HE.
    destruct (pr_ineq pr1), (pr_ineq pr2), (pr_eq pr1), (pr_eq pr2); try reflexivity;
      exfalso; destruct HI as [HI1 HI2], HE as [HE1 HE2];
      try (discriminate (HI1 eq_refl)); try (discriminate (HI2 eq_refl)); try (discriminate (HE1 eq_refl)); discriminate (HE2 eq_refl).
  Qed.

  Lemma update_penalty_same : forall pa qp dx o p, update_penalty pa pr1 qp dx o p = update_penalty pa pr2 qp dx o p.
  Proof.
    intros. unfold update_penalty. pose proof (sp_eq SP) as HE.
    destruct (pr_eq pr1), (pr_eq pr2); try reflexivity; exfalso; destruct HE as [HE1 HE2];
      try (discriminate (HE1 eq_refl)); discriminate (HE2 eq_refl).
  Qed.

  Lemma iterate_same : forall pa g k st, length (ns_vars st) = n0 ->
    nls_iterate ldlt qr llt eigs retract pa pr1 g k st = nls_iterate ldlt qr llt eigs retract pa pr2 g k st /\
    forall st' info ex, nls_iterate ldlt qr llt eigs retract pa pr1 g k st = Ok (IterDone st' info ex) -> length (ns_vars st') = n0.
  Proof.
    intros pa g k st LV. unfold nls_iterate. rewrite (sp_lin SP _ _ LV).
    destruct (LinearizeAndFillQP (ns_vars st) (ns_lambda st) pr2) as [[ep qp]|w|w]; cbn [bind]; try (split; [reflexivity|discriminate]).
    rewrite step_direction_same.
    destruct (ComputeStepDirection ldlt qr llt g pa pr2 qp) as [[o dx]|w|w]; cbn [bind]; try (split; [reflexivity|discriminate]).
    destruct (QPWasIndefinite o); [split; [reflexivity|discriminate]|].
    destruct (ComputeQPCostDerivative qp dx) as [dd|w|w]; cbn [bind]; try (split; [reflexivity|discriminate]).
    rewrite update_penalty_same. set (pen := update_penalty pa pr2 qp dx o (ns_penalty st)). unfold SelectStepSize.
    destruct (f_assert (fgtb pen f0) "penalty > 0") as [?|w|w]; cbn [bind]; try (split; [reflexivity|discriminate]).
    destruct (f_assert (negb (Errors_ContainsInvalidValues ep)) "errors_pre is finite") as [?|w|w]; cbn [bind]; try (split; [reflexivity|discriminate]).
    destruct (ls_loop_same (ns_vars st) dx (n_absolute_first_derivative_tol pa) ep dd pen (flit lit_1em4) (n_line_search_strategy pa)
      (n_armijo_search_tau pa) LV (Z.to_nat (n_max_line_search_iterations pa + 1)) 0%nat f1 [] (ns_vars st) LV) as [E L].
    rewrite <- E.
    destruct (ls_loop _ _ _ _ _ _ pr1 _ _ _ _ _ _ _ _ _) as [[[sr steps] cand]|w|w]; cbn [bind]; try (split; [reflexivity|discriminate]).
    specialize (L _ eq_refl). cbn [snd] in L.
    split; [reflexivity|]. intros st' info ex H. apply bind_ok_inv in H. destruct H as ([ex' st1] & E1 & H).
    apply Ok_inj in H. injection H as <- _ _.
    unfold UpdateLambdaAndCheckExitConditions in E1. destruct sr.
    1: { apply bind_ok_inv in E1. destruct E1 as (u & _ & E1).
         repeat match type of E1 with context [if ?b then _ else _] => destruct b end;
           apply Ok_inj in E1; apply pair_inj in E1; destruct E1 as [_ <-]; exact L. }
    all: try match type of E1 with context [if fgtb ?a ?m then _ else _] => destruct (fgtb a m) end;
      apply Ok_inj in E1; apply pair_inj in E1; destruct E1 as [_ <-]; exact LV.
  Qed.

  Lemma loop_same : forall pa g n iter log st cs, length (ns_vars st) = n0 ->
    nls_loop ldlt qr llt eigs retract cb n pa pr1 g iter log st cs = nls_loop ldlt qr llt eigs retract cb n pa pr2 g iter log st cs.
  Proof.
    intros pa g. induction n as [|n IH]; intros iter log st cs LV; cbn [nls_loop]; [reflexivity|].
    destruct (iterate_same pa (g iter) (Z.of_nat iter) st LV) as [E L]. rewrite <- E.
    destruct (nls_iterate _ _ _ _ _ _ pr1 _ _ _) as [[|st' info ex]|w|w]; cbn [bind]; try reflexivity.
    specialize (L _ _ _ eq_refl). destruct (call_cb cb cs info) as [cs' pc].
    destruct ex; [reflexivity|]. destruct pc; [|reflexivity]. apply IH. exact L.
  Qed.

  (** Two problems whose linearisations and errors coincide give the same outcome: the same log, variables
      and callback state, or the same exception. *)
  Theorem C65_same_functions_same_solve : forall pa g vars cs, length vars = Z.to_nat (pr_dimension pr1) ->
    NLS_Solve ldlt qr llt eigs retract cb pa pr1 g vars cs = NLS_Solve ldlt qr llt eigs retract cb pa pr2 g vars cs.
  Proof.
    intros pa g vars cs LV. unfold NLS_Solve. destruct (NLS_CheckParams pa); cbn [bind]; try reflexivity.
    apply loop_same. exact LV.
  Qed.
End AnyArith.

(** ** Exact arithmetic: only the sums matter *)
Local Open Scope R_scope.

Definition uvec (n i : nat) : list R := mkvec n (fun k => if (k =? i)%nat then 1 else 0).
Definition uvec2 (n i j : nat) : list R := mkvec n (fun k => (if (k =? i)%nat then 1 else 0) + (if (k =? j)%nat then 1 else 0)).

Lemma mat_ext : forall (A B : mat R), wf_mat A -> wf_mat B -> mrows A = mrows B -> mcols A = mcols B ->
  (forall i j, (i < mrows A)%nat -> (j < mcols A)%nat -> mget A i j = mget B i j) -> A = B.
Proof.
  intros [ra ca da] [rb cb' db] [L1 F1] [L2 F2] HR HC H. cbn [mrows mcols mdata] in *. rewrite <- HR in *. rewrite <- HC in *. clear HR HC rb cb'.
  assert (E : da = db); [|rewrite E; reflexivity].
  apply (nth_ext _ _ [] []); [congruence|]. intros i Hi. rewrite L1 in Hi.
  assert (Li : length (nth i da []) = ca) by (rewrite Forall_forall in F1; apply F1, nth_In; lia).
  assert (Lj : length (nth i db []) = ca) by (rewrite Forall_forall in F2; apply F2, nth_In; lia).
  apply (nth_ext _ _ 0 0); [congruence|]. intros j Hj. rewrite Li in Hj. exact (H i j Hi Hj).
Qed.

Lemma vec_ext : forall (u v : list R), length u = length v -> (forall i, (i < length u)%nat -> vget u i = vget v i) -> u = v.
Proof. intros u v L H. apply (nth_ext _ _ 0 0); auto. Qed.

Lemma qform_unit : forall p i, (i < nv p)%nat -> qform p (uvec (nv p) i) = Gs p i i.
Proof.
  intros p i Hi. unfold qform.
  rewrite (Rsum_ext (nv p) _ (fun k => if (k =? i)%nat then Gs p k i else 0)).
  - exact (Rsum_delta (nv p) i (fun k => Gs p k i) Hi).
  - intros k Hk. unfold uvec. destruct (Nat.eqb_spec k i) as [->|N].
    + rewrite (Rsum_ext (nv p) _ (fun j => if (j =? i)%nat then Gs p i j else 0)).
      * exact (Rsum_delta (nv p) i (fun j => Gs p i j) Hi).
      * intros j Hj. rewrite !(vget_mkvec R R_ops) by assumption. rewrite Nat.eqb_refl. destruct (j =? i)%nat; ring.
    + apply Rsum_0. intros j Hj. rewrite !(vget_mkvec R R_ops) by assumption.
      destruct (Nat.eqb_spec k i); [contradiction|ring].
Qed.

Lemma qform_unit2 : forall p i j, (i < nv p)%nat -> (j < nv p)%nat -> i <> j ->
  qform p (uvec2 (nv p) i j) = Gs p i i + Gs p i j + Gs p j i + Gs p j j.
Proof.
  intros p i j Hi Hj N. unfold qform.
  rewrite (Rsum_ext (nv p) _ (fun k => (if (k =? i)%nat then Gs p k i + Gs p k j else 0) + (if (k =? j)%nat then Gs p k i + Gs p k j else 0))).
  - rewrite Rsum_plus, (Rsum_delta (nv p) i (fun k => Gs p k i + Gs p k j) Hi), (Rsum_delta (nv p) j (fun k => Gs p k i + Gs p k j) Hj). ring.
  - intros k Hk. unfold uvec2. rewrite (vget_mkvec R R_ops) by exact Hk.
    rewrite (Rsum_ext (nv p) _ (fun l => ((if (k =? i)%nat then 1 else 0) + (if (k =? j)%nat then 1 else 0)) *
       ((if (l =? i)%nat then Gs p k l else 0) + (if (l =? j)%nat then Gs p k l else 0)))).
    + rewrite Rsum_scal_l, Rsum_plus, (Rsum_delta (nv p) i (fun l => Gs p k l) Hi), (Rsum_delta (nv p) j (fun l => Gs p k l) Hj).
      destruct (Nat.eqb_spec k i); destruct (Nat.eqb_spec k j); try lia; ring.
    + intros l Hl. rewrite (vget_mkvec R R_ops) by exact Hl.
      destruct (k =? i)%nat, (k =? j)%nat, (l =? i)%nat, (l =? j)%nat; ring.
Qed.

Lemma linear_unit : forall n (c : list R) i, (i < n)%nat -> Rsum n (fun k => vget c k * vget (uvec n i) k) = vget c i.
Proof.
  intros n c i Hi. rewrite (Rsum_ext n _ (fun k => if (k =? i)%nat then vget c k else 0)).
  - exact (Rsum_delta n i (fun k => vget c k) Hi).
  - intros k Hk. unfold uvec. rewrite (vget_mkvec R R_ops) by exact Hk. destruct (k =? i)%nat; ring.
Qed.

(** Nothing is written strictly above the diagonal of G. *)
Lemma upper_zero : forall vars lambda (pr : Problem R) G c f, linearize_costs vars lambda pr = Ok (G, c, f) ->
  wf_mat G /\ forall i j, (i < j)%nat -> mget G i j = 0.
Proof.
  intros vars lambda pr G c f E. unfold linearize_costs in E. set (n := pdim pr) in *.
  apply bind_ok_inv in E. destruct E as ([[G0 c0] f0'] & Hm & E).
  apply Ok_inj in E. apply pair_inj in E. destruct E as [E _]. apply pair_inj in E. destruct E as [<- _].
  set (Inv := fun (_ : list (residual R)) (acc : mat R * list R * R) =>
    let '(G, _, _) := acc in wf_mat G /\ mrows G = n /\ mcols G = n /\ forall i j, (i < j)%nat -> mget G i j = 0).
  assert (HI : Inv (pr_costs pr) (G0, c0, f0')).
  { eapply ofold_invariant with (P := Inv); [exact Hm| |].
    - unfold Inv. splits; auto using mzero_wf. intros. apply mget_mzero.
    - intros dn r [[Ga ca] fa] [[Gb cb] fb] _ (IW & IR & IC & IZ) HS.
      apply bind_ok_inv in HS. destruct HS as ([[Gx cx] ex] & HU & HS).
      apply Ok_inj in HS. apply pair_inj in HS. destruct HS as [HS _]. apply pair_inj in HS. destruct HS as [<- _].
      destruct (UpdateHessian_raw _ _ _ _ _ _ _ IW HU) as (W & R1 & C1 & _ & _ & _ & _ & _ & EH & _ & _).
      unfold Inv. splits; try congruence; auto. intros i j Hij. rewrite EH, (IZ i j Hij).
      rewrite Rsum_0; [ring|]. intros a Ha. apply Rsum_0. intros b Hb. unfold pairc.
      destruct (Nat.eqb_spec i (Nat.max (gidx r a) (gidx r b))); destruct (Nat.eqb_spec j (Nat.min (gidx r a) (gidx r b))); cbn [andb]; try reflexivity; lia. }
  destruct HI as (IW & IR & IC & IZ).
  destruct (fgtb lambda f0); [|split; assumption]. split; [apply mkmat_wf|].
  intros i j Hij. destruct (Nat.lt_ge_cases j n) as [Hj|Hj].
  - rewrite (mget_mkmat R R_ops) by lia. destruct (Nat.eqb_spec i j); [lia|]. apply IZ. exact Hij.
  - unfold mget, mkmat. cbn [mdata]. destruct (Nat.lt_ge_cases i n) as [Hi|Hi].
    + rewrite mkvec_nth by exact Hi. apply nth_overflow. rewrite mkvec_length. exact Hj.
    + rewrite (nth_overflow (mkvec n _)) by (rewrite mkvec_length; exact Hi). destruct j; reflexivity.
Qed.

(** The two problems describe the same functions: at every point with the right number of variables the
    same linearised sum of squares (in dx), the same linearised equality constraints, the same total
    cost and the same constraint violation. How these are distributed over residuals does not matter. *)
Record same_model (pr1 pr2 : Problem R) : Prop := {
  sm_dim : pr_dimension pr1 = pr_dimension pr2;
  sm_ineq : pr_ineq pr1 = pr_ineq pr2;
  sm_eq : pr_eq pr1 = [] <-> pr_eq pr2 = [];
  sm_cost : forall v dx, length v = Z.to_nat (pr_dimension pr1) -> lin_cost pr1 v dx = lin_cost pr2 v dx;
  sm_con : forall v dx, length v = Z.to_nat (pr_dimension pr1) -> lin_equalities pr1 v dx = lin_equalities pr2 v dx;
  sm_value : forall v, length v = Z.to_nat (pr_dimension pr1) -> cost_at pr1 v = cost_at pr2 v;
  sm_viol : forall v, length v = Z.to_nat (pr_dimension pr1) -> eq_l1_at pr1 v = eq_l1_at pr2 v }.

(** Indices in range and not repeated; constraint indices in range. *)
Record indices_ok (pr : Problem R) : Prop := {
  io_dim : (0 < pr_dimension pr)%Z;
  io_distinct : distinct_indices pr;
  io_range : forall r, In r (pr_costs pr) \/ In r (pr_eq pr) -> forall i, In i (res_index r) -> (0 <= i < pr_dimension pr)%Z;
  io_cons : forall c, In c (pr_ineq pr) -> (0 <= lvar c < pr_dimension pr)%Z }.

Lemma linearise_wf : forall vars lambda (pr : Problem R) errs qp, distinct_indices pr ->
  LinearizeAndFillQP vars lambda pr = Ok (errs, qp) ->
  wf_mat (qG qp) /\ wf_mat (qA qp) /\ (forall i j, (i < j)%nat -> mget (qG qp) i j = 0) /\
  (* the errors *)
  err_f errs = lin_cost pr vars (fun _ => 0) /\ err_equality errs = Rlsum (map Rabs (lin_equalities pr vars (fun _ => 0))).
Proof.
  intros vars lambda pr errs qp D E.
  destruct (C24_linearised_qp _ _ _ _ _ D E) as (_ & _ & EF & _ & _ & EE & _).
  unfold LinearizeAndFillQP in E.
  apply bind_ok_inv in E. destruct E as ([[G c] f] & E1 & E). apply bind_ok_inv in E. destruct E as ([[rows b] e] & E2 & E).
  apply bind_ok_inv in E. destruct E as (cons & E3 & E). apply Ok_inj in E. apply pair_inj in E. destruct E as [<- <-].
  destruct (upper_zero _ _ _ _ _ _ E1) as [W Z]. destruct (linearize_eq_spec _ _ _ _ _ (proj2 D) E2) as (RL & BL & RW & _).
  cbn [qG qA]. splits; auto. split; cbn [mdata mrows mcols]; [|exact RW].
  rewrite RL, BL, total_eq_rows. reflexivity.
Qed.

Lemma errors_eta : forall (a b : Errors R), err_f a = err_f b -> err_equality a = err_equality b -> a = b.
Proof. intros [] [] H1 H2. cbn in *. congruence. Qed.

Lemma QP_ext : forall p q : QP R, qG p = qG q -> qc p = qc q -> qA p = qA q -> qb p = qb q -> qcons p = qcons q -> p = q.
Proof. intros [a b c d e] [a' b' c' d' e'] H1 H2 H3 H4 H5. cbn in *. congruence. Qed.

Lemma linearise_same : forall (pr1 pr2 : Problem R) v lambda, same_model pr1 pr2 -> indices_ok pr1 -> indices_ok pr2 ->
  length v = Z.to_nat (pr_dimension pr1) -> LinearizeAndFillQP v lambda pr1 = LinearizeAndFillQP v lambda pr2.
Proof.
  intros pr1 pr2 v lambda SM I1 I2 LV.
  destruct (linearise_total pr1 v lambda LV (io_range _ I1) (io_cons _ I1) (io_dim _ I1)) as (e1 & q1 & E1 & GR1 & GC1 & CL1 & AR1 & AC1 & BL1 & QC1).
  assert (LV2 : length v = pdim pr2) by (unfold pdim; rewrite <- (sm_dim _ _ SM); exact LV).
  destruct (linearise_total pr2 v lambda LV2 (io_range _ I2) (io_cons _ I2) (io_dim _ I2)) as (e2 & q2 & E2 & GR2 & GC2 & CL2 & AR2 & AC2 & BL2 & QC2).
  rewrite E1, E2.
  assert (PD : pdim pr1 = pdim pr2) by (unfold pdim; rewrite (sm_dim _ _ SM); reflexivity).
  destruct (linearise_wf _ _ _ _ _ (io_distinct _ I1) E1) as (WG1 & WA1 & Z1 & F1 & Q1).
  destruct (linearise_wf _ _ _ _ _ (io_distinct _ I2) E2) as (WG2 & WA2 & Z2 & F2 & Q2).
  destruct (C24_linearised_qp _ _ _ _ _ (io_distinct _ I1) E1) as (_ & OB1 & _ & _ & EQ1 & _).
  destruct (C24_linearised_qp _ _ _ _ _ (io_distinct _ I2) E2) as (_ & OB2 & _ & _ & EQ2 & _).
  assert (EE : e1 = e2).
  { apply errors_eta; [rewrite F1, F2; apply (sm_cost _ _ SM _ _ LV)|rewrite Q1, Q2, (sm_con _ _ SM _ _ LV); reflexivity]. }
  assert (NV1 : nv q1 = pdim pr1) by (unfold nv; exact CL1). assert (NV2 : nv q2 = pdim pr1) by (unfold nv; congruence).
  assert (OB : forall dx, objective q1 dx = objective q2 dx).
  { intro dx. specialize (OB1 dx). specialize (OB2 dx). rewrite <- (sm_dim _ _ SM) in OB2.
    rewrite (sm_cost _ _ SM _ _ LV) in OB1. rewrite EE in OB1. lra. }
  (* the gradient *)
  assert (NEG : forall q dx, qform q (mkvec (nv q) (fun k => - vget dx k)) = qform q dx).
  { intros q dx. unfold qform. apply Rsum_ext. intros i Hi. apply Rsum_ext. intros j Hj. rewrite !(vget_mkvec R R_ops) by assumption. ring. }
  assert (OBN : forall q dx, objective q dx - objective q (mkvec (nv q) (fun k => - vget dx k)) = 2 * Rsum (nv q) (fun i => vget (qc q) i * vget dx i)).
  { intros q dx. unfold objective. rewrite NEG.
    rewrite (Rsum_ext (nv q) (fun i => vget (qc q) i * vget (mkvec (nv q) (fun k => - vget dx k)) i) (fun i => - (vget (qc q) i * vget dx i)))
      by (intros i Hi; rewrite (vget_mkvec R R_ops) by exact Hi; ring).
    rewrite Rsum_opp. ring. }
  assert (LIN : forall dx, Rsum (pdim pr1) (fun i => vget (qc q1) i * vget dx i) = Rsum (pdim pr1) (fun i => vget (qc q2) i * vget dx i)).
  { intro dx. pose proof (OBN q1 dx) as A. pose proof (OBN q2 dx) as B. rewrite NV1 in A. rewrite NV2 in B. rewrite !OB in A. lra. }
  assert (QF : forall dx, qform q1 dx = qform q2 dx).
  { intro dx. pose proof (OB dx) as A. unfold objective in A. rewrite NV1, NV2, (LIN dx) in A. lra. }
  assert (EC : qc q1 = qc q2).
  { apply vec_ext; [congruence|]. intros i Hi. rewrite CL1 in Hi.
    rewrite <- (linear_unit (pdim pr1) (qc q1) i Hi), <- (linear_unit (pdim pr1) (qc q2) i Hi). apply LIN. }
  assert (GSE : forall i j, (i < pdim pr1)%nat -> (j < pdim pr1)%nat -> Gs q1 i j = Gs q2 i j).
  { assert (DG : forall i, (i < pdim pr1)%nat -> Gs q1 i i = Gs q2 i i).
    { intros i Hi. rewrite <- (qform_unit q1 i), <- (qform_unit q2 i) by lia. rewrite NV1, NV2. apply QF. }
    intros i j Hi Hj. destruct (Nat.eq_dec i j) as [->|N]; [apply DG; exact Hj|].
    pose proof (qform_unit2 q1 i j ltac:(lia) ltac:(lia) N) as A. pose proof (qform_unit2 q2 i j ltac:(lia) ltac:(lia) N) as B.
    rewrite NV1 in A. rewrite NV2 in B. rewrite QF in A.
    rewrite (QPSolve.Gs_sym q1 j i) in A. rewrite (QPSolve.Gs_sym q2 j i) in B.
    pose proof (DG i Hi). pose proof (DG j Hj). lra. }
  assert (EG : qG q1 = qG q2).
  { apply mat_ext; try congruence. intros i j Hi Hj. rewrite GR1 in Hi. rewrite GC1 in Hj.
    destruct (Nat.le_gt_cases j i) as [L|L].
    - pose proof (GSE i j Hi Hj) as A. unfold Gs in A. replace (j <=? i)%nat with true in A by (symmetry; apply Nat.leb_le; exact L). exact A.
    - rewrite Z1, Z2 by exact L. reflexivity. }
  (* the constraints *)
  assert (KE : forall dx, mkvec (length (qb q1)) (fun k => kkt_eq q1 dx k) = mkvec (length (qb q2)) (fun k => kkt_eq q2 dx k)).
  { intro dx. rewrite EQ1, EQ2. apply (sm_con _ _ SM _ _ LV). }
  assert (LB : length (qb q1) = length (qb q2)).
  { pose proof (f_equal (@length R) (KE [])) as A. rewrite !mkvec_length in A. exact A. }
  assert (KE' : forall dx k, (k < length (qb q1))%nat -> kkt_eq q1 dx k = kkt_eq q2 dx k).
  { intros dx k Hk. pose proof (f_equal (fun l => nth k l 0) (KE dx)) as A. cbv beta in A. rewrite !mkvec_nth in A by lia. exact A. }
  assert (K0 : forall q k, kkt_eq q [] k = vget (qb q) k).
  { intros q k. unfold kkt_eq. rewrite Rsum_0; [ring|]. intros i Hi. unfold vget. destruct i; cbn; ring. }
  assert (EB : qb q1 = qb q2).
  { apply vec_ext; [exact LB|]. intros k Hk. rewrite <- !K0. apply KE'. exact Hk. }
  assert (EA : qA q1 = qA q2).
  { apply mat_ext; try congruence. intros k j Hk Hj.
    assert (Hk' : (k < length (qb q1))%nat) by congruence. rewrite AC1 in Hj.
    pose proof (KE' (uvec (pdim pr1) j) k Hk') as A. unfold kkt_eq in A. rewrite EB, NV1, NV2 in A.
    assert (U : forall q, Rsum (pdim pr1) (fun i => Ae q k i * vget (uvec (pdim pr1) j) i) = Ae q k j).
    { intro q. rewrite (Rsum_ext _ _ (fun i => if (i =? j)%nat then Ae q k i else 0)).
      - exact (Rsum_delta (pdim pr1) j (fun i => Ae q k i) Hj).
      - intros i Hi. unfold uvec. rewrite (vget_mkvec R R_ops) by exact Hi. destruct (i =? j)%nat; ring. }
    rewrite !U in A. unfold Ae in A. lra. }
  assert (EQC : qcons q1 = qcons q2) by (rewrite QC1, QC2, (sm_ineq _ _ SM); reflexivity).
  rewrite EE, (QP_ext q1 q2 EG EC EA EB EQC). reflexivity.
Qed.

Lemma evaluate_same : forall (pr1 pr2 : Problem R) v, same_model pr1 pr2 -> indices_ok pr1 -> indices_ok pr2 ->
  length v = Z.to_nat (pr_dimension pr1) -> EvaluateNonlinearErrors pr1 v = EvaluateNonlinearErrors pr2 v.
Proof.
  intros pr1 pr2 v SM I1 I2 LV.
  assert (X : forall pr, indices_ok pr -> pr_dimension pr = pr_dimension pr1 ->
    forall r, In r (pr_costs pr) \/ In r (pr_eq pr) -> idx_ok r (length v)).
  { intros pr I E r Hr i Hi. rewrite LV, Z2Nat.id, <- E by (pose proof (io_dim _ I1); lia). exact (io_range _ I r Hr i Hi). }
  rewrite (eval_errors_R pr1 v (X pr1 I1 eq_refl)), (eval_errors_R pr2 v (X pr2 I2 (eq_sym (sm_dim _ _ SM)))).
  rewrite (sm_value _ _ SM v LV), (sm_viol _ _ SM v LV). reflexivity.
Qed.

(** C65: problems that describe the same functions are solved identically. *)
Theorem C65_only_the_model_matters : forall ldlt qr llt eigs retract (S : Type) (cb : option (S -> NLSIteration R -> S * bool))
  (pr1 pr2 : Problem R) pa g vars cs,
  keeps_length retract -> same_model pr1 pr2 -> indices_ok pr1 -> indices_ok pr2 ->
  length vars = Z.to_nat (pr_dimension pr1) ->
  NLS_Solve ldlt qr llt eigs retract cb pa pr1 g vars cs = NLS_Solve ldlt qr llt eigs retract cb pa pr2 g vars cs.
Proof.
  intros ldlt qr llt eigs retract S cb pr1 pr2 pa g vars cs KL SM I1 I2 LV.
  apply C65_same_functions_same_solve; auto. constructor.
  - apply (sm_dim _ _ SM).
  - rewrite (sm_ineq _ _ SM). tauto.
  - apply (sm_eq _ _ SM).
  - intros v l Lv. apply linearise_same; assumption.
  - intros v Lv. apply evaluate_same; assumption.
Qed.

(** *** The order of the cost terms *)
Lemma Rlsum_perm : forall l l' : list R, Permutation l l' -> Rlsum l = Rlsum l'.
Proof. intros l l' P. induction P; simpl; lra. Qed.

Theorem C65_cost_order_irrelevant : forall ldlt qr llt eigs retract (S : Type) (cb : option (S -> NLSIteration R -> S * bool))
  d costs costs' ineq eqs pa g vars cs,
  keeps_length retract -> Permutation costs costs' -> indices_ok (MkProblem d costs ineq eqs) -> length vars = Z.to_nat d ->
  NLS_Solve ldlt qr llt eigs retract cb pa (MkProblem d costs ineq eqs) g vars cs =
  NLS_Solve ldlt qr llt eigs retract cb pa (MkProblem d costs' ineq eqs) g vars cs.
Proof.
  intros ldlt qr llt eigs retract S cb d costs costs' ineq eqs pa g vars cs KL P I LV.
  assert (SUB : forall r, In r costs' -> In r costs) by (intros r Hr; apply Permutation_in with costs'; [apply Permutation_sym; exact P|exact Hr]).
  apply C65_only_the_model_matters; auto.
  - constructor; cbn [pr_dimension pr_ineq pr_eq]; try reflexivity; intros v; intros; unfold lin_cost, cost_at; cbn [pr_costs];
      apply Rlsum_perm, Permutation_map, P.
  - destruct I as [I1 [I2 I3] I4 I5]. cbn [pr_dimension pr_costs pr_eq pr_ineq] in *. constructor; cbn [pr_dimension pr_costs pr_eq pr_ineq]; auto.
    + split; cbn [pr_costs pr_eq]; auto.
    + intros r [Hr|Hr]; apply I4; auto.
Qed.

(** *** Stacking residuals *)

(** [r] consists of the rows of [r1] followed by those of [r2]; all three see the same variables in the same order. *)
Definition stacks (r r1 r2 : residual R) : Prop :=
  res_index r1 = res_index r /\ res_index r2 = res_index r /\ res_dim r = (res_dim r1 + res_dim r2)%nat /\
  (forall p k, (k < res_dim r1)%nat ->
     vget (res_f r p) k = vget (res_f r1 p) k /\ vget (fst (res_fJ r p)) k = vget (fst (res_fJ r1 p)) k /\
     forall a, mget (snd (res_fJ r p)) k a = mget (snd (res_fJ r1 p)) k a) /\
  (forall p k, (k < res_dim r2)%nat ->
     vget (res_f r p) (res_dim r1 + k) = vget (res_f r2 p) k /\ vget (fst (res_fJ r p)) (res_dim r1 + k) = vget (fst (res_fJ r2 p)) k /\
     forall a, mget (snd (res_fJ r p)) (res_dim r1 + k) a = mget (snd (res_fJ r2 p)) k a).

Lemma stacks_lin : forall r r1 r2 v dx, stacks r r1 r2 ->
  (forall k, (k < res_dim r1)%nat -> lin_residual r v dx k = lin_residual r1 v dx k) /\
  (forall k, (k < res_dim r2)%nat -> lin_residual r v dx (res_dim r1 + k) = lin_residual r2 v dx k).
Proof.
  intros r r1 r2 v dx (X1 & X2 & D & A & B).
  assert (G1 : gathered r1 v = gathered r v) by (unfold gathered; rewrite X1; reflexivity).
  assert (G2 : gathered r2 v = gathered r v) by (unfold gathered; rewrite X2; reflexivity).
  split; intros k Hk; unfold lin_residual, gidx; rewrite ?G1, ?G2, ?X1, ?X2.
  - destruct (A (gathered r v) k Hk) as (_ & E1 & E2). rewrite E1. f_equal. apply Rsum_ext. intros a Ha. rewrite E2. reflexivity.
  - destruct (B (gathered r v) k Hk) as (_ & E1 & E2). rewrite E1. f_equal. apply Rsum_ext. intros a Ha. rewrite E2. reflexivity.
Qed.

(** Replacing one vector valued cost term or constraint by its two parts changes nothing. *)
Theorem C65_stacking_irrelevant : forall ldlt qr llt eigs retract (S : Type) (cb : option (S -> NLSIteration R -> S * bool))
  d ca cb1 ea eb r r1 r2 ineq pa g vars cs,
  keeps_length retract -> stacks r r1 r2 -> length vars = Z.to_nat d ->
  (indices_ok (MkProblem d (ca ++ r :: cb1) ineq ea) ->
   NLS_Solve ldlt qr llt eigs retract cb pa (MkProblem d (ca ++ r :: cb1) ineq ea) g vars cs =
   NLS_Solve ldlt qr llt eigs retract cb pa (MkProblem d (ca ++ r1 :: r2 :: cb1) ineq ea) g vars cs) /\
  (indices_ok (MkProblem d ca ineq (ea ++ r :: eb)) ->
   NLS_Solve ldlt qr llt eigs retract cb pa (MkProblem d ca ineq (ea ++ r :: eb)) g vars cs =
   NLS_Solve ldlt qr llt eigs retract cb pa (MkProblem d ca ineq (ea ++ r1 :: r2 :: eb)) g vars cs).
Proof.
  intros ldlt qr llt eigs retract S cb d ca cb1 ea eb r r1 r2 ineq pa g vars cs KL ST LV.
  pose proof ST as (X1 & X2 & D & A & B).
  assert (G1 : forall v, gathered r1 v = gathered r v) by (intro v; unfold gathered; rewrite X1; reflexivity).
  assert (G2 : forall v, gathered r2 v = gathered r v) by (intro v; unfold gathered; rewrite X2; reflexivity).
  assert (IDX : forall (P : list Z -> Prop) la lb,
     (forall q, In q (la ++ r :: lb) -> P (res_index q)) -> forall q, In q (la ++ r1 :: r2 :: lb) -> P (res_index q)).
  { intros P la lb H q Hq. apply in_app_or in Hq. destruct Hq as [Hq|[<-|[<-|Hq]]].
    - apply H, in_or_app. left. exact Hq.
    - rewrite X1. apply H, in_or_app. right. left. reflexivity.
    - rewrite X2. apply H, in_or_app. right. left. reflexivity.
    - apply H, in_or_app. right. right. exact Hq. }
  split; intro I; (apply C65_only_the_model_matters; auto).
  - constructor; cbn [pr_dimension pr_ineq pr_eq]; try reflexivity; intros v; intros; unfold lin_cost, cost_at; cbn [pr_costs];
      rewrite !map_app, !Rlsum_app; f_equal; cbn [map Rlsum]; rewrite <- Rplus_assoc; f_equal; rewrite <- Rmult_plus_distr_l; f_equal; rewrite D, Rsum_app; f_equal;
      apply Rsum_ext; intros k Hk.
    + rewrite (proj1 (stacks_lin r r1 r2 v dx ST) k Hk). reflexivity.
    + rewrite (proj2 (stacks_lin r r1 r2 v dx ST) k Hk). reflexivity.
    + rewrite G1. destruct (A (gathered r v) k Hk) as (E & _). rewrite E. reflexivity.
    + rewrite G2. destruct (B (gathered r v) k Hk) as (E & _). rewrite E. reflexivity.
  - destruct I as [I1 [I2 I3] I4 I5]. cbn [pr_dimension pr_costs pr_eq pr_ineq] in *. constructor; cbn [pr_dimension pr_costs pr_eq pr_ineq]; auto.
    + split; cbn [pr_costs pr_eq]; auto. exact (IDX (fun ix => NoDup ix) _ _ I2).
    + intros q [Hq|Hq]; [|apply I4; auto].
      exact (IDX (fun ix => forall i, In i ix -> (0 <= i < d)%Z) ca cb1 (fun q Hq => I4 q (or_introl Hq)) q Hq).
  - constructor; cbn [pr_dimension pr_ineq pr_eq]; try reflexivity; try (intros v; intros).
    + split; intro E; destruct ea; discriminate.
    + unfold lin_equalities. cbn [pr_eq]. rewrite !flat_map_app. f_equal. cbn [flat_map]. rewrite app_assoc. f_equal.
      apply (nth_ext _ _ 0 0); [rewrite app_length, !mkvec_length; exact D|]. intros k Hk. rewrite mkvec_length in Hk.
      rewrite mkvec_nth by exact Hk. destruct (Nat.lt_ge_cases k (res_dim r1)) as [L|L].
      * rewrite app_nth1 by (rewrite mkvec_length; exact L). rewrite mkvec_nth by exact L. apply (proj1 (stacks_lin r r1 r2 v dx ST)). exact L.
      * rewrite app_nth2 by (rewrite mkvec_length; exact L). rewrite mkvec_length, mkvec_nth by lia.
        rewrite <- (proj2 (stacks_lin r r1 r2 v dx ST)) by lia. f_equal. lia.
    + unfold eq_l1_at. cbn [pr_eq]. rewrite !map_app, !Rlsum_app. f_equal. cbn [map Rlsum]. rewrite <- Rplus_assoc. f_equal. rewrite D, Rsum_app. f_equal;
      apply Rsum_ext; intros k Hk.
      * rewrite G1. destruct (A (gathered r v) k Hk) as (E & _). rewrite E. reflexivity.
      * rewrite G2. destruct (B (gathered r v) k Hk) as (E & _). rewrite E. reflexivity.
  - destruct I as [I1 [I2 I3] I4 I5]. cbn [pr_dimension pr_costs pr_eq pr_ineq] in *. constructor; cbn [pr_dimension pr_costs pr_eq pr_ineq]; auto.
    + split; cbn [pr_costs pr_eq]; auto. exact (IDX (fun ix => NoDup ix) _ _ I3).
    + intros q [Hq|Hq]; [apply I4; auto|].
      exact (IDX (fun ix => forall i, In i ix -> (0 <= i < d)%Z) ea eb (fun q Hq => I4 q (or_intror Hq)) q Hq).
Qed.

(** *** Terms that vanish *)

(** A cost term whose value and Jacobian are identically zero can be left out. *)
Theorem C65_zero_term_irrelevant : forall ldlt qr llt eigs retract (S : Type) (cb : option (S -> NLSIteration R -> S * bool))
  d ca cb1 r ineq eqs pa g vars cs,
  keeps_length retract ->
  (forall p k, vget (res_f r p) k = 0 /\ vget (fst (res_fJ r p)) k = 0 /\ forall a, mget (snd (res_fJ r p)) k a = 0) ->
  indices_ok (MkProblem d (ca ++ r :: cb1) ineq eqs) -> length vars = Z.to_nat d ->
  NLS_Solve ldlt qr llt eigs retract cb pa (MkProblem d (ca ++ r :: cb1) ineq eqs) g vars cs =
  NLS_Solve ldlt qr llt eigs retract cb pa (MkProblem d (ca ++ cb1) ineq eqs) g vars cs.
Proof.
  intros ldlt qr llt eigs retract S cb d ca cb1 r ineq eqs pa g vars cs KL Z I LV.
  apply C65_only_the_model_matters; auto.
  - constructor; cbn [pr_dimension pr_ineq pr_eq]; try reflexivity; intros v; intros; unfold lin_cost, cost_at; cbn [pr_costs];
      rewrite !map_app, !Rlsum_app; f_equal; cbn [map Rlsum]; rewrite Rsum_0; try ring; intros k Hk.
    + unfold lin_residual. destruct (Z (gathered r v) k) as (_ & E1 & E2). rewrite E1, Rsum_0; [ring|]. intros a Ha. rewrite E2. ring.
    + destruct (Z (gathered r v) k) as (E1 & _). rewrite E1. ring.
  - destruct I as [I1 [I2 I3] I4 I5]. cbn [pr_dimension pr_costs pr_eq pr_ineq] in *.
    assert (SUB : forall q, In q (ca ++ cb1) -> In q (ca ++ r :: cb1)).
    { intros q Hq. apply in_app_or in Hq. apply in_or_app. destruct Hq; [left|right; right]; assumption. }
    constructor; cbn [pr_dimension pr_costs pr_eq pr_ineq]; auto.
    + split; cbn [pr_costs pr_eq]; auto.
    + intros q [Hq|Hq]; apply I4; auto.
Qed.
