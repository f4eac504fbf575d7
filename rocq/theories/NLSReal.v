(** C32, C33, C34, C39, C40, C49 over the reals. *)
From Coq Require Import String List Bool Arith ZArith QArith Reals Lra Lia.
From Verif Require Import Scalar Outcome LinAlg Structs Constraint QPModel NullSpace Residual Nonlinear RInst
  LinProps QPReuse LSProps NLSTrace NLSProps.
Import ListNotations.
Local Open Scope outcome_scope.
Local Open Scope string_scope.
Local Open Scope list_scope.
Local Open Scope R_scope.

(** ** C49: parameter validation *)

(** The documented ranges, nonlinear.hpp:64-124. *)
Record nls_params_valid (pa : NLSParams R) : Prop := {
  npv_max_iterations : (0 <= n_max_iterations pa)%Z;
  npv_max_qp_iterations : (1 <= n_max_qp_iterations pa)%Z;
  npv_kkt : 0 < n_termination_kkt_tolerance pa;
  npv_abs : 0 < n_absolute_exit_tol pa;
  npv_ls : (0 <= n_max_line_search_iterations pa)%Z;
  npv_rel : 0 <= n_relative_exit_tol pa <= 1;
  npv_fd : 0 <= n_absolute_first_derivative_tol pa;
  npv_tau : 0 < n_armijo_search_tau pa < 1;
  npv_pi : 0 <= n_equality_penalty_initial pa;
  npv_ps : 1 <= n_equality_penalty_scale_factor pa;
  npv_rho : 0 <= n_equality_penalty_rho pa < 1;
  npv_maxl : 0 <= n_max_lambda pa;
  npv_minl : n_min_lambda pa <= n_max_lambda pa;
  npv_li : n_min_lambda pa <= n_lambda_initial pa <= n_max_lambda pa;
  npv_lf : 0 <= n_lambda_failure_init pa;
  npv_ds : 0 <= n_lambda_decrease_on_success pa < 1;
  npv_dr : 0 <= n_lambda_decrease_on_restore pa < 1 }.

(** C49: a solver can be constructed exactly for a problem with at least one variable. *)
Theorem C49_construction : forall (F : Type) (problem : option (Problem F)),
  (forall p, problem = Some p -> (1 <= pr_dimension p)%Z -> NLS_construct problem = Ok p) /\
  (forall p, problem = Some p -> (pr_dimension p < 1)%Z -> exists w, NLS_construct problem = Throw (AssertFailed w)) /\
  (problem = None -> exists w, NLS_construct problem = Throw (AssertFailed w)).
Proof.
  intros F problem. split; [|split].
  - intros p -> H. unfold NLS_construct. replace (0 <? pr_dimension p)%Z with true by (symmetry; apply Z.ltb_lt; lia). reflexivity.
  - intros p -> H. unfold NLS_construct. replace (0 <? pr_dimension p)%Z with false by (symmetry; apply Z.ltb_ge; lia). cbn. eauto.
  - intros ->. cbn. eauto.
Qed.

Lemma f_assert_cases : forall (c : bool) w (k : unit -> outcome unit) (P : Prop),
  (c = true -> (k tt = Ok tt /\ P) \/ (exists w', k tt = Throw (AssertFailed w')) /\ ~ P) ->
  (c = false -> ~ P) ->
  (bind (f_assert c w) k = Ok tt /\ P) \/ (exists w', bind (f_assert c w) k = Throw (AssertFailed w')) /\ ~ P.
Proof. intros [|] w k P H1 H2; simpl; [apply H1; reflexivity|right; split; eauto]. Qed.

Lemma f_assert_last : forall (c : bool) w (P : Prop), (c = true -> P) -> (c = false -> ~ P) ->
  (f_assert c w = Ok tt /\ P) \/ (exists w', f_assert c w = Throw (AssertFailed w')) /\ ~ P.
Proof. intros [|] w P H1 H2; simpl; [left; auto|right; split; eauto]. Qed.

(** C49: CheckParams accepts exactly the documented ranges and otherwise throws. *)
Theorem C49_params_checked : forall pa : NLSParams R,
  (NLS_CheckParams pa = Ok tt /\ nls_params_valid pa) \/
  ((exists w, NLS_CheckParams pa = Throw (AssertFailed w)) /\ ~ nls_params_valid pa).
Proof.
  intro pa. unfold NLS_CheckParams.
  repeat (match goal with |- (bind (f_assert ?c _) _ = _ /\ _) \/ _ => apply f_assert_cases; intro end;
          [|intros []; repeat match goal with
             | H : (_ <=? _)%Z = false |- _ => apply Z.leb_gt in H
             | H : fgtb ?x ?y = false |- _ => destruct (R_fgtb x y); [discriminate|clear H]
             | H : fgeb ?x ?y = false |- _ => destruct (R_fgeb x y); [discriminate|clear H]
             | H : fltb ?x ?y = false |- _ => destruct (R_fltb x y); [discriminate|clear H]
             | H : fleb ?x ?y = false |- _ => destruct (R_fleb x y); [discriminate|clear H]
             end; cbn [f0 f1 R_ops] in *; try lia; lra]).
  apply f_assert_last; intro; repeat match goal with
             | H : (_ <=? _)%Z = false |- _ => apply Z.leb_gt in H
             | H : (_ <=? _)%Z = true |- _ => apply Z.leb_le in H
             | H : fgtb ?x ?y = _ |- _ => destruct (R_fgtb x y); [try discriminate|try discriminate]; clear H
             | H : fgeb ?x ?y = _ |- _ => destruct (R_fgeb x y); [try discriminate|try discriminate]; clear H
             | H : fltb ?x ?y = _ |- _ => destruct (R_fltb x y); [try discriminate|try discriminate]; clear H
             | H : fleb ?x ?y = _ |- _ => destruct (R_fleb x y); [try discriminate|try discriminate]; clear H
             end; cbn [f0 f1 R_ops] in *.
  - constructor; try assumption; try (split; assumption); try lra.
  - intros []. lra.
Qed.

Section Reals.
  Variable ldlt : mat R -> option (mat R).
  Variable qr : mat R -> QRResult R.
  Variable llt : mat R -> option (list R -> list R).
  Variable eigs : mat R -> QPEigenvalues R.
  Variable retract : option (list R -> list R -> R -> list R).
  Context {S : Type}.
  Variable cb : option (S -> NLSIteration R -> S * bool).
  Variable pa : NLSParams R.
  Variable pr : Problem R.
  Variable g : nat -> garbage R.

  Notation solve := (solve ldlt qr llt eigs retract cb pa pr g).

  (** C49: invalid parameters throw, whatever the problem. *)
  Theorem C49_invalid_params_throw : forall vars cs,
    ~ nls_params_valid pa -> exists w, solve vars cs = Throw (AssertFailed w).
  Proof.
    intros vars cs HN. destruct (C49_params_checked pa) as [[_ V]|[[w E] _]]; [contradiction|].
    exists w. unfold NLSTrace.solve, NLS_Solve. rewrite E. reflexivity.
  Qed.

  Lemma solve_valid : forall vars cs r, solve vars cs = Ok r -> nls_params_valid pa.
  Proof.
    intros vars cs r H. apply solve_params in H. destruct (C49_params_checked pa) as [[_ V]|[[w E] _]]; [exact V|congruence].
  Qed.

  (** Finding: equality_penalty_initial = 0 passes the check, but without equality constraints (where the
      penalty plays no role) every solve with at least one iteration throws. *)
  Theorem C49_zero_initial_penalty_refuted : forall vars cs,
    n_equality_penalty_initial pa = 0 -> pr_eq pr = [] -> (1 <= n_max_iterations pa)%Z ->
    forall r, solve vars cs <> Ok r.
  Proof.
    intros vars cs HP HE HM r H. unfold NLSTrace.solve, NLS_Solve in H. inv_bind H.
    destruct (Z.to_nat (n_max_iterations pa)) as [|n] eqn:E; [lia|]. cbn [nls_loop] in H.
    inv_bind H. unfold nls_iterate in Hm0. inv_bind Hm0. destruct a1 as [ep qp]. inv_bind Hm0. destruct a1 as [qo dx].
    destruct (QPWasIndefinite qo) eqn:EQ.
    - unfold ComputeStepDirection, use_null_space in Hm2. rewrite HE in Hm2.
      assert (X : exists o, qo = InteriorPointOut o).
      { destruct (pr_ineq pr); inv_bind Hm2; inv_bind Hm2; match goal with X : (ip_solver R * _)%type |- _ => destruct X end;
        apply Ok_inj in Hm2; apply pair_inj in Hm2; destruct Hm2 as [<- _]; eauto. }
      destruct X as [o ->]. discriminate.
    - inv_bind Hm0. inv_bind Hm0. unfold SelectStepSize in Hm4. inv_bind Hm4.
      apply f_assert_ok_inv in Hm5. unfold update_penalty in Hm5. rewrite HE in Hm5. cbn [ns_penalty] in Hm5. rewrite HP in Hm5.
      destruct (R_fgtb 0 f0) as [X|X]; [|discriminate]. simpl in X. lra.
  Qed.

  (** ** C32: the merit function never increases *)
  Theorem C32_merit_never_increases : forall vars cs r, value_consistent pr -> solve vars cs = Ok r ->
    let log := out_iterations (res_out r) in
    exists xs : nat -> list R, xs 0%nat = vars /\ xs (length log) = res_vars r /\
      forall k info, nth_error log k = Some info ->
        exists e e', EvaluateNonlinearErrors pr (xs k) = Ok e /\ EvaluateNonlinearErrors pr (xs (Datatypes.S k)) = Ok e' /\
          err_f e' + it_penalty info * err_equality e' <= err_f e + it_penalty info * err_equality e /\
          (it_step_result info <> SS_SUCCESS -> xs (Datatypes.S k) = xs k).
  Proof.
    intros vars cs r VC H log. pose proof (solve_valid _ _ _ H) as PV.
    destruct (solve_history _ _ _ _ _ _ _ _ _ _ _ _ H) as (sts & css & exs & A & _ & C & _ & _ & HH & _). fold log in C, HH.
    exists (fun k => ns_vars (sts k)). splits; [rewrite A; reflexivity|exact C|].
    intros k info Hk. destruct (HH k info Hk) as (HI & _ & _). apply iterate_spec in HI. destruct HI as [_ HI].
    pose proof (iteration_vars _ _ _ _ _ _ _ _ _ _ _ _ (npv_ls _ PV) HI) as [V1 V2].
    destruct HI as (qp & dx & cand & HL & HD & HQ & HC & HP & HS & HU & _).
    apply C25_linearisation_errors in HL; [|exact VC].
    exists (it_errors_initial info).
    destruct (it_step_result info) eqn:ER.
    2-6: (exists (it_errors_initial info); assert (VE := V1 ltac:(discriminate)); rewrite VE; splits; auto; lra).
    destruct (C27_sufficient_decrease retract (ls_of pa pr (sts k) info dx) (npv_ls _ PV) (npv_tau _ PV)
                ltac:(cbn [li_c1 ls_of]; rewrite R_1em4; lra) _ _ HS) as (init & last & E1 & _ & _ & _ & DEC & _).
    destruct (V2 eq_refl) as (dx' & init' & last' & E2 & _ & EV). rewrite E1 in E2. apply app_inj_tail in E2. destruct E2 as [_ <-].
    exists (step_errors last). splits; auto.
  Qed.

  (** Without equality constraints the cost never increases, from the initial guess to the result. *)
  Theorem C32_cost_never_increases : forall vars cs r, value_consistent pr -> pr_eq pr = [] -> solve vars cs = Ok r ->
    forall e0 e1, EvaluateNonlinearErrors pr vars = Ok e0 -> EvaluateNonlinearErrors pr (res_vars r) = Ok e1 ->
    err_f e1 <= err_f e0.
  Proof.
    intros vars cs r VC HE H e0 e1 E0 E1.
    destruct (C32_merit_never_increases _ _ _ VC H) as (xs & X0 & XF & X).
    assert (Z : forall x e, EvaluateNonlinearErrors pr x = Ok e -> err_equality e = 0).
    { intros x e E. unfold EvaluateNonlinearErrors in E. rewrite HE in E. inv_bind E. cbn [ofold bind] in E.
      apply Ok_inj in E. subst e. reflexivity. }
    assert (G : forall k, (k <= length (out_iterations (res_out r)))%nat ->
              forall e, EvaluateNonlinearErrors pr (xs k) = Ok e -> err_f e <= err_f e0).
    { induction k as [|k IH]; intros Hk e Ee.
      - rewrite X0 in Ee. rewrite E0 in Ee. apply Ok_inj in Ee. subst. lra.
      - destruct (nth_error (out_iterations (res_out r)) k) as [info|] eqn:EN; [|apply nth_error_None in EN; lia].
        destruct (X k info EN) as (ea & eb & A & B & D & _). specialize (IH ltac:(lia) _ A).
        rewrite Ee in B. apply Ok_inj in B. subst eb. rewrite (Z _ _ A), (Z _ _ Ee) in D. lra. }
    apply (G (length (out_iterations (res_out r))) ltac:(lia)). rewrite XF. exact E1.
  Qed.

  (** ** C33 *)
  Theorem C33_penalty_never_decreases : forall vars cs r, solve vars cs = Ok r ->
    let log := out_iterations (res_out r) in
    (forall k info, nth_error log k = Some info ->
       n_equality_penalty_initial pa <= it_penalty info /\ (pr_eq pr = [] -> it_penalty info = n_equality_penalty_initial pa)) /\
    (forall k a b, nth_error log k = Some a -> nth_error log (Datatypes.S k) = Some b ->
       it_penalty a <= it_penalty b /\
       (it_penalty b <> it_penalty a -> exists lower, it_penalty a < lower /\ it_penalty b = lower * n_equality_penalty_scale_factor pa)).
  Proof.
    intros vars cs r H log. pose proof (solve_valid _ _ _ H) as PV.
    pose proof (C33_penalty_update _ _ _ _ _ _ _ _ _ _ _ _ H) as U. cbv zeta in U. fold log in U.
    pose proof (npv_pi _ PV) as P0. pose proof (npv_ps _ PV) as PS.
    assert (G : forall k info, nth_error log k = Some info ->
       0 <= penalty_before pa log k ->
       penalty_before pa log k <= it_penalty info /\
       (it_penalty info <> penalty_before pa log k -> exists lower, penalty_before pa log k < lower /\ it_penalty info = lower * n_equality_penalty_scale_factor pa)).
    { intros k info Hk HB. destruct (U k info Hk) as [E|(_ & lower & GT & E & _)].
      - rewrite E. split; [lra|congruence].
      - destruct (R_fgtb lower (penalty_before pa log k)) as [HL|]; [|discriminate]. cbn [fmul R_ops] in E.
        split; [|intros _; exists lower; split; [lra|exact E]].
        rewrite E. assert (lower * 1 <= lower * n_equality_penalty_scale_factor pa) by (apply Rmult_le_compat_l; lra). lra. }
    assert (I : forall k, (k <= length log)%nat -> n_equality_penalty_initial pa <= penalty_before pa log k).
    { induction k as [|k IH]; intro Hk; simpl; [lra|].
      destruct (nth_error log k) as [info|] eqn:EN; [|lra].
      specialize (IH ltac:(lia)). destruct (G k info EN ltac:(lra)). lra. }
    assert (LT : forall k info, nth_error log k = Some info -> (k < length log)%nat) by (intros k info Hk; apply nth_error_Some; congruence).
    split.
    - intros k info Hk. specialize (LT k info Hk). pose proof (I k ltac:(lia)). destruct (G k info Hk ltac:(lra)). split; [lra|].
      intro HE. clear - U HE Hk. revert info Hk. induction k as [|k IH]; intros info Hk; destruct (U _ info Hk) as [E|(N & _)]; try contradiction.
      + exact E.
      + rewrite E. simpl. destruct (nth_error log k) as [i|] eqn:EN; [|reflexivity]. apply IH. reflexivity.
    - intros k a b Ha Hb. specialize (LT k a Ha). pose proof (I (Datatypes.S k) ltac:(lia)) as X.
      assert (EB : penalty_before pa log (Datatypes.S k) = it_penalty a) by (simpl; rewrite Ha; reflexivity).
      pose proof (G _ b Hb ltac:(lra)) as Y. rewrite EB in Y. exact Y.
  Qed.

  (** ** C34, C40 *)

  (** The line search failed in a way that makes the solver raise lambda. *)
  Definition failed (info : NLSIteration R) : Prop :=
    it_step_result info = SS_MAX_ITERATIONS \/ it_step_result info = POSITIVE_DERIVATIVE.

  Lemma raised_ge : forall o l, n_lambda_failure_init pa <= raised_lambda pa o l \/ o = ATTEMPTING_RESTORE_LM.
  Proof.
    intros [|] l; [left|right; reflexivity]. unfold raised_lambda. rewrite R_fmax. apply Rmax_l.
  Qed.
  Lemma raised_10 : forall o l, 10 * l <= raised_lambda pa o l.
  Proof.
    intros [|] l; unfold raised_lambda; cbn [fmul R_ops]; rewrite R_10; [|lra].
    rewrite R_fmax. eapply Rle_trans; [|apply Rmax_r]. lra.
  Qed.
  Lemma raised_att : forall l, raised_lambda pa ATTEMPTING_RESTORE_LM l = 10 * l.
  Proof. intro l. unfold raised_lambda. cbn [fmul R_ops]. rewrite R_10. ring. Qed.

  Lemma lambda_invariant : forall vars cs r, solve vars cs = Ok r ->
    let log := out_iterations (res_out r) in
    forall k info, nth_error log k = Some info ->
      n_min_lambda pa <= it_lambda info <= n_max_lambda pa /\
      (opt_before log k = ATTEMPTING_RESTORE_LM -> n_lambda_failure_init pa <= it_lambda info).
  Proof.
    intros vars cs r H log. pose proof (solve_valid _ _ _ H) as PV.
    destruct (C34_lambda_update _ _ _ _ _ _ _ _ _ _ _ _ H) as [L0 LS]. fold log in L0, LS.
    destruct (C35_termination_states _ _ _ _ _ _ _ _ _ _ _ _ H) as (NX & _ & OP & _). fold log in NX, OP. cbv zeta in *.
    pose proof (npv_li _ PV) as LI. pose proof (npv_lf _ PV) as LF. pose proof (npv_ds _ PV) as DS. pose proof (npv_dr _ PV) as DR.
    pose proof (npv_maxl _ PV) as MX. pose proof (npv_minl _ PV) as MN.
    induction k as [|k IH]; intros b Hb.
    - rewrite (L0 b Hb). split; [exact LI|]. discriminate.
    - assert (EA : exists a, nth_error log k = Some a).
      { destruct (nth_error log k) as [a|] eqn:E; [eauto|]. apply nth_error_None in E.
        assert (Datatypes.S k < length log)%nat by (apply nth_error_Some; congruence). lia. }
      destruct EA as [a Ha]. destruct (IH a Ha) as [[B1 B2] B3].
      assert (LT : (Datatypes.S k < length log)%nat) by (apply nth_error_Some; congruence).
      specialize (NX k a Ha LT). specialize (OP k a Ha). rewrite (LS k a b Ha Hb).
      assert (OB : opt_before log (Datatypes.S k) = it_optimizer_state a) by (simpl; rewrite Ha; reflexivity).
      rewrite OB, OP. unfold next_lambda, next_opt.
      assert (DEC : forall d, 0 <= d < 1 -> n_min_lambda pa <= fmax (fmul (it_lambda a) d) (n_min_lambda pa) <= n_max_lambda pa).
      { intros d Hd. rewrite R_fmax. cbn [fmul R_ops]. split; [apply Rmax_r|]. apply Rmax_lub; [|exact MN].
        destruct (Rle_lt_dec 0 (it_lambda a)).
        - assert (it_lambda a * d <= it_lambda a * 1) by (apply Rmult_le_compat_l; lra). lra.
        - assert (0 <= - it_lambda a * d) by (apply Rmult_le_pos; lra). lra. }
      assert (RAISE : failed a ->
          (n_min_lambda pa <= raised_lambda pa (opt_before log k) (it_lambda a) <= n_max_lambda pa) /\
          (n_lambda_failure_init pa <= raised_lambda pa (opt_before log k) (it_lambda a))).
      { intro FA.
        assert (U : raised_lambda pa (opt_before log k) (it_lambda a) <= n_max_lambda pa).
        { specialize (NX MAX_LAMBDA). unfold exit_condition in NX.
          destruct (R_fgtb (raised_lambda pa (opt_before log k) (it_lambda a)) (n_max_lambda pa)) as [|X]; [|lra].
          exfalso. apply NX. split; [exact FA|reflexivity]. }
        pose proof (raised_10 (opt_before log k) (it_lambda a)) as T10.
        destruct (raised_ge (opt_before log k) (it_lambda a)) as [GE|EO].
        - splits; auto. destruct (Rle_lt_dec 0 (it_lambda a)); lra.
        - specialize (B3 EO). splits; auto; lra. }
      destruct (it_step_result a) eqn:ER.
      + split; [|discriminate]. apply DEC. destruct (opt_before log k); assumption.
      + destruct (RAISE (or_introl ER)) as [X Y]. split; [exact X|]. intros _. exact Y.
      + split; [lra|]. exact B3.
      + destruct (RAISE (or_intror ER)) as [X Y]. split; [exact X|]. intros _. exact Y.
      + split; [lra|]. exact B3.
      + split; [lra|]. exact B3.
  Qed.

  (** C34: every logged lambda lies in [min_lambda, max_lambda]. *)
  Theorem C34_lambda_in_range : forall vars cs r, solve vars cs = Ok r ->
    forall info, In info (out_iterations (res_out r)) -> n_min_lambda pa <= it_lambda info <= n_max_lambda pa.
  Proof.
    intros vars cs r H info Hin. apply In_nth_error in Hin. destruct Hin as [k Hk].
    exact (proj1 (lambda_invariant _ _ _ H k info Hk)).
  Qed.

  (** C34: direction of the changes between consecutive iterations: a success never raises a non-negative
      lambda above max(lambda, min_lambda), a failure multiplies it by at least 10 and at least restores
      lambda_failure_init, everything else keeps it. *)
  Theorem C34_lambda_direction : forall vars cs r, solve vars cs = Ok r ->
    forall k a b, nth_error (out_iterations (res_out r)) k = Some a ->
    nth_error (out_iterations (res_out r)) (Datatypes.S k) = Some b ->
    (it_step_result a = SS_SUCCESS -> 0 <= it_lambda a -> it_lambda b <= it_lambda a) /\
    (failed a -> 10 * it_lambda a <= it_lambda b /\ n_lambda_failure_init pa <= it_lambda b) /\
    (it_step_result a <> SS_SUCCESS -> ~ failed a -> it_lambda b = it_lambda a).
  Proof.
    intros vars cs r H k a b Ha Hb. pose proof (solve_valid _ _ _ H) as PV.
    destruct (C34_lambda_update _ _ _ _ _ _ _ _ _ _ _ _ H) as [_ LS]. cbv zeta in LS. specialize (LS k a b Ha Hb).
    destruct (lambda_invariant _ _ _ H _ _ Hb) as [_ IB]. destruct (lambda_invariant _ _ _ H _ _ Ha) as [IA _]. cbv zeta in *.
    destruct (C35_termination_states _ _ _ _ _ _ _ _ _ _ _ _ H) as (_ & _ & OP & _). cbv zeta in OP. specialize (OP k a Ha).
    unfold next_lambda in LS. splits.
    - intros E P. rewrite E in LS. rewrite LS, R_fmax. cbn [fmul R_ops]. apply Rmax_lub; [|lra].
      set (d := match opt_before _ _ with NOMINAL => _ | _ => _ end) in *.
      assert (0 <= d < 1) by (unfold d; pose proof (npv_ds _ PV); pose proof (npv_dr _ PV); destruct (opt_before _ _); assumption).
      assert (it_lambda a * d <= it_lambda a * 1) by (apply Rmult_le_compat_l; lra). lra.
    - intros FA. assert (E : it_lambda b = raised_lambda pa (opt_before (out_iterations (res_out r)) k) (it_lambda a)).
      { rewrite LS. destruct FA as [-> | ->]; reflexivity. }
      split; [rewrite E; apply raised_10|]. apply IB. simpl. rewrite Ha, OP. unfold next_opt. destruct FA as [-> | ->]; reflexivity.
    - intros N1 N2. rewrite LS. unfold failed in N2. destruct (it_step_result a); try tauto; congruence.
  Qed.

  (** C40: m+1 consecutive failures followed by another logged iteration require lambda_failure_init * 10^m
      to be at most max_lambda; so the number of consecutive failures the solver tolerates is bounded. *)
  Theorem C40_consecutive_failures_bounded : forall vars cs r, solve vars cs = Ok r ->
    let log := out_iterations (res_out r) in
    forall k m, (Datatypes.S (k + m) < length log)%nat ->
    (forall j info, (k <= j <= k + m)%nat -> nth_error log j = Some info -> failed info) ->
    (forall info, nth_error log (Datatypes.S (k + m)) = Some info -> n_lambda_failure_init pa * 10 ^ m <= it_lambda info) /\
    n_lambda_failure_init pa * 10 ^ m <= n_max_lambda pa.
  Proof.
    intros vars cs r H log k m HL HF.
    assert (G : forall m', (m' <= m)%nat -> forall info, nth_error log (Datatypes.S (k + m')) = Some info ->
       n_lambda_failure_init pa * 10 ^ m' <= it_lambda info).
    { induction m' as [|m' IH]; intros Hm info Hi.
      - rewrite Nat.add_0_r in Hi. simpl. rewrite Rmult_1_r.
        assert (EA : exists a, nth_error log k = Some a).
        { destruct (nth_error log k) as [a|] eqn:E; [eauto|]. apply nth_error_None in E. lia. }
        destruct EA as [a Ha]. destruct (C34_lambda_direction _ _ _ H k a info Ha Hi) as (_ & X & _).
        apply X. apply (HF k a ltac:(lia) Ha).
      - assert (EA : exists a, nth_error log (Datatypes.S (k + m')) = Some a).
        { destruct (nth_error log (Datatypes.S (k + m'))) as [a|] eqn:E; [eauto|]. apply nth_error_None in E. lia. }
        destruct EA as [a Ha]. specialize (IH ltac:(lia) a Ha).
        replace (k + Datatypes.S m')%nat with (Datatypes.S (k + m')) in Hi by lia.
        destruct (C34_lambda_direction _ _ _ H _ a info Ha Hi) as (_ & X & _).
        destruct (X (HF (Datatypes.S (k + m')) a ltac:(lia) Ha)) as [Y _]. simpl. lra. }
    split; [exact (G m (le_n m))|].
    assert (EA : exists a, nth_error log (Datatypes.S (k + m)) = Some a).
    { destruct (nth_error log (Datatypes.S (k + m))) as [a|] eqn:E; [eauto|]. apply nth_error_None in E. lia. }
    destruct EA as [a Ha]. specialize (G m (le_n m) a Ha). pose proof (proj1 (lambda_invariant _ _ _ H _ _ Ha)). lra.
  Qed.

  (** Finding: with lambda_failure_init = 0, once lambda is 0 it stays 0 through any number of failures, and
      the solve never ends with MAX_LAMBDA. *)
  Theorem C40_zero_never_ramps_refuted : forall vars cs r, solve vars cs = Ok r ->
    let log := out_iterations (res_out r) in
    n_lambda_failure_init pa = 0 -> n_min_lambda pa <= 0 ->
    forall k a, nth_error log k = Some a -> it_lambda a = 0 ->
    (forall j b, (k <= j)%nat -> nth_error log j = Some b -> it_lambda b = 0) /\
    out_termination_state (res_out r) <> MAX_LAMBDA.
  Proof.
    intros vars cs r H log HF HMN k a Ha HZ. pose proof (solve_valid _ _ _ H) as PV.
    destruct (C34_lambda_update _ _ _ _ _ _ _ _ _ _ _ _ H) as [_ LS]. fold log in LS. cbv zeta in LS.
    assert (RZ : forall o, raised_lambda pa o 0 = 0).
    { intros [|]; unfold raised_lambda; cbn [fmul R_ops]; [rewrite R_fmax, HF|]; rewrite Rmult_0_l; [|reflexivity].
      rewrite Rmax_left; lra. }
    assert (G : forall j b, (k <= j)%nat -> nth_error log j = Some b -> it_lambda b = 0).
    { intros j. induction j as [|j IH]; intros b Hj Hb.
      - assert (k = 0%nat) by lia. subst k. congruence.
      - destruct (Nat.eq_dec k (Datatypes.S j)) as [->|NE]; [congruence|].
        assert (EC : exists c, nth_error log j = Some c).
        { destruct (nth_error log j) as [c|] eqn:E; [eauto|]. apply nth_error_None in E.
          assert (Datatypes.S j < length log)%nat by (apply nth_error_Some; congruence). lia. }
        destruct EC as [c Hc]. specialize (IH c ltac:(lia) Hc). rewrite (LS j c b Hc Hb). unfold next_lambda. rewrite IH.
        destruct (it_step_result c); auto. cbn [fmul R_ops]. rewrite R_fmax, Rmult_0_l. apply Rmax_left. lra. }
    split; [exact G|]. intro ET.
    destruct (C35_termination_states _ _ _ _ _ _ _ _ _ _ _ _ H) as (_ & _ & _ & T). cbv zeta in T. rewrite ET in T.
    destruct T as (init & info & EL & _ & X). fold log in EL.
    assert (Hi : nth_error log (length init) = Some info) by (rewrite EL, nth_error_app2, Nat.sub_diag by lia; reflexivity).
    assert (k < length log)%nat by (apply nth_error_Some; congruence).
    rewrite EL, app_length in H0. simpl in H0. rewrite (G (length init) info ltac:(lia) Hi) in X. rewrite RZ in X.
    destruct (R_fgtb 0 (n_max_lambda pa)) as [Y|]; [|discriminate]. pose proof (npv_maxl _ PV). lra.
  Qed.

  (** ** C39 *)
  Lemma update_penalty_idem : forall qp dx o p, nls_params_valid pa -> 0 <= p ->
    update_penalty pa pr qp dx o (update_penalty pa pr qp dx o p) = update_penalty pa pr qp dx o p.
  Proof.
    intros qp dx o p PV HP. unfold update_penalty. destruct (pr_eq pr); [reflexivity|].
    set (np := SelectPenalty _ _ _ _). destruct (R_fgtb np p) as [H|H].
    - cbn [fmul R_ops]. destruct (R_fgtb np (np * n_equality_penalty_scale_factor pa)) as [H2|H2]; [|reflexivity].
      exfalso. pose proof (npv_ps _ PV). assert (np * 1 <= np * n_equality_penalty_scale_factor pa) by (apply Rmult_le_compat_l; lra). lra.
    - destruct (R_fgtb np p); [contradiction|reflexivity].
  Qed.

  (** Finding: once a line search ends in FAILURE_NON_FINITE_COST or FAILURE_INVALID_ALPHA, all later
      iterations are identical to it, and the solve can only end with MAX_ITERATIONS (having repeated the same
      iteration until the limit) or because the user callback stops it. *)
  Theorem C39_stall : forall vars cs r, solve vars cs = Ok r ->
    let log := out_iterations (res_out r) in
    forall k a, nth_error log k = Some a -> stall (it_step_result a) ->
    (forall j b, (k <= j)%nat -> nth_error log j = Some b -> same_but_number a b) /\
    (out_termination_state (res_out r) = NLS_MAX_ITERATIONS \/ out_termination_state (res_out r) = USER_CALLBACK).
  Proof.
    intros vars cs r H. pose proof (solve_valid _ _ _ H) as PV.
    apply (stall_forever ldlt qr llt eigs retract cb pa pr g (fun p => 0 <= p) vars cs r H (npv_pi _ PV)).
    intros qp dx o p HP. split; [|apply update_penalty_idem; assumption].
    unfold update_penalty. destruct (pr_eq pr); [exact HP|]. set (np := SelectPenalty _ _ _ _). destruct (R_fgtb np p) as [L|L]; [|exact HP].
    cbn [fmul R_ops]. pose proof (npv_ps _ PV). apply Rmult_le_pos; lra.
  Qed.
End Reals.
