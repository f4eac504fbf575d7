(** C27, C28, C32, C33, C34, C49 of the nonlinear solver in IEEE binary64 arithmetic. *)
From Coq Require Import String List Bool Arith ZArith QArith Reals Lra Lia.
From Flocq Require Import Core BinarySingleNaN Mult_error.
From Verif Require Import Scalar Outcome LinAlg Structs Constraint QPModel NullSpace Residual Nonlinear
  LinProps LSProps NLSTrace NLSProps RInst NLSReal FloatInst FloatProps.
Import ListNotations.
Local Open Scope outcome_scope.
Local Open Scope string_scope.
Local Open Scope list_scope.
Local Open Scope R_scope.

Lemma fin_sign_neg : forall s m e H, 0 <= ev (B754_finite s m e H : double) -> s = false.
Proof.
  intros [|] m e H L; [|reflexivity]. exfalso. cbn [ev B2R] in L.
  assert (F2R (Float radix2 (cond_Zopp true (Zpos m)) e) < 0) by (apply F2R_lt_0; reflexivity). lra.
Qed.
Lemma fin_sign_pos : forall s m e H, ev (B754_finite s m e H : double) <= 0 -> s = true.
Proof.
  intros [|] m e H L; [reflexivity|]. exfalso. cbn [ev B2R] in L.
  assert (0 < F2R (Float radix2 (cond_Zopp false (Zpos m)) e)) by (apply F2R_gt_0; reflexivity). lra.
Qed.
Lemma inf_sign_neg : forall s, 0 <= ev (B754_infinity s : double) -> s = false.
Proof. intros [|] L; [|reflexivity]. pose proof big_pos. cbn [ev] in L. lra. Qed.
Lemma inf_sign_pos : forall s, ev (B754_infinity s : double) <= 0 -> s = true.
Proof. intros [|] L; [reflexivity|]. pose proof big_pos. cbn [ev] in L. lra. Qed.

Lemma clampR_neg : forall r, r <= 0 -> clampR r <= 0.
Proof. intros r H. pose proof big_pos. rewrite <- (clampR_id 0) by (rewrite Rabs_R0; lra). apply clampR_mono. exact H. Qed.

Lemma mul_nonpos : forall x y : double, ev x <= 0 -> 0 <= ev y -> is_nan (dmult x y) = false -> ev (dmult x y) <= 0.
Proof.
  intros x y Hx Hy N. pose proof big_pos as BP. destruct (is_finite x) eqn:Fx; [destruct (is_finite y) eqn:Fy|].
  - destruct (dmult_approx x y Fx Fy) as [_ E]. rewrite E. rewrite ev_finite in Hx, Hy by auto.
    apply clampR_neg. rewrite <- rnd_0. apply rnd_mono. assert (0 <= - B2R x * B2R y) by (apply Rmult_le_pos; lra). lra.
  - destruct y as [s|s| |s m e H]; try discriminate; [|destruct x; discriminate]. apply inf_sign_neg in Hy. subst s.
    destruct x as [sx|sx| |sx m e H]; try discriminate. apply fin_sign_pos in Hx. subst sx. cbn [dmult Bmult xorb ev]. lra.
  - destruct x as [s|s| |s m e H]; try discriminate. apply inf_sign_pos in Hx. subst s.
    destruct y as [sy|sy| |sy m e H]; try discriminate.
    + apply inf_sign_neg in Hy. subst sy. cbn [dmult Bmult xorb ev]. lra.
    + apply fin_sign_neg in Hy. subst sy. cbn [dmult Bmult xorb ev]. lra.
Qed.
Lemma add_nonpos : forall x y : double, ev y <= 0 -> is_nan (dplus x y) = false -> ev (dplus x y) <= ev x.
Proof.
  intros x y Hy N. pose proof big_pos as BP. destruct (is_finite x) eqn:Fx; [destruct (is_finite y) eqn:Fy|].
  - destruct (dplus_approx x y Fx Fy) as [_ E]. rewrite E. rewrite (ev_finite y Fy) in Hy. rewrite (ev_finite x Fx).
    apply Rle_trans with (clampR (rnd (B2R x))); [apply clampR_mono, rnd_mono; lra|].
    rewrite rnd_B2R, clampR_id by (apply Rlt_le, B2R_lt_big). apply Rle_refl.
  - destruct y as [s|s| |s m e H]; try discriminate; [|destruct x; discriminate]. apply inf_sign_pos in Hy. subst s.
    destruct (ev_le_big x) as [Lx _]. destruct x as [sx|sx| |sx m e H']; try discriminate; exact Lx.
  - destruct x as [s|s| |s m e H]; try discriminate.
    destruct y as [sy|sy| |sy m e H']; try discriminate; try (apply Rle_refl).
    destruct s, sy; try discriminate; apply Rle_refl.
Qed.
Lemma mul_ge_one : forall x y : double, is_nan x = false -> is_nan y = false -> 0 < ev x -> 1 <= ev y ->
  is_nan (dmult x y) = false /\ ev x <= ev (dmult x y).
Proof.
  intros x y Nx Ny Hx Hy. pose proof big_pos as BP. destruct (is_finite x) eqn:Fx; [destruct (is_finite y) eqn:Fy|].
  - destruct (dmult_approx x y Fx Fy) as [N E]. split; [exact N|]. rewrite E. rewrite (ev_finite y Fy) in Hy. rewrite (ev_finite x Fx) in *.
    apply Rle_trans with (clampR (rnd (B2R x))); [|apply clampR_mono, rnd_mono; nra].
    rewrite rnd_B2R, clampR_id by (apply Rlt_le, B2R_lt_big). apply Rle_refl.
  - destruct y as [s|s| |s m e H]; try discriminate. assert (s = false) by (apply inf_sign_neg; lra). subst s.
    destruct x as [sx|sx| |sx m e H']; try discriminate; [cbn [ev B2R] in Hx; lra|].
    assert (sx = false) by (apply (fin_sign_neg sx m e H'); lra). subst sx.
    split; [reflexivity|]. cbn [dmult Bmult xorb]. apply (ev_le_big (B754_finite false m e H')).
  - destruct x as [s|s| |s m e H]; try discriminate. assert (s = false) by (apply inf_sign_neg; lra). subst s.
    destruct y as [sy|sy| |sy m e H]; try discriminate.
    + cbn [ev B2R] in Hy; lra.
    + assert (sy = false) by (apply inf_sign_neg; lra). subst sy. split; [reflexivity|]. cbn [dmult Bmult xorb]. lra.
    + assert (sy = false) by (apply (fin_sign_neg sy m e H); lra). subst sy. split; [reflexivity|]. cbn [dmult Bmult xorb]. lra.
Qed.

Section Float.
  Variable red : eigen_red.
  Let O : Ops double := D_ops red.
  Local Existing Instance O.

  (** A step size: a finite double in [0, 1]. *)
  Definition unit_alpha (a : double) : Prop := is_finite a = true /\ 0 <= B2R a <= 1.

  (** C28 in binary64: with 0 < tau < 1 every logged step size is a finite number in [0,1]; consecutive
      ones never increase; with polynomial interpolation they are positive and strictly decrease. *)
  Lemma chain_float : forall (i : ls_input (F := double)),
    Bltb f0 (li_tau i) = true -> Bltb (li_tau i) f1 = true -> forall steps, chain i steps ->
    Forall (fun s => unit_alpha (step_alpha s)) steps /\
    (forall l1 s t l2, steps = l1 ++ s :: t :: l2 ->
       B2R (step_alpha t) <= B2R (step_alpha s) /\
       (li_strategy i = POLYNOMIAL_APPROXIMATION -> 0 < B2R (step_alpha t) < B2R (step_alpha s))).
  Proof.
    intros i T0 T1 steps HC. induction HC as [|s E|l p s HC IH SF].
    - split; [constructor|]. intros l1 s t l2 E. destruct l1; discriminate.
    - split.
      + constructor; [|constructor]. rewrite E. split; [apply d1_finite|]. cbn [f1 O D_ops]. rewrite d1_B2R. lra.
      + intros l1 a t l2 E'. destruct l1 as [|? [|? ?]]; discriminate.
    - destruct IH as [FA ST]. pose proof FA as FA'. apply Forall_app in FA'. destruct FA' as [_ FP]. inversion FP as [|? ? [Fp Up] _]; subst.
      assert (K : unit_alpha (step_alpha s) /\ B2R (step_alpha s) <= B2R (step_alpha p) /\
                  (li_strategy i = POLYNOMIAL_APPROXIMATION -> 0 < B2R (step_alpha s) < B2R (step_alpha p))).
      { unfold step_follows in SF. destruct (li_strategy i).
        - (* Armijo *)
          cbn [f0 f1 O D_ops] in T0, T1. apply Bltb_true in T0, T1. destruct T0 as (_ & Nt & T0). destruct T1 as (_ & _ & T1).
          assert (Ft : is_finite (li_tau i) = true).
          { rewrite (ev_finite _ d1_finite), d1_B2R in T1. pose proof big_gt_1. destruct (li_tau i) as [?|[|]| |? ? ? ?]; auto; cbn [ev B2R] in *; lra. }
          rewrite (ev_finite _ Ft) in T0, T1. rewrite (ev_finite _ d1_finite), d1_B2R in T1. change (ev (B754_zero false)) with 0 in T0.
          rewrite SF. cbn [fmul O D_ops].
          assert (B : 0 <= rnd (B2R (step_alpha p) * B2R (li_tau i)) <= B2R (step_alpha p)).
          { split.
            - rewrite <- rnd_0. apply rnd_mono. apply Rmult_le_pos; lra.
            - rewrite <- (rnd_B2R (step_alpha p)) at 2. apply rnd_mono. nra. }
          pose proof (dmult_approx _ _ Fp Ft) as A. pose proof big_gt_1. apply approximates_R in A; [|rewrite Rabs_pos_eq; lra].
          destruct A as [A1 A2]. unfold unit_alpha. rewrite A2. split; [split; [exact A1|lra]|]. split; [lra|]. discriminate.
        - destruct SF as (A & B & C). unfold fgeb in C. cbn [ffinite fleb f0 O D_ops] in A, B, C.
          apply Bleb_false in B; [|apply finite_not_nan; exact A|reflexivity].
          apply Bleb_false in C; [|apply finite_not_nan; auto|apply finite_not_nan; auto].
          rewrite !ev_finite in * by auto. cbn [B2R] in B. splits; auto; try lra. split; [exact A|lra]. }
      destruct K as (KU & KL & KS). split.
      + rewrite app_assoc. apply Forall_app. split; [exact FA|]. constructor; [exact KU|constructor].
      + intros l1 a t l2 E. destruct l2 as [|x l2 _] using rev_ind.
        * replace (l1 ++ [a; t]) with ((l1 ++ [a]) ++ [t]) in E by (rewrite <- app_assoc; reflexivity).
          rewrite app_assoc in E. apply app_inj_tail in E. destruct E as [E <-]. apply app_inj_tail in E. destruct E as [_ <-]. auto.
        * replace (l1 ++ a :: t :: l2 ++ [x]) with ((l1 ++ a :: t :: l2) ++ [x]) in E by (rewrite <- app_assoc; reflexivity).
          rewrite app_assoc in E. apply app_inj_tail in E. destruct E as [E _]. apply (ST l1 a t l2). exact E.
  Qed.

  Theorem C28_binary64_step_sizes : forall retract (i : ls_input (F := double)),
    (0 <= li_max i)%Z -> Bltb f0 (li_tau i) = true -> Bltb (li_tau i) f1 = true -> forall res steps cand,
    run_line_search retract i = Ok (res, steps, cand) ->
    (exists s rest, steps = s :: rest /\ step_alpha s = f1) /\
    Forall (fun s => unit_alpha (step_alpha s)) steps /\
    (forall l1 s t l2, steps = l1 ++ s :: t :: l2 ->
       B2R (step_alpha t) <= B2R (step_alpha s) /\
       (li_strategy i = POLYNOMIAL_APPROXIMATION -> 0 < B2R (step_alpha t) < B2R (step_alpha s))) /\
    (length steps <= Z.to_nat (li_max i) + 1)%nat.
  Proof.
    intros retract i HM T0 T1 res steps cand H.
    destruct (C28_line_search_log retract i HM _ _ _ H) as (_ & HC & H1 & H2 & _).
    destruct (chain_float i T0 T1 steps HC) as [A B].
    split; [|split; [exact A|split; [exact B|lia]]].
    clear - HC H1. induction HC as [|s E|l p s HC IH SF]; [cbn in H1; lia|eauto|].
    destruct (IH ltac:(rewrite app_length; cbn; lia)) as (s0 & rest & E & A). exists s0, (rest ++ [s]).
    rewrite app_assoc, E. auto.
  Qed.

  (** C27 in binary64: if the line search reports success then the computed merit value at the accepted
      step is not larger than the computed merit value before the step, and the computed directional
      derivative is not positive. No rounding error term is needed. *)
  Theorem C27_binary64_merit_does_not_increase : forall retract (i : ls_input (F := double)),
    (0 <= li_max i)%Z -> Bltb f0 (li_tau i) = true -> Bltb (li_tau i) f1 = true -> Bleb f0 (li_c1 i) = true ->
    forall steps cand, run_line_search retract i = Ok (SS_SUCCESS, steps, cand) ->
    exists init last, steps = init ++ [last] /\
      Bleb (Errors_Total (step_errors last) (li_penalty i)) (Errors_Total (li_pre i) (li_penalty i)) = true /\
      Bleb (DD_Total (li_dd i) (li_penalty i)) f0 = true /\
      unit_alpha (step_alpha last) /\
      RetractCandidateVars retract (li_vars i) (li_dx i) (step_alpha last) = Ok cand /\
      EvaluateNonlinearErrors (li_pr i) cand = Ok (step_errors last).
  Proof.
    intros retract i HM T0 T1 HC steps cand H.
    destruct (C27_success_passed_armijo retract i HM _ _ H) as (init & last & E & A & B & _ & P & Q).
    destruct (C28_binary64_step_sizes retract i HM T0 T1 _ _ _ H) as (_ & FA & _).
    rewrite E in FA. apply Forall_app in FA. destruct FA as [_ FA]. inversion FA as [|? ? [Fa Ua] _]; subst.
    exists init, last. unfold fgtb in B. cbn [fleb fadd fmul fltb f0 O D_ops] in A, B.
    set (phi := Errors_Total (li_pre i) (li_penalty i)) in *. set (phi' := Errors_Total (step_errors last) (li_penalty i)) in *.
    set (dd := DD_Total (li_dd i) (li_penalty i)) in *.
    apply Bleb_true in A. destruct A as (N1 & N2 & L).
    assert (NP : is_nan (dmult (dmult dd (step_alpha last)) (li_c1 i)) = false).
    { destruct (dmult (dmult dd (step_alpha last)) (li_c1 i)); auto. destruct phi; discriminate. }
    assert (NQ : is_nan (dmult dd (step_alpha last)) = false).
    { destruct (dmult dd (step_alpha last)); auto. }
    assert (ND : is_nan dd = false) by (destruct dd; auto).
    assert (NF : is_nan phi = false) by (destruct phi; auto).
    apply Bltb_false in B; [|reflexivity|exact ND]. change (ev (B754_zero false)) with 0 in B.
    assert (M1 : ev (dmult dd (step_alpha last)) <= 0) by (apply mul_nonpos; auto; rewrite ev_finite by exact Fa; lra).
    apply Bleb_true in HC. destruct HC as (_ & NC & HC). change (ev f0) with 0 in HC.
    assert (M2 : ev (dmult (dmult dd (step_alpha last)) (li_c1 i)) <= 0) by (apply mul_nonpos; auto).
    pose proof (add_nonpos phi _ M2 N2) as M3.
    splits; auto; try (split; assumption).
    - rewrite Bleb_ev by auto. apply Rle_bool_true. lra.
    - rewrite Bleb_ev by auto. apply Rle_bool_true. exact B.
  Qed.

  (** ** C49 in binary64 *)

  (** [x <=. y]: both are numbers (possibly infinite) and x <= y on the extended line. *)
  Definition dle (x y : double) : Prop := is_nan x = false /\ is_nan y = false /\ ev x <= ev y.
  Definition dlt (x y : double) : Prop := is_nan x = false /\ is_nan y = false /\ ev x < ev y.

  Lemma Bleb_spec : forall x y, Bleb x y = true <-> dle x y.
  Proof.
    intros x y; split; [apply Bleb_true|]. intros (A & B & C). rewrite Bleb_ev by assumption. apply Rle_bool_true. exact C.
  Qed.
  Lemma Bltb_spec : forall x y, Bltb x y = true <-> dlt x y.
  Proof.
    intros x y; split; [apply Bltb_true|]. intros (A & B & C). rewrite Bltb_ev by assumption. apply Rlt_bool_true. exact C.
  Qed.
  Lemma Bleb_not : forall x y, Bleb x y = false -> ~ dle x y.
  Proof. intros x y H D. apply Bleb_spec in D. congruence. Qed.
  Lemma Bltb_not : forall x y, Bltb x y = false -> ~ dlt x y.
  Proof. intros x y H D. apply Bltb_spec in D. congruence. Qed.

  Notation zero := (B754_zero false : double).
  Notation one := (dofZ 1).

  (** The documented ranges, nonlinear.hpp:64-124, for doubles: NaN satisfies none of them. *)
  Record nls_params_valid_d (pa : NLSParams double) : Prop := {
    dpv_max_iterations : (0 <= n_max_iterations pa)%Z;
    dpv_max_qp_iterations : (1 <= n_max_qp_iterations pa)%Z;
    dpv_kkt : dlt zero (n_termination_kkt_tolerance pa);
    dpv_abs : dlt zero (n_absolute_exit_tol pa);
    dpv_ls : (0 <= n_max_line_search_iterations pa)%Z;
    dpv_rel : dle zero (n_relative_exit_tol pa) /\ dle (n_relative_exit_tol pa) one;
    dpv_fd : dle zero (n_absolute_first_derivative_tol pa);
    dpv_tau : dlt zero (n_armijo_search_tau pa) /\ dlt (n_armijo_search_tau pa) one;
    dpv_pi : dle zero (n_equality_penalty_initial pa);
    dpv_ps : dle one (n_equality_penalty_scale_factor pa);
    dpv_rho : dle zero (n_equality_penalty_rho pa) /\ dlt (n_equality_penalty_rho pa) one;
    dpv_maxl : dle zero (n_max_lambda pa);
    dpv_minl : dle (n_min_lambda pa) (n_max_lambda pa);
    dpv_li : dle (n_min_lambda pa) (n_lambda_initial pa) /\ dle (n_lambda_initial pa) (n_max_lambda pa);
    dpv_lf : dle zero (n_lambda_failure_init pa);
    dpv_ds : dle zero (n_lambda_decrease_on_success pa) /\ dlt (n_lambda_decrease_on_success pa) one;
    dpv_dr : dle zero (n_lambda_decrease_on_restore pa) /\ dlt (n_lambda_decrease_on_restore pa) one }.

  Theorem C49_binary64_params_checked : forall pa : NLSParams double,
    (NLS_CheckParams pa = Ok tt /\ nls_params_valid_d pa) \/
    ((exists w, NLS_CheckParams pa = Throw (AssertFailed w)) /\ ~ nls_params_valid_d pa).
  Proof.
    intro pa. unfold NLS_CheckParams, fgtb, fgeb. cbn [fleb fltb f0 f1 O D_ops].
    repeat (match goal with |- (bind (f_assert ?c _) _ = _ /\ _) \/ _ => apply f_assert_cases; intro end;
            [|intros []; repeat match goal with
               | H : (_ <=? _)%Z = false |- _ => apply Z.leb_gt in H
               | H : Bleb _ _ = false |- _ => apply Bleb_not in H
               | H : Bltb _ _ = false |- _ => apply Bltb_not in H
               end; first [lia | tauto]]).
    apply f_assert_last; intro; repeat match goal with
               | H : (_ <=? _)%Z = true |- _ => apply Z.leb_le in H
               | H : Bleb _ _ = true |- _ => apply Bleb_spec in H
               | H : Bltb _ _ = true |- _ => apply Bltb_spec in H
               | H : Bltb _ _ = false |- _ => apply Bltb_not in H
               end.
    - constructor; try assumption; split; assumption.
    - intros []. tauto.
  Qed.

  Section Solve.
    Variable ldlt : mat double -> option (mat double).
    Variable qr : mat double -> QRResult double.
    Variable llt : mat double -> option (list double -> list double).
    Variable eigs : mat double -> QPEigenvalues double.
    Variable retract : option (list double -> list double -> double -> list double).
    Context {S : Type}.
    Variable cb : option (S -> NLSIteration double -> S * bool).
    Variable pa : NLSParams double.
    Variable pr : Problem double.
    Variable g : nat -> garbage double.

    Notation solve := (solve ldlt qr llt eigs retract cb pa pr g).

    Lemma solve_valid_d : forall vars cs r, solve vars cs = Ok r -> nls_params_valid_d pa.
    Proof.
      intros vars cs r H. apply solve_params in H. destruct (C49_binary64_params_checked pa) as [[_ V]|[[w E] _]]; [exact V|congruence].
    Qed.

    (** C32 in binary64: in every logged iteration either the variables stay as they are, or the computed
        merit value at the new variables is not larger than the one at the old variables (and neither is
        NaN): "not larger" is the comparison of doubles, without any tolerance. *)
    Theorem C32_binary64_merit_never_increases : forall vars cs r, value_consistent pr -> solve vars cs = Ok r ->
      let log := out_iterations (res_out r) in
      exists xs : nat -> list double, xs 0%nat = vars /\ xs (length log) = res_vars r /\
        forall k info, nth_error log k = Some info ->
          (it_step_result info <> SS_SUCCESS /\ xs (Datatypes.S k) = xs k) \/
          (it_step_result info = SS_SUCCESS /\
           exists e e', EvaluateNonlinearErrors pr (xs k) = Ok e /\ EvaluateNonlinearErrors pr (xs (Datatypes.S k)) = Ok e' /\
             dle (dplus (err_f e') (dmult (it_penalty info) (err_equality e')))
                 (dplus (err_f e) (dmult (it_penalty info) (err_equality e)))).
    Proof.
      intros vars cs r VC H log. pose proof (solve_valid_d _ _ _ H) as PV.
      destruct (solve_history _ _ _ _ _ _ _ _ _ _ _ _ H) as (sts & css & exs & A & _ & C & _ & _ & HH & _). fold log in C, HH.
      exists (fun k => ns_vars (sts k)). splits; [rewrite A; reflexivity|exact C|].
      intros k info Hk. destruct (HH k info Hk) as (HI & _ & _). apply iterate_spec in HI. destruct HI as [_ HI].
      pose proof (iteration_vars _ _ _ _ _ _ _ _ _ _ _ _ (dpv_ls _ PV) HI) as [V1 V2].
      destruct HI as (qp & dx & cand & HL & HD & HQ & HC & HP & HS & HU & _).
      apply C25_linearisation_errors in HL; [|exact VC].
      destruct (it_step_result info) eqn:ER.
      2-6: (left; split; [discriminate|apply V1; discriminate]).
      right. split; [reflexivity|]. exists (it_errors_initial info).
      destruct (dpv_tau _ PV) as [T0 T1].
      assert (C1 : Bleb f0 (li_c1 (ls_of pa pr (sts k) info dx)) = true) by (cbn [li_c1 ls_of]; vm_compute; reflexivity).
      destruct (C27_binary64_merit_does_not_increase retract (ls_of pa pr (sts k) info dx) (dpv_ls _ PV)
                  (proj2 (Bltb_spec _ _) T0) (proj2 (Bltb_spec _ _) T1) C1 _ _ HS) as (init & last & E1 & DEC & _).
      destruct (V2 eq_refl) as (dx' & init' & last' & E2 & _ & EV). rewrite E1 in E2. apply app_inj_tail in E2. destruct E2 as [_ <-].
      exists (step_errors last). split; [exact HL|split; [exact EV|]]. apply Bleb_spec in DEC. exact DEC.
    Qed.

    Lemma total_no_eq : forall f pen : double, dle zero pen ->
      is_nan (dplus f (dmult pen zero)) = false -> is_nan f = false /\ ev (dplus f (dmult pen zero)) = ev f.
    Proof.
      intros f pen (_ & Np & _) N.
      assert (Z : exists s, dmult pen zero = B754_zero s).
      { destruct pen as [s|s| |s m e H]; try discriminate; [eexists; reflexivity| |eexists; reflexivity].
        exfalso. destruct f as [?|?| |? ? ? ?]; discriminate N. }
      destruct Z as [s Z]. rewrite Z in *. destruct f as [sf|sf| |sf m e H]; try discriminate; (split; [reflexivity|]).
      - cbn. destruct (Bool.eqb sf s); reflexivity.
      - reflexivity.
      - reflexivity.
    Qed.

    (** Without equality constraints: the solver returns the initial variables, or variables at which the
        computed cost is not larger than at the initial ones (comparison of doubles, no tolerance). *)
    Theorem C32_binary64_cost_never_increases : forall vars cs r, value_consistent pr -> pr_eq pr = [] -> solve vars cs = Ok r ->
      forall e0 e1, EvaluateNonlinearErrors pr vars = Ok e0 -> EvaluateNonlinearErrors pr (res_vars r) = Ok e1 ->
      res_vars r = vars \/ Bleb (err_f e1) (err_f e0) = true.
    Proof.
      intros vars cs r VC HE H e0 e1 E0 E1. pose proof (solve_valid_d _ _ _ H) as PV.
      destruct (C32_binary64_merit_never_increases _ _ _ VC H) as (xs & X0 & XF & X).
      pose proof (C33_penalty_update _ _ _ _ _ _ _ _ _ _ _ _ H) as U. cbv zeta in U.
      set (log := out_iterations (res_out r)) in *.
      assert (Z : forall x e, EvaluateNonlinearErrors pr x = Ok e -> err_equality e = zero).
      { intros x e E. unfold EvaluateNonlinearErrors in E. rewrite HE in E. inv_bind E. cbn [ofold bind] in E.
        apply Ok_inj in E. subst e. reflexivity. }
      assert (PP : forall k info, nth_error log k = Some info -> it_penalty info = n_equality_penalty_initial pa).
      { induction k as [|k IH]; intros info Hk; destruct (U _ info Hk) as [E|(N & _)]; try contradiction.
        - exact E.
        - rewrite E. simpl. destruct (nth_error log k) as [i|] eqn:EN; [|reflexivity]. apply IH. reflexivity. }
      assert (G : forall k, (k <= length log)%nat ->
                xs k = vars \/ exists e, EvaluateNonlinearErrors pr (xs k) = Ok e /\ dle (err_f e) (err_f e0)).
      { induction k as [|k IH]; intros Hk; [left; exact X0|].
        destruct (nth_error log k) as [info|] eqn:EN; [|apply nth_error_None in EN; lia].
        specialize (IH ltac:(lia)).
        destruct (X k info EN) as [[_ E]|(_ & ea & eb & A & B & D)]; [rewrite E; exact IH|].
        right. exists eb. split; [exact B|].
        rewrite (Z _ _ A), (Z _ _ B), (PP _ _ EN) in D. destruct D as (D1 & D2 & D3).
        destruct (total_no_eq _ _ (dpv_pi _ PV) D1) as [F1 G1]. destruct (total_no_eq _ _ (dpv_pi _ PV) D2) as [F2 G2].
        rewrite G1, G2 in D3. destruct IH as [V|(e & Ee & L1 & L2 & L3)].
        - rewrite V, E0 in A. apply Ok_inj in A. subst ea. split; [|split]; assumption.
        - rewrite A in Ee. apply Ok_inj in Ee. subst e. split; [|split]; auto. lra. }
      destruct (G (length log) ltac:(lia)) as [V|(e & Ee & L)]; rewrite XF in *; [left; exact V|right].
      rewrite E1 in Ee. apply Ok_inj in Ee. subst e. apply Bleb_spec. exact L.
    Qed.

    (** C33 in binary64: the penalty is never NaN, never below its initial value and never decreases. *)
    Theorem C33_binary64_penalty_never_decreases : forall vars cs r, solve vars cs = Ok r ->
      let log := out_iterations (res_out r) in
      (forall k info, nth_error log k = Some info -> dle (n_equality_penalty_initial pa) (it_penalty info)) /\
      (forall k a b, nth_error log k = Some a -> nth_error log (Datatypes.S k) = Some b -> dle (it_penalty a) (it_penalty b)).
    Proof.
      intros vars cs r H log. pose proof (solve_valid_d _ _ _ H) as PV.
      pose proof (C33_penalty_update _ _ _ _ _ _ _ _ _ _ _ _ H) as U. cbv zeta in U. fold log in U.
      destruct (dpv_pi _ PV) as (_ & NI & P0). destruct (dpv_ps _ PV) as (_ & NS & PS).
      rewrite (ev_finite _ d1_finite), d1_B2R in PS. change (ev zero) with 0 in P0.
      assert (G : forall k info, nth_error log k = Some info -> dle zero (penalty_before pa log k) ->
         dle (penalty_before pa log k) (it_penalty info)).
      { intros k info Hk (_ & NB & HB). change (ev zero) with 0 in HB. destruct (U k info Hk) as [E|(_ & lower & GT & E & _)].
        - rewrite E. split; [|split]; auto. lra.
        - unfold fgtb in GT. cbn [fltb O D_ops] in GT. apply Bltb_true in GT. destruct GT as (_ & NL & HL).
          rewrite E. cbn [fmul O D_ops]. destruct (mul_ge_one lower (n_equality_penalty_scale_factor pa) NL NS ltac:(lra) PS) as [N1 N2].
          split; [|split]; auto. lra. }
      assert (I : forall k, (k <= length log)%nat -> dle (n_equality_penalty_initial pa) (penalty_before pa log k)).
      { induction k as [|k IH]; intro Hk; simpl; [split; [|split]; auto; lra|].
        destruct (nth_error log k) as [info|] eqn:EN; [|split; [|split]; auto; lra].
        destruct (IH ltac:(lia)) as (I1 & I2 & I3). destruct (G k info EN) as (J1 & J2 & J3).
        { split; [|split]; auto. change (ev zero) with 0. lra. }
        split; [|split]; auto. lra. }
      assert (LT : forall k info, nth_error log k = Some info -> (k < length log)%nat) by (intros k info Hk; apply nth_error_Some; congruence).
      assert (BB : forall k info, nth_error log k = Some info -> penalty_before pa log (Datatypes.S k) = it_penalty info)
        by (intros k info Hk; simpl; rewrite Hk; reflexivity).
      split.
      - intros k info Hk. rewrite <- (BB k info Hk). apply I. specialize (LT k info Hk). lia.
      - intros k a b Ha Hb. specialize (LT k a Ha). destruct (I (Datatypes.S k) ltac:(lia)) as (X1 & X2 & X3).
        pose proof (G _ b Hb) as Y. rewrite (BB k a Ha) in Y, X2, X3. apply Y. split; [|split]; auto. change (ev zero) with 0. lra.
    Qed.

    (** C39 in binary64, with NaN and infinite errors, penalties and steps allowed: after a line search ended in
        FAILURE_NON_FINITE_COST or FAILURE_INVALID_ALPHA all later iterations repeat it. *)
    Theorem C39_binary64_stall : forall vars cs r, solve vars cs = Ok r ->
      let log := out_iterations (res_out r) in
      forall k a, nth_error log k = Some a ->
      it_step_result a = FAILURE_NON_FINITE_COST \/ it_step_result a = FAILURE_INVALID_ALPHA ->
      (forall j b, (k <= j)%nat -> nth_error log j = Some b -> same_but_number a b) /\
      (out_termination_state (res_out r) = NLS_MAX_ITERATIONS \/ out_termination_state (res_out r) = USER_CALLBACK).
    Proof.
      intros vars cs r H. pose proof (solve_valid_d _ _ _ H) as PV.
      destruct (dpv_ps _ PV) as (_ & NS & PS). rewrite (ev_finite _ d1_finite), d1_B2R in PS.
      apply (stall_forever ldlt qr llt eigs retract cb pa pr g (dle zero) vars cs r H (dpv_pi _ PV)).
      intros qp dx o p HP. pose proof HP as (_ & NP & HP'). change (ev zero) with 0 in HP'.
      unfold update_penalty. destruct (pr_eq pr); [auto|]. set (np := SelectPenalty _ _ _ _).
      destruct (fgtb np p) eqn:GT; [|rewrite GT; auto].
      unfold fgtb in GT. cbn [fltb O D_ops] in GT. apply Bltb_true in GT. destruct GT as (_ & NL & HL).
      destruct (mul_ge_one np (n_equality_penalty_scale_factor pa) NL NS ltac:(lra) PS) as [N1 N2]. cbn [fmul O D_ops].
      split; [split; [reflexivity|split; [exact N1|change (ev zero) with 0; lra]]|].
      destruct (fgtb np (dmult np (n_equality_penalty_scale_factor pa))) eqn:G2; [|reflexivity].
      unfold fgtb in G2. cbn [fltb O D_ops] in G2. apply Bltb_true in G2. destruct G2 as (_ & _ & G2). lra.
    Qed.

    Lemma between_finite : forall lo hi x : double, is_finite lo = true -> is_finite hi = true -> is_nan x = false ->
      ev lo <= ev x <= ev hi -> is_finite x = true.
    Proof.
      intros lo hi x Fm FM Nx Hx. rewrite (ev_finite _ Fm), (ev_finite _ FM) in Hx.
      pose proof (B2R_lt_big lo) as Q1. pose proof (B2R_lt_big hi) as Q2.
      apply Rabs_def2 in Q1, Q2. destruct x as [?|[|]| |? ? ? ?]; auto; cbn [ev] in Hx; lra.
    Qed.

    Lemma lambda_invariant_d : forall vars cs r, solve vars cs = Ok r ->
      is_finite (n_min_lambda pa) = true -> is_finite (n_max_lambda pa) = true ->
      let log := out_iterations (res_out r) in
      forall k info, nth_error log k = Some info ->
        is_nan (it_lambda info) = false /\ ev (n_min_lambda pa) <= ev (it_lambda info) <= ev (n_max_lambda pa) /\
        (opt_before log k = ATTEMPTING_RESTORE_LM -> ev (n_lambda_failure_init pa) <= ev (it_lambda info)).
    Proof.
      intros vars cs r H Fm FM log. pose proof (solve_valid_d _ _ _ H) as PV.
      destruct (C34_lambda_update _ _ _ _ _ _ _ _ _ _ _ _ H) as [L0 LS]. fold log in L0, LS.
      destruct (C35_termination_states _ _ _ _ _ _ _ _ _ _ _ _ H) as (NX & _ & OP & _). fold log in NX, OP. cbv zeta in *.
      destruct (dpv_li _ PV) as [(_ & NI & LI1) (_ & _ & LI2)]. destruct (dpv_lf _ PV) as (_ & NF & LF).
      pose proof (dpv_ds _ PV) as DS. pose proof (dpv_dr _ PV) as DR.
      destruct (dpv_maxl _ PV) as (_ & _ & MX). destruct (dpv_minl _ PV) as (_ & _ & MN).
      change (ev zero) with 0 in *.
      pose proof (fun x => between_finite (n_min_lambda pa) (n_max_lambda pa) x Fm FM) as FIN.
      induction k as [|k IH]; intros b Hb.
        - rewrite (L0 b Hb). split; [exact NI|split; [split; assumption|]]. discriminate.
        - assert (EA : exists a, nth_error log k = Some a).
          { destruct (nth_error log k) as [a|] eqn:E; [eauto|]. apply nth_error_None in E.
            assert (Datatypes.S k < length log)%nat by (apply nth_error_Some; congruence). lia. }
          destruct EA as [a Ha]. destruct (IH a Ha) as (NA & [B1 B2] & B3). pose proof (FIN _ NA (conj B1 B2)) as FA.
          assert (LT : (Datatypes.S k < length log)%nat) by (apply nth_error_Some; congruence).
          specialize (NX k a Ha LT). specialize (OP k a Ha). rewrite (LS k a b Ha Hb).
          assert (OB : opt_before log (Datatypes.S k) = it_optimizer_state a) by (simpl; rewrite Ha; reflexivity).
          rewrite OB, OP. unfold next_lambda, next_opt.
          assert (DEC : forall d, dle zero d /\ dlt d one -> let m := fmax (fmul (it_lambda a) d) (n_min_lambda pa) in
             is_nan m = false /\ ev (n_min_lambda pa) <= ev m <= ev (n_max_lambda pa)).
          { intros d [(_ & Nd & D0) (_ & _ & D1)]. rewrite (ev_finite _ d1_finite), d1_B2R in D1. change (ev zero) with 0 in D0.
            pose proof big_gt_1 as BG.
            assert (Fd : is_finite d = true) by (destruct d as [?|[|]| |? ? ? ?]; auto; cbn [ev] in *; lra).
            rewrite (ev_finite d Fd) in *. cbn [fmul O D_ops]. cbv zeta.
            destruct (dmult_approx (it_lambda a) d FA Fd) as [NM EM].
            assert (UP : ev (dmult (it_lambda a) d) <= ev (n_max_lambda pa)).
            { rewrite EM, (ev_finite _ FM). rewrite (ev_finite _ FM) in MX, B2. rewrite (ev_finite _ FA) in B2.
              apply Rle_trans with (clampR (rnd (B2R (n_max_lambda pa)))).
              - apply clampR_mono, rnd_mono. destruct (Rle_lt_dec 0 (B2R (it_lambda a))).
                + assert (B2R (it_lambda a) * B2R d <= B2R (it_lambda a) * 1) by (apply Rmult_le_compat_l; lra). lra.
                + assert (0 <= - B2R (it_lambda a) * B2R d) by (apply Rmult_le_pos; lra). lra.
              - rewrite rnd_B2R, clampR_id by (apply Rlt_le, B2R_lt_big). lra. }
            destruct (fmax_d red (dmult (it_lambda a) d) (n_min_lambda pa) NM) as (M1 & M2 & M3 & M4). fold O in M1, M2, M3, M4.
            split; [exact M1|split; [apply M3, finite_not_nan, Fm|]].
            destruct M4 as [M4|M4]; rewrite M4; lra. }
          assert (T10 : is_nan (dmult (it_lambda a) (flit lit_10)) = false /\
                        (0 <= ev (it_lambda a) -> ev (it_lambda a) <= ev (dmult (it_lambda a) (flit lit_10)))).
          { change (flit lit_10) with (ddiv (dofZ 10) (dofZ 1)). rewrite ddiv_1_r.
            destruct (dofZ_exact 10 eq_refl) as [F10 E10]. destruct (dmult_approx _ _ FA F10) as [N1 E1].
            split; [exact N1|]. rewrite E1, E10, (ev_finite _ FA). intro P.
            apply Rle_trans with (clampR (rnd (B2R (it_lambda a)))).
            - rewrite rnd_B2R, clampR_id by (apply Rlt_le, B2R_lt_big). lra.
            - apply clampR_mono, rnd_mono. lra. }
          destruct T10 as [N10 T10].
          assert (RAISE : it_step_result a = SS_MAX_ITERATIONS \/ it_step_result a = POSITIVE_DERIVATIVE ->
              is_nan (raised_lambda pa (opt_before log k) (it_lambda a)) = false /\
              (ev (n_min_lambda pa) <= ev (raised_lambda pa (opt_before log k) (it_lambda a)) <= ev (n_max_lambda pa)) /\
              (ev (n_lambda_failure_init pa) <= ev (raised_lambda pa (opt_before log k) (it_lambda a)))).
          { intro FL.
            assert (N : is_nan (raised_lambda pa (opt_before log k) (it_lambda a)) = false).
            { unfold raised_lambda. cbn [fmul O D_ops]. destruct (opt_before log k); [|exact N10].
              exact (proj1 (fmax_d red _ _ NF)). }
            split; [exact N|].
            assert (U : ev (raised_lambda pa (opt_before log k) (it_lambda a)) <= ev (n_max_lambda pa)).
            { specialize (NX MAX_LAMBDA). unfold exit_condition, fgtb in NX. cbn [fltb O D_ops] in NX.
              destruct (Bltb (n_max_lambda pa) (raised_lambda pa (opt_before log k) (it_lambda a))) eqn:EB.
              - exfalso. apply NX. split; [exact FL|reflexivity].
              - apply Bltb_false in EB; auto. apply finite_not_nan, FM. }
            revert U N. unfold raised_lambda. cbn [fmul O D_ops]. destruct (opt_before log k) eqn:EO; intros U N.
            - destruct (fmax_d red (n_lambda_failure_init pa) (dmult (it_lambda a) (flit lit_10)) NF) as (_ & M2 & M3 & _).
              specialize (M3 N10). fold O in M2, M3. split; [split; [|exact U]|exact M2].
              set (w := ev (fmax _ _)) in *. set (w10 := ev (dmult (it_lambda a) (flit lit_10))) in *. clearbody w w10.
              destruct (Rle_lt_dec 0 (ev (it_lambda a))) as [P|P]; [specialize (T10 P)|]; lra.
            - specialize (B3 eq_refl). specialize (T10 ltac:(lra)). split; [split; [|exact U]|]; lra. }
          destruct (it_step_result a) eqn:ER.
          + destruct (DEC match opt_before log k with ATTEMPTING_RESTORE_LM => n_lambda_decrease_on_restore pa | NOMINAL => n_lambda_decrease_on_success pa end) as [X Y];
              [destruct (opt_before log k); assumption|]. split; [exact X|split; [exact Y|discriminate]].
          + destruct (RAISE (or_introl eq_refl)) as (X & Y & W). split; [exact X|split; [exact Y|]]. intros _. exact W.
          + split; [exact NA|split; [split; assumption|exact B3]].
          + destruct (RAISE (or_intror eq_refl)) as (X & Y & W). split; [exact X|split; [exact Y|]]. intros _. exact W.
          + split; [exact NA|split; [split; assumption|exact B3]].
          + split; [exact NA|split; [split; assumption|exact B3]].
    Qed.

    (** C34 in binary64: with a finite interval [min_lambda, max_lambda] every logged lambda is a finite
        number in that interval. *)
    Theorem C34_binary64_lambda_in_range : forall vars cs r, solve vars cs = Ok r ->
      is_finite (n_min_lambda pa) = true -> is_finite (n_max_lambda pa) = true ->
      forall info, In info (out_iterations (res_out r)) ->
        is_finite (it_lambda info) = true /\ B2R (n_min_lambda pa) <= B2R (it_lambda info) <= B2R (n_max_lambda pa).
    Proof.
      intros vars cs r H Fm FM info0 Hin. apply In_nth_error in Hin. destruct Hin as [k0 Hk0].
      destruct (lambda_invariant_d _ _ _ H Fm FM k0 info0 Hk0) as (N & B & _).
      pose proof (between_finite _ _ _ Fm FM N B) as F. split; [exact F|].
      rewrite (ev_finite _ Fm), (ev_finite _ FM), (ev_finite _ F) in B. exact B.
    Qed.

    Lemma times_ten : forall x : double, is_finite x = true -> 0 <= B2R x ->
      is_nan (dmult x (flit lit_10)) = false /\ clampR (8 * B2R x) <= ev (dmult x (flit lit_10)).
    Proof.
      intros x Fx Px. change (flit lit_10) with (ddiv (dofZ 10) (dofZ 1)). rewrite ddiv_1_r.
      destruct (dofZ_exact 10 eq_refl) as [F10 E10]. destruct (dmult_approx _ _ Fx F10) as [N1 E1].
      split; [exact N1|]. rewrite E1, E10. apply clampR_mono.
      assert (FM : fmt (8 * B2R x)).
      { rewrite Rmult_comm. change 8 with (bpow radix2 3). apply mult_bpow_pos_exact_FLT; [|lia]. apply generic_format_B2R. }
      rewrite <- (rnd_fmt _ FM). apply rnd_mono. lra.
    Qed.

    (** C40 in binary64: m+1 consecutive failures followed by another logged iteration require
        lambda_failure_init * 8^m <= max_lambda (8 instead of 10 absorbs the rounding of the products); so the
        number of consecutive failures the solver tolerates is bounded. *)
    Theorem C40_binary64_consecutive_failures_bounded : forall vars cs r, solve vars cs = Ok r ->
      is_finite (n_min_lambda pa) = true -> is_finite (n_max_lambda pa) = true ->
      let log := out_iterations (res_out r) in
      forall k m, (Datatypes.S (k + m) < length log)%nat ->
      (forall j info, (k <= j <= k + m)%nat -> nth_error log j = Some info ->
         it_step_result info = SS_MAX_ITERATIONS \/ it_step_result info = POSITIVE_DERIVATIVE) ->
      (forall info, nth_error log (Datatypes.S (k + m)) = Some info ->
         B2R (n_lambda_failure_init pa) * 8 ^ m <= B2R (it_lambda info)) /\
      B2R (n_lambda_failure_init pa) * 8 ^ m <= B2R (n_max_lambda pa).
    Proof.
      intros vars cs r H Fm FM log k m HL HF. pose proof (solve_valid_d _ _ _ H) as PV.
      pose proof (lambda_invariant_d _ _ _ H Fm FM) as INV. fold log in INV. cbv zeta in INV.
      pose proof (C34_binary64_lambda_in_range _ _ _ H Fm FM) as RG. fold log in RG.
      destruct (C34_lambda_update _ _ _ _ _ _ _ _ _ _ _ _ H) as [_ LS]. fold log in LS. cbv zeta in LS.
      destruct (dpv_lf _ PV) as (_ & NF & LF). change (ev zero) with 0 in LF.
      assert (STEP : forall j a b, (k <= j <= k + m)%nat -> nth_error log j = Some a -> nth_error log (Datatypes.S j) = Some b ->
         B2R (n_lambda_failure_init pa) <= B2R (it_lambda b) /\ (0 <= B2R (it_lambda a) -> 8 * B2R (it_lambda a) <= B2R (it_lambda b))).
      { intros j a b Hj Ha Hb. destruct (INV j a Ha) as (NA & _ & B3).
        destruct (RG a (nth_error_In _ _ Ha)) as [FA _]. destruct (RG b (nth_error_In _ _ Hb)) as [FB _].
        assert (EB : it_lambda b = raised_lambda pa (opt_before log j) (it_lambda a)).
        { rewrite (LS j a b Ha Hb). unfold next_lambda. destruct (HF j a Hj Ha) as [-> | ->]; reflexivity. }
        assert (K : ev (n_lambda_failure_init pa) <= ev (it_lambda b) /\ (0 <= B2R (it_lambda a) -> clampR (8 * B2R (it_lambda a)) <= ev (it_lambda b))).
        { rewrite EB. unfold raised_lambda. cbn [fmul O D_ops]. destruct (opt_before log j) eqn:EO.
          - destruct (fmax_d red (n_lambda_failure_init pa) (dmult (it_lambda a) (flit lit_10)) NF) as (_ & M2 & M3 & _). fold O in M2, M3.
            split; [exact M2|]. intro P. destruct (times_ten _ FA P) as [N10 T10]. specialize (M3 N10). eapply Rle_trans; [exact T10|exact M3].
          - specialize (B3 eq_refl).
            assert (PA : 0 <= B2R (it_lambda a)) by (rewrite (ev_finite _ FA) in B3; lra).
            destruct (times_ten _ FA PA) as [N10 T10]. split; [|intros _; exact T10].
            eapply Rle_trans; [exact B3|]. eapply Rle_trans; [|exact T10]. rewrite (ev_finite _ FA).
            rewrite <- (clampR_id (B2R (it_lambda a))) at 1 by (apply Rlt_le, B2R_lt_big). apply clampR_mono. lra. }
        destruct K as [K1 K2]. rewrite (ev_finite _ FB) in K1, K2. pose proof (B2R_lt_big (it_lambda b)) as Q. apply Rabs_def2 in Q.
        split.
        - destruct (n_lambda_failure_init pa) as [?|[|]| |? ? ? ?]; try discriminate; cbn [ev B2R] in *; lra.
        - intro P. specialize (K2 P). unfold clampR in K2. revert K2.
          unfold Rmin, Rmax. repeat destruct Rle_dec; intros; lra. }
      assert (AT : forall j, (j < length log)%nat -> exists a, nth_error log j = Some a).
      { intros j Hj. destruct (nth_error log j) as [a|] eqn:E; [eauto|]. apply nth_error_None in E. lia. }
      assert (PF : 0 <= B2R (n_lambda_failure_init pa)).
      { destruct (n_lambda_failure_init pa) as [?|[|]| |? ? ? ?]; try discriminate; cbn [ev B2R] in *; lra. }
      assert (G : forall m', (m' <= m)%nat -> forall info, nth_error log (Datatypes.S (k + m')) = Some info ->
         B2R (n_lambda_failure_init pa) * 8 ^ m' <= B2R (it_lambda info)).
      { induction m' as [|m' IH]; intros Hm info Hi.
        - rewrite Nat.add_0_r in Hi. destruct (AT k ltac:(lia)) as [a Ha]. destruct (STEP k a info ltac:(lia) Ha Hi) as [X _]. simpl. lra.
        - destruct (AT (Datatypes.S (k + m')) ltac:(lia)) as [a Ha]. specialize (IH ltac:(lia) a Ha).
          replace (k + Datatypes.S m')%nat with (Datatypes.S (k + m')) in Hi by lia.
          destruct (STEP (Datatypes.S (k + m')) a info ltac:(lia) Ha Hi) as [_ X].
          assert (0 <= B2R (n_lambda_failure_init pa) * 8 ^ m') by (apply Rmult_le_pos; [exact PF|apply pow_le; lra]).
          specialize (X ltac:(lra)). simpl. lra. }
      split; [exact (G m (le_n m))|]. destruct (AT (Datatypes.S (k + m)) ltac:(lia)) as [a Ha].
      specialize (G m (le_n m) a Ha). destruct (RG a (nth_error_In _ _ Ha)) as (_ & _ & U). lra.
    Qed.
    (** C40 finding in binary64: with lambda_failure_init = 0 (of either sign), once lambda is a zero it stays a zero
        through any number of failures, and the solve never ends with MAX_LAMBDA. *)
    Theorem C40_binary64_zero_never_ramps_refuted : forall vars cs r, solve vars cs = Ok r ->
      let log := out_iterations (res_out r) in
      n_lambda_failure_init pa = B754_zero false \/ n_lambda_failure_init pa = B754_zero true -> dle (n_min_lambda pa) zero ->
      forall k a s, nth_error log k = Some a -> it_lambda a = B754_zero s ->
      (forall j b, (k <= j)%nat -> nth_error log j = Some b -> exists s', it_lambda b = B754_zero s') /\
      out_termination_state (res_out r) <> MAX_LAMBDA.
    Proof.
      intros vars cs r H log HF HMN k a s Ha HZ. pose proof (solve_valid_d _ _ _ H) as PV.
      destruct (C34_lambda_update _ _ _ _ _ _ _ _ _ _ _ _ H) as [_ LS]. fold log in LS. cbv zeta in LS.
      assert (RZ : forall o s, exists s', raised_lambda pa o (B754_zero s) = B754_zero s').
      { assert (Z10 : forall s, exists s', dmult (B754_zero s) (flit lit_10) = B754_zero s').
        { intros []; [exists true|exists false]; vm_compute; reflexivity. }
        intros [|] s0; unfold raised_lambda; cbn [fmul O D_ops]; destruct (Z10 s0) as [s1 E1]; [|eauto].
        rewrite E1. destruct HF as [-> | ->]; eexists; reflexivity. }
      assert (ZD : forall (d : double) s, dle zero d /\ dlt d one -> exists s', fmax (fmul (B754_zero s) d) (n_min_lambda pa) = B754_zero s').
      { intros d s0 [(_ & Nd & D0) (_ & _ & D1)]. rewrite (ev_finite _ d1_finite), d1_B2R in D1. change (ev zero) with 0 in D0. pose proof big_gt_1.
        assert (E : exists s', fmul (B754_zero s0) d = B754_zero s' :> double).
        { cbn [fmul O D_ops]. destruct d as [?|[|]| |? ? ? ?]; try discriminate; try (eexists; reflexivity); cbn [ev] in *; lra. }
        destruct E as [s1 E]. exists s1. rewrite E. unfold fmax. cbn [fltb O D_ops].
        destruct (Bltb (B754_zero s1) (n_min_lambda pa)) eqn:EB; [|reflexivity].
        apply Bltb_true in EB. destruct EB as (_ & _ & EB). destruct HMN as (_ & _ & HMN). change (ev zero) with 0 in HMN. change (ev (B754_zero s1)) with 0 in EB. lra. }
      assert (G : forall j b, (k <= j)%nat -> nth_error log j = Some b -> exists s', it_lambda b = B754_zero s').
      { intros j. induction j as [|j IH]; intros b Hj Hb.
        - assert (k = 0%nat) by lia. subst k. exists s. congruence.
        - destruct (Nat.eq_dec k (Datatypes.S j)) as [->|NE]; [exists s; congruence|].
          assert (EC : exists c, nth_error log j = Some c).
          { destruct (nth_error log j) as [c|] eqn:E; [eauto|]. apply nth_error_None in E.
            assert (Datatypes.S j < length log)%nat by (apply nth_error_Some; congruence). lia. }
          destruct EC as [c Hc]. destruct (IH c ltac:(lia) Hc) as [s' IHs]. rewrite (LS j c b Hc Hb). unfold next_lambda. rewrite IHs.
          destruct (it_step_result c); eauto. apply ZD. destruct (opt_before log j); [exact (dpv_ds _ PV)|exact (dpv_dr _ PV)]. }
      split; [exact G|]. intro ET.
      destruct (C35_termination_states _ _ _ _ _ _ _ _ _ _ _ _ H) as (_ & _ & _ & T). cbv zeta in T. rewrite ET in T.
      destruct T as (init & info & EL & _ & X). fold log in EL.
      assert (Hi : nth_error log (length init) = Some info) by (rewrite EL, nth_error_app2, Nat.sub_diag by lia; reflexivity).
      assert (KL : (k < length log)%nat) by (apply nth_error_Some; congruence).
      rewrite EL, app_length in KL. simpl in KL. destruct (G (length init) info ltac:(lia) Hi) as [s1 E1]. rewrite E1 in X.
      destruct (RZ (opt_before (out_iterations (res_out r)) (length init)) s1) as [s2 E2]. rewrite E2 in X.
      unfold fgtb in X. cbn [fltb O D_ops] in X. apply Bltb_true in X. destruct X as (_ & _ & X).
      destruct (dpv_maxl _ PV) as (_ & _ & MX). change (ev zero) with 0 in MX. change (ev (B754_zero s2)) with 0 in X. lra.
    Qed.
  End Solve.
End Float.
