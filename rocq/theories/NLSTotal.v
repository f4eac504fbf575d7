(** C51: on a well posed problem the nonlinear Solve always returns, unless the factorisation of a linear
    system fails; no assertion fires and nothing undefined happens. Exact arithmetic. *)
From Coq Require Import String List Bool Arith ZArith QArith Reals Lra Lia.
From Verif Require Import Scalar Outcome LinAlg Structs Constraint QPModel NullSpace Residual Nonlinear RInst Spec
  Props_Constraint QPBlocks QPAlgebra QPNewton QPAlpha QPStep QPTrace QPInit QPSolve ResProps LinProps MeritProps LSProps
  NLSTrace NLSProps NLSReal NLSBox.
Import ListNotations.
Local Open Scope outcome_scope.
Local Open Scope string_scope.
Local Open Scope list_scope.
Local Open Scope R_scope.

(** What the user has to get right. *)
Record well_posed (pa : NLSParams R) (pr : Problem R) (vars : list R) : Prop := {
  wp_params : nls_params_valid pa;
  wp_penalty : 0 < n_equality_penalty_initial pa;
  wp_dim : (0 < pr_dimension pr)%Z;
  wp_vars : length vars = Z.to_nat (pr_dimension pr);
  wp_index : forall r, In r (pr_costs pr) \/ In r (pr_eq pr) ->
    forall i, In i (res_index r) -> (0 <= i < pr_dimension pr)%Z;
  wp_cons : forall c, In c (pr_ineq pr) -> (0 <= lvar c < pr_dimension pr)%Z /\ la c <> 0 }.

(** Total number of scalar equality constraints. *)
Definition eq_rows (pr : Problem R) : nat := list_sum (map res_dim (pr_eq pr)).

Lemma total_eq_rows : forall pr : Problem R, total_eq_size pr = eq_rows pr.
Proof. intro pr. unfold total_eq_size, eq_rows. rewrite fold_total_eq. lia. Qed.

(** ** Linearisation *)
Lemma costs_total : forall (vars : list R) n l G c f,
  length vars = n -> wf_mat G -> mrows G = n -> mcols G = n -> length c = n ->
  (forall r, In r l -> idx_ok r n) ->
  exists G' c' f', ofold (fun (acc : mat R * list R * R) (r : residual R) =>
        let '(G, c, f) := acc in
        do '(G', c', e) <- UpdateHessian r vars G c ;
        Ok (G', c', fadd f e)) l (G, c, f) = Ok (G', c', f') /\ mrows G' = n /\ mcols G' = n /\ length c' = n.
Proof.
  intros vars n l. induction l as [|r l IH]; intros G c f HV WG HR HC HL HI; cbn [ofold].
  - eauto 8.
  - destruct (C23_UpdateHessian r vars G c ltac:(congruence) ltac:(congruence) ltac:(congruence)) as [A _].
    destruct A as (H' & b' & e & A); [rewrite HV; apply HI; left; reflexivity|]. rewrite A. cbn [bind].
    destruct (UpdateHessian_raw r vars G c H' b' e WG A) as (B1 & B2 & B3 & B4 & _).
    apply IH; try congruence. intros r0 Hr0. apply HI. right. exact Hr0.
Qed.

Lemma UpdateJacobian_shape : forall (r : residual R) params cols J e, UpdateJacobian r params cols = Ok (J, e) ->
  length (mdata J) = res_dim r /\ length e = res_dim r.
Proof.
  intros r params cols J e H. unfold UpdateJacobian in H. inv_bind H. inv_bind H. apply Ok_inj in H. apply pair_inj in H.
  destruct H as [<- <-]. split; [|unfold res_errJ, fixv; apply mkvec_length].
  apply (ofold_invariant _ _ _ (fun _ (J : mat R) => length (mdata J) = res_dim r)) with (1 := Hm0).
  - unfold mzero; cbn [mdata]. apply repeat_length.
  - intros done x J0 J1 _ _ HJ. inv_bind HJ. apply Ok_inj in HJ. subst J1. unfold mkmat; cbn [mdata].
    apply mkvec_length.
Qed.

Lemma eq_total : forall (vars : list R) n total l rows b e,
  length vars = n -> (forall r, In r l -> idx_ok r n) ->
  length rows = length b -> (length rows + list_sum (map res_dim l) = total)%nat ->
  exists rows' b' e', ofold (fun (acc : list (list R) * list R * R) (r : residual R) =>
      let '(rows, b, e) := acc in
      f_assert (List.length rows + res_dim r <=? total)%nat "row + dim <= A_eq.rows()" ;;
      do '(J, br) <- UpdateJacobian r vars n ;
      Ok (rows ++ mdata J, b ++ br, fadd e (fl1 br))) l (rows, b, e) = Ok (rows', b', e') /\
    length rows' = total /\ length b' = total.
Proof.
  intros vars n total l. induction l as [|r l IH]; intros rows b e HV HI HL HS; cbn [ofold].
  - simpl in HS. exists rows, b, e. split; [reflexivity|]. lia.
  - simpl in HS. replace (length rows + res_dim r <=? total)%nat with true by (symmetry; apply Nat.leb_le; lia).
    cbn [f_assert bind].
    destruct (C23_UpdateJacobian r vars n (eq_sym HV)) as [A _].
    destruct A as (J & A); [rewrite HV; apply HI; left; reflexivity|]. rewrite A. cbn [bind].
    destruct (UpdateJacobian_shape _ _ _ _ _ A) as [B1 B2].
    apply IH; auto.
    + intros r0 Hr0. apply HI. right. exact Hr0.
    + rewrite !app_length. lia.
    + rewrite app_length. lia.
Qed.

Lemma shift_total : forall (vars : list R) l acc,
  (forall c, In c l -> (0 <= lvar c < Z.of_nat (length vars))%Z) ->
  ofold (fun acc c => bind (ShiftToVec c vars) (fun c' => Ok (acc ++ [c']))) l acc =
  Ok (acc ++ map (fun c => ShiftTo c (vget vars (Z.to_nat (lvar c)))) l).
Proof.
  intros vars l. induction l as [|c l IH]; intros acc H; cbn [ofold map]; [rewrite app_nil_r; reflexivity|].
  unfold ShiftToVec at 1. destruct (H c (or_introl eq_refl)) as [A B].
  replace (lvar c <? Z.of_nat (length vars))%Z with true by (symmetry; apply Z.ltb_lt; lia).
  replace (0 <=? lvar c)%Z with true by (symmetry; apply Z.leb_le; lia). cbn [f_assert ub_unless bind].
  rewrite IH by (intros; apply H; right; assumption). rewrite <- app_assoc. reflexivity.
Qed.

Lemma linearise_total : forall (pr : Problem R) vars lambda,
  length vars = pdim pr ->
  (forall r, In r (pr_costs pr) \/ In r (pr_eq pr) -> forall i, In i (res_index r) -> (0 <= i < pr_dimension pr)%Z) ->
  (forall c, In c (pr_ineq pr) -> (0 <= lvar c < pr_dimension pr)%Z) ->
  (0 < pr_dimension pr)%Z ->
  exists errs qp, LinearizeAndFillQP vars lambda pr = Ok (errs, qp) /\
    mrows (qG qp) = pdim pr /\ mcols (qG qp) = pdim pr /\ length (qc qp) = pdim pr /\
    mrows (qA qp) = eq_rows pr /\ mcols (qA qp) = pdim pr /\ length (qb qp) = eq_rows pr /\
    qcons qp = map (fun c => ShiftTo c (vget vars (Z.to_nat (lvar c)))) (pr_ineq pr).
Proof.
  intros pr vars lambda HV HI HC HD.
  assert (PD : Z.of_nat (pdim pr) = pr_dimension pr) by (unfold pdim; lia).
  assert (IX : forall r, In r (pr_costs pr) \/ In r (pr_eq pr) -> idx_ok r (pdim pr)).
  { intros r Hr i Hi. rewrite PD. apply (HI r Hr i Hi). }
  unfold LinearizeAndFillQP, linearize_costs, linearize_eq.
  destruct (costs_total vars (pdim pr) (pr_costs pr) (mzero (pdim pr) (pdim pr)) (vzero (pdim pr)) f0 HV
              ltac:(apply mzero_wf) ltac:(reflexivity) ltac:(reflexivity) ltac:(unfold vzero; apply repeat_length)
              (fun r Hr => IX r (or_introl Hr))) as (G & c & f & A & GR & GC & CL).
  rewrite A. cbn [bind].
  destruct (eq_total vars (pdim pr) (total_eq_size pr) (pr_eq pr) [] [] f0 HV (fun r Hr => IX r (or_intror Hr)) eq_refl)
    as (rows & b & e & B & BR & BL).
  { rewrite total_eq_rows. reflexivity. }
  rewrite B. cbn [bind].
  rewrite shift_total by (intros c0 Hc0; rewrite HV, PD; apply HC; exact Hc0). cbn [bind app].
  eexists; eexists. split; [reflexivity|]. cbn [qG qc qA qb qcons mrows mcols].
  rewrite <- total_eq_rows. splits; auto.
  - destruct (fgtb lambda f0); [apply mkmat_rows|exact GR].
  - destruct (fgtb lambda f0); [apply mkmat_cols|exact GC].
Qed.

(** ** The QP *)
Lemma Solve_ready : forall ldlt params (qp : QP R) st st' out, wf_qp qp -> ready qp st ->
  (p_initial_guess_method params = USER_PROVIDED -> interior qp st) ->
  IP_Solve ldlt params st = Ok (st', out) -> ready qp st'.
Proof.
  intros ldlt params qp st st' out W RD NU H.
  destruct (C12_Solve_run _ _ _ _ _ H) as (p' & st1 & mu & tr & Hp & _ & HC & HS & HR & _ & HL & LM & _).
  assert (p' = qp) by (pose proof (rd_p _ _ RD); congruence). subst p'.
  destruct (start_ok _ _ _ _ _ _ W RD NU HS) as [E1 I1].
  pose proof (run_invariant _ _ _ _ _ _ W (evaluated_ready _ _ E1) I1 HR) as INV. rewrite HL.
  destruct (map snd tr) as [|a l] eqn:E; [apply evaluated_ready; exact E1|].
  assert (IL : In (last (a :: l) st1) (map snd tr)).
  { rewrite E. destruct (exists_last (l := a :: l)) as (l' & z' & EZ); [discriminate|]. rewrite EZ, last_last. apply in_or_app. right. left. reflexivity. }
  apply in_map_iff in IL. destruct IL as ([[m0 i0] s0] & E0 & IL). cbn [snd] in E0. rewrite <- E0.
  apply evaluated_ready. apply (INV _ _ _ IL).
Qed.

Lemma inner_params_valid : forall pa pr, nls_params_valid pa -> ip_params_valid (inner_qp_params pa pr).
Proof.
  intros pa pr PV. destruct (IP_CheckParams_spec (inner_qp_params pa pr)) as [_ B].
  unfold ip_params_valid, inner_qp_params. cbn [p_initial_mu p_sigma p_termination_kkt_tol p_max_iterations].
  pose proof (npv_kkt _ PV). pose proof (npv_max_qp_iterations _ PV). splits; try lia.
  all: match goal with
       | |- fltb ?a ?b = true => destruct (R_fltb a b) as [X|X]; [reflexivity|exfalso; apply X]
       | |- fleb ?a ?b = true => destruct (R_fleb a b) as [X|X]; [reflexivity|exfalso; apply X]
       end.
  - cbn [f1 f0 R_ops]; lra.
  - change (0 < 1 / 10); lra.
  - change (1 / 10 <= 1); lra.
  - cbn [f0 R_ops]; lra.
Qed.

Section Total.
  Variable ldlt : mat R -> option (mat R).
  Variable qr : mat R -> QRResult R.
  Variable llt : mat R -> option (list R -> list R).
  Variable eigs : mat R -> QPEigenvalues R.
  Variable retract : option (list R -> list R -> R -> list R).
  Context {S : Type}.
  Variable cb : option (S -> NLSIteration R -> S * bool).
  Variable pa : NLSParams R.
  Variable pr : Problem R.
  Variable g : nat -> garbage R.

  Notation solve := (NLS_Solve ldlt qr llt eigs retract cb pa pr g).

  (** A user supplied retraction keeps the number of variables. *)
  Definition retraction_ok : Prop := forall f, retract = Some f -> forall v dx a, length (f v dx a) = length v.

  (** The QR factorisation (used only if there are equality and no inequality constraints) reports full rank
      for the constraint Jacobian, at every point and damping. *)
  Definition full_rank : Prop := (0 < eq_rows pr <= pdim pr)%nat /\
    forall v lambda errs qp, LinearizeAndFillQP v lambda pr = Ok (errs, qp) -> qrRank (qr (qA qp)) = mrows (qA qp).

  (** The interior point method was used and the LDLT factorisation failed on the reduced KKT matrix (with non-negative weights) of the
      linearisation at some point, with an admissible damping. *)
  Definition factorization_failed : Prop := (pr_ineq pr <> [] \/ pr_eq pr = []) /\ exists v lambda errs qp,
    length v = pdim pr /\ n_min_lambda pa <= lambda /\ LinearizeAndFillQP v lambda pr = Ok (errs, qp) /\ bad_factorization ldlt qp.

  (** The same at a given point with a given damping. *)
  Definition factorization_failed_at (v : list R) (lambda : R) : Prop := (pr_ineq pr <> [] \/ pr_eq pr = []) /\ exists errs qp,
    LinearizeAndFillQP v lambda pr = Ok (errs, qp) /\ bad_factorization ldlt qp.

  Lemma step_total : forall gg v lambda errs qp, well_posed pa pr v -> n_min_lambda pa <= lambda ->
    (pr_ineq pr = [] -> pr_eq pr <> [] -> (0 < eq_rows pr <= pdim pr)%nat /\ qrRank (qr (qA qp)) = mrows (qA qp)) ->
    LinearizeAndFillQP v lambda pr = Ok (errs, qp) ->
    (exists o dx, ComputeStepDirection ldlt qr llt gg pa pr qp = Ok (o, dx) /\ length dx = pdim pr) \/
    ComputeStepDirection ldlt qr llt gg pa pr qp = Throw FailedFactorization /\ factorization_failed_at v lambda.
  Proof.
    intros gg v lambda errs qp WP ML FR HL.
    destruct (linearise_total pr v lambda (wp_vars _ _ _ WP) (wp_index _ _ _ WP) (fun c Hc => proj1 (wp_cons _ _ _ WP c Hc)) (wp_dim _ _ _ WP))
      as (errs' & qp' & HL' & GR & GC & CL & AR & AC & BL & QC).
    rewrite HL in HL'. apply Ok_inj in HL'. apply pair_inj in HL'. destruct HL' as [<- <-].
    unfold ComputeStepDirection. destruct (use_null_space pr) eqn:EU.
    - left. unfold use_null_space in EU. destruct (pr_ineq pr) as [|c0 cs0] eqn:EI; [|discriminate].
      destruct (FR eq_refl ltac:(intro E; rewrite E in EU; discriminate)) as [SZ RK].
      unfold NS_Solve. rewrite RK, AR, BL, GR, GC, CL, AC.
      replace (0 <? eq_rows pr)%nat with true by (symmetry; apply Nat.ltb_lt; lia).
      rewrite !Nat.eqb_refl. replace (eq_rows pr <=? pdim pr)%nat with true by (symmetry; apply Nat.leb_le; lia).
      cbn [f_assert ub_unless bind andb]. destruct (llt _) as [sl|]; cbn [bind].
      + eexists; eexists. split; [reflexivity|]. apply mkvec_length.
      + eexists; eexists. split; [reflexivity|]. unfold vzero. apply repeat_length.
    - pose proof (wp_dim _ _ _ WP) as WD.
      assert (PD : Z.of_nat (pdim pr) = pr_dimension pr) by (unfold pdim; lia).
      assert (CI : forall c, In c (qcons qp) -> (0 <= lvar c < pr_dimension pr)%Z /\ la c <> 0).
      { intros c Hc. rewrite QC in Hc. apply in_map_iff in Hc. destruct Hc as (c1 & <- & Hc1).
        apply (wp_cons _ _ _ WP c1 Hc1). }
      destruct (C04_Setup_accepts_iff_consistent gg (Some qp)) as (_ & SA & _).
      destruct (SA qp eq_refl) as [st HS].
      { unfold setup_consistent. split; [congruence|]. split; [congruence|]. split; [congruence|]. split.
        { intros _. rewrite AC, GR. unfold pdim. split; [reflexivity|lia]. }
        intros c Hc. rewrite GR, PD. apply CI. exact Hc. }
      rewrite HS. cbn [bind].
      destruct (Setup_ready _ _ _ HS (fun c Hc => proj1 (proj1 (CI c Hc)))) as [W RD].
      pose proof (inner_params_valid pa pr (wp_params _ _ _ WP)) as IV.
      assert (NU : p_initial_guess_method (inner_qp_params pa pr) <> USER_PROVIDED)
        by (unfold inner_qp_params; cbn [p_initial_guess_method]; destruct (pr_eq pr); discriminate).
      destruct (C06_only_factorization_fails ldlt (inner_qp_params pa pr) qp st W RD IV (or_introl (conj NU (fun c Hc => proj2 (CI c Hc)))))
        as [(st' & out & HI)|[HI BF]]; rewrite HI; cbn [bind].
      + left. eexists; eexists. split; [reflexivity|].
        pose proof (Solve_ready _ _ _ _ _ _ W RD (fun E => match NU E with end) HI) as RD'.
        unfold x_block. rewrite xblk_length by apply RD'. rewrite (dN_nv qp st' RD'). exact CL.
      + right. split; [reflexivity|]. split.
        { unfold use_null_space in EU. destruct (pr_ineq pr); [|left; discriminate]. destruct (pr_eq pr); [right; reflexivity|discriminate]. }
        exists errs, qp. auto.
  Qed.

  Lemma eval_total : forall v, well_posed pa pr v -> exists e, EvaluateNonlinearErrors pr v = Ok e.
  Proof.
    intros v WP. eexists. apply eval_errors_R. intros r Hr i Hi. pose proof (wp_index _ _ _ WP r Hr i Hi).
    pose proof (wp_vars _ _ _ WP). pose proof (wp_dim _ _ _ WP). lia.
  Qed.

  Lemma well_posed_vars : forall v v', well_posed pa pr v -> length v' = length v -> well_posed pa pr v'.
  Proof. intros v v' [] H. constructor; try assumption. congruence. Qed.

  Definition dstep : LineSearchStep R := MkStep f0 (MkErrors f0 f0).

  Lemma ls_total : forall vars dx abs_tol ep dd penalty c1 strategy tau,
    well_posed pa pr vars -> length dx = pdim pr -> retraction_ok -> 0 < tau < 1 ->
    forall n iter alpha steps cand, length steps = iter -> 0 < alpha -> length cand = length vars ->
    ((1 <= iter)%nat -> step_alpha (nth (iter - 1) steps dstep) = alpha) ->
    ((2 <= iter)%nat -> step_alpha (nth (iter - 2) steps dstep) > alpha) ->
    exists r, ls_loop retract n iter alpha steps cand pr vars dx abs_tol ep dd penalty c1 strategy tau = Ok r /\
      length (snd r) = length vars /\ (fst (fst r) = SS_SUCCESS -> (0 < length (snd (fst r)))%nat).
  Proof.
    intros vars dx abs_tol ep dd penalty c1 strategy tau WP LD RO HT.
    induction n as [|n IH]; intros iter alpha steps cand HS HA HCd H1 H2; cbn [ls_loop].
    - eexists; split; [reflexivity|]. cbn [fst snd]. split; [exact HCd|discriminate].
    - assert (NA : exists oa, next_alpha strategy tau iter alpha steps ep dd penalty = Ok oa /\
                     forall a, oa = Some a -> 0 < a /\ ((1 <= iter)%nat -> a < alpha)).
      { unfold next_alpha. destruct (Nat.eqb_spec iter 0) as [E0|E0].
        - eexists. split; [reflexivity|]. intros a Ha. injection Ha as <-. split; [exact HA|lia].
        - destruct strategy.
          + eexists. split; [reflexivity|]. intros a Ha. injection Ha as <-. cbn [fmul R_ops]. nra.
          + assert (NP : exists na, ComputeAlphaPolynomialApproximation iter steps ep dd penalty = Ok na).
            { unfold ComputeAlphaPolynomialApproximation. destruct iter as [|[|k]]; [lia| |].
              - cbn [Nat.leb f_assert bind Nat.eqb]. rewrite HS. cbn [Nat.eqb f_assert bind]. eauto.
              - cbn [Nat.leb f_assert bind Nat.eqb]. rewrite HS.
                cbn [Nat.leb f_assert bind Nat.eqb]. unfold CubicApproxCoeffs.
                specialize (H1 ltac:(lia)). specialize (H2 ltac:(lia)). fold dstep.
                change (Datatypes.S (Datatypes.S k)) with (2 + k)%nat in *. rewrite H1.
                destruct (R_fgtb alpha f0) as [X|X]; [|exfalso; apply X; cbn [f0 R_ops]; lra]. cbn [f_assert bind].
                match goal with |- context [fgtb ?a ?b] => destruct (R_fgtb a b) as [Y|Y]; [|exfalso; apply Y; exact H2] end.
                cbn [f_assert bind]. eauto. }
            destruct NP as [na ->]. cbn [bind]. destruct na as [a|]; [|eexists; split; [reflexivity|discriminate]].
            cbn [ffinite R_ops negb orb]. destruct (R_fleb a f0) as [X|X]; cbn [orb]; [eexists; split; [reflexivity|discriminate]|].
            destruct (R_fgeb a alpha) as [Y|Y]; [eexists; split; [reflexivity|discriminate]|].
            eexists. split; [reflexivity|]. intros a0 Ha. injection Ha as <-. cbn [f0 R_ops] in X. lra. }
      destruct NA as (oa & -> & HOA). cbn [bind]. destruct oa as [a|].
      2: { eexists; split; [reflexivity|]. cbn [fst snd]. split; [exact HCd|discriminate]. }
      destruct (HOA a eq_refl) as [AP AL].
      assert (RT : exists cand', RetractCandidateVars retract vars dx a = Ok cand' /\ length cand' = length vars).
      { unfold RetractCandidateVars. destruct retract as [f|] eqn:ER.
        - eexists. split; [reflexivity|]. apply (RO f ER).
        - rewrite LD, (wp_vars _ _ _ WP). unfold pdim. rewrite Nat.eqb_refl. cbn [ub_unless bind].
          eexists. split; [reflexivity|]. unfold vadd, vscale. rewrite map_length, combine_length, map_length.
          rewrite LD, (wp_vars _ _ _ WP). unfold pdim. apply Nat.min_id. }
      destruct RT as (cand' & -> & LC). cbn [bind].
      destruct (eval_total cand' (well_posed_vars _ _ WP LC)) as [es ->]. cbn [bind].
      assert (LP : forall sr, exists r, (Ok (sr, steps ++ [MkStep a es], cand') : outcome _) = Ok r /\
        length (snd r) = length vars /\ (fst (fst r) = SS_SUCCESS -> (0 < length (snd (fst r)))%nat)).
      { intro sr. eexists. split; [reflexivity|]. cbn [fst snd]. split; [exact LC|]. intros _. rewrite app_length. simpl. lia. }
      destruct (Errors_ContainsInvalidValues es); [apply LP|].
      destruct (fltb (DD_LInfinity dd) abs_tol); [apply LP|].
      destruct (fgtb (DD_Total dd penalty) f0); [apply LP|].
      match goal with |- context [if ?b then _ else _] => destruct b end; [apply LP|].
      apply IH; auto.
      + rewrite app_length, HS. simpl. lia.
      + intros _. replace (Datatypes.S iter - 1)%nat with (length steps) by lia. rewrite app_nth2, Nat.sub_diag by lia. reflexivity.
      + intro H. replace (Datatypes.S iter - 2)%nat with (iter - 1)%nat by lia. rewrite app_nth1 by lia. rewrite H1 by lia.
        apply AL. lia.
  Qed.

  Lemma update_penalty_pos : forall qp dx o p, nls_params_valid pa -> 0 < p -> 0 < update_penalty pa pr qp dx o p.
  Proof.
    intros qp dx o p PV HP. unfold update_penalty. destruct (pr_eq pr); [exact HP|].
    match goal with |- context [fgtb ?a ?b] => destruct (R_fgtb a b) as [X|X]; [|exact HP] end.
    pose proof (npv_ps _ PV). cbn [fmul R_ops].
    set (np := SelectPenalty _ _ _ _) in *. clearbody np. nra.
  Qed.

  Lemma finite_errors : forall e : Errors R, Errors_ContainsInvalidValues e = false.
  Proof. intros [a b]. reflexivity. Qed.

  Definition lambda_ok (st : nls_state R) : Prop :=
    n_min_lambda pa <= ns_lambda st /\ (ns_opt st = ATTEMPTING_RESTORE_LM -> 0 <= ns_lambda st).

  Lemma iterate_total : forall gg k st, well_posed pa pr (ns_vars st) -> 0 < ns_penalty st -> lambda_ok st -> retraction_ok ->
    (pr_ineq pr = [] -> pr_eq pr <> [] -> (0 < eq_rows pr <= pdim pr)%nat /\
       forall errs qp, LinearizeAndFillQP (ns_vars st) (ns_lambda st) pr = Ok (errs, qp) -> qrRank (qr (qA qp)) = mrows (qA qp)) ->
    (exists r, nls_iterate ldlt qr llt eigs retract pa pr gg k st = Ok r /\
       forall st' info ex, r = IterDone st' info ex -> length (ns_vars st') = length (ns_vars st) /\ 0 < ns_penalty st' /\ lambda_ok st') \/
    nls_iterate ldlt qr llt eigs retract pa pr gg k st = Throw FailedFactorization /\ factorization_failed_at (ns_vars st) (ns_lambda st).
  Proof.
    intros gg k st WP PP LO RO FR. unfold nls_iterate.
    destruct (linearise_total pr (ns_vars st) (ns_lambda st) (wp_vars _ _ _ WP) (wp_index _ _ _ WP) (fun c Hc => proj1 (wp_cons _ _ _ WP c Hc)) (wp_dim _ _ _ WP))
      as (errs & qp & HL & GR & GC & CL & AR & AC & BL & QC).
    rewrite HL. cbn [bind].
    destruct (step_total gg _ _ _ _ WP (proj1 LO) (fun A B => conj (proj1 (FR A B)) (proj2 (FR A B) _ _ HL)) HL) as [(o & dx & HD & LD)|[HD BF]]; rewrite HD; cbn [bind]; [left|right; auto].
    destruct (QPWasIndefinite o) eqn:EQ; [eexists; split; [reflexivity|discriminate]|].
    unfold ComputeQPCostDerivative. rewrite CL, AC, LD, Nat.eqb_refl. cbn [f_assert bind].
    set (dd := MkDD _ _). clearbody dd.
    pose proof (update_penalty_pos qp dx o _ (wp_params _ _ _ WP) PP) as PP'.
    set (pen := update_penalty pa pr qp dx o (ns_penalty st)) in *. clearbody pen.
    unfold SelectStepSize.
    destruct (R_fgtb pen f0) as [X|X]; [|exfalso; apply X; cbn [f0 R_ops]; lra]. rewrite finite_errors. cbn [f_assert negb bind].
    assert (HF : 0 < (f1 : R)) by (cbn [f1 R_ops]; lra).
    destruct (ls_total (ns_vars st) dx (n_absolute_first_derivative_tol pa) errs dd pen (flit lit_1em4) (n_line_search_strategy pa)
                (n_armijo_search_tau pa) WP LD RO (npv_tau _ (wp_params _ _ _ WP)) (Z.to_nat (n_max_line_search_iterations pa + 1))
                0%nat f1 [] (ns_vars st) eq_refl HF eq_refl (fun H => match Nat.nle_succ_0 _ H with end) (fun H => match Nat.nle_succ_0 _ H with end)) as ([[sr steps] cand] & HS & LC & LS).
    rewrite HS. cbn [bind]. cbn [fst snd] in LC, LS.
    assert (LMX : forall x, n_min_lambda pa <= fmax x (n_min_lambda pa)) by (intro x; rewrite R_fmax; apply Rmax_r).
    assert (LR : let l' := match ns_opt st with NOMINAL => fmax (n_lambda_failure_init pa) (fmul (ns_lambda st) (flit lit_10))
                           | ATTEMPTING_RESTORE_LM => fmul (ns_lambda st) (flit lit_10) end in n_min_lambda pa <= l' /\ 0 <= l').
    { cbv zeta. destruct LO as [L1 L2]. pose proof (npv_lf _ (wp_params _ _ _ WP)). destruct (ns_opt st).
      - rewrite R_fmax, R_10. cbn [fmul R_ops]. unfold Rmax. destruct (Rle_dec _ _); lra.
      - specialize (L2 eq_refl). rewrite R_10. cbn [fmul R_ops]. lra. }
    cbv zeta in LR.
    unfold UpdateLambdaAndCheckExitConditions. destruct sr.
    1: { replace (0 <? length steps)%nat with true by (symmetry; apply Nat.ltb_lt; auto). cbn [f_assert bind].
         match goal with |- context [if ?b then _ else _] => destruct b end; cbn [bind].
         - (eexists; split; [reflexivity|]; intros st' info ex E; injection E as <- <- <-; cbn [ns_vars ns_penalty]; unfold lambda_ok; cbn [ns_lambda ns_opt]; splits; auto; try tauto; try discriminate; try (destruct (ns_opt st); apply LMX)).
         - match goal with |- context [if ?b then _ else _] => destruct b end; cbn [bind];
           (eexists; split; [reflexivity|]; intros st' info ex E; injection E as <- <- <-; cbn [ns_vars ns_penalty]; unfold lambda_ok; cbn [ns_lambda ns_opt]; splits; auto; try tauto; try discriminate; try (destruct (ns_opt st); apply LMX)). }
    all: try (match goal with |- context [if fgtb ?a (n_max_lambda pa) then _ else _] => destruct (fgtb a (n_max_lambda pa)) end); cbn [bind];
      (eexists; split; [reflexivity|]; intros st' info ex E; injection E as <- <- <-; cbn [ns_vars ns_penalty]; unfold lambda_ok; cbn [ns_lambda ns_opt]; splits; auto; try apply LO; try tauto; try discriminate; try (destruct (ns_opt st); apply LMX)).
  Qed.

  Lemma loop_total : forall n iter log st cs, well_posed pa pr (ns_vars st) -> 0 < ns_penalty st -> lambda_ok st -> retraction_ok ->
    (pr_ineq pr = [] -> pr_eq pr <> [] -> full_rank) ->
    (exists r, nls_loop ldlt qr llt eigs retract cb n pa pr g iter log st cs = Ok r) \/
    nls_loop ldlt qr llt eigs retract cb n pa pr g iter log st cs = Throw FailedFactorization /\ factorization_failed.
  Proof.
    induction n as [|n IH]; intros iter log st cs WP PP LO RO FR; cbn [nls_loop]; [left; eauto|].
    destruct (iterate_total (g iter) (Z.of_nat iter) st WP PP LO RO (fun A B => conj (proj1 (FR A B)) (proj2 (FR A B) _ _))) as [(r & HI & HR)|[HI BF]]; rewrite HI; cbn [bind].
    2: { right. split; [reflexivity|]. destruct BF as [BF1 (e & q & BF2 & BF3)]. split; [exact BF1|]. exists (ns_vars st), (ns_lambda st), e, q.
         splits; auto; [apply (wp_vars _ _ _ WP)|apply (proj1 LO)]. }
    destruct r as [|st' info ex]; [left; eauto|]. destruct (HR _ _ _ eq_refl) as (LV & PV & LV2).
    destruct (call_cb cb cs info) as [cs' pc]. destruct ex as [t|]; [left; eauto|]. destruct pc; [|left; eauto].
    apply IH; auto. apply (well_posed_vars _ _ WP LV).
  Qed.

  (** C51. *)
  Theorem C51_solve_returns : forall vars cs, well_posed pa pr vars -> retraction_ok ->
    (pr_ineq pr = [] -> pr_eq pr <> [] -> full_rank) ->
    (exists r, solve vars cs = Ok r) \/ solve vars cs = Throw FailedFactorization /\ factorization_failed.
  Proof.
    intros vars cs WP RO FR. unfold NLS_Solve.
    destruct (C49_params_checked pa) as [[E _]|[_ N]]; [|destruct (N (wp_params _ _ _ WP))]. rewrite E. cbn [bind].
    apply loop_total; cbn [ns_vars ns_penalty]; auto; [apply (wp_penalty _ _ _ WP)|].
    split; cbn [ns_lambda ns_opt]; [apply (npv_li _ (wp_params _ _ _ WP))|discriminate].
  Qed.
End Total.
