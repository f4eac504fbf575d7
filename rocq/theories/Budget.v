(** C67: how much work a Solve does at most, and what the default parameters are. *)
From Coq Require Import String List Bool ZArith Arith QArith Reals Lia Lra.
From Flocq Require Import Core BinarySingleNaN.
From Verif Require Import Scalar Outcome LinAlg Structs Constraint QPModel NullSpace Residual Nonlinear NLSObject
  RInst FloatInst FloatProps QPTrace LSProps NLSTrace NLSLog NLSProps NLSReal NLSObjectProps NLSHistory ReportProps Report.
Import ListNotations.
Local Open Scope string_scope.
Local Open Scope list_scope.
Local Open Scope nat_scope.

Lemma fold_bound : forall (A : Type) (f : A -> nat) (m : nat) (l : list A) n,
  (forall a, In a l -> f a <= m) -> fold_left (fun t a => t + f a) l n <= n + length l * m.
Proof.
  induction l as [|a l IH]; intros n H; cbn [fold_left length]; [lia|].
  specialize (IH (n + f a) (fun b Hb => H b (or_intror Hb))). pose proof (H a (or_introl eq_refl)). nia.
Qed.
Lemma list_sum_bound : forall (A : Type) (f : A -> nat) (m : nat) (l : list A),
  (forall a, In a l -> f a <= m) -> list_sum (map f l) <= length l * m.
Proof.
  induction l as [|a l IH]; intros H; cbn [map list_sum fold_right length]; [lia|].
  change (fold_right Nat.add 0) with list_sum. specialize (IH (fun b Hb => H b (or_intror Hb))).
  pose proof (H a (or_introl eq_refl)). nia.
Qed.

Section Work.
  Context {F : Type} {O : Ops F} {S : Type}.
  Variable ldlt : mat F -> option (mat F).
  Variable qr : mat F -> QRResult F.
  Variable llt : mat F -> option (list F -> list F).
  Variable eigs : mat F -> QPEigenvalues F.
  Variable retract : option (list F -> list F -> F -> list F).
  Variable pr : Problem F.

  Lemma params_qp : forall pa : NLSParams F, NLS_CheckParams pa = Ok tt -> (1 <= n_max_qp_iterations pa)%Z.
  Proof.
    intros pa H. unfold NLS_CheckParams in H. apply bind_ok_inv in H; destruct H as (? & _ & H).
    apply bind_ok_inv in H; destruct H as (? & E & H). apply f_assert_ok_inv in E. apply Z.leb_le in E. exact E.
  Qed.

  Lemma log_bounds : forall (cb : option (S -> NLSIteration F -> S * bool)) pa g vars cs r,
    NLS_Solve ldlt qr llt eigs retract cb pa pr g vars cs = Ok r ->
    let log := out_iterations (res_out r) in
    length log + match out_termination_state (res_out r) with QP_INDEFINITE => 1 | _ => 0 end <= Z.to_nat (n_max_iterations pa) /\
    (forall info, In info log -> 1 <= length (it_line_search_steps info) <= Z.to_nat (n_max_line_search_iterations pa) + 1) /\
    (forall info, In info log ->
       match it_qp_outputs info with
       | InteriorPointOut ip => 1 <= length (qp_iterations ip) <= Z.to_nat (n_max_qp_iterations pa)
       | NullSpaceOut _ => 1 <= Z.to_nat (n_max_qp_iterations pa) end).
  Proof.
    intros cb pa g vars cs r H log.
    pose proof (solve_params _ _ _ _ _ _ _ _ _ _ _ _ H) as CP.
    destruct (params_ls pa CP) as [H0 H1].
    destruct (C36_log_complete_and_ordered _ _ _ _ _ _ _ _ _ _ _ _ H) as (_ & L1 & _ & L3 & _). fold log in L1, L3.
    split; [|split].
    - destruct (out_termination_state (res_out r)); try lia. specialize (L3 eq_refl). lia.
    - intros info HI. apply In_nth_error in HI. destruct HI as [k HK].
      destruct (solve_history _ _ _ _ _ _ _ _ _ _ _ _ H) as (sts & css & exs & _ & _ & _ & _ & _ & HH & _).
      destruct (HH k info HK) as (HI & _). apply iterate_spec in HI.
      destruct HI as [_ (qp & dx & cand & _ & _ & _ & _ & _ & HS & _)].
      destruct (C28_line_search_log retract (ls_of pa pr (sts k) info dx) H1 _ _ _ HS) as (_ & _ & A & B & _).
      cbn [li_max ls_of] in B. lia.
    - intros info HI. destruct (it_qp_outputs info) as [t|ip] eqn:EQ.
      + pose proof (params_qp pa CP). lia.
      + exact (proj1 (proj2 (C38_inner_solver_settings _ _ _ _ _ _ _ _ _ _ _ _ H info ip HI EQ))).
  Qed.

  (** C67, a Solve that returns: at most max_iterations iterations, each with one to max_line_search_iterations + 1 line search
      steps and at most max_qp_iterations interior point iterations; the counters of the outputs are bounded accordingly, and so
      is the number of user functions invoked: every residual at most max_iterations * (max_line_search_iterations + 2) times. *)
  Theorem C67_work_bounded : forall pr0 (o : nls_object F S) throws junk cb pa vars o' out,
    editable pr0 pr -> history ldlt qr llt eigs retract pr0 o ->
    Solve_o ldlt qr llt eigs retract throws junk pr cb pa vars o = (o', Ret out) ->
    let iters := Z.to_nat (n_max_iterations pa) in
    let steps := Z.to_nat (n_max_line_search_iterations pa) + 1 in
    let residuals := length (pr_costs pr) + length (pr_eq pr) in
    length (out_iterations out) <= iters /\
    (forall info, In info (out_iterations out) -> 1 <= length (it_line_search_steps info) <= steps) /\
    NumLineSearchSteps out <= iters * steps /\
    NumQPIterations out <= iters * Z.to_nat (n_max_qp_iterations pa) /\
    o_calls o' <= o_calls o + iters * (residuals * (1 + steps)
                   + match retract with Some _ => steps | None => 0 end + match cb with Some _ => 1 | None => 0 end).
  Proof.
    intros pr0 o throws junk cb pa vars o' out ED HH E iters steps residuals.
    pose proof (C62_invocations ldlt qr llt eigs retract pr0 pr ED o throws junk cb pa vars o' out HH E) as HC.
    destruct (C59_solve_ignores_history ldlt qr llt eigs retract pr0 pr ED o throws junk cb pa vars (fun _ => junk 0) o' _ HH E)
      as (res & HR & -> & _).
    destruct (log_bounds cb pa _ vars _ res HR) as (B1 & B2 & B3). fold iters in B1. fold steps in B2.
    set (log := out_iterations (res_out res)) in *.
    set (x := match out_termination_state (res_out res) with QP_INDEFINITE => 1 | _ => 0 end) in *.
    split; [lia|]. split; [exact B2|]. split; [|split].
    - unfold NumLineSearchSteps. fold log.
      pose proof (fold_bound _ (fun it : NLSIteration F => length (it_line_search_steps it)) steps log 0 (fun a Ha => proj2 (B2 a Ha))). nia.
    - unfold NumQPIterations. fold log.
      pose proof (fold_bound _ (fun it : NLSIteration F => match it_qp_outputs it with InteriorPointOut ip => length (qp_iterations ip) | NullSpaceOut _ => 1 end)
                    (Z.to_nat (n_max_qp_iterations pa)) log 0) as X.
      assert (Y : forall a, In a log -> match it_qp_outputs a with InteriorPointOut ip => length (qp_iterations ip) | NullSpaceOut _ => 1 end
                    <= Z.to_nat (n_max_qp_iterations pa)) by (intros a Ha; specialize (B3 a Ha); destruct (it_qp_outputs a); lia).
      specialize (X Y). clear Y.
      assert (Z : forall l n, fold_left (fun total (it : NLSIteration F) => match it_qp_outputs it with
                 | InteriorPointOut ip => total + length (qp_iterations ip) | NullSpaceOut _ => total + 1 end) l n =
               fold_left (fun t (it : NLSIteration F) => t + match it_qp_outputs it with InteriorPointOut ip => length (qp_iterations ip) | NullSpaceOut _ => 1 end) l n).
      { induction l as [|a l IH]; intro n; [reflexivity|]. cbn [fold_left]. rewrite <- IH. destruct (it_qp_outputs a); reflexivity. }
      rewrite Z. nia.
    - rewrite HC. unfold invocations. fold log. fold x. cbv zeta. fold residuals.
      pose proof (list_sum_bound _ (fun it : NLSIteration F => length (it_line_search_steps it)) steps log (fun a Ha => proj2 (B2 a Ha))) as SB.
      set (st := list_sum (map (fun i => length (it_line_search_steps i)) log)) in *.
      assert (LS : st <= iters * steps) by nia.
      assert (residuals * (length log + x) <= iters * residuals) by nia.
      assert (residuals * st <= iters * (residuals * steps)) by nia.
      destruct retract; destruct cb; nia.
  Qed.

  (** With the default parameters, whatever the problem. *)
  Theorem C67_default_work : forall pr0 (o : nls_object F S) throws junk cb vars o' out,
    editable pr0 pr -> history ldlt qr llt eigs retract pr0 o ->
    Solve_o ldlt qr llt eigs retract throws junk pr cb default_NLSParams vars o = (o', Ret out) ->
    length (out_iterations out) <= 10 /\ NumLineSearchSteps out <= 30 /\ NumQPIterations out <= 100 /\
    o_calls o' <= o_calls o + 40 * (length (pr_costs pr) + length (pr_eq pr))
                   + match retract with Some _ => 30 | None => 0 end + match cb with Some _ => 10 | None => 0 end /\
    forall info, In info (out_iterations out) -> it_qp_eigenvalues info = None.
  Proof.
    intros pr0 o throws junk cb vars o' out ED HH E.
    destruct (C67_work_bounded pr0 o throws junk cb default_NLSParams vars o' out ED HH E) as (A1 & A2 & A3 & A4 & A5).
    change (Z.to_nat (n_max_iterations default_NLSParams)) with 10 in *.
    change (Z.to_nat (n_max_line_search_iterations default_NLSParams) + 1) with 3 in *.
    change (Z.to_nat (n_max_qp_iterations default_NLSParams)) with 10 in *.
    split; [exact A1|]. split; [exact A3|]. split; [exact A4|]. split; [destruct retract; destruct cb; lia|].
    destruct (C59_solve_ignores_history ldlt qr llt eigs retract pr0 pr ED o throws junk cb _ vars (fun _ => junk 0) o' _ HH E)
      as (res & HR & -> & _).
    intros info HI. apply In_nth_error in HI. destruct HI as [k HK].
    destruct (solve_history _ _ _ _ _ _ _ _ _ _ _ _ HR) as (sts & css & exs & _ & _ & _ & _ & _ & HL & _).
    destruct (HL k info HK) as (HI & _). apply iterate_spec in HI.
    destruct HI as [_ (qp & dx & cand & _ & _ & _ & _ & _ & _ & _ & _ & _ & _ & HE)]. exact HE.
  Qed.

  (** C58: the report of a nonlinear solve has no probe lines, in an arithmetic where NaN is not equal to itself. *)
  Theorem C58_no_probe_lines : forall (fm : Formats F) (cb : option (S -> NLSIteration F -> S * bool)) pa g vars cs r iq,
    clean_formats fm -> feqb fnan fnan = false ->
    NLS_Solve ldlt qr llt eigs retract cb pa pr g vars cs = Ok r ->
    filter (starts_with " Probe alphas: ") (lines (NLSOutputs_ToString fm false iq (res_out r))) = [].
  Proof.
    intros fm cb pa g vars cs r iq CF NN H. rewrite (C58_probe_lines fm CF). destruct iq; [|reflexivity].
    replace (filter _ _) with (@nil (QPInteriorPointIteration F)); [reflexivity|]. symmetry.
    assert (ALL : forall q, In q (flat_map ip_iterations (out_iterations (res_out r))) -> is_number (ip_mu_affine (ip_outputs q)) = false).
    { intros q Hq. apply in_flat_map in Hq. destruct Hq as (info & HI & Hq). unfold ip_iterations in Hq.
      destruct (it_qp_outputs info) as [t|ip] eqn:EQ; [destruct Hq|].
      destruct (C38_inner_solver_settings _ _ _ _ _ _ _ _ _ _ _ _ H info ip HI EQ)
        as ((params & k & qp & st & st' & _ & HS & _ & _ & _ & _ & _ & _ & BS & _) & _).
      destruct (C46_probe_fields_are_nan ldlt params st st' ip HS) as [_ NAN]; [rewrite BS; discriminate|].
      destruct (NAN q Hq) as [_ ->]. exact NN. }
    revert ALL. generalize (flat_map ip_iterations (out_iterations (res_out r))). induction l as [|q l IH]; intro ALL; [reflexivity|].
    cbn [filter]. rewrite (ALL q (or_introl eq_refl)). apply IH. intros q' Hq'. apply ALL. right. exact Hq'.
  Qed.
End Work.

(** In binary64: a probe line is printed exactly for the iterations whose mu_affine is not NaN. *)
Theorem C58_binary64_probe : forall (e : eigen_red) (x : double), @is_number double (D_ops e) x = negb (is_nan x).
Proof.
  intros e x. unfold is_number. cbn [feqb D_ops]. destruct x as [[|]|[|]| |[|] m ex B]; try reflexivity;
    unfold Beqb, SpecFloat.SFeqb, B2SF, SpecFloat.SFcompare; rewrite Z.compare_refl, ?Pos.compare_cont_refl; reflexivity.
Qed.
Theorem C58_binary64_no_probe_lines : forall (e : eigen_red) S ldlt qr llt eigs retract (pr : Problem double) fm
  (cb : option (S -> NLSIteration double -> S * bool)) pa g vars cs r iq,
  clean_formats fm ->
  NLS_Solve (O := D_ops e) ldlt qr llt eigs retract cb pa pr g vars cs = Ok r ->
  filter (starts_with " Probe alphas: ") (lines (NLSOutputs_ToString (O := D_ops e) fm false iq (res_out r))) = [].
Proof. intros. eapply C58_no_probe_lines; eauto. Qed.

(** ** The default parameters *)
Local Open Scope R_scope.

(** C67: the values written in the headers, as real numbers. *)
Theorem C67_default_interior_point_parameters :
  let p := default_IPParams (F := R) in
  p_initial_mu p = 1 /\ p_sigma p = 1 / 2 /\ p_termination_kkt_tol p = / 10 ^ 9 /\ p_termination_complementarity_tol p = / 10 ^ 6 /\
  p_max_iterations p = 10%Z /\ p_barrier_strategy p = COMPLEMENTARITY /\ p_decrease_mu_only_on_small_error p = false /\
  p_initial_guess_method p = NAIVE /\ p_initialize_mu_with_complementarity p = false.
Proof.
  cbn [default_IPParams p_initial_mu p_sigma p_termination_kkt_tol p_termination_complementarity_tol p_max_iterations
       p_barrier_strategy p_decrease_mu_only_on_small_error p_initial_guess_method p_initialize_mu_with_complementarity
       f1 f0 flit R_ops].
  repeat split; unfold lit_half, lit_1em9, lit_1em6, Q2R; cbn [Qnum Qden]; try lra; cbn [pow]; field.
Qed.
Theorem C67_default_nonlinear_parameters :
  let p := default_NLSParams (F := R) in
  n_max_iterations p = 10%Z /\ n_max_qp_iterations p = 10%Z /\ n_termination_kkt_tolerance p = / 10 ^ 6 /\
  n_absolute_exit_tol p = / 10 ^ 12 /\ n_relative_exit_tol p = / 10 ^ 5 /\ n_absolute_first_derivative_tol p = / 10 ^ 6 /\
  n_max_line_search_iterations p = 2%Z /\ n_line_search_strategy p = POLYNOMIAL_APPROXIMATION /\
  n_armijo_search_tau p = 8 / 10 /\ n_equality_penalty_initial p = 1 /\ n_equality_penalty_scale_factor p = 101 / 100 /\
  n_equality_penalty_rho p = 1 / 10 /\ n_lambda_initial p = 0 /\ n_lambda_failure_init p = 1 / 100 /\
  n_lambda_decrease_on_success p = 1 / 10 /\ n_lambda_decrease_on_restore p = 8 / 10 /\ n_max_lambda p = 1 /\
  n_min_lambda p = 0 /\ n_log_qp_eigenvalues p = false.
Proof.
  cbn [default_NLSParams n_max_iterations n_max_qp_iterations n_termination_kkt_tolerance n_absolute_exit_tol n_relative_exit_tol
       n_absolute_first_derivative_tol n_max_line_search_iterations n_line_search_strategy n_armijo_search_tau
       n_equality_penalty_initial n_equality_penalty_scale_factor n_equality_penalty_rho n_lambda_initial n_lambda_failure_init
       n_lambda_decrease_on_success n_lambda_decrease_on_restore n_max_lambda n_min_lambda n_log_qp_eigenvalues f1 f0 flit R_ops].
  repeat split; unfold lit_0_1, lit_1em6, Q2R; cbn [Qnum Qden]; try lra; cbn [pow]; field.
Qed.
(** C67: the default parameters pass every check, in exact and in binary64 arithmetic. *)
Theorem C67_defaults_accepted :
  NLS_CheckParams (default_NLSParams (F := R)) = Ok tt /\ IP_CheckParams (default_IPParams (F := R)) = Ok tt /\
  forall e : eigen_red,
    NLS_CheckParams (O := D_ops e) (default_NLSParams (O := D_ops e)) = Ok tt /\
    IP_CheckParams (O := D_ops e) (default_IPParams (O := D_ops e)) = Ok tt.
Proof.
  split; [|split; [|intro e; split; vm_compute; reflexivity]].
  - destruct (C49_params_checked default_NLSParams) as [[E _]|[_ N]]; [exact E|]. exfalso. apply N.
    destruct C67_default_nonlinear_parameters as (E1&E2&E3&E4&E5&E6&E7&E8&E9&E10&E11&E12&E13&E14&E15&E16&E17&E18&E19).
    constructor; rewrite ?E1, ?E2, ?E3, ?E4, ?E5, ?E6, ?E7, ?E8, ?E9, ?E10, ?E11, ?E12, ?E13, ?E14, ?E15, ?E16, ?E17, ?E18, ?E19;
      cbn [pow]; try lia; try lra.
  - apply IP_CheckParams_spec.
    destruct C67_default_interior_point_parameters as (E1&E2&E3&E4&E5&_).
    unfold ip_params_valid. rewrite E1, E2, E3, E5.
    assert (T : forall a b : R, a < b -> fltb a b = true).
    { intros a b L. destruct (R_fltb a b); [reflexivity|lra]. }
    assert (T2 : forall a b : R, a <= b -> fleb a b = true).
    { intros a b L. destruct (R_fleb a b); [reflexivity|lra]. }
    cbn [f0 f1 R_ops]. repeat split; try (apply T; cbn [pow]; lra); try (apply T2; lra).
Qed.

Lemma lit_nearest : forall (n : Z) (d : positive), (Z.abs n < 2 ^ 53)%Z -> (Z.pos d < 2 ^ 53)%Z ->
  is_finite (ddiv (dofZ n) (dofZ (Zpos d))) = true ->
  B2R (ddiv (dofZ n) (dofZ (Zpos d))) = rnd (IZR n / IZR (Zpos d)).
Proof.
  intros n d Hn Hd HF. destruct (dofZ_exact n Hn) as [F1 E1]. destruct (dofZ_exact (Zpos d) Hd) as [F2 E2].
  assert (P : B2R (dofZ (Zpos d)) <> 0) by (rewrite E2; apply not_0_IZR; lia).
  pose proof (Bdiv_correct prec emax _ _ mode_NE (dofZ n) (dofZ (Zpos d)) P) as H.
  rewrite E1, E2 in H. cbn [round_mode] in H. fold (rnd (IZR n / IZR (Zpos d))) in H. revert H. case Rlt_bool_spec; intros B H.
  - exact (proj1 H).
  - rewrite overflow_NE in H. apply B2SF_inf in H. fold (ddiv (dofZ n) (dofZ (Z.pos d))) in H. rewrite H in HF. discriminate.
Qed.

(** C67: in binary64 every default written as a decimal is the double nearest to that decimal. *)
Theorem C67_defaults_binary64 : forall e : eigen_red,
  let p := default_NLSParams (O := D_ops e) in
  let q := default_IPParams (O := D_ops e) in
  Forall (fun xr : double * R => is_finite (fst xr) = true /\ B2R (fst xr) = rnd (snd xr))
    [(p_initial_mu q, 1); (p_sigma q, 1 / 2); (p_termination_kkt_tol q, / 10 ^ 9); (p_termination_complementarity_tol q, / 10 ^ 6);
     (n_termination_kkt_tolerance p, / 10 ^ 6); (n_absolute_exit_tol p, / 10 ^ 12); (n_relative_exit_tol p, / 10 ^ 5);
     (n_absolute_first_derivative_tol p, / 10 ^ 6); (n_armijo_search_tau p, 8 / 10); (n_equality_penalty_initial p, 1);
     (n_equality_penalty_scale_factor p, 101 / 100); (n_equality_penalty_rho p, 1 / 10); (n_lambda_initial p, 0);
     (n_lambda_failure_init p, 1 / 100); (n_lambda_decrease_on_success p, 1 / 10); (n_lambda_decrease_on_restore p, 8 / 10);
     (n_max_lambda p, 1); (n_min_lambda p, 0)].
Proof.
  intros e p q.
  assert (L : forall (n : Z) (d : positive) (r : R), (Z.abs n < 2 ^ 53)%Z -> (Z.pos d < 2 ^ 53)%Z ->
    is_finite (ddiv (dofZ n) (dofZ (Zpos d))) = true -> IZR n / IZR (Zpos d) = r ->
    is_finite (ddiv (dofZ n) (dofZ (Zpos d))) = true /\ B2R (ddiv (dofZ n) (dofZ (Zpos d))) = rnd r).
  { intros n d r A B C <-. split; [exact C|apply lit_nearest; assumption]. }
  assert (One : is_finite (dofZ 1) = true /\ B2R (dofZ 1) = rnd 1).
  { split; [apply d1_finite|]. rewrite <- d1_B2R. rewrite rnd_B2R. reflexivity. }
  assert (Zero : is_finite (B754_zero false : double) = true /\ B2R (B754_zero false : double) = rnd 0).
  { split; [reflexivity|]. rewrite rnd_0. reflexivity. }
  repeat (apply Forall_cons || apply Forall_nil); cbn [fst snd]; try exact One; try exact Zero;
    (apply L; [reflexivity|reflexivity|vm_compute; reflexivity|unfold Rdiv; cbn [Qnum Qden lit_half lit_0_1 lit_1em9 lit_1em6 pow]; (lra || (rewrite ?Rmult_1_r, ?Rmult_1_l; try apply f_equal; lra))]).
Qed.
