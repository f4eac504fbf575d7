(** C42: inequality constraints hold at every nonlinear iterate; exact arithmetic, for every cost, every
    equality constraint and every (even wrong) factorisation. *)
From Coq Require Import String List Bool Arith ZArith QArith Reals Lra Lia.
From Verif Require Import Scalar Outcome LinAlg Structs Constraint QPModel NullSpace Residual Nonlinear RInst Spec
  Props_Constraint QPBlocks QPAlgebra QPNewton QPAlpha QPStep QPTrace QPInit QPSolve ResProps LinProps LSProps NLSTrace NLSReal.
Import ListNotations.
Local Open Scope outcome_scope.
Local Open Scope string_scope.
Local Open Scope list_scope.
Local Open Scope R_scope.

(** ** The QP level *)

Lemma Setup_ready : forall g (p : QP R) st, Setup g (Some p) = Ok st -> (forall c, In c (qcons p) -> (0 <= lvar c)%Z) ->
  wf_qp p /\ ready p st.
Proof.
  intros g p st H HI. unfold Setup in H.
  inv_bind H. apply f_assert_ok_inv in Hm. apply Nat.eqb_eq in Hm.
  inv_bind H. apply f_assert_ok_inv in Hm0. apply Nat.eqb_eq in Hm0.
  inv_bind H. apply f_assert_ok_inv in Hm1. apply Nat.eqb_eq in Hm1.
  inv_bind H. inv_bind H. apply f_assert_ok_inv in Hm3. rewrite forallb_forall in Hm3.
  apply Ok_inj in H. subst st.
  assert (W : wf_qp p).
  { constructor; unfold nv, neq; auto; try congruence.
    - intro Hpos. destruct (0 <? mrows (qA p) * mcols (qA p))%nat eqn:E.
      + apply f_assert_ok_inv in Hm2. apply Nat.eqb_eq in Hm2. congruence.
      + inv_bind Hm2. apply f_assert_ok_inv in Hm2. apply Nat.eqb_eq in Hm2. lia.
    - intros c Hc. specialize (Hm3 c Hc). apply Z.ltb_lt in Hm3. specialize (HI c Hc). rewrite <- Hm0. lia. }
  split; [exact W|].
  constructor; cbn [ip_p ip_dims ip_vars ip_r ip_delta ip_delta_aff]; try (rewrite mkvec_length; unfold tsize; simpl; lia).
  - reflexivity.
  - unfold nv, nineq, neq. rewrite Hm0, Hm1. reflexivity.
Qed.

(** Slack mismatch along a run stays between -1e-9 and 0. *)
Definition slack_gap (p : QP R) (st : ip_solver R) : Prop :=
  forall m, (m < nineq p)%nat -> - (1 / 1000000000) <= kkt_ineq p (x_block st) (s_block st) m <= 0.

Lemma run_gap : forall ldlt params p mu st tr, wf_qp p ->
  ready p st -> interior p st -> slack_gap p st -> ip_run ldlt params p mu st tr ->
  slack_gap p (last (map snd tr) st).
Proof.
  intros ldlt params p mu st tr W RD INT SG HR.
  induction HR as [mu st|mu st it mu' st' tr S HR IH]; [exact SG|].
  inversion S as [? ? st1 outs HI]; subst.
  destruct (C06_iteration_keeps_interior _ _ _ _ _ _ _ RD INT HI) as [RD1 INT1].
  destruct (Iterate_alpha _ _ _ _ _ _ _ RD INT HI) as [AL _].
  destruct (C19_infeasibility_contracts _ _ _ _ _ _ _ W RD HI) as [CT _].
  assert (SG2 : slack_gap p (EvaluateKKTConditions true p st1)).
  { intros m Hm. change (x_block (EvaluateKKTConditions true p st1)) with (x_block st1).
    change (s_block (EvaluateKKTConditions true p st1)) with (s_block st1).
    rewrite (CT m Hm). specialize (SG m Hm). set (k := kkt_ineq p (x_block st) (s_block st) m) in *.
    set (a := primal (ip_alpha outs)) in *. clearbody k a.
    assert (0 <= (1 - a) * - k) by (apply Rmult_le_pos; lra).
    assert ((1 - a) * - k <= 1 * - k) by (apply Rmult_le_compat_r; lra). lra. }
  specialize (IH (eval_ready _ _ RD1) INT1 SG2).
  cbn [map]. destruct (map snd tr) as [|a l] eqn:E; [exact SG2|].
  cbn [last]. change (match l with [] => a | _ :: _ => last l st end) with (last (a :: l) st).
  assert (EL : forall (A : Type) (y : A) (l : list A) d d', last (y :: l) d = last (y :: l) d').
  { intros A y l0. revert y. induction l0 as [|z l0 IH0]; intros y d d'; [reflexivity|]. change (last (z :: l0) d = last (z :: l0) d'). apply IH0. }
  cbn [map snd]. change (slack_gap p (last (a :: l) st)). rewrite (EL _ a l st (EvaluateKKTConditions true p st1)). exact IH.
Qed.

(** C42, QP level: whenever the inequality constraints can be satisfied at all, every Solve with a built-in
    initial guess returns an x with a x + b > -1e-9 for all of them, however early it stopped. *)
Theorem C42_qp_solution_feasible : forall ldlt g params (p : QP R) st st' out,
  Setup g (Some p) = Ok st ->
  p_initial_guess_method params <> USER_PROVIDED ->
  (exists xs, ineq_feasible p xs) ->
  IP_Solve ldlt params st = Ok (st', out) ->
  forall m, (m < nineq p)%nat -> ca p m * vget (x_block st') (cv p m) + cb p m > - (1 / 1000000000).
Proof.
  intros ldlt g params p st st' out HSet HU HF H m Hm.
  destruct (C12_Solve_run _ _ _ _ _ H) as (p' & st1 & mu & tr & Hp & _ & HC & HS & HR & _ & HL & _).
  assert (p' = p).
  { unfold Setup in HSet. do 5 inv_bind HSet. apply Ok_inj in HSet. subst st. cbn [ip_p] in Hp. congruence. }
  subst p'.
  destruct (Setup_ready _ _ _ HSet HC) as [W RD].
  destruct (C06_Solve_interior _ _ _ _ _ _ W RD (fun E => match HU E with end) H) as (POS & _).
  destruct (start_ok _ _ _ _ _ _ W RD (fun E => match HU E with end) HS) as [E1 I1].
  destruct HS as (st0 & H0 & E0 & _).
  destruct (C15_initial_guess _ _ _ _ _ W RD HU H0) as (_ & SL & _ & FE). specialize (FE HF).
  assert (SG : slack_gap p st1).
  { intros m' Hm'. subst st1. change (x_block (EvaluateKKTConditions true p st0)) with (x_block st0).
    change (s_block (EvaluateKKTConditions true p st0)) with (s_block st0).
    destruct (SL m' Hm') as [ES _]. specialize (FE m' Hm'). unfold kkt_ineq. rewrite ES.
    unfold Rmax. destruct (Rle_dec _ _); lra. }
  pose proof (run_gap _ _ _ _ _ _ W (evaluated_ready _ _ E1) I1 SG HR) as SF. rewrite <- HL in SF.
  specialize (SF m Hm). unfold kkt_ineq in SF. destruct (POS m Hm) as [PS _]. lra.
Qed.

(** ** The nonlinear solver *)

(** Value of constraint [c] at [x]. *)
Definition cvalue (c : lic R) (x : list R) : R := la c * vget x (Z.to_nat (lvar c)) + lb c.
(** All constraints hold at [x], up to 1e-9. *)
Definition in_box (pr : Problem R) (x : list R) : Prop := forall c, In c (pr_ineq pr) -> cvalue c x > - (1 / 1000000000).
(** The constraints can be satisfied together. *)
Definition satisfiable (pr : Problem R) : Prop := exists y, forall c, In c (pr_ineq pr) -> cvalue c y >= 0.

Lemma Forall2_len : forall (A B : Type) (P : A -> B -> Prop) l l', Forall2 P l l' -> length l = length l'.
Proof. intros A B P l l' H. induction H; simpl; congruence. Qed.

Lemma Forall2_nth_both : forall (A B : Type) (P : A -> B -> Prop) l l' m da db,
  Forall2 P l l' -> (m < length l)%nat -> P (nth m l da) (nth m l' db).
Proof.
  intros A B P l l' m da db H. revert m. induction H as [|a b l l' HP H IH]; intros m Hm; [simpl in Hm; lia|].
  destruct m as [|m]; simpl; [exact HP|]. apply IH. simpl in Hm. lia.
Qed.

(** The QP step keeps x + dx in the box. *)
Lemma step_in_box : forall ldlt qr llt g pa (pr : Problem R) vars lambda errs qp o dx,
  satisfiable pr ->
  LinearizeAndFillQP vars lambda pr = Ok (errs, qp) ->
  ComputeStepDirection ldlt qr llt g pa pr qp = Ok (o, dx) ->
  forall c, In c (pr_ineq pr) -> la c * (vget vars (Z.to_nat (lvar c)) + vget dx (Z.to_nat (lvar c))) + lb c > - (1 / 1000000000).
Proof.
  intros ldlt qr llt g pa pr vars lambda errs qp o dx [y SAT] HL HD c Hc.
  unfold LinearizeAndFillQP in HL. inv_bind HL. destruct a as [[G cc] f]. inv_bind HL. destruct a as [[rows b] e].
  inv_bind HL. rename a into cons. apply Ok_inj in HL. apply pair_inj in HL. destruct HL as [_ EQ].
  apply shift_spec in Hm1.
  assert (EC : qcons qp = cons) by (rewrite <- EQ; reflexivity).
  unfold ComputeStepDirection, use_null_space in HD.
  assert (HD' : (do st <- Setup g (Some qp); do '(st', outs) <- IP_Solve ldlt (inner_qp_params pa pr) st; Ok (InteriorPointOut outs, x_block st')) = Ok (o, dx)).
  { destruct (pr_ineq pr); [destruct Hc|exact HD]. }
  clear HD. inv_bind HD'. inv_bind HD'. destruct a0 as [st' outs]. apply Ok_inj in HD'. apply pair_inj in HD'. destruct HD' as [_ <-].
  rename a into st.
  assert (NU : p_initial_guess_method (inner_qp_params pa pr) <> USER_PROVIDED).
  { unfold inner_qp_params. cbn [p_initial_guess_method]. destruct (pr_eq pr); discriminate. }
  assert (HC : forall c, In c (qcons qp) -> (0 <= lvar c)%Z).
  { rewrite EC. intros c' Hin. apply (In_nth _ _ lic0) in Hin. destruct Hin as (m & Hlt & <-).
    rewrite <- (Forall2_len _ _ _ _ _ Hm1) in Hlt.
    destruct (Forall2_nth_both _ _ _ _ _ m lic0 lic0 Hm1 Hlt) as [X ->]. simpl. lia. }
  destruct (Setup_ready _ _ _ Hm2 HC) as [W _].
  assert (FE : exists xs, ineq_feasible qp xs).
  { exists (mkvec (nv qp) (fun i => vget y i - vget vars i)). intros m Hm'. unfold nineq in Hm'. rewrite EC in Hm'.
    assert (HI : (cv qp m < nv qp)%nat).
    { unfold cv, con. pose proof (wf_idx _ W (nth m (qcons qp) lic0) ltac:(apply nth_In; rewrite EC; exact Hm')). lia. }
    rewrite vget_mkvec by exact HI. rewrite <- (Forall2_len _ _ _ _ _ Hm1) in Hm'.
    destruct (Forall2_nth_both _ _ _ _ _ m lic0 lic0 Hm1 Hm') as [_ X].
    unfold ca, cb, cv, con. rewrite EC, X. cbn [la lb lvar ShiftTo fadd fmul R_ops].
    specialize (SAT (nth m (pr_ineq pr) lic0) ltac:(apply nth_In; exact Hm')). unfold cvalue in SAT.
    set (c' := nth m (pr_ineq pr) lic0) in *. replace (la c' * (vget y (Z.to_nat (lvar c')) - vget vars (Z.to_nat (lvar c'))) + (la c' * vget vars (Z.to_nat (lvar c')) + lb c')) with (la c' * vget y (Z.to_nat (lvar c')) + lb c') by ring. exact SAT. }
  apply (In_nth _ _ lic0) in Hc. destruct Hc as (m & Hlt & EM).
  assert (Hn : (m < nineq qp)%nat) by (unfold nineq; rewrite EC, <- (Forall2_len _ _ _ _ _ Hm1); exact Hlt).
  pose proof (C42_qp_solution_feasible _ _ _ _ _ _ _ Hm2 NU FE Hm3 m Hn) as X.
  destruct (Forall2_nth_both _ _ _ _ _ m lic0 lic0 Hm1 Hlt) as [_ Y]. rewrite EM in Y.
  unfold ca, cb, cv, con in X. rewrite EC, Y in X. cbn [la lb lvar ShiftTo fadd fmul R_ops] in X. lra.
Qed.

Section Box.
  Variable ldlt : mat R -> option (mat R).
  Variable qr : mat R -> QRResult R.
  Variable llt : mat R -> option (list R -> list R).
  Variable eigs : mat R -> QPEigenvalues R.
  Context {S : Type}.
  Variable cb : option (S -> NLSIteration R -> S * bool).
  Variable pa : NLSParams R.
  Variable pr : Problem R.
  Variable g : nat -> garbage R.

  (** Solve with the default retraction x + alpha dx. *)
  Notation solve := (solve ldlt qr llt eigs None cb pa pr g).

  (** How constraint values change from point x to a candidate. *)
  Lemma candidate_value : forall c x dx a x', In c (pr_ineq pr) ->
    RetractCandidateVars None x dx a = Ok x' ->
    cvalue c x' = (1 - a) * cvalue c x + a * (la c * (vget x (Z.to_nat (lvar c)) + vget dx (Z.to_nat (lvar c))) + lb c).
  Proof.
    intros c x dx a x' Hc H. unfold RetractCandidateVars in H. inv_bind H. apply ub_unless_ok_inv in Hm. apply Nat.eqb_eq in Hm.
    apply Ok_inj in H. subst x'. unfold cvalue. rewrite vadd_get by (rewrite vscale_length; auto). rewrite vscale_get.
    cbn [fadd fmul R_ops]. ring.
  Qed.

  (** For any starting point, feasible or not: at every point tried by the line search of iteration k with
      step size a in (0,1], each constraint value is above (1-a) * (value at the start of the iteration) -
      a * 1e-9; in particular a full step satisfies all constraints. *)
  Theorem C42_violation_contracts : forall vars cs r, satisfiable pr -> solve vars cs = Ok r ->
    let log := out_iterations (res_out r) in
    exists xs : nat -> list R, xs 0%nat = vars /\ xs (length log) = res_vars r /\
      forall k info, nth_error log k = Some info ->
        (it_step_result info <> SS_SUCCESS -> xs (Datatypes.S k) = xs k) /\
        exists dx, (forall s, In s (it_line_search_steps info) -> 0 < step_alpha s <= 1 /\
          exists x', RetractCandidateVars None (xs k) dx (step_alpha s) = Ok x' /\
            EvaluateNonlinearErrors pr x' = Ok (step_errors s) /\
            forall c, In c (pr_ineq pr) ->
              cvalue c x' > (1 - step_alpha s) * cvalue c (xs k) - step_alpha s * (1 / 1000000000)) /\
          (it_step_result info = SS_SUCCESS -> exists s, In s (it_line_search_steps info) /\
             RetractCandidateVars None (xs k) dx (step_alpha s) = Ok (xs (Datatypes.S k))).
  Proof.
    intros vars cs r SAT H log. pose proof (solve_valid _ _ _ _ _ _ _ _ _ _ _ _ H) as PV.
    destruct (solve_history _ _ _ _ _ _ _ _ _ _ _ _ H) as (sts & css & exs & A & _ & C & _ & _ & HH & _). fold log in C, HH.
    exists (fun k => ns_vars (sts k)). splits; [rewrite A; reflexivity|exact C|].
    intros k info Hk. destruct (HH k info Hk) as (HI & _ & _). apply iterate_spec in HI. destruct HI as [_ HI].
    pose proof (iteration_vars _ _ _ _ _ _ _ _ _ _ _ _ (npv_ls _ PV) HI) as [V1 V2].
    split; [exact V1|].
    destruct HI as (qp & dx & cand & HL & HD & HQ & HC & HP & HS & HU & _).
    exists dx.
    destruct (C28_step_sizes None (ls_of pa pr (sts k) info dx) (npv_ls _ PV) (npv_tau _ PV) _ _ _ HS) as (_ & FA & _).
    destruct (C28_line_search_log None (ls_of pa pr (sts k) info dx) (npv_ls _ PV) _ _ _ HS) as (LG & _ & _ & _ & init & last & EL & PT & _).
    split.
    - intros s Hs. rewrite Forall_forall in FA. specialize (FA s Hs). split; [exact FA|].
      unfold logged in LG. rewrite Forall_forall in LG. specialize (LG s Hs). unfold errors_at, point_at in LG. inv_bind LG.
      rename a into x'. exists x'. splits; [exact Hm|exact LG|]. intros c Hc.
      rewrite (candidate_value c _ _ _ _ Hc Hm). pose proof (step_in_box _ _ _ _ _ _ _ _ _ _ _ _ SAT HL HD c Hc) as X.
      cbn [li_vars ls_of li_dx]. set (u := la c * _ + lb c) in *. clearbody u.
      assert (step_alpha s * - (1 / 1000000000) < step_alpha s * u) by (apply Rmult_lt_compat_l; lra). lra.
    - intro ER. exists last. split; [rewrite EL; apply in_or_app; right; left; reflexivity|].
      destruct (V2 ER) as (dx' & init' & last' & E' & RT & _).
      rewrite EL in E'. apply app_inj_tail in E'. destruct E' as [_ <-].
      assert (VC : ns_vars (sts (Datatypes.S k)) = cand).
      { rewrite ER in HU. unfold UpdateLambdaAndCheckExitConditions in HU. inv_bind HU.
        repeat match type of HU with (if ?b then _ else _) = _ => destruct b end;
        apply Ok_inj in HU; apply pair_inj in HU; destruct HU as [_ <-]; reflexivity. }
      rewrite VC. exact PT.
  Qed.

  (** C42: from a feasible (up to 1e-9) initial guess, every candidate and every accepted point satisfies all
      inequality constraints up to 1e-9, including the returned variables. *)
  Theorem C42_iterates_in_box : forall vars cs r, satisfiable pr -> in_box pr vars -> solve vars cs = Ok r ->
    let log := out_iterations (res_out r) in
    in_box pr (res_vars r) /\
    exists xs : nat -> list R, xs 0%nat = vars /\ xs (length log) = res_vars r /\
      (forall k, (k <= length log)%nat -> in_box pr (xs k)) /\
      forall k info, nth_error log k = Some info -> exists dx, forall s, In s (it_line_search_steps info) ->
        exists x', RetractCandidateVars None (xs k) dx (step_alpha s) = Ok x' /\
          EvaluateNonlinearErrors pr x' = Ok (step_errors s) /\ in_box pr x'.
  Proof.
    intros vars cs r SAT IB H log. destruct (C42_violation_contracts _ _ _ SAT H) as (xs & X0 & XF & X). cbv zeta in *. fold log in XF, X.
    assert (CAND : forall k info, nth_error log k = Some info -> in_box pr (xs k) ->
       exists dx, (forall s, In s (it_line_search_steps info) ->
        exists x', RetractCandidateVars None (xs k) dx (step_alpha s) = Ok x' /\
          EvaluateNonlinearErrors pr x' = Ok (step_errors s) /\ in_box pr x') /\
       (it_step_result info = SS_SUCCESS -> exists s, In s (it_line_search_steps info) /\
             RetractCandidateVars None (xs k) dx (step_alpha s) = Ok (xs (Datatypes.S k)))).
    { intros k info Hk IBk. destruct (X k info Hk) as (_ & dx & ST & SU). exists dx. split; [|exact SU].
      intros s Hs. destruct (ST s Hs) as (AL & x' & RT & EV & BD). exists x'. splits; auto. intros c Hc.
      specialize (BD c Hc). specialize (IBk c Hc). set (v := cvalue c (xs k)) in *. clearbody v.
      assert ((1 - step_alpha s) * - (1 / 1000000000) <= (1 - step_alpha s) * v) by (apply Rmult_le_compat_l; lra). lra. }
    assert (ALL : forall k, (k <= length log)%nat -> in_box pr (xs k)).
    { induction k as [|k IH]; intro Hk; [rewrite X0; exact IB|].
      destruct (nth_error log k) as [info|] eqn:E; [|apply nth_error_None in E; lia].
      specialize (IH ltac:(lia)). destruct (CAND k info E IH) as (dx & ST & SU). destruct (X k info E) as (NS & _).
      destruct (it_step_result info) eqn:ER; try (rewrite NS by discriminate; exact IH).
      destruct (SU eq_refl) as (s & Hs & RT). destruct (ST s Hs) as (x' & RT' & _ & IBx). rewrite RT in RT'. apply Ok_inj in RT'. rewrite RT'. exact IBx. }
    split; [rewrite <- XF; apply ALL; lia|]. exists xs. splits; auto.
    intros k info Hk. destruct (CAND k info Hk) as (dx & ST & _); [apply ALL, Nat.lt_le_incl, nth_error_Some; congruence|]. eauto.
  Qed.
End Box.
