(** C59-C62: what a user of one ConstrainedNonlinearLeastSquares object can rely on across a history of calls, some of
    which may have been abandoned because a user function threw. *)
From Coq Require Import String List Bool ZArith Arith QArith Reals Lia.
From Verif Require Import Scalar Outcome LinAlg Structs Constraint QPModel NullSpace Residual Nonlinear NLSObject
  ResProps LinProps NLSTrace RInst NLSTotal NLSObjectProps.
Import ListNotations.
Local Open Scope string_scope.
Local Open Scope list_scope.
Local Open Scope nat_scope.

Section History.
  Context {F : Type} {O : Ops F} {S : Type}.
  Variable ldlt : mat F -> option (mat F).
  Variable qr : mat F -> QRResult F.
  Variable llt : mat F -> option (list F -> list F).
  Variable eigs : mat F -> QPEigenvalues F.
  Variable retract : option (list F -> list F -> F -> list F).
  Variable pr0 : Problem F.     (* *p_ when the object was constructed *)
  Variable pr : Problem F.      (* *p_ now *)
  Notation obj := (nls_object F S).

  (** solver.Solve(params, vars): [throws] says which user function invocations throw, [junk] what uninitialised storage
      contains, [cb] is the callback last given to SetUserExitCallback. *)
  Notation solve throws junk cb pa vars := (Solve_o ldlt qr llt eigs retract throws junk pr cb pa vars).
  Notation evaluate throws vars := (EvaluateNonlinearErrors_o throws pr vars).

  (** How the caller may edit the problem while a solver refers to it: any costs and constraints, as long as the number of
      variables and of equality constraint rows stay and no residual is larger than the largest one at construction. *)
  Record editable (p : Problem F) : Prop := {
    ed_dim : pr_dimension p = pr_dimension pr0;
    ed_rows : list_sum (map res_dim (pr_eq p)) = list_sum (map res_dim (pr_eq pr0));
    ed_largest : forall r, In r (pr_costs p) \/ In r (pr_eq p) ->
      res_dim r = 0 \/ exists r0, (In r0 (pr_costs pr0) \/ In r0 (pr_eq pr0)) /\ res_dim r <= res_dim r0 }.

  (** The objects a program can get hold of: constructed, then used any number of times, each call returning or throwing.
      Between calls the problem may be edited and the callback replaced (its state is then another one). *)
  Inductive history : obj -> Prop :=
  | h_construct : forall q v c e cs, history (construct pr0 q v c e cs)
  | h_solve : forall o p throws junk cb pa vars, editable p -> history o ->
      history (fst (Solve_o ldlt qr llt eigs retract throws junk p cb pa vars o))
  | h_evaluate : forall o p throws vars, editable p -> history o -> history (fst (EvaluateNonlinearErrors_o throws p vars o))
  | h_callback : forall o cs, history o -> history (set_cs cs o).

  Lemma editable_same : editable pr0.
  Proof. constructor; auto. intros r Hr. right. exists r. auto. Qed.

  Lemma fold_dims : forall (l : list (residual F)) n, fold_left (fun n r => n + res_dim r) l n = n + list_sum (map res_dim l).
  Proof.
    induction l as [|r l IH]; intro n; cbn [fold_left map]; [cbn; lia|]. rewrite IH.
    change (list_sum (res_dim r :: map res_dim l)) with (res_dim r + list_sum (map res_dim l)). lia.
  Qed.
  Lemma fold_max_le : forall (l : list (residual F)) a m, a <= m -> (forall r, In r l -> res_dim r <= m) ->
    fold_left (fun m r => Nat.max m (res_dim r)) l a <= m.
  Proof.
    induction l as [|r l IH]; intros a m HA HL; cbn [fold_left]; [exact HA|]. apply IH.
    - pose proof (HL r (or_introl eq_refl)). lia.
    - intros r' Hr. apply HL. right. exact Hr.
  Qed.
  Lemma editable_sizes : forall p, editable p ->
    pdim p = pdim pr0 /\ total_eq_size p = total_eq_size pr0 /\ max_error_size p <= max_error_size pr0.
  Proof.
    intros p [E1 E2 E3]. unfold pdim, total_eq_size. rewrite E1, !fold_dims. splits; [reflexivity|lia|].
    assert (A : forall r, In r (pr_costs p) \/ In r (pr_eq p) -> res_dim r <= max_error_size pr0).
    { intros r Hr. destruct (E3 r Hr) as [->|(r0 & H0 & L)]; [lia|].
      pose proof (buffer_fits pr0 (max_error_size pr0) (Nat.le_refl _) r0 H0). lia. }
    unfold max_error_size at 1. apply fold_max_le; [apply fold_max_le; [lia|]|]; auto.
  Qed.

  Let esz := max_error_size pr0.
  Lemma sized_edit : forall (o : obj) p, editable p -> sized pr0 esz o <-> sized p esz o.
  Proof.
    intros o p E. destruct (editable_sizes p E) as (A & B & _). split; intros [S1 S2 S3 S4 S5 S6 S7]; constructor; congruence.
  Qed.
  Hypothesis ED : editable pr.

  Lemma sim_sized : forall A B throws (m : M (F:=F) (S:=S) A) o (x : outcome B) Q E,
    sim throws m o x Q E -> (forall a b o', Q a b o' -> sized pr0 esz o') -> (forall o', E o' -> sized pr0 esz o') -> sized pr0 esz (fst (m o)).
  Proof.
    intros A B throws m o x Q E H HQ HE. unfold sim in H. destruct (m o) as [o' [a|e|n|w]]; cbn [fst].
    - destruct H as (b & _ & H). eauto.
    - apply HE, H.
    - apply HE, H.
    - apply HE, H.
  Qed.

  Lemma fits : forall p, editable p -> max_error_size p <= esz.
  Proof. intros p E. apply (editable_sizes p E). Qed.

  Lemma history_sized0 : forall o, history o -> sized pr0 esz o.
  Proof.
    induction 1 as [q v c e cs|o p throws junk cb pa vars EP _ IH|o p throws vars EP _ IH|o cs _ IH].
    - constructor; cbn [construct o_qp qG qc qA qb o_errbuf mrows mcols]; try reflexivity; apply mkvec_length.
    - eapply sim_sized.
      + apply (solve_sim ldlt qr llt eigs retract throws junk p esz (fits p EP) cb pa (fun _ => junk 0) vars o). apply (sized_edit o p EP). exact IH.
      + intros a b o' H. apply (sized_edit o' p EP). apply H.
      + intros o' H. apply (sized_edit o' p EP). apply H.
    - eapply sim_sized.
      + apply (evaluate_sim throws p esz (fits p EP) vars o (o_vars o) (o_trace o)). split; [apply (sized_edit o p EP); exact IH|]. split; [reflexivity|].
        exists []. rewrite app_nil_r. split; [reflexivity|intros []].
      + intros a b o' (_ & buf & LB & ->). destruct IH. constructor; assumption.
      + intros o' H. apply (sized_edit o' p EP). apply H.
    - destruct IH. constructor; assumption.
  Qed.
  Lemma history_sized : forall o, history o -> sized pr esz o.
  Proof. intros o H. apply (sized_edit o pr ED). apply history_sized0. exact H. Qed.

  (** ** C59 *)

  Lemma solve_sized : forall n (o : obj) throws junk cb pa vars g o' r, max_error_size pr <= n -> sized pr n o ->
    solve throws junk cb pa vars o = (o', r) ->
    match r with
    | Ret out => exists res, NLS_Solve ldlt qr llt eigs retract cb pa pr g vars (o_cs o) = Ok res /\
                   out = res_out res /\ o_vars o' = res_vars res /\ o_cs o' = res_cb res
    | LibExn e => NLS_Solve ldlt qr llt eigs retract cb pa pr g vars (o_cs o) = Throw e
    | UserExn k => throws k = true
    | Undef w => NLS_Solve ldlt qr llt eigs retract cb pa pr g vars (o_cs o) = UB w
    end.
  Proof.
    intros n o throws junk cb pa vars g o' r FN SZ E.
    pose proof (solve_sim ldlt qr llt eigs retract throws junk pr n FN cb pa g vars o SZ) as H.
    cbv zeta in H. unfold sim in H. rewrite E in H. destruct r as [out|e|k|w]; [|apply H|apply H|apply H].
    destruct H as (res & HR & X1 & X2 & X3 & _). eauto.
  Qed.

  (** Whatever was done with the object before, Solve does what the function NLS_Solve of its arguments and of the problem
      as it is now says, unless a user function throws. *)
  Theorem C59_solve_ignores_history : forall o throws junk cb pa vars g o' r, history o ->
    solve throws junk cb pa vars o = (o', r) ->
    match r with
    | Ret out => exists res, NLS_Solve ldlt qr llt eigs retract cb pa pr g vars (o_cs o) = Ok res /\
                   out = res_out res /\ o_vars o' = res_vars res /\ o_cs o' = res_cb res
    | LibExn e => NLS_Solve ldlt qr llt eigs retract cb pa pr g vars (o_cs o) = Throw e
    | UserExn k => throws k = true
    | Undef w => NLS_Solve ldlt qr llt eigs retract cb pa pr g vars (o_cs o) = UB w
    end.
  Proof.
    intros o throws junk cb pa vars g o' r HH E. exact (solve_sized esz o throws junk cb pa vars g o' r (fits pr ED) (history_sized o HH) E).
  Qed.

  (** The same in terms of two objects: one with any past and one newly constructed from the problem as it is now, whatever
      their uninitialised contents. *)
  Theorem C59_reused_like_new : forall o throws junk junk' cb pa vars q v c e o1 r1 o2 r2,
    history o -> (forall k, throws k = false) ->
    solve throws junk cb pa vars o = (o1, r1) ->
    solve throws junk' cb pa vars (construct pr q v c e (o_cs o)) = (o2, r2) ->
    r1 = r2 /\ (forall out, r1 = Ret out -> o_vars o1 = o_vars o2 /\ o_cs o1 = o_cs o2).
  Proof.
    intros o throws junk junk' cb pa vars q v c e o1 r1 o2 r2 HH NT E1 E2.
    pose proof (C59_solve_ignores_history _ _ _ _ _ _ (fun _ => junk 0) _ _ HH E1) as H1.
    assert (SN : sized pr (max_error_size pr) (construct pr q v c e (o_cs o))).
    { constructor; cbn [construct o_qp qG qc qA qb o_errbuf mrows mcols]; try reflexivity; apply mkvec_length. }
    pose proof (solve_sized _ _ _ _ _ _ _ (fun _ => junk 0) _ _ (Nat.le_refl _) SN E2) as H2.
    change (o_cs (construct pr q v c e (o_cs o))) with (o_cs o) in H2.
    destruct r1 as [out1|e1|k1|w1]; destruct r2 as [out2|e2|k2|w2];
      try (rewrite NT in H1; discriminate); try (rewrite NT in H2; discriminate);
      try (destruct H1 as (x1 & H1 & A1 & B1 & C1)); try (destruct H2 as (x2 & H2 & A2 & B2 & C2)); try congruence.
    - rewrite H1 in H2. apply Ok_inj in H2. subst x2. split; [congruence|]. intros out _. split; congruence.
    - split; [congruence|]. intros out X; discriminate.
    - split; [congruence|]. intros out X; discriminate.
  Qed.

  Lemma ofold_defined : forall A B (f : A -> B -> outcome A) l a w,
    (forall a b w, f a b <> UB w) -> ofold f l a <> UB w.
  Proof.
    intros A B f l. induction l as [|b l IH]; intros a w H; cbn [ofold]; [discriminate|].
    destruct (f a b) as [a'|e|w'] eqn:E; cbn [bind]; [apply IH; exact H|discriminate|]. exfalso. exact (H _ _ _ E).
  Qed.
  Lemma gather_defined : forall (l : list F) index w, GatherValues l index <> UB w.
  Proof.
    intros l index w. unfold GatherValues. apply ofold_defined. intros acc i w'.
    destruct (0 <=? i)%Z; cbn [f_assert bind]; [|discriminate].
    destruct (i <? Z.of_nat (length l))%Z; cbn [f_assert bind]; discriminate.
  Qed.
  Lemma evaluate_defined : forall vars w, EvaluateNonlinearErrors pr vars <> UB w.
  Proof.
    assert (EV : forall r (vars : list F) n w, ErrorVector r vars n <> UB w).
    { intros r vars n w. unfold ErrorVector. destruct (n =? res_dim r); cbn [f_assert bind]; [|discriminate].
      destruct (GatherValues vars (res_index r)) as [p|x|x] eqn:E; cbn [bind]; try discriminate. exfalso. exact (gather_defined _ _ _ E). }
    intros vars w. unfold EvaluateNonlinearErrors.
    match goal with |- context [bind ?X _] => destruct X as [f|x|x] eqn:E1 end; cbn [bind]; try discriminate.
    2:{ exfalso. revert E1. apply ofold_defined. intros a b w' H. destruct (ErrorVector b vars (res_dim b)) as [e|e|e] eqn:E; cbn [bind] in H; try discriminate. exact (EV _ _ _ _ E). }
    match goal with |- context [bind ?X _] => destruct X as [q|x|x] eqn:E2 end; cbn [bind]; try discriminate.
    exfalso. revert E2. apply ofold_defined. intros a b w' H. destruct (ErrorVector b vars (res_dim b)) as [e|e|e] eqn:E; cbn [bind] in H; try discriminate. exact (EV _ _ _ _ E).
  Qed.

  (** EvaluateNonlinearErrors never writes outside the shared error buffer, never changes variables(), and returns the
      errors of its argument: for every problem, every argument (of any size) and every history. *)
  Theorem C59_evaluate : forall o throws vars o' r, history o ->
    evaluate throws vars o = (o', r) ->
    (forall w, r <> Undef w) /\ o_vars o' = o_vars o /\ o_cs o' = o_cs o /\
    match r with
    | Ret e => EvaluateNonlinearErrors pr vars = Ok e
    | LibExn e => EvaluateNonlinearErrors pr vars = Throw e
    | UserExn k => throws k = true
    | Undef _ => False
    end.
  Proof.
    intros o throws vars o' r HH E. pose proof (history_sized o HH) as SZ.
    assert (CS : o_cs o' = o_cs o).
    { pose (keeps := fun A (m : M (F:=F) (S:=S) A) => forall o, o_cs (fst (m o)) = o_cs o).
      assert (KB : forall A B (m : M A) (k : A -> M B), keeps A m -> (forall a, keeps B (k a)) -> keeps B (mbind m k)).
      { intros A B m k H1 H2 x. unfold mbind. specialize (H1 x). destruct (m x) as [x' [a|?|?|?]]; cbn [fst] in *; auto.
        rewrite H2. exact H1. }
      assert (KF : forall A B (f : A -> B -> M A) l a, (forall a b, keeps A (f a b)) -> keeps A (mfold f l a)).
      { intros A B f l. induction l as [|b l IH]; intros a H; cbn [mfold]; [intro; reflexivity|]. apply KB; [apply H|]. intro a'. apply IH, H. }
      assert (KE : forall r, keeps (list F) (eval_residual_o throws r vars)).
      { intro r0. unfold eval_residual_o. repeat (apply KB; [intro; reflexivity|]; intro). intro; reflexivity. }
      assert (KS : keeps _ (EvaluateNonlinearErrors_o throws pr vars)).
      { unfold EvaluateNonlinearErrors_o. intro x. unfold scope.
        match goal with |- context [let (_, _) := ?m x in _] => assert (K : keeps _ m) end.
        { apply KB; [apply KF; intros; apply KB; [apply KE|intros; intro; reflexivity]|]. intro.
          apply KB; [apply KF; intros; apply KB; [apply KE|intros; intro; reflexivity]|]. intros; intro; reflexivity. }
        specialize (K x). match goal with |- context [let (_, _) := ?m x in _] => destruct (m x) as [x' [?|?|?|?]] end; exact K. }
      specialize (KS o). rewrite E in KS. exact KS. }
    assert (LB : left_behind pr esz (o_vars o) (o_trace o) o).
    { split; [exact SZ|]. split; [reflexivity|]. exists []. rewrite app_nil_r. split; [reflexivity|intros []]. }
    pose proof (evaluate_sim throws pr esz (fits pr ED) vars o (o_vars o) (o_trace o) LB) as H.
    unfold sim in H. rewrite E in H. destruct r as [es|e|k|w].
    - destruct H as (b & HB & -> & buf & _ & ->). splits; auto. discriminate.
    - destruct H as (HB & LB'). splits; auto; [discriminate|apply LB'].
    - destruct H as (HB & LB'). splits; auto; [discriminate|apply LB'].
    - exfalso. exact (evaluate_defined vars w (proj1 H)).
  Qed.

  (** ** C60 *)

  (** What variables() is after [k] iterations: after a Solve that is limited to [k] iterations and has no callback. *)
  Definition variables_after (pa : NLSParams F) (vars : list F) (k : nat) (v : list F) : Prop :=
    exists (cs : S) g r, NLS_Solve ldlt qr llt eigs retract None (with_max pa (Z.of_nat k)) pr g vars cs = Ok r /\ res_vars r = v.

  (** A Solve that ends with an exception has either rejected its parameters and changed nothing, or leaves in
      variables() the iterate it had reached; the object is again one of those C59 is about. *)
  Theorem C60_exception_leaves_an_iterate : forall o throws junk cb pa vars o' r, history o ->
    solve throws junk cb pa vars o = (o', r) -> (forall out, r <> Ret out) ->
    history o' /\
    ((exists e, NLS_CheckParams pa = Throw e /\ o' = o) \/
     exists j, (Z.of_nat j <= n_max_iterations pa)%Z /\ variables_after pa vars j (o_vars o')).
  Proof.
    intros o throws junk cb pa vars o' r HH E NR. split.
    { pose proof (h_solve o pr throws junk cb pa vars ED HH) as X. rewrite E in X. exact X. }
    pose proof (solve_sim ldlt qr llt eigs retract throws junk pr esz (fits pr ED) cb pa (fun _ => junk 0) vars o (history_sized o HH)) as H.
    cbv zeta in H. unfold sim in H. rewrite E in H.
    assert (G : (exists e, NLS_CheckParams pa = Throw e /\ o' = o) \/
                exists j r, (Z.of_nat j <= n_max_iterations pa)%Z /\
                  NLS_Solve ldlt qr llt eigs retract None (with_max pa (Z.of_nat j)) pr (fun _ => junk 0) vars (o_cs o) = Ok r /\ res_vars r = o_vars o').
    { destruct r as [out|e|k|w]; [exfalso; exact (NR out eq_refl)| | |]; apply H. }
    destruct G as [G|(j & x & L & HR & HV)]; [left; exact G|right]. exists j. split; [exact L|].
    exists (o_cs o), (fun _ => junk 0), x. auto.
  Qed.

  (** The k-th time the callback is invoked (from 0), variables() are those after k + 1 iterations; a Solve that returns
      has invoked it once per logged iteration. *)
  Theorem C60_callback_sees_the_iterate : forall o throws junk cb pa vars o' out, history o ->
    solve throws junk cb pa vars o = (o', Ret out) ->
    exists sn, o_seen o' = o_seen o ++ sn /\
      length sn = match cb with Some _ => length (out_iterations out) | None => 0 end /\
      forall k w, nth_error sn k = Some w -> variables_after pa vars (k + 1) w.
  Proof.
    intros o throws junk cb pa vars o' out HH E.
    pose proof (solve_sim ldlt qr llt eigs retract throws junk pr esz (fits pr ED) cb pa (fun _ => junk 0) vars o (history_sized o HH)) as H.
    cbv zeta in H. unfold sim in H. rewrite E in H. destruct H as (res & _ & _ & _ & _ & _ & _ & _ & sn & S1 & S2 & S3 & S4).
    exists sn. split; [exact S1|]. split.
    - destruct cb; [apply S3; discriminate|]. rewrite S2 by reflexivity. reflexivity.
    - intros k w HN. destruct (S4 k w HN) as (r & HR & HV). rewrite Nat.add_1_r. exists (o_cs o), (fun _ => junk 0), r. auto.
  Qed.

  (** ** C61 *)

  (** The events a returning Solve adds to the trace, in the order in which the scopes end: per logged iteration the
      linearisation, the QP, the derivative, one evaluation per line search step and the line search; if the QP turned out
      to be indefinite, the linearisation and the QP of the iteration that is not logged; and Solve itself. *)
  Definition events (out : NLSSolverOutputs F) : list string :=
    flat_map (fun i => ["LinearizeAndFillQP"; "ComputeStepDirection"; "ComputeQPCostDerivative"] ++
                       repeat "EvaluateNonlinearErrors" (length (it_line_search_steps i)) ++ ["SelectStepSize"])
             (out_iterations out) ++
    match out_termination_state out with QP_INDEFINITE => ["LinearizeAndFillQP"; "ComputeStepDirection"] | _ => [] end ++
    ["Solve"].

  Theorem C61_trace_of_a_solve : forall o throws junk cb pa vars o' r, history o ->
    solve throws junk cb pa vars o = (o', r) ->
    match r with
    | Ret out => o_trace o' = o_trace o ++ events out
    | _ => exists t, o_trace o' = o_trace o ++ t /\ ~ In "Solve" t
    end.
  Proof.
    intros o throws junk cb pa vars o' r HH E.
    pose proof (solve_sim ldlt qr llt eigs retract throws junk pr esz (fits pr ED) cb pa (fun _ => junk 0) vars o (history_sized o HH)) as H.
    cbv zeta in H. unfold sim in H. rewrite E in H. destruct r as [out|e|k|w]; [|apply H|apply H|apply H].
    destruct H as (res & _ & _ & _ & _ & _ & HT & _). exact HT.
  Qed.

  (** ** C62 *)

  (** The user functions a returning Solve invokes: every residual once per iteration for its Jacobian and once per line
      search step for its error; the retraction once per line search step; the callback once per logged iteration. *)
  Definition invocations (cb : option (S -> NLSIteration F -> S * bool)) (out : NLSSolverOutputs F) : nat :=
    let residuals := length (pr_costs pr) + length (pr_eq pr) in
    let steps := list_sum (map (fun i => length (it_line_search_steps i)) (out_iterations out)) in
    let logged := length (out_iterations out) in
    let started := logged + match out_termination_state out with QP_INDEFINITE => 1 | _ => 0 end in
    residuals * started + residuals * steps +
    match retract with Some _ => steps | None => 0 end + match cb with Some _ => logged | None => 0 end.

  Theorem C62_invocations : forall o throws junk cb pa vars o' out, history o ->
    solve throws junk cb pa vars o = (o', Ret out) -> o_calls o' = o_calls o + invocations cb out.
  Proof.
    intros o throws junk cb pa vars o' out HH E.
    pose proof (solve_sim ldlt qr llt eigs retract throws junk pr esz (fits pr ED) cb pa (fun _ => junk 0) vars o (history_sized o HH)) as H.
    cbv zeta in H. unfold sim in H. rewrite E in H. destruct H as (res & _ & _ & _ & _ & _ & _ & HC & _). rewrite HC.
    unfold invocations, last_calls, nres, cb_calls. rewrite <- Nat.add_assoc. f_equal.
    assert (X : list_sum (map (fun i => iteration_calls retract pr i + match cb with Some _ => 1 | None => 0 end) (out_iterations out)) =
      (length (pr_costs pr) + length (pr_eq pr)) * length (out_iterations out) +
      (length (pr_costs pr) + length (pr_eq pr)) * list_sum (map (fun i => length (it_line_search_steps i)) (out_iterations out)) +
      match retract with Some _ => list_sum (map (fun i => length (it_line_search_steps i)) (out_iterations out)) | None => 0 end +
      match cb with Some _ => length (out_iterations out) | None => 0 end).
    { generalize (out_iterations out). induction l as [|i l IH]; [destruct retract; destruct cb; cbn; lia|].
      cbn [map list_sum fold_right length]. change (fold_right Nat.add 0) with list_sum. rewrite IH.
      unfold iteration_calls, step_calls, nres. destruct retract; destruct cb; nia. }
    rewrite X. destruct (out_termination_state out); destruct retract; destruct cb; nia.
  Qed.
End History.

(** Exact arithmetic, together with C51: on a well posed problem, an object with any history that is asked to Solve
    returns, or reports a failed factorisation, or propagates an exception a user function threw. *)
Theorem C59_well_posed : forall S ldlt qr llt eigs retract (pr0 pr : Problem R) (o : nls_object R S) throws junk cb pa vars o' r,
  editable pr0 pr -> history ldlt qr llt eigs retract pr0 o ->
  well_posed pa pr vars -> retraction_ok retract -> (pr_ineq pr = [] -> pr_eq pr <> [] -> full_rank qr pr) ->
  Solve_o ldlt qr llt eigs retract throws junk pr cb pa vars o = (o', r) ->
  (exists out, r = Ret out) \/ (r = LibExn FailedFactorization /\ factorization_failed ldlt pa pr) \/
  (exists k, r = UserExn k /\ throws k = true).
Proof.
  intros S ldlt qr llt eigs retract pr0 pr o throws junk cb pa vars o' r ED HH WP RO FR E.
  pose proof (C59_solve_ignores_history _ _ _ _ _ _ _ ED _ _ _ _ _ _ (fun _ => junk 0) _ _ HH E) as H.
  pose proof (C51_solve_returns ldlt qr llt eigs retract cb pa pr (fun _ => junk 0) vars (o_cs o) WP RO FR) as T.
  destruct r as [out|e|k|w]; [left; eauto| |right; right; eauto|].
  - destruct T as [(x & T)|[T B]]; rewrite T in H; [discriminate|]. right. left. split; [congruence|exact B].
  - destruct T as [(x & T)|[T B]]; rewrite T in H; discriminate.
Qed.
