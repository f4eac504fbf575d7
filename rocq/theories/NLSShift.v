(** C90: the choice of the origin of the coordinates does not matter to the nonlinear solver; more generally two problems that are
    related by any map of their points that the retraction respects are solved in step. *)
From Coq Require Import String List Bool Arith ZArith QArith Reals Lra Lia.
From Verif Require Import Scalar Outcome LinAlg Structs Constraint QPModel NullSpace Residual Nonlinear RInst Spec
  Props_Constraint QPStep ResProps LinProps NLSTotal NLSSame.
Import ListNotations.
Local Open Scope outcome_scope.
Local Open Scope string_scope.
Local Open Scope list_scope.

(** ** Any arithmetic: a map of the points *)
(** The result of a call with every point replaced by its image. *)
Definition map_vars {F S : Type} (phi : list F -> list F) (r : outcome (@nls_result F S)) : outcome (@nls_result F S) :=
  match r with
  | Ok (MkNLSResult out v cs) => Ok (MkNLSResult out (phi v) cs)
  | Throw w => Throw w
  | UB w => UB w
  end.

Section AnyArith.
  Context {F : Type} {O : Ops F}.
  Variable ldlt : mat F -> option (mat F).
  Variable qr : mat F -> QRResult F.
  Variable llt : mat F -> option (list F -> list F).
  Variable eigs : mat F -> QPEigenvalues F.
  Variables retract1 retract2 : option (list F -> list F -> F -> list F).
  Context {S : Type}.
  Variable cb : option (S -> NLSIteration F -> S * bool).
  Variable phi : list F -> list F.
  Variables pr1 pr2 : Problem F.
  Let n0 := Z.to_nat (pr_dimension pr1).

  (** Linearised at a point and at its image the problems give the same QP and the same errors; steps commute with the map. *)
  Record related_by : Prop := {
    rb_dim : pr_dimension pr1 = pr_dimension pr2;
    rb_ineq : pr_ineq pr1 = [] <-> pr_ineq pr2 = [];
    rb_eq : pr_eq pr1 = [] <-> pr_eq pr2 = [];
    rb_lin : forall v l, length v = n0 -> LinearizeAndFillQP (phi v) l pr2 = LinearizeAndFillQP v l pr1;
    rb_eval : forall v, length v = n0 -> EvaluateNonlinearErrors pr2 (phi v) = EvaluateNonlinearErrors pr1 v;
    rb_step : forall v dx a, length v = n0 ->
      RetractCandidateVars retract2 (phi v) dx a = bind (RetractCandidateVars retract1 v dx a) (fun v' => Ok (phi v')) }.

  Hypothesis KL : keeps_length retract1.
  Hypothesis RB : related_by.

  Let mst (st : nls_state F) : nls_state F := MkNS (phi (ns_vars st)) (ns_lambda st) (ns_penalty st) (ns_opt st).

  Lemma ls_loop_related : forall vars dx abs_tol ep dd penalty c1 strategy tau, length vars = n0 ->
    forall n iter alpha steps cand, length cand = n0 ->
    ls_loop retract2 n iter alpha steps (phi cand) pr2 (phi vars) dx abs_tol ep dd penalty c1 strategy tau =
    bind (ls_loop retract1 n iter alpha steps cand pr1 vars dx abs_tol ep dd penalty c1 strategy tau) (fun r => Ok (fst r, phi (snd r))) /\
    forall r, ls_loop retract1 n iter alpha steps cand pr1 vars dx abs_tol ep dd penalty c1 strategy tau = Ok r -> length (snd r) = n0.
  Proof.
    intros vars dx abs_tol ep dd penalty c1 strategy tau LV. induction n as [|n IH]; intros iter alpha steps cand LC; cbn [ls_loop].
    - cbn [bind fst snd]. split; [reflexivity|]. intros r H. apply Ok_inj in H. subst r. exact LC.
    - destruct (next_alpha strategy tau iter alpha steps ep dd penalty) as [oa|w|w]; cbn [bind]; try (split; [reflexivity|discriminate]).
      destruct oa as [a|]; [|split; [reflexivity|intros r H; apply Ok_inj in H; subst r; exact LC]].
      rewrite (rb_step RB vars dx a LV).
      destruct (RetractCandidateVars retract1 vars dx a) as [c|w|w] eqn:ER; cbn [bind]; try (split; [reflexivity|discriminate]).
      pose proof (retract_length retract1 pr1 KL _ _ _ _ LV ER) as LC'.
      rewrite (rb_eval RB c LC'). destruct (EvaluateNonlinearErrors pr1 c) as [es|w|w]; cbn [bind]; try (split; [reflexivity|discriminate]).
      repeat match goal with |- context [if ?b then Ok _ else _] => destruct b;
        [split; [reflexivity|intros r H; apply Ok_inj in H; subst r; exact LC']|] end.
      apply IH. exact LC'.
  Qed.

  Lemma step_direction_related : forall g pa qp,
    ComputeStepDirection ldlt qr llt g pa pr1 qp = ComputeStepDirection ldlt qr llt g pa pr2 qp.
  Proof.
    intros g pa qp. unfold ComputeStepDirection, use_null_space, inner_qp_params, pdim. rewrite (rb_dim RB).
    pose proof (rb_ineq RB) as HI. pose proof (rb_eq RB) as HE.
    destruct (pr_ineq pr1), (pr_ineq pr2), (pr_eq pr1), (pr_eq pr2); try reflexivity;
      exfalso; destruct HI as [HI1 HI2], HE as [HE1 HE2];
      try (discriminate (HI1 eq_refl)); try (discriminate (HI2 eq_refl)); try (discriminate (HE1 eq_refl)); discriminate (HE2 eq_refl).
  Qed.
  Lemma update_penalty_related : forall pa qp dx o p, update_penalty pa pr1 qp dx o p = update_penalty pa pr2 qp dx o p.
  Proof.
    intros. unfold update_penalty. pose proof (rb_eq RB) as HE.
    destruct (pr_eq pr1), (pr_eq pr2); try reflexivity; exfalso; destruct HE as [HE1 HE2];
      try (discriminate (HE1 eq_refl)); discriminate (HE2 eq_refl).
  Qed.

  Lemma iterate_related : forall pa g k st, length (ns_vars st) = n0 ->
    nls_iterate ldlt qr llt eigs retract2 pa pr2 g k (mst st) =
    bind (nls_iterate ldlt qr llt eigs retract1 pa pr1 g k st)
      (fun r => Ok match r with IterIndefinite => IterIndefinite | IterDone st' info ex => IterDone (mst st') info ex end) /\
    forall st' info ex, nls_iterate ldlt qr llt eigs retract1 pa pr1 g k st = Ok (IterDone st' info ex) -> length (ns_vars st') = n0.
  Proof.
    intros pa g k st LV. unfold nls_iterate. cbn [mst ns_vars ns_lambda ns_penalty ns_opt]. rewrite (rb_lin RB _ _ LV).
    destruct (LinearizeAndFillQP (ns_vars st) (ns_lambda st) pr1) as [[ep qp]|w|w]; cbn [bind]; try (split; [reflexivity|discriminate]).
    rewrite <- step_direction_related.
    destruct (ComputeStepDirection ldlt qr llt g pa pr1 qp) as [[o dx]|w|w]; cbn [bind]; try (split; [reflexivity|discriminate]).
    destruct (QPWasIndefinite o); [split; [reflexivity|discriminate]|].
    destruct (ComputeQPCostDerivative qp dx) as [dd|w|w]; cbn [bind]; try (split; [reflexivity|discriminate]).
    rewrite <- update_penalty_related. set (pen := update_penalty pa pr1 qp dx o (ns_penalty st)). unfold SelectStepSize.
    destruct (f_assert (fgtb pen f0) "penalty > 0") as [?|w|w]; cbn [bind]; try (split; [reflexivity|discriminate]).
    destruct (f_assert (negb (Errors_ContainsInvalidValues ep)) "errors_pre is finite") as [?|w|w]; cbn [bind]; try (split; [reflexivity|discriminate]).
    destruct (ls_loop_related (ns_vars st) dx (n_absolute_first_derivative_tol pa) ep dd pen (flit lit_1em4) (n_line_search_strategy pa)
      (n_armijo_search_tau pa) LV (Z.to_nat (n_max_line_search_iterations pa + 1)) 0%nat f1 [] (ns_vars st) LV) as [E L].
    rewrite E.
    destruct (ls_loop _ _ _ _ _ _ pr1 _ _ _ _ _ _ _ _ _) as [[[sr steps] cand]|w|w]; cbn [bind fst snd]; try (split; [reflexivity|discriminate]).
    specialize (L _ eq_refl). cbn [snd] in L.
    assert (UE : UpdateLambdaAndCheckExitConditions pa sr ep pen steps (phi cand) (phi (ns_vars st)) (ns_lambda st) (ns_opt st) =
                 bind (UpdateLambdaAndCheckExitConditions pa sr ep pen steps cand (ns_vars st) (ns_lambda st) (ns_opt st)) (fun r => Ok (fst r, mst (snd r)))).
    { unfold UpdateLambdaAndCheckExitConditions. destruct sr.
      1: { destruct (f_assert _ _) as [?|w|w]; cbn [bind]; try reflexivity.
           repeat match goal with |- context [if ?b then _ else _] => destruct b end; reflexivity. }
      all: try reflexivity.
      all: match goal with |- context [if fgtb ?a ?m then _ else _] => destruct (fgtb a m) end; reflexivity. }
    rewrite UE. split.
    - destruct (UpdateLambdaAndCheckExitConditions pa sr ep pen steps cand (ns_vars st) (ns_lambda st) (ns_opt st)) as [[ex st1]|w|w]; reflexivity.
    - intros st' info ex H. apply bind_ok_inv in H. destruct H as ([ex' st1] & E1 & H).
      apply Ok_inj in H. injection H as <- _ _. clear UE E.
      unfold UpdateLambdaAndCheckExitConditions in E1. destruct sr.
      1: { apply bind_ok_inv in E1. destruct E1 as (u & _ & E1).
           repeat match type of E1 with context [if ?b then _ else _] => destruct b end;
             apply Ok_inj in E1; apply pair_inj in E1; destruct E1 as [_ <-]; exact L. }
      all: try match type of E1 with context [if fgtb ?a ?m then _ else _] => destruct (fgtb a m) end;
        apply Ok_inj in E1; apply pair_inj in E1; destruct E1 as [_ <-]; exact LV.
  Qed.

  Lemma loop_related : forall pa g n iter log st cs, length (ns_vars st) = n0 ->
    nls_loop ldlt qr llt eigs retract2 cb n pa pr2 g iter log (mst st) cs =
    map_vars phi (nls_loop ldlt qr llt eigs retract1 cb n pa pr1 g iter log st cs).
  Proof.
    intros pa g. induction n as [|n IH]; intros iter log st cs LV; cbn [nls_loop]; [reflexivity|].
    destruct (iterate_related pa (g iter) (Z.of_nat iter) st LV) as [E L]. rewrite E.
    destruct (nls_iterate _ _ _ _ _ _ pr1 _ _ _) as [[|st' info ex]|w|w]; cbn [bind]; try reflexivity.
    specialize (L _ _ _ eq_refl). destruct (call_cb cb cs info) as [cs' pc].
    destruct ex; [reflexivity|]. destruct pc; [|reflexivity]. apply IH. exact L.
  Qed.

  (** Related problems are solved in step: the same log, the same callback history, the image of the point; or the same exception. *)
  Theorem C90_related_problems : forall pa g vars cs, length vars = Z.to_nat (pr_dimension pr1) ->
    NLS_Solve ldlt qr llt eigs retract2 cb pa pr2 g (phi vars) cs = map_vars phi (NLS_Solve ldlt qr llt eigs retract1 cb pa pr1 g vars cs).
  Proof.
    intros pa g vars cs LV. unfold NLS_Solve. destruct (NLS_CheckParams pa); cbn [bind]; try reflexivity.
    apply (loop_related pa g _ 0%nat [] (MkNS vars (n_lambda_initial pa) (n_equality_penalty_initial pa) NOMINAL) cs). exact LV.
  Qed.
End AnyArith.

(** ** Exact arithmetic: the origin *)
Local Open Scope R_scope.

(** The problem in the coordinates x' = x + t: every function subtracts its part of t from its argument first. *)
Definition unshift (t p : list R) (index : list Z) : list R :=
  mkvec (length index) (fun a => vget p a - vget t (Z.to_nat (nth a index 0%Z))).
Definition shift_residual (t : list R) (r : residual R) : residual R :=
  MkRes (res_dim r) (res_index r) (fun p => res_f r (unshift t p (res_index r))) (fun p => res_fJ r (unshift t p (res_index r))).
Definition shift_constraint (t : list R) (c : lic R) : lic R := LIC (lvar c) (la c) (lb c - la c * vget t (Z.to_nat (lvar c))).
Definition shift_problem (t : list R) (pr : Problem R) : Problem R :=
  MkProblem (pr_dimension pr) (map (shift_residual t) (pr_costs pr)) (map (shift_constraint t) (pr_ineq pr)) (map (shift_residual t) (pr_eq pr)).
(** A user supplied retraction in the new coordinates; the default, x + alpha dx, is the same in both. *)
Definition shift_retraction (t : list R) (retract : option (list R -> list R -> R -> list R)) : option (list R -> list R -> R -> list R) :=
  option_map (fun f v dx a => vadd (f (mkvec (length v) (fun i => vget v i - vget t i)) dx a) t) retract.

(** A constraint holds at x exactly if the shifted one holds at x + t, with the same margin. *)
Lemma shift_constraint_value : forall t c x, length x = length t ->
  la (shift_constraint t c) * vget (vadd x t) (Z.to_nat (lvar c)) + lb (shift_constraint t c) = la c * vget x (Z.to_nat (lvar c)) + lb c.
Proof. intros t c x L. rewrite (vadd_get x t _ L). cbn [shift_constraint la lb]. ring. Qed.

(** Whether the indices are accepted depends on the number of variables only. *)
Lemma gather_fails : forall (u v : list R), length u = length v -> forall index (x : outcome (list R)), (forall l, x <> Ok l) ->
  GatherValues u index = x -> GatherValues v index = x.
Proof.
  intros u v L index x NX. unfold GatherValues.
  enough (H : forall a b, ofold (fun acc (i : Z) => f_assert (0 <=? i)%Z "GatherValues: i >= 0" ;;
      f_assert (i <? Z.of_nat (List.length u))%Z "Index exceeds the number of params" ;; Ok (acc ++ [vget u (Z.to_nat i)])) index a = x ->
    ofold (fun acc (i : Z) => f_assert (0 <=? i)%Z "GatherValues: i >= 0" ;;
      f_assert (i <? Z.of_nat (List.length v))%Z "Index exceeds the number of params" ;; Ok (acc ++ [vget v (Z.to_nat i)])) index b = x) by apply H.
  rewrite L. induction index as [|i index IH]; intros a b; cbn [ofold].
  - intro E. destruct (NX a). symmetry. exact E.
  - destruct (f_assert (0 <=? i)%Z _) as [?|?|?]; cbn [bind]; try (intro H; exact H).
    destruct (f_assert (i <? _)%Z _) as [?|?|?]; cbn [bind]; try (intro H; exact H). apply IH.
Qed.

Lemma gather_shift : forall t v index, length v = length t ->
  GatherValues (vadd v t) index = bind (GatherValues v index) (fun p => Ok (map (fun i => vget (vadd v t) (Z.to_nat i)) index)) /\
  forall p, GatherValues v index = Ok p -> unshift t (map (fun i => vget (vadd v t) (Z.to_nat i)) index) index = p.
Proof.
  intros t v index LV. assert (LL : length (vadd v t) = length v) by (rewrite vadd_length, LV, Nat.min_id; reflexivity).
  set (r := MkRes 0 index (fun _ : list R => []) (fun _ => ([], Mat 0 0 []))). split.
  - destruct (GatherValues v index) as [p|w|w] eqn:E; cbn [bind].
    + destruct (GatherValues_inv r v p E) as [D _]. rewrite <- LL in D. exact (GatherValues_ok r (vadd v t) D).
    + apply (gather_fails v (vadd v t) (eq_sym LL) index); [intro; discriminate|exact E].
    + apply (gather_fails v (vadd v t) (eq_sym LL) index); [intro; discriminate|exact E].
  - intros p E. destruct (GatherValues_inv r v p E) as [D ->]. unfold gathered. cbn [res_index r].
    apply vec_ext; unfold unshift; [rewrite mkvec_length, map_length; reflexivity|]. rewrite mkvec_length. intros a Ha.
    rewrite (vget_mkvec R R_ops) by exact Ha.
    assert (G : forall w : list R, vget (map (fun i => vget w (Z.to_nat i)) index) a = vget w (Z.to_nat (nth a index 0%Z))).
    { intro w. unfold vget at 1. rewrite nth_indep with (d' := (fun i => vget w (Z.to_nat i)) 0%Z) by (rewrite map_length; exact Ha).
      exact (map_nth (fun i => vget w (Z.to_nat i)) index 0%Z a). }
    rewrite !G, (vadd_get v t _ LV). ring.
Qed.

Section Shift.
  Variable t : list R.

  Lemma ofold_map_ext : forall (A B C : Type) (h : B -> C) (f : A -> C -> outcome A) (g : A -> B -> outcome A) l a,
    (forall a b, In b l -> f a (h b) = g a b) -> ofold f (map h l) a = ofold g l a.
  Proof.
    intros A B C h f g l. induction l as [|b l IH]; intros a H; cbn [map ofold]; [reflexivity|].
    rewrite (H a b (or_introl eq_refl)). destruct (g a b); cbn [bind]; try reflexivity. apply IH. intros; apply H; right; assumption.
  Qed.

  Lemma error_shift : forall r v n, length v = length t -> ErrorVector (shift_residual t r) (vadd v t) n = ErrorVector r v n.
  Proof.
    intros r v n LV. unfold ErrorVector. cbn [shift_residual res_dim res_index].
    destruct (f_assert (n =? res_dim r)%nat _) as [?|?|?]; cbn [bind]; try reflexivity.
    destruct (gather_shift t v (res_index r) LV) as [E U]. rewrite E.
    destruct (GatherValues v (res_index r)) as [p|w|w]; cbn [bind]; try reflexivity.
    unfold res_err. cbn [shift_residual res_dim res_f]. rewrite (U p eq_refl). reflexivity.
  Qed.
  Lemma hessian_shift : forall r v H b, length v = length t -> UpdateHessian (shift_residual t r) (vadd v t) H b = UpdateHessian r v H b.
  Proof.
    intros r v H b LV. unfold UpdateHessian. cbn [shift_residual res_dim res_index].
    destruct (f_assert (mrows H =? mcols H)%nat _) as [?|?|?]; cbn [bind]; try reflexivity.
    destruct (f_assert (length b =? mrows H)%nat _) as [?|?|?]; cbn [bind]; try reflexivity.
    destruct (gather_shift t v (res_index r) LV) as [E U]. rewrite E.
    destruct (GatherValues v (res_index r)) as [p|w|w]; cbn [bind]; try reflexivity.
    unfold res_J, res_errJ. cbn [shift_residual res_dim res_index res_fJ]. rewrite (U p eq_refl). reflexivity.
  Qed.
  Lemma jacobian_shift : forall r v n, length v = length t -> UpdateJacobian (shift_residual t r) (vadd v t) n = UpdateJacobian r v n.
  Proof.
    intros r v n LV. unfold UpdateJacobian. cbn [shift_residual res_dim res_index].
    destruct (gather_shift t v (res_index r) LV) as [E U]. rewrite E.
    destruct (GatherValues v (res_index r)) as [p|w|w]; cbn [bind]; try reflexivity.
    unfold res_J, res_errJ. cbn [shift_residual res_dim res_index res_fJ]. rewrite (U p eq_refl). reflexivity.
  Qed.
  Lemma constraint_shift : forall c v, length v = length t -> ShiftToVec (shift_constraint t c) (vadd v t) = ShiftToVec c v.
  Proof.
    intros c v LV. unfold ShiftToVec. rewrite vadd_length, LV, Nat.min_id. unfold ShiftTo, shift_constraint. cbn [lvar la lb].
    rewrite (vadd_get v t _ LV). cbn [fadd fmul R_ops].
    replace (la c * (vget v (Z.to_nat (lvar c)) + vget t (Z.to_nat (lvar c))) + (lb c - la c * vget t (Z.to_nat (lvar c))))
      with (la c * vget v (Z.to_nat (lvar c)) + lb c) by ring. reflexivity.
  Qed.

  Variable pr : Problem R.

  Lemma total_shift : total_eq_size (shift_problem t pr) = total_eq_size pr.
  Proof. unfold total_eq_size. cbn [shift_problem pr_eq]. generalize 0%nat. induction (pr_eq pr) as [|r l IH]; intro a; cbn [map fold_left]; auto. Qed.

  Lemma linearise_shift : forall v l, length v = length t -> LinearizeAndFillQP (vadd v t) l (shift_problem t pr) = LinearizeAndFillQP v l pr.
  Proof.
    intros v l LV. unfold LinearizeAndFillQP, linearize_costs, linearize_eq. rewrite total_shift. unfold pdim. cbn [shift_problem pr_dimension pr_costs pr_ineq pr_eq].
    rewrite (ofold_map_ext _ _ _ (shift_residual t) _
      (fun (acc : mat R * list R * R) r => let '(G, c, f) := acc in do '(G', c', e) <- UpdateHessian r v G c ; Ok (G', c', fadd f e)))
      by (intros [[G c] f] r _; rewrite hessian_shift by exact LV; reflexivity).
    destruct (ofold _ (pr_costs pr) _) as [[[G c] f]|w|w]; cbn [bind]; try reflexivity.
    rewrite (ofold_map_ext _ _ _ (shift_residual t) _
      (fun (acc : list (list R) * list R * R) r => let '(rows, b, e) := acc in
         f_assert (List.length rows + res_dim r <=? total_eq_size pr)%nat "row + dim <= A_eq.rows()" ;;
         do '(J, br) <- UpdateJacobian r v (Z.to_nat (pr_dimension pr)) ; Ok (rows ++ mdata J, b ++ br, fadd e (fl1 br))))
      by (intros [[rows b] e] r _; rewrite jacobian_shift by exact LV; reflexivity).
    destruct (ofold _ (pr_eq pr) _) as [[[rows b] e]|w|w]; cbn [bind]; try reflexivity.
    rewrite (ofold_map_ext _ _ _ (shift_constraint t) _ (fun acc c => do c' <- ShiftToVec c v ; Ok (acc ++ [c'])))
      by (intros acc k _; rewrite constraint_shift by exact LV; reflexivity).
    reflexivity.
  Qed.
  Lemma evaluate_shift : forall v, length v = length t -> EvaluateNonlinearErrors (shift_problem t pr) (vadd v t) = EvaluateNonlinearErrors pr v.
  Proof.
    intros v LV. unfold EvaluateNonlinearErrors. cbn [shift_problem pr_costs pr_eq].
    rewrite (ofold_map_ext _ _ _ (shift_residual t) _ (fun f r => do e <- ErrorVector r v (res_dim r) ; Ok (fadd f (fmul (flit lit_half) (fsqnorm e)))))
      by (intros a r _; rewrite error_shift by exact LV; reflexivity).
    destruct (ofold _ (pr_costs pr) _) as [f|w|w]; cbn [bind]; try reflexivity.
    rewrite (ofold_map_ext _ _ _ (shift_residual t) _ (fun f r => do e <- ErrorVector r v (res_dim r) ; Ok (fadd f (fl1 e))))
      by (intros a r _; rewrite error_shift by exact LV; reflexivity).
    reflexivity.
  Qed.
End Shift.

(** C90: the same problem in coordinates shifted by t, started at the shifted point, gives the same log (every cost, step size,
    multiplier, ...), the same callback history and the shifted result, or the same exception. *)
Theorem C90_origin_irrelevant : forall ldlt qr llt eigs retract (S : Type) (cb : option (S -> NLSIteration R -> S * bool))
  (pr : Problem R) t pa g vars cs,
  keeps_length retract -> length t = Z.to_nat (pr_dimension pr) -> length vars = Z.to_nat (pr_dimension pr) ->
  NLS_Solve ldlt qr llt eigs (shift_retraction t retract) cb pa (shift_problem t pr) g (vadd vars t) cs =
  map_vars (fun v => vadd v t) (NLS_Solve ldlt qr llt eigs retract cb pa pr g vars cs).
Proof.
  intros ldlt qr llt eigs retract S cb pr t pa g vars cs KL LT LV.
  apply (C90_related_problems ldlt qr llt eigs retract (shift_retraction t retract) cb (fun v => vadd v t) pr (shift_problem t pr) KL); [|exact LV].
  constructor.
  - reflexivity.
  - cbn [shift_problem pr_ineq]. destruct (pr_ineq pr); split; intro H; try reflexivity; discriminate.
  - cbn [shift_problem pr_eq]. destruct (pr_eq pr); split; intro H; try reflexivity; discriminate.
  - intros v l Lv. apply linearise_shift. congruence.
  - intros v Lv. apply evaluate_shift. congruence.
  - intros v dx a Lv. assert (LVT : length v = length t) by congruence.
    unfold RetractCandidateVars. destruct retract as [f|] eqn:ER; cbn [shift_retraction option_map bind].
    + f_equal. f_equal. f_equal. apply vec_ext; rewrite mkvec_length, vadd_length, LVT, Nat.min_id; [reflexivity|].
      intros i Hi. rewrite (vget_mkvec R R_ops) by exact Hi. rewrite (vadd_get v t _ LVT). cbn [fsub R_ops]. ring.
    + rewrite vadd_length, LVT, Nat.min_id. destruct (length t =? length dx)%nat eqn:ED; cbn [ub_unless bind]; [|reflexivity].
      apply Nat.eqb_eq in ED. f_equal.
      apply vec_ext; rewrite !vadd_length, !vscale_length; [lia|]. intros i Hi.
      rewrite !vadd_get; rewrite ?vadd_length, ?vscale_length; try lia. ring.
Qed.
