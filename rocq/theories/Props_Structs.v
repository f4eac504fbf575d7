(** C11 (maxima, real arithmetic), C43 (summary counters), C44 (streamed enum names). *)
From Coq Require Import String List Bool Arith ZArith Reals Lra Lia.
From Verif Require Import Scalar Outcome LinAlg Structs RInst.
Import ListNotations.
Local Open Scope list_scope.
Local Open Scope R_scope.

(** [m] is the least upper bound of the list [l] and is attained. *)
Definition is_max (m : R) (l : list R) : Prop := In m l /\ forall x, In x l -> x <= m.

Lemma fmax_list_R : forall l x, fmax_list x l = fold_left Rmax l x.
Proof.
  unfold fmax_list. induction l as [|y l IH]; intro x; simpl; [reflexivity|]. rewrite R_fmax. apply IH.
Qed.

Lemma fold_Rmax_is_max : forall l x, is_max (fold_left Rmax l x) (x :: l).
Proof.
  induction l as [|y l IH]; intro x; simpl.
  - split; [left; reflexivity|]. intros z [->|[]]. lra.
  - destruct (IH (Rmax x y)) as [A B]. split.
    + destruct A as [A|A]; [|right; right; exact A].
      rewrite <- A. unfold Rmax at 1. destruct (Rle_dec x y); [right; left|left]; reflexivity.
    + intros z [->|[->|Hz]].
      * apply Rle_trans with (Rmax z y); [apply Rmax_l|]. apply B. left. reflexivity.
      * apply Rle_trans with (Rmax x z); [apply Rmax_r|]. apply B. left. reflexivity.
      * apply B. right. exact Hz.
Qed.

(** C11: the three maxima are the largest component (largest magnitude for the derivatives). *)
Theorem C11_max_is_least_upper_bound :
  (forall k : KKTError R, is_max (KKT_Max k) [r_dual k; r_comp k; r_primal_eq k; r_primal_ineq k]) /\
  (forall e : Errors R, is_max (Errors_LInfinity e) [err_f e; err_equality e]) /\
  (forall d : DirectionalDerivatives R, is_max (DD_LInfinity d) [Rabs (d_f d); Rabs (d_equality d)]).
Proof.
  splits.
  - intro k. unfold KKT_Max. rewrite fmax_list_R. apply fold_Rmax_is_max.
  - intro e. unfold Errors_LInfinity. rewrite R_fmax. apply (fold_Rmax_is_max [err_equality e] (err_f e)).
  - intro d. unfold DD_LInfinity. rewrite R_fmax. apply (fold_Rmax_is_max [Rabs (d_equality d)] (Rabs (d_f d))).
Qed.

Example C11_case : KKT_Max (MkKKT 1 3 2 0) = 3 /\ DD_LInfinity (MkDD (-4) 2) = 4.
Proof.
  destruct C11_max_is_least_upper_bound as (A & _ & B). split.
  - destruct (A (MkKKT 1 3 2 0)) as [I U]. cbn [r_dual r_comp r_primal_eq r_primal_ineq] in I, U.
    specialize (U 3 (or_intror (or_introl eq_refl))).
    destruct I as [I|[I|[I|[I|[]]]]]; lra.
  - destruct (B (MkDD (-4) 2)) as [I U]. cbn [d_f d_equality] in I, U.
    specialize (U (Rabs (-4)) (or_introl eq_refl)).
    rewrite Rabs_left in I, U by lra. rewrite Rabs_right in I by lra.
    destruct I as [I|[I|[]]]; lra.
Qed.

Local Open Scope nat_scope.

(** ** C43 *)
Section Counters.
  Context {F : Type}.

  (** Number of QP solver iterations spent by one nonlinear iteration: the length of the inner log, or
      one null space solve. *)
  Definition qp_count (it : NLSIteration F) : nat :=
    match it_qp_outputs it with InteriorPointOut ip => length (qp_iterations ip) | NullSpaceOut _ => 1 end.
  Definition line_search_failed (it : NLSIteration F) : bool :=
    match it_step_result it with SS_SUCCESS | FIRST_ORDER_SATISFIED => false | _ => true end.

  Lemma fold_count : forall (A : Type) (w : A -> nat) l n, fold_left (fun t a => t + w a) l n = n + list_sum (map w l).
  Proof. intros A w. induction l as [|a l IH]; intro n; simpl; [lia|]. rewrite IH. lia. Qed.

  (** C43: the counters are sums over the iteration log. *)
  Theorem C43_counters : forall o : NLSSolverOutputs F,
    NumQPIterations o = list_sum (map qp_count (out_iterations o)) /\
    NumLineSearchSteps o = list_sum (map (fun it => length (it_line_search_steps it)) (out_iterations o)) /\
    NumFailedLineSearches o = length (filter line_search_failed (out_iterations o)).
  Proof.
    intro o. splits.
    - unfold NumQPIterations.
      assert (G : forall (l : list (NLSIteration F)) n,
        fold_left (fun total (it : NLSIteration F) =>
                 match it_qp_outputs it with
                 | InteriorPointOut ip => total + List.length (qp_iterations ip)
                 | NullSpaceOut _ => total + 1
                 end) l n = n + list_sum (map qp_count l)).
      { induction l as [|it l IH]; intro n; cbn [fold_left map list_sum fold_right]; [lia|].
        rewrite IH. change (fold_right Nat.add 0 (map qp_count l)) with (list_sum (map qp_count l)).
        unfold qp_count at 2. destruct (it_qp_outputs it); lia. }
      apply (G (out_iterations o) 0).
    - unfold NumLineSearchSteps. apply (fold_count _ (fun it : NLSIteration F => length (it_line_search_steps it))).
    - unfold NumFailedLineSearches.
      rewrite (fold_count _ (fun it : NLSIteration F => match it_step_result it with SS_SUCCESS | FIRST_ORDER_SATISFIED => 0 | _ => 1 end)).
      simpl. induction (out_iterations o) as [|it l IH]; simpl; [reflexivity|].
      rewrite IH. unfold line_search_failed at 2. destruct (it_step_result it); reflexivity.
  Qed.
End Counters.

Theorem C43_satisfied_tol_states : forall s,
  TerminationStateIndicatesSatisfiedTol s = true <->
  s = SATISFIED_ABSOLUTE_TOL \/ s = SATISFIED_RELATIVE_TOL \/ s = SATISFIED_FIRST_ORDER_TOL.
Proof. intros []; simpl; split; intuition discriminate. Qed.

(** ** C44 *)
Ltac inj_enum := let H := fresh in intros [] []; simpl; intro H; first [reflexivity | discriminate H].

(** C44: no two enumerators of the same enum stream the same text. *)
Theorem C44_names_distinct :
  (forall a b, InitialGuessMethod_str a = InitialGuessMethod_str b -> a = b) /\
  (forall a b, QPInteriorPointTerminationState_str a = QPInteriorPointTerminationState_str b -> a = b) /\
  (forall a b, QPNullSpaceTerminationState_str a = QPNullSpaceTerminationState_str b -> a = b) /\
  (forall a b, LineSearchStrategy_str a = LineSearchStrategy_str b -> a = b) /\
  (forall a b, OptimizerState_str a = OptimizerState_str b -> a = b) /\
  (forall a b, StepSizeSelectionResult_str a = StepSizeSelectionResult_str b -> a = b) /\
  (forall a b, NLSTerminationState_str a = NLSTerminationState_str b -> a = b).
Proof. splits; inj_enum. Qed.
