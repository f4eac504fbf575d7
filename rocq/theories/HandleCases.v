(** Concrete cases for C86 (ResidualHandleProps.v). *)
From Coq Require Import String List Bool Arith ZArith QArith Reals Lra Lia.
From Verif Require Import Scalar Outcome LinAlg Structs Constraint QPModel NullSpace Residual Nonlinear NLSObject RInst
  ResidualHandle ResidualHandleProps Examples Budget.
Import ListNotations.
Local Open Scope outcome_scope.
Local Open Scope string_scope.
Local Open Scope list_scope.
Local Open Scope nat_scope.

(** Two residuals are made; the first is moved into a new object, from there over the second one, self-assigned and swapped
    back; one object is called after it was moved from. *)
Definition moves : list (hop nat) :=
  [Declare_made 11; Declare_made 22; Declare_moved 0; Call 0; Assign_moved 1 2; Assign_moved 1 1; Swap 0 1; Call 0; Swap 2 2;
   Assign_made 1 33].
Example C86_moves_ok : ops_ok 0 moves.
Proof. cbn. repeat split; lia. Qed.
Example C86_moves_spec : vrun moves [] = [Some 11; Some 33; None].
Proof. reflexivity. Qed.
Example C86_moves_run : hrun moves (MkStore [] []) = Ok (MkStore [Some 11; None; Some 33] [Some 0; Some 2; None]).
Proof. vm_compute. reflexivity. Qed.
Example C86_moves_case : exists s, hrun moves (MkStore [] []) = Ok s /\ contents s = [Some 11; Some 33; None].
Proof. destruct (C86_ownership moves C86_moves_ok) as (s & E & CC & _). exists s. split; [exact E|exact CC]. Qed.

(** The problem of Examples.v with its residuals behind handles. *)
Definition h_ros : handle R := MakeResidual (Some 2) (Some 2) [0; 1]%Z ros_f (fun p => (ros_f p, ros_J p)).
Definition h_fix0 : handle R := MakeResidual (Some 1) (Some 1) [0]%Z (fun p => [vget p 0 - 1]%R) (fun p => ([vget p 0 - 1], Mat 1 1 [[1]])%R).
Definition hp_ns : hproblem R := MkHProblem 2%Z [h_ros] [] [h_fix0].
Example C86_usable_case : as_problem hp_ns = Some ex_ns /\ h_construct (Some hp_ns) = Ok (1, 2).
Proof. split; reflexivity. Qed.
Example C86_list_case : MakeResidual_list (Some 2) (Some 2) [0; 1]%Z ros_f (fun p => (ros_f p, ros_J p)) = Ok h_ros /\
  exists w, MakeResidual_list (Some 2) (Some 2) [0; 1; 1]%Z ros_f (fun p => (ros_f p, ros_J p)) = Throw (AssertFailed w).
Proof.
  split.
  - apply C86_make_residual. reflexivity.
  - apply C86_make_residual. cbn. discriminate.
Qed.

(** The constraint was moved out of the problem: neither a new solver nor one constructed before can be used. *)
Definition hp_gone : hproblem R := MkHProblem 2%Z [h_ros] [] [None].
Lemma hp_gone_fixed : forall h, In h (handles hp_gone) -> ~ dynamic h.
Proof. intros h [<-|[<-|[]]] (c & E & D); [|discriminate]. injection E as <-. discriminate. Qed.
Example C86_constructor_case : exists w, h_construct (Some hp_gone) = Throw (AssertFailed w).
Proof. apply (C86_constructor hp_gone hp_gone_fixed). right. exists None. split; [right; left; reflexivity|reflexivity]. Qed.
Example C86_solve_case : forall vars (rest : Errors R * QP R -> outcome nat),
  exists e, h_Solve 1 default_NLSParams hp_gone vars rest 0 = Throw e.
Proof.
  intros. apply C86_solve_moved_from.
  - exact hp_gone_fixed.
  - exists None. split; [right; left; reflexivity|reflexivity].
  - unfold default_NLSParams. cbn [n_max_iterations]. lia.
  - exact (proj1 C67_defaults_accepted).
Qed.

(** A dynamic residual among the constraints: the solver is constructed, with a row too few, and the linearisation throws. *)
Definition h_dyn : handle R := MakeResidual None (Some 1) [0]%Z (fun p => [vget p 0]) (fun p => ([vget p 0], Mat 1 1 [[1%R]])).
Definition hp_dyn : hproblem R := MkHProblem 2%Z [] [] [h_ros; h_dyn].
Example C86_dynamic_case : dynamic h_dyn /\ h_construct (Some hp_dyn) = Ok (1, 2) /\
  (exists w, h_construct (Some (MkHProblem 2%Z [] [] [h_dyn])) = UB w) /\
  forall vars lambda r, h_LinearizeAndFillQP 1 vars lambda hp_dyn <> Ok r.
Proof.
  assert (D : dynamic h_dyn) by (eexists; split; reflexivity).
  split; [exact D|]. split; [reflexivity|]. split; [eexists; reflexivity|].
  intros vars lambda r. apply (C86_dynamic_unusable h_dyn D). right. left. reflexivity.
Qed.

Example C86_dynamic_hessian_case : exists G c e, h_UpdateHessian h_dyn [2%R] (mzero 1 1) [0%R] = Ok (G, c, e) /\ mget G 0 0 = 1%R /\ c = [2%R] /\ e = 2%R.
Proof.
  destruct (C86_dynamic_hessian (Some 1) [0]%Z (fun p => [vget p 0]) (fun p => ([vget p 0], Mat 1 1 [[1%R]])) [2%R] [2%R]
              (mzero 1 1) [0%R] eq_refl eq_refl eq_refl) as (E & _ & _).
  unfold h_dyn. rewrite (E ltac:(discriminate) eq_refl). do 3 eexists. split; [reflexivity|].
  unfold mget, lit_half, Q2R, fsqnorm. cbn. split; [lra|]. split; [f_equal; lra|]. unfold flit, R_ops, Q2R. cbn. lra.
Qed.
