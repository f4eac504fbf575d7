(** Concrete cases for C90. *)
From Coq Require Import String List Bool Arith ZArith QArith Reals Lra Lia.
From Verif Require Import Scalar Outcome LinAlg Structs Constraint QPModel NullSpace Residual Nonlinear RInst Spec
  ResProps LinProps NSProps NLSTotal NLSSame NLSShift Examples Examples2 CasesNLS.
Import ListNotations.
Local Open Scope outcome_scope.
Local Open Scope string_scope.
Local Open Scope list_scope.
Local Open Scope R_scope.

(** Rosenbrock's function in the box x0 <= 2, x1 >= -1, and the same function moved by (10, 20), in the box x0 <= 12, x1 >= 19. *)
Definition moved_ros_f (p : list R) : list R := ros_f [vget p 0 - 10; vget p 1 - 20].
Definition moved_ros_J (p : list R) : mat R := ros_J [vget p 0 - 10; vget p 1 - 20].
Definition moved_ex_ip : Problem R :=
  MkProblem 2%Z [MkRes 2 [0; 1]%Z moved_ros_f (fun p => (moved_ros_f p, moved_ros_J p))] [Var_le 0%Z 12; Var_ge 1%Z 19] [].

Lemma moved_is_shifted : moved_ex_ip = shift_problem [10; 20] ex_ip.
Proof.
  unfold moved_ex_ip, shift_problem, ex_ip, ros_box, Var_le, Var_ge, shift_constraint. cbn [pr_dimension pr_costs pr_ineq pr_eq map lvar la lb].
  f_equal. unfold vget. cbn [Z.to_nat nth fneg f1 R_ops]. f_equal; [f_equal; lra|]. f_equal. f_equal. change (Pos.to_nat 1) with 1%nat. cbn [nth]. lra.
Qed.

(** Solve returns for both, from every start and its moved counterpart, with the same log; the result moves along. *)
Example C90_case : forall (S : Type) (cb : option (S -> NLSIteration R -> S * bool)) eigs g a b cs,
  exists out v cs',
    NLS_Solve ldlt2 ns_ex_qr ns_ex_llt eigs None cb default_NLSParams ex_ip g [a; b] cs = Ok (MkNLSResult out v cs') /\
    NLS_Solve ldlt2 ns_ex_qr ns_ex_llt eigs None cb default_NLSParams moved_ex_ip g [a + 10; b + 20] cs = Ok (MkNLSResult out (vadd v [10; 20]) cs').
Proof.
  intros S cb eigs g a b cs. destruct (ex_ip_solved cb eigs g [a; b] cs eq_refl) as [[out v cs'] E]. exists out, v, cs'. split; [exact E|].
  assert (KL : keeps_length (F := R) None) by (intros f X; discriminate).
  pose proof (C90_origin_irrelevant ldlt2 ns_ex_qr ns_ex_llt eigs None S cb ex_ip [10; 20] default_NLSParams g [a; b] cs KL eq_refl eq_refl) as A.
  rewrite E, <- moved_is_shifted in A. exact A.
Qed.

(** A user supplied retraction, on the second variable an angle kept below a full turn (here: an arbitrary function [wrap]), and the same
    retraction in moved coordinates. *)
Definition wrapping (wrap : R -> R) : list R -> list R -> R -> list R :=
  fun v dx a => mkvec (length v) (fun i => if (i =? 1)%nat then wrap (vget v i + vget dx i * a) else vget v i + vget dx i * a).
Example C90_case_retraction : forall wrap (S : Type) (cb : option (S -> NLSIteration R -> S * bool)) eigs g vars cs, length vars = 2%nat ->
  keeps_length (Some (wrapping wrap)) /\
  NLS_Solve ldlt2 ns_ex_qr ns_ex_llt eigs (shift_retraction [10; 20] (Some (wrapping wrap))) cb default_NLSParams moved_ex_ip g (vadd vars [10; 20]) cs =
  map_vars (fun v => vadd v [10; 20]) (NLS_Solve ldlt2 ns_ex_qr ns_ex_llt eigs (Some (wrapping wrap)) cb default_NLSParams ex_ip g vars cs).
Proof.
  intros wrap S cb eigs g vars cs LV.
  assert (KL : keeps_length (Some (wrapping wrap))).
  { intros f X v dx a. injection X as <-. unfold wrapping. apply mkvec_length. }
  split; [exact KL|]. rewrite moved_is_shifted. apply C90_origin_irrelevant; [exact KL|reflexivity|exact LV].
Qed.
