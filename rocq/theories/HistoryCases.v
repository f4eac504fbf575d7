(** A concrete history of calls, in binary64 (see FloatRun.v), for the theorems of NLSHistory.v: TestRosenbrock solved
    while the callback or the residual throws, then solved again with the same object. *)
From Coq Require Import String List Bool Arith ZArith QArith Lia.
From Flocq Require Import Core BinarySingleNaN.
From Verif Require Import Scalar Outcome LinAlg Structs Constraint QPModel NullSpace Residual Nonlinear NLSObject
  NLSObjectProps NLSHistory FloatInst FloatRun.
Import ListNotations.
Local Open Scope list_scope.
Local Open Scope nat_scope.

Definition cb_count : option (nat -> NLSIteration double -> nat * bool) := Some (fun n _ => (n + 1, true)).
Definition pa_ros : NLSParams double := params 5 1 2 (d lit_1em6).
Definition new_object : nls_object double nat := construct ros_pr (MkQP (Mat 0 0 []) [] (Mat 0 0 []) [] []) [] [] [] 0.
Definition call (throws : nat -> bool) (x : list double) (o : nls_object double nat) :=
  Solve_o inverse qr_d llt_d eig_d None throws g_d ros_pr cb_count pa_ros x o.
Definition never (k : nat) : bool := false.
Definition at_call (k j : nat) : bool := Nat.eqb j k.

(** The exception of invocation 5 ends the first Solve: 2 iterations' worth of callbacks were attempted, the second threw
    (invocations 0, 1: first iteration; 2: callback; 3, 4: second iteration; 5: callback). The second Solve starts from
    another point, and ends like one with a new object. *)
Definition interrupted := call (at_call 5) (pt (-5) (-3)) new_object.
Definition again := call never (pt 10 8) (fst interrupted).
Definition fresh := call never (pt 10 8) (set_cs 1 new_object).

Definition same (x y : list double) : bool := Nat.eqb (length x) (length y) && forallb (fun p => Beqb (fst p) (snd p)) (combine x y).

Example C59_C60_case :
  match snd interrupted with UserExn k => Nat.eqb k 5 | _ => false end &&
  Nat.eqb (o_cs (fst interrupted)) 1 &&
  negb (same (o_vars (fst interrupted)) (pt (-5) (-3))) &&
  match snd again, snd fresh with
  | Ret a, Ret b => match out_termination_state a with SATISFIED_ABSOLUTE_TOL => true | _ => false end &&
                    Nat.leb 2 (length (out_iterations a)) && Nat.eqb (length (out_iterations a)) (length (out_iterations b))
  | _, _ => false
  end &&
  same (o_vars (fst again)) (o_vars (fst fresh)) && Nat.eqb (o_cs (fst again)) (o_cs (fst fresh)) = true.
Proof. vm_compute. reflexivity. Qed.

(** The objects of this history are those the theorems are about. *)
Example C59_case_history : history inverse qr_d llt_d eig_d None ros_pr (fst again).
Proof.
  unfold again, call. apply h_solve; [apply editable_same|]. unfold interrupted, call. apply h_solve; [apply editable_same|]. unfold new_object. apply h_construct.
Qed.

(** The trace of the first, abandoned Solve has no "Solve" event; that of the second one does (C61). *)
Example C61_case :
  existsb (String.eqb "Solve") (o_trace (fst interrupted)) = false /\
  existsb (String.eqb "Solve") (o_trace (fst again)) = true /\ 5 <= length (o_trace (fst interrupted)).
Proof. split; [vm_compute; reflexivity|]. split; [vm_compute; reflexivity|]. apply Nat.leb_le. vm_compute. reflexivity. Qed.

(** C62: with one residual, no retraction and a callback, each iteration with s steps makes 2 + s invocations. *)
Example C62_case : match snd fresh with
  | Ret out => Nat.eqb (o_calls (fst fresh)) (invocations None ros_pr cb_count out) && Nat.leb 6 (o_calls (fst fresh))
  | _ => false end = true.
Proof. vm_compute. reflexivity. Qed.
