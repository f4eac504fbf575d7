(** Model of LinearInequalityConstraint and Var, include/mini_opt/qp.hpp:28-92. *)
From Coq Require Import String List Bool ZArith.
From Verif Require Import Scalar Outcome LinAlg.
Import ListNotations.
Local Open Scope outcome_scope.
Local Open Scope string_scope.
Local Open Scope list_scope.

Section Constraint.
  Context {F : Type}.

  (** qp.hpp:28-34, 68-69: a * x[variable] + b >= 0. [variable] is a C++ int. *)
  Record lic := LIC { lvar : Z; la : F; lb : F }.
End Constraint.
Arguments lic F : clear implicits.

Section Methods.
  Context {F : Type} {O : Ops F}.

  (** LinearInequalityConstraint::IsFeasible, qp.hpp:37-40 *)
  Definition IsFeasible (c : lic F) (x : F) : bool :=
    fgeb (fadd (fmul (la c) x) (lb c)) f0.

  (** LinearInequalityConstraint::ClampX, qp.hpp:43-53 *)
  Definition ClampX (c : lic F) (x : F) : outcome F :=
    f_assert (negb (feqb (la c) f0)) "ClampX: a cannot be zero" ;;
    if fltb (la c) f0
    then Ok (fmin x (fdiv (lb c) (fneg (la c))))
    else Ok (fmax x (fdiv (fneg (lb c)) (la c))).

  (** LinearInequalityConstraint::ShiftTo(double), qp.hpp:57-59 *)
  Definition ShiftTo (c : lic F) (x : F) : lic F :=
    LIC (lvar c) (la c) (fadd (fmul (la c) x) (lb c)).

  (** LinearInequalityConstraint::ShiftTo(const VectorXd&), qp.hpp:62-65. The assert
      does not exclude a negative index, for which x[variable] is out of bounds. *)
  Definition ShiftToVec (c : lic F) (x : list F) : outcome (lic F) :=
    f_assert (lvar c <? Z.of_nat (List.length x))%Z "ShiftTo: variable < x.rows()" ;;
    ub_unless (0 <=? lvar c)%Z "ShiftTo: x[variable] with negative index" ;;
    Ok (ShiftTo c (vget x (Z.to_nat (lvar c)))).

  (** Var(variable) <= value, qp.hpp:81-83 *)
  Definition Var_le (variable : Z) (value : F) : lic F := LIC variable (fneg f1) value.
  (** Var(variable) >= value, qp.hpp:86-88 *)
  Definition Var_ge (variable : Z) (value : F) : lic F := LIC variable f1 (fneg value).
End Methods.
