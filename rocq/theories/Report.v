(** Model of the text reports of source/structs.cc: QPInteriorPointIteration::ToString, NLSIteration::ToString,
    NLSSolverOutputs::ToString and the formatter of ColorFmt.

    fmt's conversion of doubles is a parameter; integers are printed in decimal. *)
From Coq Require Import String Ascii List Bool Arith ZArith Decimal DecimalString.
From Verif Require Import Scalar Structs.
Import ListNotations.
Local Open Scope string_scope.

(** The control characters used: line feed and ESC ("\u001b", one byte in UTF-8). *)
Definition LF : ascii := "010"%char.
Definition ESC : ascii := "027"%char.
Definition nl : string := String LF EmptyString.

(** fmt's "{}" for int and std::size_t *)
Definition fmt_int (z : Z) : string := NilZero.string_of_int (Z.to_int z).

(** enum class ColorCode, structs.cc:150 *)
Inductive ColorCode := GREEN | RED | ORANGE | NONE_COLOR.
Definition ColorCode_int (c : ColorCode) : Z :=
  match c with GREEN => 112 | RED => 160 | ORANGE => 202 | NONE_COLOR => -1 end%Z.

(** fmt::formatter<ColorFmt>::format, structs.cc:272-293 *)
Definition ColorFmt (code : ColorCode) (enabled : bool) : string :=
  if enabled then
    match code with
    | NONE_COLOR => String ESC "[0m"
    | _ => String ESC "[38;5;" ++ fmt_int (ColorCode_int code) ++ "m"
    end
  else "".

(** ColorFromTerminationState, structs.cc:238-257 *)
Definition ColorFromTerminationState (s : NLSTerminationState) : ColorCode :=
  match s with
  | SATISFIED_ABSOLUTE_TOL | SATISFIED_RELATIVE_TOL | SATISFIED_FIRST_ORDER_TOL => GREEN
  | MAX_LAMBDA | NLS_MAX_ITERATIONS | USER_CALLBACK => ORANGE
  | QP_INDEFINITE => RED
  end.

(** The four conversions of doubles used: "{}", "{:.16e}", "{:.16f}", "{:.10f}". *)
Record Formats (F : Type) : Type := MkFormats {
  fmt_any : F -> string; fmt_e16 : F -> string; fmt_f16 : F -> string; fmt_f10 : F -> string }.
Arguments MkFormats {F} _ _ _ _.
Arguments fmt_any {F} _ _.
Arguments fmt_e16 {F} _ _.
Arguments fmt_f16 {F} _ _.
Arguments fmt_f10 {F} _ _.

Section Report.
  Context {F : Type} {O : Ops F}.
  Variable fm : Formats F.

  (** std::isnan *)
  Definition fisnan (x : F) : bool := negb (feqb x x).

  (** QPInteriorPointIteration::ToString, structs.cc:122-149 *)
  Definition QPIteration_ToString (it : QPInteriorPointIteration F) : string :=
    let ki := kkt_initial it in
    let kf := kkt_final it in
    let ip := ip_outputs it in
    "Iteration summary: ||kkt|| max: " ++ fmt_any fm (KKT_Max ki) ++ " --> " ++ fmt_any fm (KKT_Max kf)
      ++ ", mu = " ++ fmt_any fm (ip_mu ip) ++ ", a_p = " ++ fmt_any fm (primal (ip_alpha ip))
      ++ ", a_d = " ++ fmt_any fm (dual (ip_alpha ip)) ++ nl
    ++ (if negb (fisnan (ip_mu_affine ip)) then
          " Probe alphas: a_p = " ++ fmt_any fm (primal (ip_alpha_probe ip)) ++ ", a_d = "
            ++ fmt_any fm (dual (ip_alpha_probe ip)) ++ ", mu_affine = " ++ fmt_any fm (ip_mu_affine ip) ++ nl
        else "")
    ++ " KKT errors, L2:" ++ nl
    ++ " r_dual = " ++ fmt_any fm (r_dual ki) ++ " --> " ++ fmt_any fm (r_dual kf) ++ nl
    ++ " r_comp = " ++ fmt_any fm (r_comp ki) ++ " --> " ++ fmt_any fm (r_comp kf) ++ nl
    ++ " r_p_eq = " ++ fmt_any fm (r_primal_eq ki) ++ " --> " ++ fmt_any fm (r_primal_eq kf) ++ nl
    ++ " r_p_ineq = " ++ fmt_any fm (r_primal_ineq ki) ++ " --> " ++ fmt_any fm (r_primal_ineq kf) ++ nl.

  (** The loop over line_search_steps, structs.cc:191-197; [i] is the counter. *)
  Fixpoint steps_ToString (penalty : F) (i : nat) (steps : list (LineSearchStep F)) : string :=
    match steps with
    | [] => ""
    | s :: rest =>
        "  f(" ++ fmt_int (Z.of_nat i) ++ "): " ++ fmt_e16 fm (err_f (step_errors s)) ++ ", c(" ++ fmt_int (Z.of_nat i) ++ "): "
          ++ fmt_e16 fm (err_equality (step_errors s)) ++ ", total: " ++ fmt_e16 fm (Errors_Total (step_errors s) penalty)
          ++ ", alpha = " ++ fmt_f10 fm (step_alpha s) ++ nl
        ++ steps_ToString penalty (S i) rest
    end.

  (** NLSIteration::ToString, structs.cc:159-206 *)
  Definition NLSIteration_ToString (use_color include_qp : bool) (it : NLSIteration F) : string :=
    "Iteration # " ++ fmt_int (it_iteration it) ++ ", state = " ++ OptimizerState_str (it_optimizer_state it)
      ++ ", lambda = " ++ fmt_any fm (it_lambda it) ++ nl
    ++ "  f(0): " ++ fmt_e16 fm (err_f (it_errors_initial it)) ++ ", c(0): " ++ fmt_e16 fm (err_equality (it_errors_initial it))
      ++ ", total: " ++ fmt_e16 fm (Errors_Total (it_errors_initial it) (it_penalty it)) ++ nl
    ++ match it_qp_eigenvalues it with
       | Some e => "  min, max, |min| eig = " ++ fmt_e16 fm (eig_min e) ++ ", " ++ fmt_e16 fm (eig_max e) ++ ", "
                     ++ fmt_e16 fm (eig_abs_min e) ++ nl
       | None => ""
       end
    ++ "  penalty = " ++ fmt_f16 fm (it_penalty it) ++ nl
    ++ match it_qp_outputs it with
       | InteriorPointOut ip => "  QP-IP: " ++ QPInteriorPointTerminationState_str (qp_termination_state ip) ++ ", "
                                  ++ fmt_int (Z.of_nat (List.length (qp_iterations ip))) ++ nl
       | NullSpaceOut ns => "  QP: " ++ QPNullSpaceTerminationState_str ns ++ nl
       end
    ++ "  df/dalpha = " ++ fmt_any fm (d_f (it_directional_derivatives it)) ++ ", dc/dalpha = "
      ++ fmt_any fm (d_equality (it_directional_derivatives it)) ++ nl
    ++ "  Search result: " ++ ColorFmt (match it_step_result it with SS_SUCCESS => GREEN | _ => RED end) use_color
      ++ StepSizeSelectionResult_str (it_step_result it) ++ ColorFmt NONE_COLOR use_color ++ nl
    ++ steps_ToString (it_penalty it) 0 (it_line_search_steps it)
    ++ match it_qp_outputs it with
       | InteriorPointOut ip => if include_qp then fold_left (fun r x => r ++ QPIteration_ToString x) (qp_iterations ip) "" else ""
       | NullSpaceOut _ => ""
       end.

  (** NLSSolverOutputs::ToString, structs.cc:259-268 *)
  Definition NLSOutputs_ToString (use_color include_qp : bool) (o : NLSSolverOutputs F) : string :=
    fold_left (fun r it => r ++ NLSIteration_ToString use_color include_qp it) (out_iterations o) ""
    ++ "  termination = " ++ ColorFmt (ColorFromTerminationState (out_termination_state o)) use_color
      ++ NLSTerminationState_str (out_termination_state o) ++ ColorFmt NONE_COLOR use_color ++ nl.
End Report.
