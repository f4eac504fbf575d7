(** Model of include/mini_opt/assertions.hpp: what a failed F_ASSERT throws, and the text of the message; with the table of all uses
    of the macros in the library. Elsewhere in the model a failed assertion is the outcome [Throw (AssertFailed w)], where w is a
    label; this file is about the exception behind it. *)
From Coq Require Import String Ascii List Bool Arith ZArith.
From Verif Require Import Tracing.
Import ListNotations.
Local Open Scope string_scope.

(** fmt's parsing of a run time format string: "{}" takes the next argument (already converted to text), "{{" and "}}" are escapes,
    too few arguments or any other brace throws fmt::format_error ([None]); unused arguments are ignored. Simplification: explicit
    argument numbers and format specifications ("{0}", "{:.3}"), which the library does not use here, count as errors. *)
Fixpoint fmt_format (s : string) (args : list string) : option string :=
  match s with
  | EmptyString => Some EmptyString
  | String c r =>
    if Ascii.eqb c "{"%char then
      match r with
      | String c' r' =>
        if Ascii.eqb c' "{"%char then option_map (String c) (fmt_format r' args)
        else if Ascii.eqb c' "}"%char then
          match args with
          | [] => None
          | a :: args' => option_map (append a) (fmt_format r' args')
          end
        else None
      | EmptyString => None
      end
    else if Ascii.eqb c "}"%char then
      match r with
      | String c' r' => if Ascii.eqb c' "}"%char then option_map (String c) (fmt_format r' args) else None
      | EmptyString => None
      end
    else option_map (String c) (fmt_format r args)
  end.

(** constants::message_prefix, assertions.hpp:12 *)
Definition message_prefix : string := "Assertion failed: {}" ++ nl ++ "File: {}" ++ nl ++ "Line: {}".

(** [err], then fmt::format_to(back_inserter(err), f, args...): a format error throws away everything. *)
Definition format_to (err : string) (f : string) (args : list string) : option string :=
  option_map (append err) (fmt_format f args).
(** if (!reason_fmt.empty()) { err.append("\nReason: "); fmt::format_to(...) }, assertions.hpp:21-25, 40-44 *)
Definition append_reason (err reason : string) (args : list string) : option string :=
  match reason with
  | EmptyString => Some err
  | _ => format_to (err ++ nl ++ "Reason: ") reason args
  end.

(** format_assert, assertions.hpp:15-27 *)
Definition format_assert (condition file : string) (line : Z) (reason : string) (args : list string) : option string :=
  match fmt_format message_prefix [condition; file; dec line] with
  | Some err => append_reason err reason args
  | None => None
  end.
(** format_assert_binary, assertions.hpp:30-46; [a] and [b] are the operands converted to text. *)
Definition format_assert_binary (condition file : string) (line : Z) (a_str a b_str b reason : string) (args : list string) : option string :=
  match fmt_format message_prefix [condition; file; dec line] with
  | Some err =>
    match format_to err (nl ++ "Operands are: `{}` = {}, `{}` = {}") [a_str; a; b_str; b] with
    | Some err => append_reason err reason args
    | None => None
    end
  | None => None
  end.

(** default_error::what, assertions.hpp:49-58: message_.c_str(), so the text up to the first NUL. *)
Fixpoint c_str (s : string) : string :=
  match s with
  | EmptyString => EmptyString
  | String c r => if Ascii.eqb c zero then EmptyString else String c (c_str r)
  end.

Inductive exception : Type :=
| DefaultError (message : string)  (** assert::default_error *)
| FormatError.                     (** fmt::format_error, thrown while composing the message *)
Definition what (e : exception) : string := match e with DefaultError m => c_str m | FormatError => "format_error" end.

Inductive binary_op : Type := OpEQ | OpNE | OpLT | OpGT | OpLE | OpGE.
Definition op_str (o : binary_op) : string :=
  match o with OpEQ => "==" | OpNE => "!=" | OpLT => "<" | OpGT => ">" | OpLE => "<=" | OpGE => ">=" end.

(** F_ASSERT(cond, ...) or F_ASSERT_op(a, b, ...); the texts are the stringised macro arguments. *)
Inductive macro : Type :=
| Plain (cond_str : string)
| Binary (op : binary_op) (a_str b_str : string).
(** #cond in _F_ASSERT_IMPL, assertions.hpp:66-71, 83-109 *)
Definition condition_str (m : macro) : string :=
  match m with Plain c => c | Binary o a b => "(" ++ a ++ ") " ++ op_str o ++ " (" ++ b ++ ")" end.

(** _F_ASSERT_IMPL, assertions.hpp:66-71: nothing happens if the condition holds. [a], [b] are the operand values as text (unused by
    [Plain]). *)
Definition F_ASSERT (cond : bool) (m : macro) (file : string) (line : Z) (a b reason : string) (args : list string) : option exception :=
  if cond then None
  else Some match match m with
                  | Plain c => format_assert (condition_str m) file line reason args
                  | Binary o a_str b_str => format_assert_binary (condition_str m) file line a_str a b_str b reason args
                  end with
            | Some err => DefaultError err
            | None => FormatError
            end.

(** A use of an assertion macro: file and line, macro arguments, reason ("" if absent), number of further arguments. *)
Record site : Type := MkSite { s_file : string; s_line : Z; s_macro : macro; s_reason : string; s_nargs : nat }.

(** All uses in source/, include/ and test/transform_chains.cc (lines as in the repository; #pragma once headers included). *)
Definition library_sites : list site := [
  MkSite "source/qp.cc" 21 (Plain "problem != nullptr") "Must pass a non-null problem" 0;
  MkSite "source/qp.cc" 24 (Binary OpEQ "p_->G.rows()" "p_->G.cols()") "G must be square" 0;
  MkSite "source/qp.cc" 25 (Binary OpEQ "p_->G.rows()" "p_->c.rows()") "Dims of G and c must match" 0;
  MkSite "source/qp.cc" 26 (Binary OpEQ "p_->A_eq.rows()" "p_->b_eq.rows()") "Rows of A_e and b_e must match" 0;
  MkSite "source/qp.cc" 30 (Binary OpEQ "p_->A_eq.cols()" "p_->G.rows()") "" 0;
  MkSite "source/qp.cc" 32 (Binary OpEQ "p_->A_eq.rows()" "0") "" 0;
  MkSite "source/qp.cc" 33 (Binary OpEQ "p_->b_eq.rows()" "0") "" 0;
  MkSite "source/qp.cc" 71 (Binary OpLT "c.variable" "static_cast<int>(dims_.N)") "Constraint index is out of bounds" 0;
  MkSite "source/qp.cc" 77 (Binary OpGT "params.initial_mu" "0") "" 0;
  MkSite "source/qp.cc" 78 (Binary OpGT "params.sigma" "0") "" 0;
  MkSite "source/qp.cc" 79 (Binary OpLE "params.sigma" "1.0") "" 0;
  MkSite "source/qp.cc" 80 (Binary OpGT "params.termination_kkt_tol" "0") "" 0;
  MkSite "source/qp.cc" 81 (Binary OpGT "params.max_iterations" "0") "" 0;
  MkSite "source/qp.cc" 102 (Plain "p_") "Must have a valid problem" 0;
  MkSite "source/qp.cc" 224 (Plain "p_") "Cannot call unless initialized" 0;
  MkSite "source/qp.cc" 285 (Plain "!include_inequalities || (s.array() > 0.0).all()") "Some slack variables s <= 0: [{}]" 1;
  MkSite "source/qp.cc" 453 (Binary OpEQ "params.initial_guess_method" "InitialGuessMethod::SOLVE_EQUALITY_CONSTRAINED") "" 0;
  MkSite "source/qp.cc" 486 (Plain "output != nullptr") "" 0;
  MkSite "source/qp.cc" 493 (Binary OpEQ "val.rows()" "d_val.rows()") "" 0;
  MkSite "source/qp.cc" 494 (Binary OpGT "tau" "0") "" 0;
  MkSite "source/qp.cc" 495 (Binary OpLE "tau" "1") "" 0;
  MkSite "source/qp.cc" 597 (Plain "H != nullptr") "" 0;
  MkSite "source/qp.cc" 598 (Plain "r != nullptr") "" 0;
  MkSite "source/qp.cc" 680 (Binary OpGT "p.A_eq.rows()" "0") "Problem must have at least one equality constraint" 0;
  MkSite "source/qp.cc" 681 (Binary OpEQ "p.A_eq.rows()" "p.b_eq.rows()") "" 0;
  MkSite "source/qp.cc" 692 (Binary OpEQ "P.rows()" "num_equality_constraints") "P = [{}, {}]" 2;
  MkSite "source/qp.cc" 707 (Binary OpEQ "num_params" "u_.rows()") "" 0;
  MkSite "source/qp.cc" 724 (Binary OpEQ "Q_.cols() - rank" "y_.rows()") "" 0;
  MkSite "source/nonlinear.cc" 16 (Plain "p_ != nullptr") "" 0;
  MkSite "source/nonlinear.cc" 17 (Binary OpGT "p_->dimension" "0") "Need at least one variable" 0;
  MkSite "source/nonlinear.cc" 50 (Binary OpGE "params.max_iterations" "0") "" 0;
  MkSite "source/nonlinear.cc" 51 (Binary OpGE "params.max_qp_iterations" "1") "" 0;
  MkSite "source/nonlinear.cc" 52 (Binary OpGT "params.termination_kkt_tolerance" "0") "" 0;
  MkSite "source/nonlinear.cc" 53 (Binary OpGT "params.absolute_exit_tol" "0") "" 0;
  MkSite "source/nonlinear.cc" 54 (Binary OpGE "params.max_line_search_iterations" "0") "" 0;
  MkSite "source/nonlinear.cc" 55 (Binary OpGE "params.relative_exit_tol" "0") "" 0;
  MkSite "source/nonlinear.cc" 56 (Binary OpLE "params.relative_exit_tol" "1") "" 0;
  MkSite "source/nonlinear.cc" 57 (Binary OpGE "params.absolute_first_derivative_tol" "0") "" 0;
  MkSite "source/nonlinear.cc" 58 (Binary OpGT "params.armijo_search_tau" "0") "" 0;
  MkSite "source/nonlinear.cc" 59 (Binary OpLT "params.armijo_search_tau" "1") "" 0;
  MkSite "source/nonlinear.cc" 60 (Binary OpGE "params.equality_penalty_initial" "0") "" 0;
  MkSite "source/nonlinear.cc" 61 (Binary OpGE "params.equality_penalty_scale_factor" "1.0") "" 0;
  MkSite "source/nonlinear.cc" 62 (Binary OpGE "params.equality_penalty_rho" "0") "" 0;
  MkSite "source/nonlinear.cc" 63 (Binary OpLT "params.equality_penalty_rho" "1") "" 0;
  MkSite "source/nonlinear.cc" 64 (Binary OpGE "params.max_lambda" "0") "" 0;
  MkSite "source/nonlinear.cc" 65 (Binary OpLE "params.min_lambda" "params.max_lambda") "" 0;
  MkSite "source/nonlinear.cc" 66 (Binary OpGE "params.lambda_initial" "params.min_lambda") "" 0;
  MkSite "source/nonlinear.cc" 67 (Binary OpLE "params.lambda_initial" "params.max_lambda") "" 0;
  MkSite "source/nonlinear.cc" 68 (Binary OpGE "params.lambda_failure_init" "0") "" 0;
  MkSite "source/nonlinear.cc" 69 (Binary OpGE "params.lambda_decrease_on_success" "0") "" 0;
  MkSite "source/nonlinear.cc" 70 (Binary OpLT "params.lambda_decrease_on_success" "1.0") "" 0;
  MkSite "source/nonlinear.cc" 71 (Binary OpGE "params.lambda_decrease_on_restore" "0") "" 0;
  MkSite "source/nonlinear.cc" 72 (Binary OpLT "params.lambda_decrease_on_restore" "1.0") "" 0;
  MkSite "source/nonlinear.cc" 78 (Plain "p_ != nullptr") "Must have a valid problem" 0;
  MkSite "source/nonlinear.cc" 174 (Plain "qp != nullptr") "" 0;
  MkSite "source/nonlinear.cc" 175 (Binary OpEQ "qp->G.rows()" "problem.dimension") "" 0;
  MkSite "source/nonlinear.cc" 176 (Binary OpEQ "qp->G.cols()" "problem.dimension") "" 0;
  MkSite "source/nonlinear.cc" 177 (Binary OpEQ "qp->c.rows()" "problem.dimension") "" 0;
  MkSite "source/nonlinear.cc" 178 (Binary OpEQ "qp->A_eq.rows()" "qp->b_eq.rows()") "" 0;
  MkSite "source/nonlinear.cc" 197 (Binary OpLE "row + dim" "qp->A_eq.rows()") "" 0;
  MkSite "source/nonlinear.cc" 250 (Plain "null_solver") "" 0;
  MkSite "source/nonlinear.cc" 301 (Plain "!steps_.empty()") "Must have logged a step" 0;
  MkSite "source/nonlinear.cc" 332 (Binary OpEQ "state_" "OptimizerState::ATTEMPTING_RESTORE_LM") "" 0;
  MkSite "source/nonlinear.cc" 356 (Binary OpGT "penalty" "0.0") "" 0;
  MkSite "source/nonlinear.cc" 357 (Plain "!errors_pre.ContainsInvalidValues()") "{}, {}" 2;
  MkSite "source/nonlinear.cc" 382 (Binary OpEQ "strategy" "LineSearchStrategy::ARMIJO_BACKTRACK") "" 0;
  MkSite "source/nonlinear.cc" 421 (Binary OpGE "iteration" "1") "" 0;
  MkSite "source/nonlinear.cc" 423 (Binary OpEQ "steps_.size()" "1") "" 0;
  MkSite "source/nonlinear.cc" 430 (Binary OpGE "steps_.size()" "2") "" 0;
  MkSite "source/nonlinear.cc" 467 (Binary OpEQ "qp.c.rows()" "dx.rows()") "Mismatch between dx and c" 0;
  MkSite "source/nonlinear.cc" 468 (Binary OpEQ "qp.A_eq.cols()" "dx.rows()") "Mismatch between dx and A_eq" 0;
  MkSite "source/nonlinear.cc" 566 (Binary OpGT "alpha_1" "0") "" 0;
  MkSite "source/nonlinear.cc" 567 (Binary OpGT "alpha_0" "alpha_1") "This must be satisfied for the system to be solvable" 0;
  MkSite "source/tracing.cc" 92 (Plain "impl_") "" 0;
  MkSite "include/mini_opt/qp.hpp" 44 (Binary OpNE "a" "0") "`a` cannot be zero" 0;
  MkSite "include/mini_opt/qp.hpp" 63 (Binary OpLT "variable" "x.rows()") "" 0;
  MkSite "include/mini_opt/residual.hpp" 32 (Plain "impl_") "" 0;
  MkSite "include/mini_opt/residual.hpp" 39 (Plain "impl_") "" 0;
  MkSite "include/mini_opt/residual.hpp" 47 (Plain "impl_") "" 0;
  MkSite "include/mini_opt/residual.hpp" 55 (Plain "impl_") "" 0;
  MkSite "include/mini_opt/residual.hpp" 136 (Binary OpEQ "index.size()" "static_cast<std::size_t>(P)") "" 0;
  MkSite "include/mini_opt/residual.hpp" 153 (Plain "output != nullptr") "" 0;
  MkSite "include/mini_opt/residual.hpp" 159 (Binary OpGE "i" "0") "" 0;
  MkSite "include/mini_opt/residual.hpp" 160 (Binary OpLT "i" "input.rows()") "Index exceeds the number of params" 0;
  MkSite "include/mini_opt/residual.hpp" 177 (Binary OpEQ "b_out.rows()" "Dimension()") "Output vector is wrong dimension" 0;
  MkSite "include/mini_opt/residual.hpp" 189 (Plain "H != nullptr") "" 0;
  MkSite "include/mini_opt/residual.hpp" 190 (Plain "b != nullptr") "" 0;
  MkSite "include/mini_opt/residual.hpp" 191 (Binary OpEQ "H->rows()" "H->cols()") "" 0;
  MkSite "include/mini_opt/residual.hpp" 192 (Binary OpEQ "b->rows()" "H->rows()") "" 0;
  MkSite "include/mini_opt/residual.hpp" 209 (Binary OpLT "row_global" "H->rows()") "Index exceeds bounds of hessian" 0;
  MkSite "include/mini_opt/residual.hpp" 233 (Binary OpEQ "ResidualDim" "b_out.rows()") "" 0;
  MkSite "include/mini_opt/residual.hpp" 234 (Binary OpEQ "ResidualDim" "J_out.rows()") "" 0;
  MkSite "include/mini_opt/residual.hpp" 247 (Binary OpLT "col_global" "J_out.cols()") "Index exceeds the size of the Jacobian" 0;
  MkSite "test/transform_chains.cc" 18 (Plain "!i_R_end.empty()") "" 0;
  MkSite "test/transform_chains.cc" 19 (Binary OpGT "i_t_end.cols()" "0") "" 0;
  MkSite "test/transform_chains.cc" 116 (Plain "(R_delta.array() < 1.0e-5).all()") "Euler angle decomposition failed" 0;
  MkSite "test/transform_chains.cc" 127 (Binary OpEQ "J_out.cols()" "ActiveRotationCount()") "Wrong number of columns in output jacobian" 0;
  MkSite "test/transform_chains.cc" 132 (Binary OpLT "param_index" "params.rows()") "" 0;
  MkSite "test/transform_chains.cc" 174 (Binary OpEQ "params.rows()" "total_active") "Wrong number of params passed. Expected = {}, actual = {}" 2;
  MkSite "test/transform_chains.cc" 184 (Binary OpEQ "params.rows()" "rotation_D_params_.cols()") "Mismatch between # params" 0;
  MkSite "test/transform_chains.cc" 214 (Binary OpLE "position + active_count" "rotation_D_params_.cols()") "" 0
].
