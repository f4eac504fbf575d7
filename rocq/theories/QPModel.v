(** Model of QP and QPInteriorPointSolver: include/mini_opt/qp.hpp:94-295 and
    source/qp.cc:12-655.

    Simplifications:
    - Eigen::Index / int conversions do not overflow (dimensions are [nat]).
    - The solver keeps a pointer to the caller's QP; the model keeps its value, i.e. the
      caller does not modify the problem between Setup and Solve.
    - [H_] and [r_dual_aug_] are scratch storage completely rewritten (or constantly zero
      since Setup, for the parts of [H_] never written) before being read, so they are local
      values here instead of members.
    - LDLT + solveInPlace(Identity) is the function parameter [ldlt]: [None] when
      ldlt.info() != Success, otherwise the matrix written to [H_inv_]. *)
From Coq Require Import String List Bool ZArith QArith.
From Verif Require Import Scalar Outcome LinAlg Structs Constraint.
Import ListNotations.
Local Open Scope outcome_scope.
Local Open Scope string_scope.
Local Open Scope list_scope.
Local Open Scope nat_scope.

(** qp.hpp:104-121 *)
Record QP (F : Type) : Type := MkQP {
  qG : mat F; qc : list F;
  qA : mat F; qb : list F;
  qcons : list (lic F) }.
Arguments MkQP {F} _ _ _ _ _.
Arguments qG {F} _.
Arguments qc {F} _.
Arguments qA {F} _.
Arguments qb {F} _.
Arguments qcons {F} _.

(** ProblemDims, qp.hpp:211-215 *)
Record dims := MkDims { dN : nat; dM : nat; dK : nat }.

(** QPInteriorPointSolver::Params, qp.hpp:134-164 *)
Record IPParams (F : Type) : Type := MkIPParams {
  p_initial_mu : F;
  p_sigma : F;
  p_termination_kkt_tol : F;
  p_termination_complementarity_tol : F;
  p_max_iterations : Z;
  p_barrier_strategy : BarrierStrategy;
  p_decrease_mu_only_on_small_error : bool;
  p_initial_guess_method : InitialGuessMethod;
  p_initialize_mu_with_complementarity : bool }.
Arguments MkIPParams {F} _ _ _ _ _ _ _ _ _.
Arguments p_initial_mu {F} _.
Arguments p_sigma {F} _.
Arguments p_termination_kkt_tol {F} _.
Arguments p_termination_complementarity_tol {F} _.
Arguments p_max_iterations {F} _.
Arguments p_barrier_strategy {F} _.
Arguments p_decrease_mu_only_on_small_error {F} _.
Arguments p_initial_guess_method {F} _.
Arguments p_initialize_mu_with_complementarity {F} _.

(** Default member initialisers of Params, qp.hpp:136-163 *)
Definition default_IPParams {F : Type} {O : Ops F} : IPParams F :=
  MkIPParams f1 (flit lit_half) (flit lit_1em9) (flit lit_1em6) 10%Z COMPLEMENTARITY false NAIVE false.

(** Members of QPInteriorPointSolver, qp.hpp:207-231 *)
Record ip_solver (F : Type) : Type := MkIP {
  ip_p : option (QP F);        (* p_ *)
  ip_dims : dims;              (* dims_ *)
  ip_vars : list F;            (* variables_ *)
  ip_r : list F;               (* r_ *)
  ip_Hinv : mat F;             (* H_inv_ *)
  ip_delta : list F;           (* delta_ *)
  ip_delta_aff : list F }.     (* delta_affine_ *)
Arguments MkIP {F} _ _ _ _ _ _ _.
Arguments ip_p {F} _.
Arguments ip_dims {F} _.
Arguments ip_vars {F} _.
Arguments ip_r {F} _.
Arguments ip_Hinv {F} _.
Arguments ip_delta {F} _.
Arguments ip_delta_aff {F} _.

(** Contents of freshly resized (uninitialised or left over) storage. *)
Record garbage (F : Type) : Type := MkGarbage {
  g_vars : nat -> F; g_r : nat -> F; g_delta : nat -> F; g_aff : nat -> F; g_Hinv : mat F }.
Arguments MkGarbage {F} _ _ _ _ _.
Arguments g_vars {F} _.
Arguments g_r {F} _.
Arguments g_delta {F} _.
Arguments g_aff {F} _.
Arguments g_Hinv {F} _.

(** ** Blocks, qp.cc:548-582 *)
Section Blocks.
  Context {A : Type}.
  (** ConstXBlock / XBlock: vec.head(N), qp.cc:548-551, 568-570 *)
  Definition xblk (d : dims) (v : list A) : list A := vseg 0 (dN d) v.
  (** ConstSBlock / SBlock: vec.segment(N, M), qp.cc:553-556, 572-574 *)
  Definition sblk (d : dims) (v : list A) : list A := vseg (dN d) (dM d) v.
  (** ConstYBlock / YBlock: vec.segment(N + M, K), qp.cc:558-561, 576-578 *)
  Definition yblk (d : dims) (v : list A) : list A := vseg (dN d + dM d) (dK d) v.
  (** ConstZBlock / ZBlock: vec.tail(M), qp.cc:563-566, 580-582 *)
  Definition zblk (d : dims) (v : list A) : list A := vseg (length v - dM d) (dM d) v.
  (** Assignments to the mutable blocks. *)
  Definition set_x (d : dims) (new v : list A) : list A := vset_seg 0 new v.
  Definition set_s (d : dims) (new v : list A) : list A := vset_seg (dN d) new v.
  Definition set_y (d : dims) (new v : list A) : list A := vset_seg (dN d + dM d) new v.
  Definition set_z (d : dims) (new v : list A) : list A := vset_seg (length v - dM d) new v.
End Blocks.

(** for (i = 0; i < M; ++i) { c = constraints[i]; ... } *)
Definition indexed {A : Type} (l : list A) : list (nat * A) := combine (seq 0 (length l)) l.

Section Model.
  Context {F : Type} {O : Ops F}.
  (** LDLT<MatrixXd, Lower> followed by solveInPlace on the identity, qp.cc:302-311 *)
  Variable ldlt : mat F -> option (mat F).

  (** c.variable used as an index (checked to be non-negative where it matters). *)
  Definition cidx (c : lic F) : nat := Z.to_nat (lvar c).

  Definition with_vars (st : ip_solver F) (v : list F) : ip_solver F :=
    MkIP (ip_p st) (ip_dims st) v (ip_r st) (ip_Hinv st) (ip_delta st) (ip_delta_aff st).
  Definition with_r (st : ip_solver F) (r : list F) : ip_solver F :=
    MkIP (ip_p st) (ip_dims st) (ip_vars st) r (ip_Hinv st) (ip_delta st) (ip_delta_aff st).
  Definition with_delta (st : ip_solver F) (dl : list F) : ip_solver F :=
    MkIP (ip_p st) (ip_dims st) (ip_vars st) (ip_r st) (ip_Hinv st) dl (ip_delta_aff st).
  Definition with_aff (st : ip_solver F) (dl : list F) : ip_solver F :=
    MkIP (ip_p st) (ip_dims st) (ip_vars st) (ip_r st) (ip_Hinv st) (ip_delta st) dl.

  (** QPInteriorPointSolver::Setup, qp.cc:20-73 (and the constructor, qp.cc:18).
      [None] is a null pointer. Only the upper bound of the constraint index is checked. *)
  Definition Setup (g : garbage F) (problem : option (QP F)) : outcome (ip_solver F) :=
    match problem with
    | None => Throw (AssertFailed "Setup: problem != nullptr")
    | Some p =>
      f_assert (mrows (qG p) =? mcols (qG p)) "Setup: G must be square" ;;
      f_assert (mrows (qG p) =? List.length (qc p)) "Setup: dims of G and c must match" ;;
      f_assert (mrows (qA p) =? List.length (qb p)) "Setup: rows of A_e and b_e must match" ;;
      (if 0 <? mrows (qA p) * mcols (qA p)
       then f_assert (mcols (qA p) =? mrows (qG p)) "Setup: A_eq.cols() == G.rows()"
       else f_assert (mrows (qA p) =? 0) "Setup: A_eq.rows() == 0" ;;
            f_assert (List.length (qb p) =? 0) "Setup: b_eq.rows() == 0") ;;
      let N := mrows (qG p) in
      let M := List.length (qcons p) in
      let K := mrows (qA p) in
      let total := N + M * 2 + K in
      f_assert (forallb (fun c => (lvar c <? Z.of_nat N)%Z) (qcons p))
               "Setup: constraint index is out of bounds" ;;
      Ok (MkIP (Some p) (MkDims N M K)
               (mkvec total (g_vars g)) (mkvec total (g_r g)) (g_Hinv g)
               (mkvec total (g_delta g)) (mkvec total (g_aff g)))
    end.

  (** QPInteriorPointSolver::SetVariables, qp.cc:221: no size check. *)
  Definition SetVariables (st : ip_solver F) (v : list F) : ip_solver F := with_vars st v.

  (** static CheckParams, qp.cc:76-82 *)
  Definition IP_CheckParams (params : IPParams F) : outcome unit :=
    f_assert (fgtb (p_initial_mu params) f0) "initial_mu > 0" ;;
    f_assert (fgtb (p_sigma params) f0) "sigma > 0" ;;
    f_assert (fleb (p_sigma params) f1) "sigma <= 1" ;;
    f_assert (fgtb (p_termination_kkt_tol params) f0) "termination_kkt_tol > 0" ;;
    f_assert (0 <? p_max_iterations params)%Z "max_iterations > 0".

  (** HasInequalityConstraints, qp.hpp:234 *)
  Definition HasInequalityConstraints (d : dims) : bool := 0 <? dM d.

  (** EvaluateKKTConditions, qp.cc:391-420. Fills [r_]; blocks that are not written keep
      their previous content. *)
  Definition EvaluateKKTConditions (include_inequalities : bool) (p : QP F) (st : ip_solver F)
    : ip_solver F :=
    let d := ip_dims st in
    let x := xblk d (ip_vars st) in
    let s := sblk d (ip_vars st) in
    let y := yblk d (ip_vars st) in
    let z := zblk d (ip_vars st) in
    let r_d0 := mkvec (dN d) (fun i => fadd (fdot (srow (qG p) i) x) (vget (qc p) i)) in
    let r_d1 := if 0 <? dK d
                then mkvec (dN d) (fun i => fsub (vget r_d0 i) (fdot (mcol (qA p) i) y))
                else r_d0 in
    let r1 := if 0 <? dK d
              then set_y d (mkvec (dK d)
                     (fun k => fadd (fdot (mrow (qA p) k) x) (vget (qb p) k))) (ip_r st)
              else ip_r st in
    if include_inequalities then
      let r_d2 := fold_left (fun acc (ic : nat * lic F) =>
                    vupd (cidx (snd ic))
                         (fun v => fsub v (fmul (la (snd ic)) (vget z (fst ic)))) acc)
                  (indexed (qcons p)) r_d1 in
      let r_pi := map (fun ic : nat * lic F =>
                    fsub (fadd (fmul (la (snd ic)) (vget x (cidx (snd ic)))) (lb (snd ic)))
                         (vget s (fst ic))) (indexed (qcons p)) in
      let r_cp := map (fun ic : nat * lic F => fmul (vget s (fst ic)) (vget z (fst ic)))
                      (indexed (qcons p)) in
      with_r st (set_s d r_cp (set_z d r_pi (set_x d r_d2 r1)))
    else with_r st (set_x d r_d1 r1).

  (** ComputeErrors, qp.cc:423-437 *)
  Definition ComputeErrors (st : ip_solver F) (mu : F) : KKTError F :=
    let d := ip_dims st in
    let ds := sblk d (ip_r st) in
    let rs_l2_corrected :=
      fadd (fsub (fsqnorm ds) (fmul (flit lit_2) (fmul (fsum ds) mu)))
           (fmul (fmul mu mu) (fofnat (dM d))) in
    MkKKT (fnorm (xblk d (ip_r st)))
          (if HasInequalityConstraints d then fsqrt (fmax rs_l2_corrected f0) else f0)
          (if 0 <? dK d then fnorm (yblk d (ip_r st)) else f0)
          (if HasInequalityConstraints d then fnorm (zblk d (ip_r st)) else f0).

  (** The left-hand side assembled by ComputeLDLT, qp.cc:288-298. Only the lower triangle is
      meaningful; the part above the diagonal keeps the zeros written by Setup (qp.cc:47). *)
  Definition reduced_H (include_inequalities : bool) (p : QP F) (d : dims) (s z : list F) : mat F :=
    let diag0 := mkvec (dN d) (fun i => mget (qG p) i i) in
    let diag := if include_inequalities
                then fold_left (fun acc (ic : nat * lic F) =>
                       vupd (cidx (snd ic))
                            (fun v => fadd v (fmul (fmul (la (snd ic))
                                        (fdiv (vget z (fst ic)) (vget s (fst ic)))) (la (snd ic)))) acc)
                     (indexed (qcons p)) diag0
                else diag0 in
    mkmat (dN d + dK d) (dN d + dK d) (fun i j =>
      if i <? dN d
      then (if j <? i then mget (qG p) i j else if j =? i then vget diag i else f0)
      else (if j <? dN d then mget (qA p) (i - dN d) j else f0)).

  (** ComputeLDLT, qp.cc:275-316 *)
  Definition ComputeLDLT (include_inequalities : bool) (p : QP F) (st : ip_solver F)
    : outcome (ip_solver F) :=
    let d := ip_dims st in
    let s := sblk d (ip_vars st) in
    let z := zblk d (ip_vars st) in
    f_assert (negb include_inequalities || forallb (fun v => fgtb v f0) s)
             "Some slack variables s <= 0" ;;
    match ldlt (reduced_H include_inequalities p d s z) with
    | None => Throw FailedFactorization
    | Some Hinv =>
      Ok (MkIP (ip_p st) d (ip_vars st) (ip_r st) Hinv
               (vzero (List.length (ip_delta st))) (vzero (List.length (ip_delta_aff st))))
    end.

  (** H_inv_.block(r0, c0, _, n).row(i) *)
  Definition Hrow (H : mat F) (i c0 n : nat) : list F := mkvec n (fun j => mget H i (c0 + j)).

  (** [dx; dy] from H_inv_ and the right hand side, qp.cc:350-356 (same code at 379-385). *)
  Definition solve_dx (H : mat F) (d : dims) (rhs_d rhs_pe : list F) : list F :=
    let dx0 := mkvec (dN d) (fun i => fdot (Hrow H i 0 (dN d)) (vneg rhs_d)) in
    if 0 <? dK d
    then mkvec (dN d) (fun i => fadd (vget dx0 i) (fdot (Hrow H i (dN d) (dK d)) (vneg rhs_pe)))
    else dx0.
  Definition solve_dy (H : mat F) (d : dims) (rhs_d rhs_pe : list F) : list F :=
    mkvec (dK d) (fun k => fadd (fdot (Hrow H (dN d + k) 0 (dN d)) rhs_d)
                                (fdot (Hrow H (dN d + k) (dN d) (dK d)) rhs_pe)).

  (** SolveForUpdate, qp.cc:318-364 *)
  Definition SolveForUpdate (mu : F) (p : QP F) (st : ip_solver F) : ip_solver F :=
    let d := ip_dims st in
    let s := sblk d (ip_vars st) in
    let z := zblk d (ip_vars st) in
    let r_d := xblk d (ip_r st) in
    let r_cp := sblk d (ip_r st) in
    let r_pe := yblk d (ip_r st) in
    let r_pi := zblk d (ip_r st) in
    let ds_aff := sblk d (ip_delta_aff st) in
    let dz_aff := zblk d (ip_delta_aff st) in
    (* r_comp[i] + (ds_aff[i] * dz_aff[i]) - mu *)
    let cterm i := fsub (fadd (vget r_cp i) (fmul (vget ds_aff i) (vget dz_aff i))) mu in
    let r_aug := fold_left (fun acc (ic : nat * lic F) =>
                   let i := fst ic in let c := snd ic in
                   vupd (cidx c) (fun v => fadd v (fdiv (fmul (la c) (cterm i)) (vget s i)))
                     (vupd (cidx c) (fun v => fadd v (fmul (fmul (la c)
                          (fdiv (vget z i) (vget s i))) (vget r_pi i))) acc))
                 (indexed (qcons p)) r_d in
    let dx := solve_dx (ip_Hinv st) d r_aug r_pe in
    let dy := solve_dy (ip_Hinv st) d r_aug r_pe in
    let ds := map (fun ic : nat * lic F =>
                fadd (fmul (la (snd ic)) (vget dx (cidx (snd ic)))) (vget r_pi (fst ic)))
              (indexed (qcons p)) in
    let dz := map (fun ic : nat * lic F =>
                let i := fst ic in
                fsub (fmul (fneg (fdiv (vget z i) (vget s i))) (vget ds i))
                     (fmul (fdiv f1 (vget s i)) (cterm i)))
              (indexed (qcons p)) in
    with_delta st (set_z d dz (set_s d ds (set_y d dy (set_x d dx (ip_delta st))))).

  (** SolveForUpdateNoInequalities, qp.cc:366-386 *)
  Definition SolveForUpdateNoInequalities (st : ip_solver F) : ip_solver F :=
    let d := ip_dims st in
    let r_d := xblk d (ip_r st) in
    let r_pe := yblk d (ip_r st) in
    with_delta st (set_y d (solve_dy (ip_Hinv st) d r_d r_pe)
                     (set_x d (solve_dx (ip_Hinv st) d r_d r_pe) (ip_delta st))).

  (** static ComputeAlpha(val, d_val, tau), qp.cc:491-507 *)
  Definition ComputeAlphaVec (val d_val : list F) (tau : F) : outcome F :=
    f_assert (List.length val =? List.length d_val) "ComputeAlpha: val.rows() == d_val.rows()" ;;
    f_assert (fgtb tau f0) "ComputeAlpha: tau > 0" ;;
    f_assert (fleb tau f1) "ComputeAlpha: tau <= 1" ;;
    Ok (fold_left (fun alpha (vd : F * F) =>
          let (v, dv) := vd in
          if fleb (fadd v dv) f0 && fgtb (fabs dv) f0
          then let candidate := fdiv (fmul (fneg tau) v) dv in
               if fltb candidate alpha then candidate else alpha
          else alpha) (combine val d_val) f1).

  (** ComputeAlpha(output, tau), qp.cc:485-489 *)
  Definition ComputeAlpha (st : ip_solver F) (tau : F) : outcome (AlphaValues F) :=
    let d := ip_dims st in
    do ap <- ComputeAlphaVec (sblk d (ip_vars st)) (sblk d (ip_delta st)) tau ;
    do ad <- ComputeAlphaVec (zblk d (ip_vars st)) (zblk d (ip_delta st)) tau ;
    Ok (MkAlpha ap ad).

  (** ComputeMu, qp.cc:509-516 *)
  Definition ComputeMu (st : ip_solver F) : F :=
    let d := ip_dims st in
    if HasInequalityConstraints d
    then fdiv (fdot (sblk d (ip_vars st)) (zblk d (ip_vars st))) (fofnat (dM d))
    else f0.

  (** ComputePredictorCorrectorMuAffine, qp.cc:519-537 *)
  Definition ComputePredictorCorrectorMuAffine (st : ip_solver F) (mu : F) (ap : AlphaValues F) : F :=
    let d := ip_dims st in
    let s := sblk d (ip_vars st) in
    let z := zblk d (ip_vars st) in
    let ds := sblk d (ip_delta_aff st) in
    let dz := zblk d (ip_delta_aff st) in
    let m := fofnat (dM d) in
    let a1 := fadd mu (fdiv (fmul (dual ap) (fdot s dz)) m) in
    let a2 := fadd a1 (fdiv (fmul (primal ap) (fdot z ds)) m) in
    let a3 := fadd a2 (fdiv (fmul (fmul (dual ap) (primal ap)) (fdot ds dz)) m) in
    fmax a3 f0.

  (** The four block updates at the end of Iterate, qp.cc:196-199 *)
  Definition apply_update (st : ip_solver F) (al : AlphaValues F) : ip_solver F :=
    let d := ip_dims st in
    let v := ip_vars st in
    let dl := ip_delta st in
    let v1 := set_x d (vadd (xblk d v) (vscale (xblk d dl) (primal al))) v in
    let v2 := set_s d (vadd (sblk d v1) (vscale (sblk d dl) (primal al))) v1 in
    let v3 := set_y d (vadd (yblk d v2) (vscale (yblk d dl) (dual al))) v2 in
    let v4 := set_z d (vadd (zblk d v3) (vscale (zblk d dl) (dual al))) v3 in
    with_vars st v4.

  (** Iterate, qp.cc:153-201 *)
  Definition Iterate (p : QP F) (mu_input : F) (strategy : BarrierStrategy) (st : ip_solver F)
    : outcome (ip_solver F * IPIterationOutputs F) :=
    let st0 := EvaluateKKTConditions true p st in
    let has_ineq := HasInequalityConstraints (ip_dims st) in
    do st1 <- ComputeLDLT true p st0 ;
    do '(st2, mu2, probe, mu_aff) <-
      (if negb has_ineq then
         Ok (SolveForUpdate f0 p st1, mu_input, MkAlpha fnan fnan, fnan)
       else match strategy with
       | PREDICTOR_CORRECTOR =>
         let sta := SolveForUpdate f0 p st1 in
         do probe <- ComputeAlpha sta f1 ;
         let stb := with_aff sta (ip_delta sta) in
         let mu_affine := ComputePredictorCorrectorMuAffine stb mu_input probe in
         let sigma := fcube (fdiv mu_affine mu_input) in
         let mu2 := fmul sigma mu_input in
         Ok (SolveForUpdate mu2 p stb, mu2, probe, mu_affine)
       | _ => Ok (SolveForUpdate mu_input p st1, mu_input, MkAlpha fnan fnan, fnan)
       end) ;
    do al <- (if has_ineq then ComputeAlpha st2 (flit lit_0_995) else Ok default_alpha) ;
    Ok (apply_update st2 al, MkIPOut mu2 al probe mu_aff).

  (** One iteration of the clamping loop, qp.cc:465-467 *)
  Definition clamp_one (x : list F) (c : lic F) : outcome (list F) :=
    ub_unless (0 <=? lvar c)%Z "x[c.variable] with negative index" ;;
    do v <- ClampX c (vget x (cidx c)) ;
    Ok (vupd (cidx c) (fun _ => v) x).

  (** ComputeInitialGuess, qp.cc:439-482 *)
  Definition ComputeInitialGuess (params : IPParams F) (p : QP F) (st : ip_solver F)
    : outcome (ip_solver F) :=
    let d := ip_dims st in
    match p_initial_guess_method params with
    | USER_PROVIDED => Ok st
    | m =>
      let st0 := with_vars st (set_y d (vzero (dK d)) (set_x d (vzero (dN d)) (ip_vars st))) in
      do st1 <-
        (match m with
         | NAIVE => Ok st0
         | _ =>
           do sta <- ComputeLDLT false p st0 ;
           let stb := SolveForUpdateNoInequalities (EvaluateKKTConditions false p sta) in
           Ok (with_vars stb (set_y d (yblk d (ip_delta stb))
                                (set_x d (xblk d (ip_delta stb)) (ip_vars stb))))
         end) ;
      do x <- ofold clamp_one (qcons p) (xblk d (ip_vars st1)) ;
      let svals := map (fun c : lic F =>
                     fmax (flit lit_1em9) (fadd (fmul (la c) (vget x (cidx c))) (lb c))) (qcons p) in
      let zvals := map (fun s => fdiv f1 s) svals in
      Ok (with_vars st1 (set_z d zvals (set_s d svals (set_x d x (ip_vars st1)))))
    end.

  (** ComputeLagrangeMultiplierSummary, qp.cc:539-546 *)
  Definition ComputeLagrangeMultiplierSummary (st : ip_solver F) : option (QPLagrangeMultipliers F) :=
    let y := yblk (ip_dims st) (ip_vars st) in
    if 0 <? List.length y then Some (MkLM (fmincoeff y) (flinf y)) else None.

  (** Adjustment of the barrier parameter, qp.cc:140-146 *)
  Definition next_mu (params : IPParams F) (st : ip_solver F) (kkt_after : KKTError F) (mu : F) : F :=
    if fleb (KKT_Max kkt_after) mu || negb (p_decrease_mu_only_on_small_error params)
    then match p_barrier_strategy params with
         | FIXED_DECREASE => fmul mu (p_sigma params)
         | _ => fmul (p_sigma params) (ComputeMu st)
         end
    else mu.

  (** The loop of Solve, qp.cc:116-150; [n] iterations remain. *)
  Fixpoint ip_loop (n : nat) (params : IPParams F) (p : QP F) (mu : F)
           (iterations : list (QPInteriorPointIteration F)) (st : ip_solver F)
    : outcome (ip_solver F * QPInteriorPointSolverOutputs F) :=
    match n with
    | 0 => Ok (st, MkIPSolverOut QPIP_MAX_ITERATIONS iterations (ComputeLagrangeMultiplierSummary st))
    | S n' =>
      let kkt_prev := ComputeErrors st mu in
      do '(st1, outs) <- Iterate p mu (p_barrier_strategy params) st ;
      let st2 := EvaluateKKTConditions true p st1 in
      let kkt_after := ComputeErrors st2 mu in
      let iterations' := iterations ++ [MkQPIter kkt_prev kkt_after outs] in
      if fltb (KKT_Max kkt_after) (p_termination_kkt_tol params)
         && fltb (ComputeMu st2) (p_termination_complementarity_tol params)
      then Ok (st2, MkIPSolverOut SATISFIED_KKT_TOL iterations' (ComputeLagrangeMultiplierSummary st2))
      else ip_loop n' params p (next_mu params st2 kkt_after mu) iterations' st2
    end.

  (** Solve, qp.cc:100-151. The two [ub_unless] are memory-safety conditions that the code does
      not check: SetVariables may have stored a vector that is too short, and a constraint index
      may be negative. *)
  Definition IP_Solve (params : IPParams F) (st : ip_solver F)
    : outcome (ip_solver F * QPInteriorPointSolverOutputs F) :=
    match ip_p st with
    | None => Throw (AssertFailed "Solve: must have a valid problem")
    | Some p =>
      IP_CheckParams params ;;
      let d := ip_dims st in
      ub_unless (dN d + dM d + dK d <=? List.length (ip_vars st)) "variables_ too short" ;;
      do st0 <- ComputeInitialGuess params p st ;
      ub_unless (forallb (fun c => (0 <=? lvar c)%Z) (qcons p)) "constraint index is negative" ;;
      let st1 := EvaluateKKTConditions true p st0 in
      let mu0 := if p_initialize_mu_with_complementarity params
                 then ComputeMu st1 else p_initial_mu params in
      ip_loop (Z.to_nat (p_max_iterations params)) params p mu0 [] st1
    end.

  (** x_block() etc., qp.cc:205-219; variables(), qp.hpp:199 *)
  Definition x_block (st : ip_solver F) : list F := xblk (ip_dims st) (ip_vars st).
  Definition s_block (st : ip_solver F) : list F := sblk (ip_dims st) (ip_vars st).
  Definition y_block (st : ip_solver F) : list F := yblk (ip_dims st) (ip_vars st).
  Definition z_block (st : ip_solver F) : list F := zblk (ip_dims st) (ip_vars st).

  (** BuildFullSystem, qp.cc:595-655 (used by the unit tests): the matrix H and vector r of the
      full symmetric Newton system with mu = 0. *)
  Definition Ai_get (p : QP F) (i j : nat) : F :=
    match nth_error (qcons p) i with
    | Some c => if j =? cidx c then la c else f0
    | None => f0
    end.
  Definition BuildFullSystem (p : QP F) (st : ip_solver F) : mat F * list F :=
    let d := ip_dims st in
    let N := dN d in let M := dM d in let K := dK d in
    let x := xblk d (ip_vars st) in
    let s := sblk d (ip_vars st) in
    let y := yblk d (ip_vars st) in
    let z := zblk d (ip_vars st) in
    let T := N + K + M * 2 in
    let H := mkmat T T (fun i j =>
      if i <? N then
        if j <? N then sget (qG p) i j
        else if j <? N + M then f0
        else if j <? N + M + K then mget (qA p) (j - (N + M)) i
        else Ai_get p (j - (N + M + K)) i
      else if i <? N + M then
        if j =? i then fdiv (vget z (i - N)) (vget s (i - N))
        else if j =? i + (M + K) then fneg f1 else f0
      else if i <? N + M + K then
        if j <? N then mget (qA p) (i - (N + M)) j else f0
      else
        if j <? N then Ai_get p (i - (N + M + K)) j
        else if i =? j + (M + K) then fneg f1 else f0) in
    let Ai_col j := mkvec M (fun i => Ai_get p i j) in
    let Ai_row i := mkvec N (fun j => Ai_get p i j) in
    let r_d0 := mkvec N (fun i => fadd (fdot (srow (qG p) i) x) (vget (qc p) i)) in
    let r_d1 := if 0 <? K then mkvec N (fun i => fsub (vget r_d0 i) (fdot (mcol (qA p) i) y)) else r_d0 in
    let r_d2 := if 0 <? M then mkvec N (fun i => fsub (vget r_d1 i) (fdot (Ai_col i) z)) else r_d1 in
    let r_pe := mkvec K (fun k => fadd (fdot (mrow (qA p) k) x) (vget (qb p) k)) in
    let r_pi := mkvec M (fun i => fsub (fadd (fdot (Ai_row i) x)
                   (match nth_error (qcons p) i with Some c => lb c | None => f0 end)) (vget s i)) in
    (H, (r_d2 ++ mkvec M (vget z) ++ r_pe ++ r_pi)%list).
End Model.
