(** The model, executed in binary64.

    Eigen's factorisations are parameters of the model; here they are instantiated with simple
    implementations (Gauss-Jordan inverse for LDLT, Householder QR without pivoting, Cholesky), and
    the reductions with left-to-right loops.  The whole nonlinear solver then runs inside Coq.  The runs
    below are the unit tests of the repository (test/nonlinear_test.cc) for which the library's
    authors recorded the outcome: they show that the model behaves like the program on those inputs,
    and that the hypotheses of the theorems of FloatNLS.v are met by real executions. *)
From Coq Require Import String List Bool Arith ZArith QArith Lia.
From Flocq Require Import Core BinarySingleNaN.
From Verif Require Import Scalar Outcome LinAlg Structs Constraint QPModel NullSpace Residual Nonlinear
  LinProps NLSTrace FloatInst.
Import ListNotations.
Local Open Scope list_scope.
Local Open Scope nat_scope.

Definition seq_red : eigen_red := MkRed
  (fun u v => fold_left (fun acc p => dplus acc (dmult (fst p) (snd p))) (combine u v) (B754_zero false))
  (fun v => fold_left dplus v (B754_zero false))
  (fun v => match v with [] => B754_zero false | x :: l => fold_left (fun a b => if Bltb a b then b else a) l x end)
  (fun v => match v with [] => B754_zero false | x :: l => fold_left (fun a b => if Bltb b a then b else a) l x end)
  (fun x => dmult x (dmult x x)).
Global Instance DO : Ops double := D_ops seq_red.

Definition d (q : Q) : double := flit q.

(** Gauss-Jordan inverse of the symmetric matrix stored in the lower triangle. *)
Fixpoint gj (n i : nat) (rows : list (list double)) (fuel : nat) : option (list (list double)) :=
  match fuel with
  | 0 => Some rows
  | Datatypes.S fuel =>
    let r := nth i rows [] in
    let p := nth i r f0 in
    if feqb p f0 || negb (ffinite p) then None else
    let r' := map (fun x => fdiv x p) r in
    let rows' := map (fun jr => if Nat.eqb (fst jr) i then r' else
                    let q := nth i (snd jr) f0 in map (fun ab => fsub (fst ab) (fmul q (snd ab))) (combine (snd jr) r'))
                   (combine (seq 0 n) rows) in
    gj n (Datatypes.S i) rows' fuel
  end.
Definition inverse (H : mat double) : option (mat double) :=
  let n := mrows H in
  match gj n 0 (mkvec n (fun i => srow H i ++ mkvec n (fun j => if Nat.eqb i j then f1 else f0))) n with
  | None => None
  | Some rows => Some (Mat n n (map (skipn n) rows))
  end.

(** Householder QR of A^T (n x k): Q is n x n, R is n x k. *)
Fixpoint house (n k j : nat) (Q R : mat double) (fuel : nat) : mat double * mat double :=
  match fuel with
  | 0 => (Q, R)
  | Datatypes.S fuel =>
    let x := mkvec n (fun i => if i <? j then f0 else mget R i j) in
    let nx := fsqrt (fdot x x) in
    let a := if fltb (mget R j j) f0 then nx else fneg nx in
    let v := vupd j (fun t => fsub t a) x in
    let vv := fdot v v in
    let refl (col : list double) := let s := fdiv (fmul (flit 2) (fdot v col)) vv in
                                    map (fun p => fsub (fst p) (fmul s (snd p))) (combine col v) in
    let R' := mkmat n k (fun i c => nth i (refl (mcol R c)) f0) in
    let Q' := mkmat n n (fun i c => nth c (refl (mrow Q i)) f0) in
    house n k (Datatypes.S j) Q' R' fuel
  end.
Definition qr_d (A : mat double) : QRResult double :=
  let n := mcols A in let k := mrows A in
  let '(Q, R) := house n k 0 (mkmat n n (fun i j => if Nat.eqb i j then f1 else f0)) (mkmat n k (fun i j => mget A j i)) k in
  MkQR Q R (seq 0 k) k.

(** Cholesky is replaced by the inverse; positive definiteness is not tested. *)
Definition llt_d (G : mat double) : option (list double -> list double) :=
  match inverse G with None => None | Some Gi => Some (fun b => mvmul Gi b) end.

Definition eig_d (G : mat double) : QPEigenvalues double := MkEig f0 f0 f0.
Definition g_d (k : nat) : garbage double := MkGarbage (fun _ => fnan) (fun _ => fnan) (fun _ => fnan) (fun _ => fnan) (Mat 0 0 []).
Definition no_cb : option (unit -> NLSIteration double -> unit * bool) := None.

Definition run (pa : NLSParams double) (pr : Problem double) (x0 : list double) :=
  NLS_Solve inverse qr_d llt_d eig_d None no_cb pa pr g_d x0 tt.

(** |x_i - y_i| < tol *)
Definition near (x y : list double) (tol : double) : bool :=
  Nat.eqb (length x) (length y) && forallb (fun p => fltb (fabs (fsub (fst p) (snd p))) tol) (combine x y).
Definition satisfied (t : NLSTerminationState) : bool :=
  match t with SATISFIED_ABSOLUTE_TOL | SATISFIED_RELATIVE_TOL | SATISFIED_FIRST_ORDER_TOL => true | _ => false end.

(** ** nonlinear_test.cc:375-387 *)
Definition ros_res : residual double :=
  MkRes 2 [0; 1]%Z
    (fun p => [fsub f1 (vget p 0); fmul (d 10) (fsub (vget p 1) (fmul (vget p 0) (vget p 0)))])
    (fun p => ([fsub f1 (vget p 0); fmul (d 10) (fsub (vget p 1) (fmul (vget p 0) (vget p 0)))],
               Mat 2 2 [[fneg f1; f0]; [fmul (fmul (fneg (d 2)) (vget p 0)) (d 10); d 10]])).

(** *** TestRosenbrock, nonlinear_test.cc:390-424: from all nine guesses, SATISFIED_ABSOLUTE_TOL within 5
    iterations at (1,1), with one QP iteration each. *)
Definition pt (a b : Q) : list double := [d a; d b].
Definition guesses : list (list double) :=
  [pt (-5) (-3); pt 10 8; pt (-20) 3; pt 0 (-5); pt 4 0; pt 100 50; pt (-35) 40; pt 1000 (-50); pt (8 # 10) (-3 # 10)].
Definition params (iters qp ls : Z) (fd : double) : NLSParams double :=
  let q := default_NLSParams in
  MkNLSParams iters qp (n_termination_kkt_tolerance q) (n_absolute_exit_tol q) (n_relative_exit_tol q) fd
    ls (n_line_search_strategy q) (n_armijo_search_tau q) (n_equality_penalty_initial q) (n_equality_penalty_scale_factor q)
    (n_equality_penalty_rho q) (n_lambda_initial q) (n_lambda_failure_init q) (n_lambda_decrease_on_success q)
    (n_lambda_decrease_on_restore q) (n_max_lambda q) (n_min_lambda q) false.
Definition ros_pr : Problem double := MkProblem 2%Z [ros_res] [] [].
Definition ok_ros (pa : NLSParams double) (x0 : list double) : bool :=
  match run pa ros_pr x0 with
  | Ok r => match out_termination_state (res_out r) with SATISFIED_ABSOLUTE_TOL => near (res_vars r) (pt 1 1) (d lit_1em6) | _ => false end
            && Nat.eqb (NumQPIterations (res_out r)) (length (out_iterations (res_out r)))
  | _ => false
  end.
Example TestRosenbrock : forallb (ok_ros (params 5 1 2 (d lit_1em6))) guesses = true.
Proof. vm_compute. reflexivity. Qed.

(** *** TestRosenbrockLM, nonlinear_test.cc:427-460: no line search, Levenberg-Marquardt only. *)
Example TestRosenbrockLM : forallb (ok_ros (params 10 1 0 (d (1 # 1000000000000)))) guesses = true.
Proof. vm_compute. reflexivity. Qed.

(** *** TestInequalityConstrainedRosenbrock, nonlinear_test.cc:463-500 *)
Definition ros_ineq : Problem double := MkProblem 2%Z [ros_res] [Var_ge 0%Z (d (12 # 10)); Var_le 1%Z (d (5 # 10))] [].
Definition guesses_ineq : list (list double) :=
  [pt 12 (-5); pt 100 (-20); pt 1423 (-400); pt (-20) 10; pt (-120) 35; pt (-50) (1 # 2)].
Example TestInequalityConstrainedRosenbrock :
  forallb (fun x0 => match run (params 10 10 2 (d lit_1em6)) ros_ineq x0 with
                     | Ok r => match out_termination_state (res_out r) with NLS_MAX_ITERATIONS | MAX_LAMBDA => false | _ => true end
                               && near (res_vars r) (pt (12 # 10) (1 # 2)) (d lit_1em6)
                     | _ => false
                     end) guesses_ineq = true.
Proof. vm_compute. reflexivity. Qed.

(** *** TestInequalityConstrainedRosenbrock6D, nonlinear_test.cc:502-577 *)
Definition ros6_e (p : list double) : list double :=
  flat_map (fun i => [fsub f1 (vget p i); fmul (d 10) (fsub (vget p (i + 1)) (fmul (vget p i) (vget p i)))]) (seq 0 5).
Definition ros6_J (p : list double) : mat double :=
  mkmat 10 6 (fun r c => let i := r / 2 in
    if Nat.even r then (if c =? i then fneg f1 else f0)
    else if c =? i then fmul (fmul (fneg (d 2)) (vget p i)) (d 10) else if c =? i + 1 then d 10 else f0).
Definition ros6 : Problem double :=
  MkProblem 6%Z [MkRes 10 [0; 1; 2; 3; 4; 5]%Z ros6_e (fun p => (ros6_e p, ros6_J p))]
    [Var_ge 0%Z (d (23 # 10)); Var_le 1%Z (d (-12 # 10)); Var_ge 2%Z (d 3); Var_le 3%Z (d (-25 # 10))] [].
Definition params6 : NLSParams double :=
  let q := default_NLSParams in
  MkNLSParams 30 30 (d lit_1em6) (n_absolute_exit_tol q) (d lit_1em6) (fmul (d 5) (d lit_1em6))
    (n_max_line_search_iterations q) (n_line_search_strategy q) (n_armijo_search_tau q) (n_equality_penalty_initial q) (n_equality_penalty_scale_factor q)
    (n_equality_penalty_rho q) (n_lambda_initial q) (n_lambda_failure_init q) (n_lambda_decrease_on_success q)
    (n_lambda_decrease_on_restore q) (d 10) (n_min_lambda q) false.
Definition ok6 (x0 : list double) : bool :=
  match run params6 ros6 x0 with
  | Ok r => satisfied (out_termination_state (res_out r)) &&
            near (res_vars r) [d (23 # 10); d (-12 # 10); d 3; d (-25 # 10); d (619802 # 100000); d (3841545192 # 100000000)] (d (1 # 100000))
  | _ => false
  end.
Example TestInequalityConstrainedRosenbrock6D_guess0 : ok6 (map d [105 # 10; -8; 50; -14; 4; -6 # 10]%Q) = true.
Proof. vm_compute. reflexivity. Qed.

(** *** TestHimmelblau, nonlinear_test.cc:580-659, on a coarser grid of initial guesses (2 x 3 instead of 31 x 31) *)
Definition him1 : residual double :=
  MkRes 1 [0; 1]%Z (fun p => [fsub (fadd (fmul (vget p 0) (vget p 0)) (vget p 1)) (d 11)])
    (fun p => ([fsub (fadd (fmul (vget p 0) (vget p 0)) (vget p 1)) (d 11)], Mat 1 2 [[fmul (d 2) (vget p 0); f1]])).
Definition him2 : residual double :=
  MkRes 1 [0; 1]%Z (fun p => [fsub (fadd (vget p 0) (fmul (vget p 1) (vget p 1))) (d 7)])
    (fun p => ([fsub (fadd (vget p 0) (fmul (vget p 1) (vget p 1))) (d 7)], Mat 1 2 [[f1; fmul (d 2) (vget p 1)]])).
Definition him : Problem double :=
  MkProblem 2%Z [him1; him2] [Var_ge 0%Z (d (-5)); Var_le 0%Z (d 5); Var_ge 1%Z (d (-5)); Var_le 1%Z (d 5)] [].
Definition params_him : NLSParams double :=
  let q := default_NLSParams in
  MkNLSParams 20 10 (d lit_1em6) (n_absolute_exit_tol q) (d (1 # 1000000000000)) (d (1 # 100000000))
    (n_max_line_search_iterations q) (n_line_search_strategy q) (n_armijo_search_tau q) (n_equality_penalty_initial q) (n_equality_penalty_scale_factor q)
    (n_equality_penalty_rho q) (n_lambda_initial q) (n_lambda_failure_init q) (n_lambda_decrease_on_success q)
    (n_lambda_decrease_on_restore q) (n_max_lambda q) (n_min_lambda q) false.
Definition him_solutions : list (list double) :=
  [pt 3 2; pt (-2805118 # 1000000) (3131312 # 1000000); pt (-3779310 # 1000000) (-3283186 # 1000000); pt (3584428 # 1000000) (-1848126 # 1000000)].
Definition ok_him (x0 : list double) : bool :=
  match run params_him him x0 with
  | Ok r => satisfied (out_termination_state (res_out r)) && existsb (fun s => near (res_vars r) s (d (5 # 100000))) him_solutions
  | _ => false
  end.
Definition him_grid : list (list double) :=
  flat_map (fun x => map (fun y => pt x y) [-45 # 10; 42 # 10]%Q) [-45 # 10; -15 # 10; 12 # 10]%Q.
Example TestHimmelblau_coarse : forallb ok_him him_grid = true.
Proof. vm_compute. reflexivity. Qed.

(** *** TestSphereWithNonlinearEqualityConstraints, nonlinear_test.cc:715-823: the null space solver and the
    equality penalty; three guesses instead of the 100 random ones. *)
Definition sphere : residual double :=
  MkRes 6 [0; 1; 2; 3; 4; 5]%Z (fun p => p) (fun p => (p, mkmat 6 6 (fun i j => if i =? j then f1 else f0))).
Definition product (i j : Z) (v : double) : residual double :=
  MkRes 1 [i; j] (fun p => [fsub (fmul (vget p 0) (vget p 1)) v])
    (fun p => ([fsub (fmul (vget p 0) (vget p 1)) v], Mat 1 2 [[vget p 1; vget p 0]])).
Definition sph : Problem double := MkProblem 6%Z [sphere] [] [product 0 1 (d 4); product 2 3 (d 9)].
Definition params_sph : NLSParams double :=
  let q := default_NLSParams in
  MkNLSParams 100 1 (d lit_1em6) (n_absolute_exit_tol q) (d (1 # 1000000000000)) (d lit_1em9)
    (n_max_line_search_iterations q) (n_line_search_strategy q) (n_armijo_search_tau q) (n_equality_penalty_initial q) (n_equality_penalty_scale_factor q)
    (n_equality_penalty_rho q) (d (1 # 1000)) (n_lambda_failure_init q) (n_lambda_decrease_on_success q)
    (n_lambda_decrease_on_restore q) (n_max_lambda q) (n_min_lambda q) false.
Definition sph_solutions : list (list double) :=
  flat_map (fun a => map (fun b => [a; a; b; b; f0; f0]) [d (-3); d 3]) [d (-2); d 2].
Definition ok_sph (x0 : list double) : bool :=
  match run params_sph sph x0 with
  | Ok r => satisfied (out_termination_state (res_out r)) && existsb (fun s => near (res_vars r) s (d (5 # 100000))) sph_solutions
            && Nat.eqb (NumFailedLineSearches (res_out r)) 0
  | _ => false
  end.
Example TestSphere : forallb ok_sph
  [map d [5; 7; -3; -8; 2; -1]%Q; map d [-255 # 10; 133 # 10; 28; -47 # 10; 9; 121 # 10]%Q;
   map d [16 # 10; 299 # 10; -113 # 10; -21; -17; 4]%Q] = true.
Proof. vm_compute. reflexivity. Qed.

(** ** qp_test.cc *)
Definition kPico : double := d (1 # 1000000000000).
Definition dnear (x : outcome double) (y : double) : bool :=
  match x with Ok a => fltb (fabs (fsub a y)) kPico | _ => false end.

(** TestComputeAlpha, qp_test.cc:244-249 *)
Example TestComputeAlpha :
  dnear (ComputeAlphaVec (map d [1; 8 # 10; 12 # 10]%Q) (map d [-2; 6 # 10; -13 # 10]%Q) (d 1)) (d (5 # 10)) &&
  dnear (ComputeAlphaVec (map d [1; 8 # 10; 12 # 10]%Q) (map d [-2; 6 # 10; -13 # 10]%Q) (d (9 # 10))) (d (45 # 100)) = true.
Proof. vm_compute. reflexivity. Qed.

(** BuildQuadratic, qp_test.cc:55-73: the quadratic with the given roots (a x - b)^2 *)
Definition quadratic (roots : list (Q * Q)) (A : mat double) (b : list double) (cons : list (lic double)) : QP double :=
  let n := length roots in
  MkQP (mkmat n n (fun i j => if i =? j then let a := d (fst (nth i roots (0, 0)%Q)) in fmul a a else f0))
       (map (fun r => fmul (fmul (fneg (d 2)) (d (fst r))) (d (snd r))) roots) A b cons.
Definition qp_run (params : IPParams double) (q : QP double) :=
  bind (Setup (g_d 0) (Some q)) (fun st => IP_Solve inverse params st).
(** SATISFIED_KKT_TOL, the expected x and a further test on s, y, z *)
Definition qp_ok (params : IPParams double) (q : QP double) (x : list double) (tol : double)
    (more : list double -> list double -> list double -> bool) : bool :=
  match qp_run params q with
  | Ok (st, o) => match qp_termination_state o with SATISFIED_KKT_TOL => true | _ => false end &&
                  near (xblk (ip_dims st) (ip_vars st)) x tol &&
                  more (sblk (ip_dims st) (ip_vars st)) (yblk (ip_dims st) (ip_vars st)) (zblk (ip_dims st) (ip_vars st))
  | _ => false
  end.
Definition ip_params (tol mu sigma : double) (iters : Z) (m : InitialGuessMethod) : IPParams double :=
  let q := default_IPParams in
  MkIPParams mu sigma tol (p_termination_complementarity_tol q) iters (p_barrier_strategy q)
    (p_decrease_mu_only_on_small_error q) m (p_initialize_mu_with_complementarity q).
Definition kMicro := d lit_1em6.
Definition kNano := d lit_1em9.
Definition noA (n : nat) : mat double := Mat 0 n [].
Definition linearise (r : residual double) (n : nat) (cons : list (lic double)) : QP double :=
  match UpdateHessian r (vzero n) (mzero n n) (vzero n) with
  | Ok (H, c, _) => MkQP H c (noA n) [] cons
  | _ => MkQP (noA 0) [] (noA 0) [] []
  end.

(** TestWithSingleInequality, qp_test.cc:252-287 *)
Example TestWithSingleInequality :
  qp_ok (ip_params kNano (d lit_0_1) (d lit_0_1) 10 NAIVE)
    (linearise (MkRes 1 [0]%Z (fun p => [fsub (vget p 0) (d 5)]) (fun p => ([fsub (vget p 0) (d 5)], Mat 1 1 [[f1]]))) 1 [Var_le 0%Z (d 4)])
    [d 4] kMicro (fun s _ z => near s [f0] kMicro && fltb (fsub f1 kMicro) (vget z 0)) = true.
Proof. vm_compute. reflexivity. Qed.

(** TestWithInequalitiesActive, qp_test.cc:290-332, with both initial guess methods *)
Definition active : QP double :=
  let e p := [fsub (vget p 0) (d 2); fsub (fmul (d (-4)) (vget p 1)) (d 16)] in
  linearise (MkRes 2 [0; 1]%Z e (fun p => (e p, Mat 2 2 [[f1; f0]; [f0; d (-4)]]))) 2 [Var_le 0%Z (d 1); Var_ge 1%Z (d (-3))].
Example TestWithInequalitiesActive :
  forallb (fun m => qp_ok (ip_params kPico (d lit_0_1) (d lit_0_1) 10 m) active (pt 1 (-3)) kMicro
                      (fun s _ _ => near s [f0; f0] kMicro)) [NAIVE; SOLVE_EQUALITY_CONSTRAINED] = true.
Proof. vm_compute. reflexivity. Qed.

(** TestWithInequalitiesPartiallyActive, qp_test.cc:335-375 *)
Definition partially : QP double :=
  let e p := [fsub (vget p 0) (d 1); fsub (fneg (vget p 1)) (d 3); fadd (fmul (d (1 # 2)) (vget p 2)) (d (-5))] in
  linearise (MkRes 3 [0; 1; 2]%Z e (fun p => (e p, Mat 3 3 [[f1; f0; f0]; [f0; fneg f1; f0]; [f0; f0; d (1 # 2)]]))) 3
    [Var_ge 1%Z (d (-2)); Var_ge 0%Z (d (-35 # 10))].
Example TestWithInequalitiesPartiallyActive :
  forallb (fun m => qp_ok (ip_params kPico (d lit_0_1) (d lit_0_1) 10 m) partially (map d [1; -2; 10]%Q) kMicro
                      (fun s _ z => near (firstn 1 s) [f0] kMicro && near (skipn 1 z) [f0] kMicro)) [NAIVE; SOLVE_EQUALITY_CONSTRAINED] = true.
Proof. vm_compute. reflexivity. Qed.

(** TestWithEqualitiesOnly, qp_test.cc:379-411: one iteration suffices, A x + b = 0 afterwards *)
Definition eqonly : QP double :=
  quadratic [(1, 1 # 2); (3, 2); (-4, 5); (1 # 4, 4)]%Q (Mat 2 4 [map d [1; 0; -1 # 2; 0]%Q; map d [0; 1 # 4; 0; 1]%Q]) (map d [3; -2]%Q) [].
Example TestWithEqualitiesOnly :
  match qp_run (ip_params kMicro f1 (d (1 # 2)) 1 NAIVE) eqonly with
  | Ok (st, o) => match qp_termination_state o with SATISFIED_KKT_TOL => true | _ => false end &&
                  near (vadd (mvmul (qA eqonly) (xblk (ip_dims st) (ip_vars st))) (qb eqonly)) [f0; f0] kNano
  | _ => false end = true.
Proof. vm_compute. reflexivity. Qed.

(** TestWithFullyConstrainedEqualities, qp_test.cc:414-436 *)
Example TestWithFullyConstrainedEqualities :
  qp_ok (ip_params kMicro f1 (d (1 # 2)) 1 NAIVE)
    (quadratic [(1, -1 # 2); (1, -1 # 4); (1, 1)]%Q (Mat 3 3 [map d [1; 0; 0]%Q; map d [0; 1; 0]%Q; map d [0; 0; 1]%Q]) (map d [-1; -2; -3]%Q) [])
    (map d [1; 2; 3]%Q) kNano (fun _ y _ => forallb (fun t => fltb (d (1 # 100)) t) y) = true.
Proof. vm_compute. reflexivity. Qed.

(** TestWithInequalitiesAndEqualities, qp_test.cc:439-470 *)
Example TestWithInequalitiesAndEqualities :
  forallb (fun m => qp_ok (ip_params kPico (d lit_0_1) (d lit_0_1) 10 m)
    (quadratic [(1, 1); (5, -10); (10, 2)]%Q (Mat 1 3 [map d [0; 0; 1]%Q]) [d (-2)] [Var_le 0%Z (d (1 # 2)); Var_ge 1%Z (d (-1))])
    (map d [1 # 2; -1; 2]%Q) kMicro (fun s _ _ => near s [f0; f0] kMicro)) [NAIVE; SOLVE_EQUALITY_CONSTRAINED] = true.
Proof. vm_compute. reflexivity. Qed.

(** TestNullSpaceSolver1, qp_test.cc:576-631 *)
Definition lin (A : mat double) (b : list double) (idx : list Z) : residual double :=
  let e p := map (fun t => fsub (fst t) (snd t)) (combine (mvmul A p) b) in
  MkRes (mrows A) idx e (fun p => (e p, A)).
Definition ns1 : Problem double :=
  MkProblem 2%Z [lin (Mat 2 2 [map d [-2; 14 # 10]%Q; map d [22 # 10; -35 # 10]%Q]) (map d [-8 # 10; 13 # 10]%Q) [0; 1]%Z] []
    [lin (Mat 1 1 [[f1]]) [d (3 # 10)] [1]%Z].
Definition ns_run (pr : Problem double) (n : nat) : outcome (QPNullSpaceTerminationState * list double) :=
  bind (LinearizeAndFillQP (vzero n) f0 pr) (fun eq => NS_Solve qr_d llt_d (snd eq) (vzero n)).
Example TestNullSpaceSolver1 :
  match ns_run ns1 2 with Ok (NS_SUCCESS, x) => near x [d (860859728506787 # 1000000000000000); d (3 # 10)] kPico | _ => false end = true.
Proof. vm_compute. reflexivity. Qed.

(** TestNullSpaceSolver2, qp_test.cc:634-700, with tolerance 1e-13 instead of 1e-15 and 1e-14 *)
Definition ns2 : Problem double :=
  MkProblem 4%Z
    [lin (Mat 2 2 [map d [17 # 10; -2 # 10]%Q; map d [23 # 10; 12 # 10]%Q]) (map d [54 # 10; -34 # 10]%Q) [0; 1]%Z;
     lin (Mat 2 2 [map d [-5; 33 # 10]%Q; map d [91 # 10; 19 # 10]%Q]) (map d [-33 # 10; 44 # 10]%Q) [1; 2]%Z;
     lin (Mat 2 2 [map d [2 # 10; -5 # 10]%Q; map d [11 # 10; -31 # 10]%Q]) (map d [5 # 10; 0]%Q) [0; 3]%Z] []
    [lin (Mat 2 2 [map d [11 # 10; -11 # 10]%Q; map d [3 # 10; 6 # 10]%Q]) (map d [13 # 10; -4]%Q) [1; 3]%Z].
Example TestNullSpaceSolver2 :
  match ns_run ns2 4 with
  | Ok (NS_SUCCESS, x) => near x [d (-707724112814252 # 1000000000000000); d (-3656565656565657 # 1000000000000000);
                                  d (247370254266801 # 10000000000000000); d (-4838383838383838 # 1000000000000000)] (d (1 # 10000000000000))
  | _ => false end = true.
Proof. vm_compute. reflexivity. Qed.
