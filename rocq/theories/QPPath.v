(** Convergence of the interior point method with short steps (C89), in exact arithmetic: from a strictly feasible start near the
    central path and with sigma close to 1, Solve takes full steps only, stays strictly feasible and near the central path, and
    stops with SATISFIED_KKT_TOL after O(sqrt M log (1 / tolerance)) iterations, for every convex QP. *)
From Coq Require Import String List Bool Arith ZArith QArith Reals Lra Lia.
From Verif Require Import Scalar Outcome LinAlg Structs Constraint QPModel RInst Spec
  Props_Constraint QPBlocks QPAlgebra QPNewton QPAlpha QPStep QPTrace QPInit QPSolve QPIter Optimality NLSInequality.
Import ListNotations.
Local Open Scope outcome_scope.
Local Open Scope string_scope.
Local Open Scope list_scope.
Local Open Scope R_scope.

(** ** Sums *)
Lemma sq0 : forall a : R, 0 <= a * a.
Proof. intro a. destruct (Rle_lt_dec 0 a); nra. Qed.
(** A term is bounded by the root of the sum of squares. *)
Lemma term_bound : forall n (f : nat -> R) b i, 0 <= b -> Rsum n (fun m => f m * f m) <= b * b -> (i < n)%nat -> - b <= f i <= b.
Proof.
  intros n f b i HB HS Hi.
  assert (H : f i * f i <= b * b).
  { eapply Rle_trans; [|exact HS]. apply (Rsum_pos_term n (fun m => f m * f m) i); [intros; apply sq0|exact Hi]. }
  split; nra.
Qed.
(** |v|_2 <= |v|_1 *)
Lemma sq_sum_le : forall n (f : nat -> R), Rsum n (fun m => f m * f m) <= Rsum n (fun m => Rabs (f m)) * Rsum n (fun m => Rabs (f m)).
Proof.
  induction n as [|n IH]; intro f; cbn [Rsum]; [lra|]. specialize (IH f).
  assert (0 <= Rsum n (fun m => Rabs (f m))) by (apply Rsum_nonneg; intros; apply Rabs_pos).
  pose proof (Rabs_pos (f n)). assert (f n * f n = Rabs (f n) * Rabs (f n)) by (rewrite <- Rabs_mult, Rabs_pos_eq; [reflexivity|apply sq0]). nra.
Qed.
Lemma Rsum_const : forall n c, Rsum n (fun _ => c) = INR n * c.
Proof. induction n as [|n IH]; intro c; [cbn; ring|]. rewrite S_INR. cbn [Rsum]. rewrite IH. ring. Qed.
(** The mean minimises the sum of squared distances. *)
Lemma mean_best : forall n (f : nat -> R) c, (0 < n)%nat ->
  Rsum n (fun m => (f m - Rsum n f / INR n) * (f m - Rsum n f / INR n)) <= Rsum n (fun m => (f m - c) * (f m - c)).
Proof.
  intros n f c Hn. set (a := Rsum n f / INR n).
  assert (PN : 0 < INR n) by (apply lt_0_INR; exact Hn).
  assert (SA : Rsum n f = INR n * a) by (unfold a; field; lra).
  assert (E : Rsum n (fun m => (f m - c) * (f m - c)) = Rsum n (fun m => (f m - a) * (f m - a)) + INR n * ((a - c) * (a - c))).
  { rewrite (Rsum_ext n _ (fun m => (f m - a) * (f m - a) + (2 * (a - c) * f m + ((c * c) - a * a)))) by (intros; ring).
    rewrite !Rsum_plus, Rsum_scal_l, Rsum_const, SA. ring. }
  rewrite E. pose proof (sq0 (a - c)). assert (0 <= INR n * ((a - c) * (a - c))) by (apply Rmult_le_pos; lra). lra.
Qed.

(** ** Strict feasibility and centrality *)
(** All constraints and the gradient condition hold exactly, slacks and multipliers are positive. *)
Definition strictly_feasible (p : QP R) (st : ip_solver R) : Prop :=
  interior p st /\
  (forall i, (i < nv p)%nat -> kkt_dual p (x_block st) (y_block st) (z_block st) i = 0) /\
  (forall k, (k < neq p)%nat -> kkt_eq p (x_block st) k = 0) /\
  (forall m, (m < nineq p)%nat -> kkt_ineq p (x_block st) (s_block st) m = 0).
(** The products s_m z_m are close to rho. *)
Definition centred (p : QP R) (st : ip_solver R) (rho : R) : Prop :=
  0 < rho /\ Rsum (nineq p) (fun m => (vget (s_block st) m * vget (z_block st) m - rho) * (vget (s_block st) m * vget (z_block st) m - rho)) <= rho / 4 * (rho / 4).

Lemma centred_products : forall p st rho m, centred p st rho -> (m < nineq p)%nat ->
  3 / 4 * rho <= vget (s_block st) m * vget (z_block st) m <= 5 / 4 * rho.
Proof.
  intros p st rho m [P C] Hm. pose proof (term_bound _ (fun m => vget (s_block st) m * vget (z_block st) m - rho) (rho / 4) m ltac:(lra) C Hm) as X.
  cbv beta in X. lra.
Qed.

(** ** One step *)
Lemma path_step : forall ldlt (p : QP R) mu strat st st' out rho,
  wf_qp p -> psd p -> ready p st -> (0 < nineq p)%nat -> ldlt_exact (nv p + neq p) ldlt -> strat <> PREDICTOR_CORRECTOR ->
  strictly_feasible p st -> centred p st rho -> 0 < mu -> INR (nineq p) * ((rho - mu) * (rho - mu)) <= rho / 4 * (rho / 4) ->
  Iterate ldlt p mu strat st = Ok (st', out) ->
  primal (ip_alpha out) = 1 /\ dual (ip_alpha out) = 1 /\ strictly_feasible p st' /\
  let e := fun m => vget (s_block st') m * vget (z_block st') m - mu in
  Rsum (nineq p) (fun m => Rabs (e m)) <= rho / 6 /\ 0 <= Rsum (nineq p) e <= rho / 12.
Proof.
  intros ldlt p mu strat st st' out rho W PSD RD HM EX NP (INT & F1 & F2 & F3) CT PM NEAR E.
  destruct (C06_iteration_keeps_interior _ _ _ _ _ _ _ RD INT E) as [RD' INT'].
  pose proof (C08_iteration ldlt p mu strat st st' out W RD INT EX E) as N. cbv zeta in N.
  destruct N as (dx & ds & dy & dz & corr & target & (N1 & N2 & N3 & N4) & UX & US & UY & UZ & _ & NIQ).
  destruct (NIQ HM) as (_ & LP & LZ & ST & _). destruct (ST NP) as [-> CO]. clear ST NIQ.
  set (x := x_block st) in *. set (s := s_block st) in *. set (y := y_block st) in *. set (z := z_block st) in *.
  set (M := nineq p) in *.
  pose proof (proj1 CT) as PR.
  assert (SZ : forall m, (m < M)%nat -> 3 / 4 * rho <= vget s m * vget z m <= 5 / 4 * rho) by (intros m Hm; apply (centred_products p st rho m CT Hm)).
  (* the Newton equations *)
  assert (D2 : forall m, (m < M)%nat -> vget s m * vget dz m + vget z m * vget ds m = mu - vget s m * vget z m).
  { intros m Hm. rewrite (N2 m Hm), CO. unfold kkt_comp. ring. }
  assert (D3 : forall k, (k < neq p)%nat -> Rsum (nv p) (fun j => Ae p k j * vget dx j) = 0) by (intros k Hk; rewrite (N3 k Hk), (F2 k Hk); ring).
  assert (D4 : forall m, (m < M)%nat -> vget ds m = ca p m * vget dx (cv p m)) by (intros m Hm; pose proof (N4 m Hm) as X; rewrite (F3 m Hm) in X; lra).
  assert (D1 : forall i, (i < nv p)%nat -> kkt_dual p dx dy dz i = vget (qc p) i).
  { intros i Hi. pose proof (N1 i Hi) as X. rewrite (F1 i Hi) in X. unfold kkt_dual. fold M. lra. }
  (* ds . dz = dx' G dx *)
  assert (DD : Rsum M (fun m => vget ds m * vget dz m) = bform p dx dx).
  { pose proof (kkt_dot p dx dy dz dx W) as K. fold M in K.
    rewrite (Rsum_ext (nv p) _ (fun i => vget (qc p) i * vget dx i)) in K by (intros i Hi; rewrite (D1 i Hi); reflexivity). fold (gdot p dx) in K.
    rewrite (Rsum_0 (neq p)) in K by (intros k Hk; rewrite (D3 k Hk); ring).
    rewrite (Rsum_ext M _ (fun m => vget ds m * vget dz m)) in K by (intros m Hm; rewrite <- (D4 m Hm); ring). lra. }
  assert (DP : 0 <= Rsum M (fun m => vget ds m * vget dz m)) by (rewrite DD; apply PSD).
  (* sum of squares of the right hand side *)
  set (h := fun m => mu - vget s m * vget z m).
  assert (HH : Rsum M (fun m => h m * h m) <= rho * rho / 4).
  { eapply Rle_trans.
    - apply (Rsum_le M _ (fun m => 2 * ((rho - mu) * (rho - mu)) + 2 * ((vget s m * vget z m - rho) * (vget s m * vget z m - rho)))).
      intros m Hm. unfold h. pose proof (sq0 ((rho - mu) - (vget s m * vget z m - rho))). pose proof (sq0 ((rho - mu) + (vget s m * vget z m - rho))). lra.
    - rewrite Rsum_plus, Rsum_const, Rsum_scal_l. destruct CT as [_ C]. fold s z M in C. lra. }
  (* the products ds dz *)
  assert (Q : forall m, (m < M)%nat -> vget ds m * vget dz m <= / (3 * rho) * (h m * h m)).
  { intros m Hm. destruct (INT m Hm) as [P1 P2]. fold s z in P1, P2. destruct (SZ m Hm) as [S1 _].
    assert (HE : h m = vget z m * vget ds m + vget s m * vget dz m) by (unfold h; rewrite <- (D2 m Hm); ring).
    pose proof (sq0 (vget z m * vget ds m - vget s m * vget dz m)) as SQ.
    apply (Rmult_le_reg_l (3 * rho)); [lra|]. replace (3 * rho * (/ (3 * rho) * (h m * h m))) with (h m * h m) by (field; lra). rewrite HE.
    destruct (Rle_lt_dec (vget ds m * vget dz m) 0) as [L|L].
    - apply Rle_trans with 0; [|apply sq0]. rewrite <- (Rmult_0_r (3 * rho)). apply Rmult_le_compat_l; lra.
    - apply Rle_trans with (4 * (vget s m * vget z m) * (vget ds m * vget dz m)); [apply Rmult_le_compat_r; lra|]. lra. }
  assert (S1 : Rsum M (fun m => vget ds m * vget dz m) <= rho / 12).
  { eapply Rle_trans; [apply Rsum_le; exact Q|]. rewrite Rsum_scal_l. replace (rho / 12) with (/ (3 * rho) * (rho * rho / 4)) by (field; lra).
    apply Rmult_le_compat_l; [left; apply Rinv_0_lt_compat; lra|exact HH]. }
  assert (S2 : Rsum M (fun m => Rabs (vget ds m * vget dz m)) <= rho / 6).
  { apply Rle_trans with (Rsum M (fun m => 2 * (/ (3 * rho) * (h m * h m)) - vget ds m * vget dz m)).
    - apply Rsum_le. intros m Hm. specialize (Q m Hm). assert (0 <= / (3 * rho) * (h m * h m)) by (apply Rmult_le_pos; [left; apply Rinv_0_lt_compat; lra|apply sq0]).
      unfold Rabs. destruct (Rcase_abs _); lra.
    - rewrite Rsum_minus, !Rsum_scal_l. replace (rho / 6) with (2 * (/ (3 * rho) * (rho * rho / 4))) by (field; lra).
      assert (/ (3 * rho) * Rsum M (fun m => h m * h m) <= / (3 * rho) * (rho * rho / 4)); [|lra].
      apply Rmult_le_compat_l; [left; apply Rinv_0_lt_compat; lra|exact HH]. }
  (* mu is not small *)
  assert (MU : 3 / 4 * rho <= mu).
  { assert (1 <= INR M) by (apply (le_INR 1 M); exact HM). pose proof (sq0 (rho - mu)).
    assert ((rho - mu) * (rho - mu) <= rho / 4 * (rho / 4)) by (eapply Rle_trans; [|exact NEAR]; fold M; nra). nra. }
  (* a full step *)
  assert (POS : forall m, (m < M)%nat -> 0 < vget s m + vget ds m /\ 0 < vget z m + vget dz m).
  { intros m Hm. destruct (INT m Hm) as [P1 P2]. fold s z in P1, P2. destruct (SZ m Hm) as [L1 L2].
    assert (AB : Rabs (vget ds m * vget dz m) <= rho / 6).
    { eapply Rle_trans; [|exact S2]. apply (Rsum_pos_term M (fun m => Rabs (vget ds m * vget dz m)) m); [intros; apply Rabs_pos|exact Hm]. }
    pose proof (Rle_abs (- (vget ds m * vget dz m))) as A1. rewrite Rabs_Ropp in A1.
    assert (PR' : 0 < (vget s m + vget ds m) * (vget z m + vget dz m)) by (pose proof (D2 m Hm); nra).
    assert (SM : 0 < vget z m * (vget s m + vget ds m) + vget s m * (vget z m + vget dz m)) by (pose proof (D2 m Hm); nra).
    destruct (Rlt_le_dec 0 (vget s m + vget ds m)) as [G|G].
    - split; [exact G|]. destruct (Rlt_le_dec 0 (vget z m + vget dz m)) as [G'|G']; [exact G'|exfalso; nra].
    - exfalso. assert (vget z m + vget dz m <= 0).
      { destruct (Rle_lt_dec (vget z m + vget dz m) 0) as [G'|G']; [exact G'|exfalso; nra]. } nra. }
  assert (AP : primal (ip_alpha out) = 1).
  { destruct LP as (_ & _ & [L|(i & Hi & L & _)]); [exact L|exfalso]. destruct (POS i Hi). lra. }
  assert (AD : dual (ip_alpha out) = 1).
  { destruct LZ as (_ & _ & [L|(i & Hi & L & _)]); [exact L|exfalso]. destruct (POS i Hi). lra. }
  rewrite AP in UX, US. rewrite AD in UY, UZ.
  split; [exact AP|]. split; [exact AD|].
  assert (PE : forall m, (m < M)%nat -> vget (s_block st') m * vget (z_block st') m - mu = vget ds m * vget dz m).
  { intros m Hm. rewrite US, UZ. pose proof (D2 m Hm). lra. }
  split.
  - split; [exact INT'|]. split; [|split].
    + intros i Hi. pose proof (F1 i Hi) as X. pose proof (D1 i Hi) as Y. unfold kkt_dual in *. fold M in X, Y |- *.
      rewrite (Rsum_ext (nv p) _ (fun j => Gs p i j * vget x j + Gs p i j * vget dx j)) by (intros; rewrite UX; ring).
      rewrite (Rsum_ext (neq p) _ (fun k => Ae p k i * vget y k + Ae p k i * vget dy k)) by (intros; rewrite UY; ring).
      rewrite (Rsum_ext M _ (fun m => (if (cv p m =? i)%nat then ca p m * vget z m else 0) + (if (cv p m =? i)%nat then ca p m * vget dz m else 0)))
        by (intros; rewrite UZ; destruct (_ =? _)%nat; ring).
      rewrite !Rsum_plus. lra.
    + intros k Hk. pose proof (F2 k Hk) as X. pose proof (D3 k Hk) as Y. unfold kkt_eq in *.
      rewrite (Rsum_ext (nv p) _ (fun j => Ae p k j * vget x j + Ae p k j * vget dx j)) by (intros; rewrite UX; ring).
      rewrite Rsum_plus. lra.
    + intros m Hm. pose proof (F3 m Hm) as X. pose proof (D4 m Hm) as Y. unfold kkt_ineq in *. rewrite UX, US. lra.
  - intro e. assert (EE : forall m, (m < M)%nat -> e m = vget ds m * vget dz m) by exact PE.
    rewrite (Rsum_ext M _ (fun m => Rabs (vget ds m * vget dz m))) by (intros; rewrite EE by assumption; reflexivity).
    rewrite (Rsum_ext M e (fun m => vget ds m * vget dz m)) by exact EE. split; [exact S2|]. split; [exact DP|exact S1].
Qed.

(** ** The loop *)
(** The factor by which s'z / M falls per iteration, at least. *)
Definition rate (params : IPParams R) (p : QP R) : R :=
  match p_barrier_strategy params with COMPLEMENTARITY => p_sigma params + 1 / (12 * INR (nineq p)) | _ => p_sigma params end.
Definition next_rho (params : IPParams R) (p : QP R) (rho mu : R) : R :=
  match p_barrier_strategy params with COMPLEMENTARITY => mu + rho / (12 * INR (nineq p)) | _ => mu end.
Definition full_step (it : QPInteriorPointIteration R) : Prop :=
  primal (ip_alpha (ip_outputs it)) = 1 /\ dual (ip_alpha (ip_outputs it)) = 1.

Lemma norm2_zero : forall n f, (forall i, (i < n)%nat -> f i = 0) -> norm2 n f = 0.
Proof. intros n f H. unfold norm2. rewrite Rsum_0; [apply sqrt_0|]. intros i Hi. rewrite (H i Hi). ring. Qed.

Lemma path_loop : forall ldlt params (p : QP R), wf_qp p -> psd p -> (0 < nineq p)%nat -> ldlt_exact (nv p + neq p) ldlt -> ~ bad_factorization ldlt p ->
  p_barrier_strategy params <> PREDICTOR_CORRECTOR -> 0 < p_sigma params <= 1 -> INR (nineq p) * ((1 - p_sigma params) * (1 - p_sigma params)) <= 1 / 16 ->
  forall N n its st rho mu b, ready p st -> strictly_feasible p st -> centred p st rho -> 0 < mu ->
    INR (nineq p) * ((rho - mu) * (rho - mu)) <= rho / 4 * (rho / 4) -> next_rho params p rho mu <= b ->
    10 / 9 * (b * rate params p ^ N) < p_termination_complementarity_tol params -> 2 / 9 * (b * rate params p ^ N) < p_termination_kkt_tol params -> (N < n)%nat ->
    exists st' out new, ip_loop ldlt n params p mu its st = Ok (st', out) /\ qp_termination_state out = SATISFIED_KKT_TOL /\
      qp_iterations out = its ++ new /\ (length new <= N + 1)%nat /\ Forall full_step new /\
      ready p st' /\ strictly_feasible p st'.
Proof.
  intros ldlt params p W PSD HM EX NB NP SG S16 N.
  assert (M1 : 1 <= INR (nineq p)) by (apply (le_INR 1); exact HM).
  set (M := INR (nineq p)) in *. set (sg := p_sigma params) in *.
  induction N as [|N IH]; intros n its st rho mu b RD SF CT PM NEAR NX T1 T2 HN; (destruct n as [|n]; [lia|]);
    pose proof (proj1 CT) as PR; cbn [ip_loop];
    (destruct (Iterate_outcome ldlt p mu (p_barrier_strategy params) st W RD (proj1 SF)) as [[[st1 out] E]|[_ X]]; [|contradiction]);
    rewrite E; cbn [bind];
    pose proof (path_step ldlt p mu (p_barrier_strategy params) st st1 out rho W PSD RD HM EX NP SF CT PM NEAR E) as (AP & AD & SF1 & S1 & S2a & S2b);
    set (e := fun m => vget (s_block st1) m * vget (z_block st1) m - mu) in *;
    destruct (Iterate_ready _ _ _ _ _ _ _ RD E) as [RD1 _].
  all: assert (MU : 3 / 4 * rho <= mu)
    by (pose proof (sq0 (rho - mu)); assert ((rho - mu) * (rho - mu) <= rho / 4 * (rho / 4)) by (eapply Rle_trans; [|exact NEAR]; nra); nra).
  all: assert (E2 : Rsum (nineq p) (fun m => e m * e m) <= rho / 6 * (rho / 6))
    by (eapply Rle_trans; [apply sq_sum_le|]; apply Rmult_le_compat; first [exact S1 | apply Rsum_nonneg; intros; apply Rabs_pos]).
  all: assert (KM : KKT_Max (ComputeErrors (EvaluateKKTConditions true p st1) mu) <= rho / 6).
  1, 3: rewrite (C09_reported_errors p st1 mu W RD1), KKT_Max_R; cbn [r_dual r_comp r_primal_eq r_primal_ineq];
      fold (x_block st1) (s_block st1) (y_block st1) (z_block st1); destruct SF1 as (_ & G1 & G2 & G3);
      rewrite (norm2_zero (nv p)), (norm2_zero (neq p)), (norm2_zero (nineq p) (kkt_ineq p (x_block st1) (s_block st1))) by assumption;
      assert (NE : norm2 (nineq p) e <= rho / 6) by (unfold norm2; rewrite <- (sqrt_square (rho / 6)) by lra; apply sqrt_le_1_alt; exact E2);
      fold e; repeat apply Rmax_lub; (exact NE || lra).
  all: assert (CM : ComputeMu (EvaluateKKTConditions true p st1) = mu + Rsum (nineq p) e / M).
  1, 3: rewrite (ComputeMu_R p _ (eval_ready p st1 RD1) HM);
      change (s_block (EvaluateKKTConditions true p st1)) with (s_block st1); change (z_block (EvaluateKKTConditions true p st1)) with (z_block st1);
      rewrite (Rsum_ext _ _ (fun m => mu + e m)) by (intros; unfold e; ring); rewrite Rsum_plus, Rsum_const; fold M; field; lra.
  all: assert (AV : 0 <= Rsum (nineq p) e / M <= rho / (12 * M))
    by (split; [apply Rmult_le_pos; [exact S2a|left; apply Rinv_0_lt_compat; lra]|];
        replace (rho / (12 * M)) with (rho / 12 / M) by (field; lra); apply Rmult_le_compat_r; [left; apply Rinv_0_lt_compat; lra|exact S2b]).
  all: assert (RM : rho / (12 * M) <= mu / 9)
    by (apply Rle_trans with (rho / 12); [|lra]; unfold Rdiv; apply Rmult_le_compat_l; [lra|]; apply Rinv_le_contravar; lra).
  all: assert (CB : mu + Rsum (nineq p) e / M <= 10 / 9 * b /\ rho / 6 <= 2 / 9 * b)
    by (unfold next_rho in NX; destruct (p_barrier_strategy params); fold M in NX; lra).
  - (* the last iteration allowed *)
    rewrite CM. rewrite pow_O, Rmult_1_r in T1, T2.
    destruct (R_fltb (KKT_Max (ComputeErrors (EvaluateKKTConditions true p st1) mu)) (p_termination_kkt_tol params)) as [_|X]; [|exfalso; lra].
    destruct (R_fltb (mu + Rsum (nineq p) e / M) (p_termination_complementarity_tol params)) as [_|X]; [|exfalso; lra]. cbn [andb].
    eexists _, _, [_]. split; [reflexivity|]. split; [reflexivity|]. split; [reflexivity|]. split; [cbn; lia|].
    split; [constructor; [split; [exact AP|exact AD]|constructor]|]. split; [apply eval_ready; exact RD1|exact SF1].
  - destruct (_ && _) eqn:ET.
    { eexists _, _, [_]. split; [reflexivity|]. split; [reflexivity|]. split; [reflexivity|]. split; [cbn; lia|].
      split; [constructor; [split; [exact AP|exact AD]|constructor]|]. split; [apply eval_ready; exact RD1|exact SF1]. }
    clear ET.
    set (rho' := match p_barrier_strategy params with COMPLEMENTARITY => mu + Rsum (nineq p) e / M | _ => mu end).
    assert (NM : next_mu params (EvaluateKKTConditions true p st1) (ComputeErrors (EvaluateKKTConditions true p st1) mu) mu = sg * rho').
    { unfold next_mu. rewrite CM. destruct (R_fleb (KKT_Max (ComputeErrors (EvaluateKKTConditions true p st1) mu)) mu) as [_|X]; [|exfalso; lra].
      cbn [orb]. unfold rho'. fold sg. cbn [fmul R_ops]. destruct (p_barrier_strategy params); try (destruct NP; reflexivity); lra. }
    rewrite NM.
    assert (RB : mu <= rho' <= b).
    { unfold rho', next_rho in *. fold M in NX. destruct (p_barrier_strategy params); lra. }
    assert (C2 : centred p (EvaluateKKTConditions true p st1) rho').
    { split; [lra|]. change (s_block (EvaluateKKTConditions true p st1)) with (s_block st1). change (z_block (EvaluateKKTConditions true p st1)) with (z_block st1).
      apply Rle_trans with (rho / 6 * (rho / 6)); [|nra]. unfold rho'. destruct (p_barrier_strategy params); try exact E2.
      eapply Rle_trans; [|exact E2]. rewrite <- CM, (ComputeMu_R p _ (eval_ready p st1 RD1) HM).
      exact (mean_best (nineq p) (fun m => vget (s_block st1) m * vget (z_block st1) m) mu HM). }
    assert (N2 : M * ((rho' - sg * rho') * (rho' - sg * rho')) <= rho' / 4 * (rho' / 4)).
    { replace (M * ((rho' - sg * rho') * (rho' - sg * rho'))) with (M * ((1 - sg) * (1 - sg)) * (rho' * rho')) by ring.
      replace (rho' / 4 * (rho' / 4)) with (1 / 16 * (rho' * rho')) by field. apply Rmult_le_compat_r; [apply sq0|exact S16]. }
    assert (RQ : 0 <= rate params p).
    { unfold rate. fold M sg. assert (0 < 1 / (12 * M)) by (apply Rdiv_lt_0_compat; lra). destruct (p_barrier_strategy params); lra. }
    assert (N3 : next_rho params p rho' (sg * rho') <= b * rate params p).
    { assert (NR : next_rho params p rho' (sg * rho') = rho' * rate params p).
      { unfold next_rho, rate. fold M sg. destruct (p_barrier_strategy params); try ring; field; lra. }
      rewrite NR. apply Rmult_le_compat_r; lra. }
    destruct (IH n (its ++ [MkQPIter (ComputeErrors st mu) (ComputeErrors (EvaluateKKTConditions true p st1) mu) out])
                (EvaluateKKTConditions true p st1) rho' (sg * rho') (b * rate params p)) as (st' & o & new & E3 & E4 & E5 & E6 & E7 & E8).
    + apply eval_ready; exact RD1.
    + exact SF1.
    + exact C2.
    + apply Rmult_lt_0_compat; lra.
    + exact N2.
    + exact N3.
    + cbn [pow] in T1. rewrite Rmult_assoc. exact T1.
    + cbn [pow] in T2. rewrite Rmult_assoc. exact T2.
    + lia.
    + exists st', o. eexists (_ :: new). split; [exact E3|]. split; [exact E4|]. split; [rewrite E5, <- app_assoc; reflexivity|].
      split; [cbn [length]; lia|]. split; [constructor; [split; [exact AP|exact AD]|exact E7]|exact E8].
Qed.

(** ** Solve *)

(** Weak duality: at a strictly feasible state the objective exceeds the optimal value by at most s'z. *)
Lemma duality_gap : forall (p : QP R) st v, wf_qp p -> psd p -> strictly_feasible p st -> eq_feasible p v -> ineq_feasible p v ->
  objective p (x_block st) <= objective p v + Rsum (nineq p) (fun m => vget (s_block st) m * vget (z_block st) m).
Proof.
  intros p st v W PSD (INT & F1 & F2 & F3) EV IV.
  set (x := x_block st) in *. set (u := mkvec (nv p) (fun i => vget v i - vget x i)).
  assert (UG : forall i, (i < nv p)%nat -> vget u i = vget v i - vget x i) by (intros i Hi; unfold u; rewrite vget_mkvec by exact Hi; reflexivity).
  assert (OV : objective p v = objective p (along (nv p) x u 1)).
  { unfold objective, qform. f_equal; [f_equal; apply Rsum_ext; intros i Hi; apply Rsum_ext; intros j Hj|apply Rsum_ext; intros i Hi];
      unfold along; rewrite !vget_mkvec by assumption; rewrite !UG by assumption; ring. }
  rewrite OV, objective_along. pose proof (PSD u) as PU.
  pose proof (kkt_dot p x (y_block st) (z_block st) u W) as K.
  rewrite (Rsum_0 (nv p)) in K by (intros i Hi; rewrite (F1 i Hi); ring).
  rewrite (Rsum_0 (neq p)) in K.
  2: { intros k Hk. assert (Z : Rsum (nv p) (fun j => Ae p k j * vget u j) = 0); [|rewrite Z; ring].
       rewrite (Rsum_ext (nv p) _ (fun j => Ae p k j * vget v j - Ae p k j * vget x j)) by (intros j Hj; rewrite UG by exact Hj; ring).
       rewrite Rsum_minus. pose proof (EV k Hk) as A. pose proof (F2 k Hk) as B. unfold kkt_eq in A, B. lra. }
  assert (G : - Rsum (nineq p) (fun m => vget (s_block st) m * vget (z_block st) m)
              <= Rsum (nineq p) (fun m => vget (z_block st) m * (ca p m * vget u (cv p m)))).
  { rewrite <- Rsum_opp. apply Rsum_le. intros m Hm. destruct (INT m Hm) as [P1 P2]. pose proof (F3 m Hm) as B. unfold kkt_ineq in B. pose proof (IV m Hm) as A.
    assert (CV : (cv p m < nv p)%nat).
    { assert (IN : In (con p m) (qcons p)) by (apply nth_In; exact Hm). pose proof (wf_idx p W _ IN). unfold cv. lia. }
    rewrite UG by exact CV.
    assert (A2 : 0 <= vget (z_block st) m * (ca p m * vget v (cv p m) + cb p m)) by (apply Rmult_le_pos; lra).
    replace (vget (s_block st) m) with (ca p m * vget x (cv p m) + cb p m) by lra. lra. }
  lra.
Qed.

(** The value of the barrier parameter in the first iteration. *)
Definition first_mu (params : IPParams R) (p : QP R) (st : ip_solver R) : R :=
  if p_initialize_mu_with_complementarity params then complementarity p (s_block st) (z_block st) else p_initial_mu params.

Section Path.
  Variable ldlt : mat R -> option (mat R).
  Variable params : IPParams R.
  Variable p : QP R.
  Variable st : ip_solver R.
  Let M := INR (nineq p).
  Let sigma := p_sigma params.
  Let mu0 := first_mu params p st.

  (** A convex QP with inequality constraints; exact factorisations; a strictly feasible, centred start provided by the user, and
      a barrier parameter that falls slowly. *)
  Record short_step_setting : Prop := {
    sh_wf : wf_qp p;
    sh_convex : psd p;
    sh_ineq : (0 < nineq p)%nat;
    sh_exact : ldlt_exact (nv p + neq p) ldlt;
    sh_total : ~ bad_factorization ldlt p;
    sh_params : ip_params_valid params;
    sh_guess : p_initial_guess_method params = USER_PROVIDED;
    sh_strategy : p_barrier_strategy params <> PREDICTOR_CORRECTOR;
    sh_sigma : 1 - 1 / (4 * sqrt M) <= sigma <= 1;
    sh_ready : ready p st;
    sh_feasible : strictly_feasible p st;
    sh_centred : centred p st mu0 }.

  (** C89: if N iterations reduce the barrier parameter enough (by the factor [rate] = sigma, respectively sigma + 1 / (12 M), each)
      and max_iterations exceeds N, Solve returns SATISFIED_KKT_TOL after at most N + 1 iterations, all of them full steps. The
      result is strictly feasible, and its objective is within M complementarity_tol of the objective of every feasible point. *)
  Theorem C89_short_steps_converge : short_step_setting -> forall N,
    5 / 4 * (mu0 * rate params p ^ N) <= p_termination_complementarity_tol params ->
    1 / 4 * (mu0 * rate params p ^ N) <= p_termination_kkt_tol params ->
    (Z.of_nat N < p_max_iterations params)%Z ->
    exists st' out, IP_Solve ldlt params st = Ok (st', out) /\ qp_termination_state out = SATISFIED_KKT_TOL /\
      (length (qp_iterations out) <= N + 1)%nat /\ Forall full_step (qp_iterations out) /\ strictly_feasible p st' /\
      forall v, eq_feasible p v -> ineq_feasible p v -> objective p (x_block st') <= objective p v + M * p_termination_complementarity_tol params.
  Proof.
    intros [W PSD HM EX NB PV UG NP SG RD SF CT] N T1 T2 HN.
    assert (M1 : 1 <= M) by (apply (le_INR 1); exact HM).
    assert (SM : 1 <= sqrt M) by (rewrite <- sqrt_1; apply sqrt_le_1_alt; exact M1).
    assert (SS : sqrt M * sqrt M = M) by (apply sqrt_sqrt; lra).
    assert (DQ : 0 <= 1 - sigma <= 1 / (4 * sqrt M)) by lra.
    assert (IQ : 1 / (4 * sqrt M) <= 1 / 4).
    { unfold Rdiv. rewrite !Rmult_1_l. apply Rinv_le_contravar; lra. }
    assert (S16 : M * ((1 - sigma) * (1 - sigma)) <= 1 / 16).
    { apply Rle_trans with (M * (1 / (4 * sqrt M) * (1 / (4 * sqrt M)))).
      - apply Rmult_le_compat_l; [lra|]. apply Rmult_le_compat; lra.
      - right. rewrite <- SS at 1. field. lra. }
    assert (SP : 0 < sigma <= 1) by lra.
    pose proof (proj1 CT) as PM.
    assert (RP : 0 < rate params p).
    { unfold rate. fold M sigma. assert (0 < 1 / (12 * M)) by (apply Rdiv_lt_0_compat; lra). destruct (p_barrier_strategy params); lra. }
    pose proof (pow_lt _ N RP) as PP. pose proof (Rmult_lt_0_compat _ _ PM PP) as PB.
    unfold IP_Solve. rewrite (rd_p _ _ RD). destruct (IP_CheckParams_spec params) as [A _]. rewrite (A PV). cbn [bind].
    assert (Hlen : (dN (ip_dims st) + dM (ip_dims st) + dK (ip_dims st) <=? length (ip_vars st))%nat = true).
    { apply Nat.leb_le. rewrite (rd_vars _ _ RD). unfold tsize. lia. }
    rewrite Hlen. cbn [ub_unless bind]. destruct (C15_guess_outcomes ldlt params p st W RD) as (B1 & _ & _). rewrite (B1 UG). cbn [bind].
    assert (Hnn : forallb (fun c => (0 <=? lvar c)%Z) (qcons p) = true).
    { apply forallb_forall. intros c Hc. apply Z.leb_le. apply (wf_idx p W c Hc). }
    rewrite Hnn. cbn [ub_unless bind].
    assert (E0 : (if p_initialize_mu_with_complementarity params then ComputeMu (EvaluateKKTConditions true p st) else p_initial_mu params) = mu0).
    { unfold mu0, first_mu. destruct (p_initialize_mu_with_complementarity params); [|reflexivity].
      rewrite (ComputeMu_R p _ (eval_ready p st RD) HM). reflexivity. }
    rewrite E0.
    destruct (path_loop ldlt params p W PSD HM EX NB NP SP S16 N (Z.to_nat (p_max_iterations params)) [] (EvaluateKKTConditions true p st) mu0 mu0 (13 / 12 * mu0))
      as (st' & out & new & E1 & E2 & E3 & E4 & E5 & RD' & SF').
    - apply eval_ready. exact RD.
    - exact SF.
    - exact CT.
    - exact PM.
    - rewrite Rminus_diag_eq by reflexivity. rewrite Rmult_0_l, Rmult_0_r. apply sq0.
    - unfold next_rho. fold M. destruct (p_barrier_strategy params); try lra.
      assert (mu0 / (12 * M) <= mu0 / 12); [|lra]. unfold Rdiv. apply Rmult_le_compat_l; [lra|]. apply Rinv_le_contravar; lra.
    - lra.
    - lra.
    - lia.
    - exists st', out. split; [exact E1|]. split; [exact E2|]. cbn [app] in E3. rewrite E3. split; [exact E4|]. split; [exact E5|]. split; [exact SF'|].
      intros v EV IV. eapply Rle_trans; [apply (duality_gap p st' v W PSD SF' EV IV)|]. apply Rplus_le_compat_l.
      assert (IPS : IP_Solve ldlt params st = Ok (st', out)).
      { unfold IP_Solve. rewrite (rd_p _ _ RD), (A PV). cbn [bind]. rewrite Hlen. cbn [ub_unless bind]. rewrite (B1 UG). cbn [bind]. rewrite Hnn. cbn [ub_unless bind].
        rewrite E0. exact E1. }
      destruct (C12_satisfied_means_satisfied ldlt params p st st' out W RD ltac:(intros; exact (proj1 SF)) IPS E2) as (m & _ & _ & _ & _ & CT' & _).
      specialize (CT' HM). fold M in CT'. set (S := Rsum (nineq p) (fun m => vget (s_block st') m * vget (z_block st') m)) in *.
      replace S with (M * (S / M)) by (field; lra). apply Rmult_le_compat_l; lra.
  Qed.

  (** With FIXED_DECREASE and sigma = 1 - 1 / (4 sqrt M), 4 sqrt M ln (5/4 mu0 / tol) iterations are enough. *)
  Theorem C89_iterations_needed : short_step_setting -> p_barrier_strategy params = FIXED_DECREASE -> sigma = 1 - 1 / (4 * sqrt M) ->
    forall tol N, 0 < tol -> tol <= p_termination_complementarity_tol params -> tol <= p_termination_kkt_tol params ->
    4 * sqrt M * ln (5 / 4 * mu0 / tol) <= INR N -> (Z.of_nat N < p_max_iterations params)%Z ->
    exists st' out, IP_Solve ldlt params st = Ok (st', out) /\ qp_termination_state out = SATISFIED_KKT_TOL /\
      (length (qp_iterations out) <= N + 1)%nat.
  Proof.
    intros S FD SE tol N TP T1 T2 HN HZ.
    assert (M1 : 1 <= M) by (apply (le_INR 1); exact (sh_ineq S)).
    assert (SM : 1 <= sqrt M) by (rewrite <- sqrt_1; apply sqrt_le_1_alt; exact M1).
    set (x := 1 / (4 * sqrt M)) in *. assert (PX : 0 < x) by (apply Rdiv_lt_0_compat; lra).
    assert (X4 : 4 * sqrt M * x = 1) by (unfold x; field; lra).
    assert (PM : 0 < mu0) by exact (proj1 (sh_centred S)).
    assert (RT : rate params p = 1 - x) by (unfold rate; rewrite FD; exact SE).
    assert (X1 : x <= 1 / 4) by nra.
    assert (PW : (1 - x) ^ N <= exp (- (x * INR N))).
    { clear HN HZ. induction N as [|N IH]; [cbn; rewrite Rmult_0_r, Ropp_0, exp_0; lra|]. rewrite S_INR.
      replace (- (x * (INR N + 1))) with (- x + - (x * INR N)) by ring. rewrite exp_plus. cbn [pow].
      pose proof (exp_ineq1_le (- x)). apply Rmult_le_compat; try lra. apply pow_le. lra. }
    assert (LE : ln (5 / 4 * mu0 / tol) <= x * INR N).
    { apply Rle_trans with (x * (4 * sqrt M * ln (5 / 4 * mu0 / tol))); [|apply Rmult_le_compat_l; lra].
      right. replace (x * (4 * sqrt M * ln (5 / 4 * mu0 / tol))) with ((4 * sqrt M * x) * ln (5 / 4 * mu0 / tol)) by ring. rewrite X4. ring. }
    assert (EX : exp (- (x * INR N)) <= tol / (5 / 4 * mu0)).
    { replace (tol / (5 / 4 * mu0)) with (exp (- ln (5 / 4 * mu0 / tol))).
      - destruct LE as [LE| <-]; [left; apply exp_increasing; lra|lra].
      - rewrite exp_Ropp, exp_ln; [field; lra|apply Rdiv_lt_0_compat; lra]. }
    assert (B : 5 / 4 * (mu0 * (1 - x) ^ N) <= tol).
    { replace tol with (5 / 4 * mu0 * (tol / (5 / 4 * mu0))) by (field; lra).
      rewrite <- Rmult_assoc. apply Rmult_le_compat_l; lra. }
    assert (P0 : 0 <= mu0 * (1 - x) ^ N) by (apply Rmult_le_pos; [lra|apply pow_le; lra]).
    destruct (C89_short_steps_converge S N) as (st' & out & A1 & A2 & A3 & _); try rewrite RT; try lra; try exact HZ.
    exists st', out. auto.
  Qed.
End Path.

(** The same parameters with another max_iterations. *)
Definition with_max_iterations (params : IPParams R) (n : Z) : IPParams R :=
  MkIPParams (p_initial_mu params) (p_sigma params) (p_termination_kkt_tol params) (p_termination_complementarity_tol params) n
    (p_barrier_strategy params) (p_decrease_mu_only_on_small_error params) (p_initial_guess_method params) (p_initialize_mu_with_complementarity params).

(** Whatever the (positive) tolerances, some number of iterations is enough. *)
Theorem C89_converges : forall ldlt params p st, short_step_setting ldlt params p st -> rate params p < 1 ->
  0 < p_termination_complementarity_tol params ->
  exists N, forall n, (Z.of_nat N < n)%Z ->
    exists st' out, IP_Solve ldlt (with_max_iterations params n) st = Ok (st', out) /\
      qp_termination_state out = SATISFIED_KKT_TOL /\ (length (qp_iterations out) <= N + 1)%nat.
Proof.
  intros ldlt params p st S R1 PT.
  assert (M1 : 1 <= INR (nineq p)) by (apply (le_INR 1); exact (sh_ineq _ _ _ _ S)).
  assert (PK : 0 < p_termination_kkt_tol params).
  { destruct (sh_params _ _ _ _ S) as (_ & _ & _ & K & _). cbn [fltb f0 R_ops] in K. destruct (Rltb_spec 0 (p_termination_kkt_tol params)); [assumption|discriminate]. }
  assert (PS : 0 < p_sigma params).
  { destruct (sh_params _ _ _ _ S) as (_ & K & _). cbn [fltb f0 R_ops] in K. destruct (Rltb_spec 0 (p_sigma params)); [assumption|discriminate]. }
  assert (RP : 0 < rate params p).
  { unfold rate. assert (0 < 1 / (12 * INR (nineq p))) by (apply Rdiv_lt_0_compat; lra). destruct (p_barrier_strategy params); lra. }
  set (mu0 := first_mu params p st). assert (PM : 0 < mu0) by exact (proj1 (sh_centred _ _ _ _ S)).
  set (tol := Rmin (p_termination_complementarity_tol params) (p_termination_kkt_tol params)).
  assert (TP : 0 < tol) by (apply Rmin_glb_lt; assumption).
  destruct (pow_lt_1_zero (rate params p)) with (y := tol / (5 / 4 * mu0)) as [N HN].
  { rewrite Rabs_pos_eq; lra. }
  { apply Rdiv_lt_0_compat; lra. }
  specialize (HN N (Nat.le_refl N)). rewrite Rabs_pos_eq in HN by (apply pow_le; lra).
  assert (B : 5 / 4 * (mu0 * rate params p ^ N) <= tol).
  { replace tol with (5 / 4 * mu0 * (tol / (5 / 4 * mu0))) by (field; lra).
    rewrite <- Rmult_assoc. apply Rmult_le_compat_l; lra. }
  assert (P0 : 0 <= mu0 * rate params p ^ N) by (apply Rmult_le_pos; [lra|apply pow_le; lra]).
  pose proof (Rmin_l (p_termination_complementarity_tol params) (p_termination_kkt_tol params)) as TL.
  pose proof (Rmin_r (p_termination_complementarity_tol params) (p_termination_kkt_tol params)) as TR. fold tol in TL, TR.
  exists N. intros n Hn.
  assert (S' : short_step_setting ldlt (with_max_iterations params n) p st).
  { destruct S as [W PSD HM EX NB PV UG NP SG RD SF CT]. constructor; try assumption.
    destruct PV as (V1 & V2 & V3 & V4 & _). unfold ip_params_valid, with_max_iterations.
    cbn [p_initial_mu p_sigma p_termination_kkt_tol p_max_iterations]. repeat split; try assumption. lia. }
  destruct (C89_short_steps_converge _ _ _ _ S' N) as (st' & out & A1 & A2 & A3 & _).
  - change (5 / 4 * (mu0 * rate params p ^ N) <= p_termination_complementarity_tol params). lra.
  - change (1 / 4 * (mu0 * rate params p ^ N) <= p_termination_kkt_tol params). lra.
  - exact Hn.
  - exists st', out. auto.
Qed.
