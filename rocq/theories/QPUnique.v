(** Consequences of a SATISFIED_KKT_TOL answer of the interior point solver, over the reals:
    C63 (an infeasible problem is never reported as solved, nor anything when the complementarity
    tolerance is not positive), C64 (answers do not depend on the strategy: any two satisfied
    answers of a strongly convex problem agree, and agree with the exact solution, to a distance
    bounded by the tolerances). *)
From Coq Require Import String List Bool Arith ZArith Reals Lra Lia.
From Verif Require Import Scalar Outcome LinAlg Structs Constraint QPModel QPBlocks RInst Spec
  Props_Constraint QPAlgebra QPNewton QPAlpha QPStep QPTrace QPInit QPSolve.
Import ListNotations.
Local Open Scope list_scope.
Local Open Scope R_scope.

(** ** C63 *)

(** Every point violates some constraint by at least [d]. *)
Definition infeasible_by (p : QP R) (d : R) : Prop :=
  forall x, length x = nv p ->
    (exists k, (k < neq p)%nat /\ d <= Rabs (kkt_eq p x k)) \/
    (exists m, (m < nineq p)%nat /\ ca p m * vget x (cv p m) + cb p m <= - d).

Lemma solve_ready : forall ldlt params (p : QP R) st st' out,
  wf_qp p -> ready p st ->
  (p_initial_guess_method params = USER_PROVIDED -> interior p st) ->
  IP_Solve ldlt params st = Ok (st', out) -> ready p st'.
Proof.
  intros ldlt params p st st' out W RD HU H.
  destruct (C12_Solve_run _ _ _ _ _ H) as (p' & st1 & mu0 & tr & Hp & _ & _ & HS & HR & HI & HL & _ & HN & HC).
  assert (p' = p) by (rewrite (rd_p _ _ RD) in Hp; congruence). subst p'.
  destruct (start_ok _ _ _ _ _ _ W RD HU HS) as [E1 I1].
  pose proof (run_invariant _ _ _ _ _ _ W (evaluated_ready _ _ E1) I1 HR) as INV.
  destruct tr as [|e tr] using rev_ind; [cbn in HN; lia|].
  destruct e as [[mu' it] ste].
  assert (Est : st' = ste) by (rewrite HL, map_app; apply last_last). subst ste.
  destruct (INV mu' it st') as (Ev & _).
  { apply in_or_app. right. left. reflexivity. }
  exact (evaluated_ready _ _ Ev).
Qed.

Theorem C63_infeasible_never_satisfied : forall ldlt params (p : QP R) st st' out,
  wf_qp p -> ready p st ->
  (p_initial_guess_method params = USER_PROVIDED -> interior p st) ->
  infeasible_by p (p_termination_kkt_tol params) ->
  IP_Solve ldlt params st = Ok (st', out) ->
  qp_termination_state out = QPIP_MAX_ITERATIONS /\
  length (qp_iterations out) = Z.to_nat (p_max_iterations params).
Proof.
  intros ldlt params p st st' out W RD HU INF H.
  assert (NS : qp_termination_state out <> SATISFIED_KKT_TOL).
  { intro HT.
    destruct (C12_satisfied_means_satisfied ldlt params p st st' out W RD HU H HT)
      as (mu & _ & _ & B3 & B4 & _).
    destruct (C06_Solve_interior ldlt params p st st' out W RD HU H) as (Int & _ & _).
    pose proof (solve_ready ldlt params p st st' out W RD HU H) as RD'.
    assert (AbsN : forall n f k, (k < n)%nat -> Rabs (f k) <= norm2 n f).
    { intros n f k Hk. unfold norm2. rewrite <- sqrt_Rsqr_abs. apply sqrt_le_1_alt. unfold Rsqr.
      apply (Rsum_pos_term n (fun i => f i * f i)); [|exact Hk]. intros. apply sq_nonneg. }
    destruct (INF (x_block st')) as [(k & Hk & V)|(m & Hm & V)].
    - unfold x_block. rewrite xblk_length by apply RD'. apply (dN_nv p st' RD').
    - pose proof (AbsN (neq p) (kkt_eq p (x_block st')) k Hk). lra.
    - pose proof (AbsN (nineq p) (kkt_ineq p (x_block st') (s_block st')) m Hm) as A.
      destruct (Int m Hm) as [Hs _].
      pose proof (Rle_abs (- kkt_ineq p (x_block st') (s_block st') m)) as A2. rewrite Rabs_Ropp in A2.
      unfold kkt_ineq in *. lra. }
  destruct (C12_Solve_run _ _ _ _ _ H) as (p' & st1 & mu0 & tr & Hp & _ & _ & HS & HR & HI & HL & _ & HN & HC).
  destruct HC as [(T & L & _)|(T & _)]; [|contradiction].
  split; [exact T|]. rewrite HI, map_length. exact L.
Qed.

(** CheckParams does not look at termination_complementarity_tol; with a value that is not positive
    no problem is ever reported as solved. *)
Theorem C63_complementarity_tol_not_positive : forall ldlt params (p : QP R) st st' out,
  wf_qp p -> ready p st ->
  (p_initial_guess_method params = USER_PROVIDED -> interior p st) ->
  p_termination_complementarity_tol params <= 0 ->
  IP_Solve ldlt params st = Ok (st', out) ->
  qp_termination_state out = QPIP_MAX_ITERATIONS /\
  length (qp_iterations out) = Z.to_nat (p_max_iterations params).
Proof.
  intros ldlt params p st st' out W RD HU HC0 H.
  destruct (C06_Solve_interior ldlt params p st st' out W RD HU H) as (Int & _ & _).
  pose proof (solve_ready ldlt params p st st' out W RD HU H) as RD'.
  assert (MU : 0 <= ComputeMu st').
  { destruct (Nat.eq_dec (nineq p) 0) as [E0|E0].
    - rewrite (ComputeMu_R0 p st' RD' E0). lra.
    - rewrite (ComputeMu_R p st' RD') by lia.
      assert (HP : 0 < INR (nineq p)) by (apply lt_0_INR; lia).
      apply Rmult_le_pos; [|apply Rlt_le, Rinv_0_lt_compat, HP].
      apply Rsum_nonneg. intros m Hm. destruct (Int m Hm). apply Rmult_le_pos; lra. }
  destruct (C12_Solve_run _ _ _ _ _ H) as (p' & st1 & mu0 & tr & Hp & _ & _ & HS & HR & HI & HL & _ & HN & HC).
  destruct HC as [(T & L & _)|(T & tr0 & e & Htr & [_ M2] & _)].
  - split; [exact T|]. rewrite HI, map_length. exact L.
  - exfalso. assert (Est : st' = snd e) by (rewrite HL, Htr, map_app; apply last_last).
    rewrite <- Est in M2.
    destruct (R_fltb (ComputeMu st') (p_termination_complementarity_tol params)); [lra|discriminate].
Qed.

(** ** C64 *)

(** G is at least kappa times the identity. *)
Definition strongly_convex (p : QP R) (kappa : R) : Prop :=
  forall v, length v = nv p -> kappa * Rsum (nv p) (fun i => vget v i * vget v i) <= qform p v.

(** An exact first order point. *)
Definition exact_kkt (p : QP R) (x s y z : list R) : Prop :=
  (forall i, (i < nv p)%nat -> kkt_dual p x y z i = 0) /\
  (forall k, (k < neq p)%nat -> kkt_eq p x k = 0) /\
  (forall m, (m < nineq p)%nat -> kkt_ineq p x s m = 0 /\ 0 <= vget s m /\ 0 <= vget z m /\ vget s m * vget z m = 0).

(** The difference of two primal-dual points. *)
Lemma two_points : forall (p : QP R) (x s y z x' s' y' z' : list R),
  wf_qp p -> length x = nv p -> length x' = nv p ->
  (forall m, (m < nineq p)%nat -> 0 <= vget s m /\ 0 <= vget z m /\ 0 <= vget s' m /\ 0 <= vget z' m) ->
  qform p (mkvec (nv p) (fun i => vget x i - vget x' i)) <=
    Rsum (nv p) (fun i => (kkt_dual p x y z i - kkt_dual p x' y' z' i) * (vget x i - vget x' i))
    + Rsum (neq p) (fun k => (kkt_eq p x k - kkt_eq p x' k) * (vget y k - vget y' k))
    + Rsum (nineq p) (fun m => (kkt_ineq p x s m - kkt_ineq p x' s' m) * (vget z m - vget z' m))
    + Rsum (nineq p) (fun m => vget s m * vget z m) + Rsum (nineq p) (fun m => vget s' m * vget z' m).
Proof.
  intros p x s y z x' s' y' z' W Lx Lx' Pos.
  set (dd := fun i => vget x i - vget x' i).
  assert (E1 : qform p (mkvec (nv p) dd)
    = Rsum (nv p) (fun i => (Rsum (nv p) (fun j => Gs p i j * vget x j) - Rsum (nv p) (fun j => Gs p i j * vget x' j)) * dd i)).
  { unfold qform. apply Rsum_ext. intros i Hi. rewrite <- Rsum_minus, <- Rsum_scal_r.
    apply Rsum_ext. intros j Hj. rewrite !(vget_mkvec R R_ops) by assumption. unfold dd. ring. }
  assert (E2 : Rsum (nv p) (fun i => (kkt_dual p x y z i - kkt_dual p x' y' z' i) * dd i)
    = qform p (mkvec (nv p) dd)
      - Rsum (nv p) (fun i => Rsum (neq p) (fun k => Ae p k i * (vget y k - vget y' k)) * dd i)
      - Rsum (nv p) (fun i => Rsum (nineq p) (fun m => if (cv p m =? i)%nat then ca p m * (vget z m - vget z' m) else 0) * dd i)).
  { rewrite E1, <- !Rsum_minus. apply Rsum_ext. intros i Hi. unfold kkt_dual.
    assert (A1 : Rsum (neq p) (fun k => Ae p k i * (vget y k - vget y' k))
      = Rsum (neq p) (fun k => Ae p k i * vget y k) - Rsum (neq p) (fun k => Ae p k i * vget y' k))
      by (rewrite <- Rsum_minus; apply Rsum_ext; intros; ring).
    assert (A2 : Rsum (nineq p) (fun m => if (cv p m =? i)%nat then ca p m * (vget z m - vget z' m) else 0)
      = Rsum (nineq p) (fun m => if (cv p m =? i)%nat then ca p m * vget z m else 0)
        - Rsum (nineq p) (fun m => if (cv p m =? i)%nat then ca p m * vget z' m else 0))
      by (rewrite <- Rsum_minus; apply Rsum_ext; intros m0 Hm; destruct (cv p m0 =? i)%nat; ring).
    rewrite A1, A2. ring. }
  assert (E3 : Rsum (nv p) (fun i => Rsum (neq p) (fun k => Ae p k i * (vget y k - vget y' k)) * dd i)
    = Rsum (neq p) (fun k => (kkt_eq p x k - kkt_eq p x' k) * (vget y k - vget y' k))).
  { rewrite (Rsum_ext (nv p) _ (fun i => Rsum (neq p) (fun k => Ae p k i * (vget y k - vget y' k) * dd i)))
      by (intros; rewrite Rsum_scal_r; reflexivity).
    rewrite Rsum_swap. apply Rsum_ext. intros k Hk. unfold kkt_eq.
    rewrite (Rsum_ext (nv p) _ (fun i => (Ae p k i * vget x i - Ae p k i * vget x' i) * (vget y k - vget y' k)))
      by (intros; unfold dd; ring).
    rewrite Rsum_scal_r, Rsum_minus. ring. }
  assert (E4 : Rsum (nv p) (fun i => Rsum (nineq p) (fun m => if (cv p m =? i)%nat then ca p m * (vget z m - vget z' m) else 0) * dd i)
    = Rsum (nineq p) (fun m => (kkt_ineq p x s m - kkt_ineq p x' s' m) * (vget z m - vget z' m))
      + Rsum (nineq p) (fun m => (vget s m - vget s' m) * (vget z m - vget z' m))).
  { rewrite (scatter_dot p (fun m => ca p m * (vget z m - vget z' m)) dd W), <- Rsum_plus.
    apply Rsum_ext. intros m Hm. unfold kkt_ineq, dd. ring. }
  assert (E5 : Rsum (nineq p) (fun m => (vget s m - vget s' m) * (vget z m - vget z' m))
     <= Rsum (nineq p) (fun m => vget s m * vget z m) + Rsum (nineq p) (fun m => vget s' m * vget z' m)).
  { rewrite <- Rsum_plus. apply Rsum_le. intros m Hm. destruct (Pos m Hm) as (P1 & P2 & P3 & P4).
    pose proof (Rmult_le_pos _ _ P1 P4). pose proof (Rmult_le_pos _ _ P3 P2). lra. }
  change (fun i => vget x i - vget x' i) with dd.
  change (Rsum (nv p) (fun i => (kkt_dual p x y z i - kkt_dual p x' y' z' i) * (vget x i - vget x' i)))
    with (Rsum (nv p) (fun i => (kkt_dual p x y z i - kkt_dual p x' y' z' i) * dd i)).
  lra.
Qed.

Lemma norm2_sq : forall n f, norm2 n f * norm2 n f = Rsum n (fun i => f i * f i).
Proof. intros n f. unfold norm2. apply sqrt_sqrt. apply Rsum_nonneg. intros. apply sq_nonneg. Qed.

Lemma comp_total : forall (p : QP R) params (s z : list R),
  ((0 < nineq p)%nat ->
     Rsum (nineq p) (fun m => vget s m * vget z m) / INR (nineq p) < p_termination_complementarity_tol params) ->
  Rsum (nineq p) (fun m => vget s m * vget z m) <= INR (nineq p) * p_termination_complementarity_tol params.
Proof.
  intros p params s z B5. destruct (Nat.eq_dec (nineq p) 0) as [E0|E0].
  - rewrite E0. simpl. lra.
  - specialize (B5 ltac:(lia)).
    assert (HP : 0 < INR (nineq p)) by (apply lt_0_INR; lia).
    assert (E : Rsum (nineq p) (fun m => vget s m * vget z m)
      = INR (nineq p) * (Rsum (nineq p) (fun m => vget s m * vget z m) / INR (nineq p))) by (field; lra).
    rewrite E. apply Rmult_le_compat_l; lra.
Qed.

(** C64: two satisfied answers to the same strongly convex problem, whatever parameters, initial
    variables, barrier strategies and factorisations led to them, are close to each other. *)
Theorem C64_satisfied_answers_agree :
  forall (p : QP R) kappa ldlt1 params1 st1 st1' out1 ldlt2 params2 st2 st2' out2,
  wf_qp p -> strongly_convex p kappa ->
  ready p st1 -> (p_initial_guess_method params1 = USER_PROVIDED -> interior p st1) ->
  ready p st2 -> (p_initial_guess_method params2 = USER_PROVIDED -> interior p st2) ->
  IP_Solve ldlt1 params1 st1 = Ok (st1', out1) -> qp_termination_state out1 = SATISFIED_KKT_TOL ->
  IP_Solve ldlt2 params2 st2 = Ok (st2', out2) -> qp_termination_state out2 = SATISFIED_KKT_TOL ->
  let dx := norm2 (nv p) (fun i => vget (x_block st1') i - vget (x_block st2') i) in
  let dy := norm2 (neq p) (fun k => vget (y_block st1') k - vget (y_block st2') k) in
  let dz := norm2 (nineq p) (fun m => vget (z_block st1') m - vget (z_block st2') m) in
  kappa * (dx * dx) <=
    (p_termination_kkt_tol params1 + p_termination_kkt_tol params2) * (dx + dy + dz)
    + INR (nineq p) * (p_termination_complementarity_tol params1 + p_termination_complementarity_tol params2).
Proof.
  intros p kappa ldlt1 params1 st1 st1' out1 ldlt2 params2 st2 st2' out2 W SC R1 U1 R2 U2 H1 T1 H2 T2 dx dy dz.
  destruct (C12_satisfied_means_satisfied _ _ p _ _ _ W R1 U1 H1 T1) as (mu1 & A1 & _ & A3 & A4 & A5 & _).
  destruct (C12_satisfied_means_satisfied _ _ p _ _ _ W R2 U2 H2 T2) as (mu2 & B1 & _ & B3 & B4 & B5 & _).
  destruct (C06_Solve_interior _ _ p _ _ _ W R1 U1 H1) as (I1 & _ & _).
  destruct (C06_Solve_interior _ _ p _ _ _ W R2 U2 H2) as (I2 & _ & _).
  pose proof (solve_ready _ _ p _ _ _ W R1 U1 H1) as RD1.
  pose proof (solve_ready _ _ p _ _ _ W R2 U2 H2) as RD2.
  assert (L1 : length (x_block st1') = nv p) by (unfold x_block; rewrite xblk_length by apply RD1; apply (dN_nv p st1' RD1)).
  assert (L2 : length (x_block st2') = nv p) by (unfold x_block; rewrite xblk_length by apply RD2; apply (dN_nv p st2' RD2)).
  pose proof (two_points p (x_block st1') (s_block st1') (y_block st1') (z_block st1')
     (x_block st2') (s_block st2') (y_block st2') (z_block st2') W L1 L2) as Q.
  specialize (Q ltac:(intros m Hm; destruct (I1 m Hm); destruct (I2 m Hm); splits; lra)).
  pose proof (SC (mkvec (nv p) (fun i => vget (x_block st1') i - vget (x_block st2') i)) ltac:(apply mkvec_length)) as S.
  rewrite (Rsum_ext (nv p) _ (fun i => (vget (x_block st1') i - vget (x_block st2') i) * (vget (x_block st1') i - vget (x_block st2') i))) in S
    by (intros; rewrite !(vget_mkvec R R_ops) by assumption; reflexivity).
  rewrite <- (norm2_sq (nv p) (fun i => vget (x_block st1') i - vget (x_block st2') i)) in S. fold dx in S.
  pose proof (comp_total p params1 _ _ A5). pose proof (comp_total p params2 _ _ B5).
  set (t1 := p_termination_kkt_tol params1) in *. set (t2 := p_termination_kkt_tol params2) in *.
  assert (Two : forall n (f g w : nat -> R), norm2 n f < t1 -> norm2 n g < t2 ->
     Rsum n (fun i => (f i - g i) * w i) <= (t1 + t2) * norm2 n w).
  { intros n f g w Hf Hg.
    rewrite (Rsum_ext n _ (fun i => f i * w i + (- g i) * w i)) by (intros; ring). rewrite Rsum_plus.
    assert (Ng : norm2 n (fun i => - g i) = norm2 n g).
    { unfold norm2. f_equal. apply Rsum_ext. intros. ring. }
    pose proof (CS_bound n f w t1 ltac:(lra)). pose proof (CS_bound n (fun i => - g i) w t2 ltac:(lra)). lra. }
  pose proof (Two (nv p) _ _ (fun i => vget (x_block st1') i - vget (x_block st2') i) A1 B1) as Q1. fold dx in Q1.
  pose proof (Two (neq p) _ _ (fun k => vget (y_block st1') k - vget (y_block st2') k) A3 B3) as Q2. fold dy in Q2.
  pose proof (Two (nineq p) _ _ (fun m => vget (z_block st1') m - vget (z_block st2') m) A4 B4) as Q3. fold dz in Q3.
  cbv beta in Q1, Q2, Q3. lra.
Qed.

(** C64: distance of a satisfied answer to the exact solution. *)
Theorem C64_distance_to_solution :
  forall (p : QP R) kappa ldlt params st st' out x s y z,
  wf_qp p -> strongly_convex p kappa ->
  ready p st -> (p_initial_guess_method params = USER_PROVIDED -> interior p st) ->
  IP_Solve ldlt params st = Ok (st', out) -> qp_termination_state out = SATISFIED_KKT_TOL ->
  length x = nv p -> exact_kkt p x s y z ->
  let dx := norm2 (nv p) (fun i => vget (x_block st') i - vget x i) in
  let dy := norm2 (neq p) (fun k => vget (y_block st') k - vget y k) in
  let dz := norm2 (nineq p) (fun m => vget (z_block st') m - vget z m) in
  kappa * (dx * dx) <=
    p_termination_kkt_tol params * (dx + dy + dz) + INR (nineq p) * p_termination_complementarity_tol params.
Proof.
  intros p kappa ldlt params st st' out x s y z W SC R1 U1 H1 T1 Lx (K1 & K2 & K3) dx dy dz.
  destruct (C12_satisfied_means_satisfied _ _ p _ _ _ W R1 U1 H1 T1) as (mu1 & A1 & _ & A3 & A4 & A5 & _).
  destruct (C06_Solve_interior _ _ p _ _ _ W R1 U1 H1) as (I1 & _ & _).
  pose proof (solve_ready _ _ p _ _ _ W R1 U1 H1) as RD1.
  assert (L1 : length (x_block st') = nv p) by (unfold x_block; rewrite xblk_length by apply RD1; apply (dN_nv p st' RD1)).
  pose proof (two_points p (x_block st') (s_block st') (y_block st') (z_block st') x s y z W L1 Lx) as Q.
  specialize (Q ltac:(intros m Hm; destruct (I1 m Hm); destruct (K3 m Hm) as (_ & ? & ? & _); splits; lra)).
  pose proof (SC (mkvec (nv p) (fun i => vget (x_block st') i - vget x i)) ltac:(apply mkvec_length)) as S.
  rewrite (Rsum_ext (nv p) _ (fun i => (vget (x_block st') i - vget x i) * (vget (x_block st') i - vget x i))) in S
    by (intros; rewrite !(vget_mkvec R R_ops) by assumption; reflexivity).
  rewrite <- (norm2_sq (nv p) (fun i => vget (x_block st') i - vget x i)) in S. fold dx in S.
  pose proof (comp_total p params _ _ A5).
  assert (Z0 : Rsum (nineq p) (fun m => vget s m * vget z m) = 0).
  { apply Rsum_0. intros m Hm. apply (K3 m Hm). }
  rewrite (Rsum_ext (nv p) _ (fun i => kkt_dual p (x_block st') (y_block st') (z_block st') i * (vget (x_block st') i - vget x i))) in Q
    by (intros i Hi; rewrite (K1 i Hi); ring).
  rewrite (Rsum_ext (neq p) _ (fun k => kkt_eq p (x_block st') k * (vget (y_block st') k - vget y k))) in Q
    by (intros i Hi; rewrite (K2 i Hi); ring).
  rewrite (Rsum_ext (nineq p) (fun m => (kkt_ineq p (x_block st') (s_block st') m - _) * _)
            (fun m => kkt_ineq p (x_block st') (s_block st') m * (vget (z_block st') m - vget z m))) in Q
    by (intros i Hi; destruct (K3 i Hi) as (E0 & _); rewrite E0; ring).
  pose proof (CS_bound (nv p) (kkt_dual p (x_block st') (y_block st') (z_block st')) (fun i => vget (x_block st') i - vget x i) _ (Rlt_le _ _ A1)) as Q1.
  pose proof (CS_bound (neq p) (kkt_eq p (x_block st')) (fun k => vget (y_block st') k - vget y k) _ (Rlt_le _ _ A3)) as Q2.
  pose proof (CS_bound (nineq p) (kkt_ineq p (x_block st') (s_block st')) (fun m => vget (z_block st') m - vget z m) _ (Rlt_le _ _ A4)) as Q3.
  fold dx in Q1. fold dy in Q2. fold dz in Q3. lra.
Qed.

(** C12, constraint by constraint: what SATISFIED_KKT_TOL says about each condition on its own. Every component of the gradient of the Lagrangian
    and every equality constraint is within tol of zero, every inequality constraint holds to within tol, its multiplier is positive, and slack
    times multiplier is below M times the complementarity tolerance: so of every inequality the slack or the multiplier is small. *)
Theorem C12_componentwise : forall ldlt params (p : QP R) st st' out,
  wf_qp p -> ready p st ->
  (p_initial_guess_method params = USER_PROVIDED -> interior p st) ->
  IP_Solve ldlt params st = Ok (st', out) -> qp_termination_state out = SATISFIED_KKT_TOL ->
  let x := x_block st' in let s := s_block st' in let y := y_block st' in let z := z_block st' in
  let tol := p_termination_kkt_tol params in let ctol := INR (nineq p) * p_termination_complementarity_tol params in
  (forall i, (i < nv p)%nat -> Rabs (kkt_dual p x y z i) < tol) /\
  (forall k, (k < neq p)%nat -> Rabs (kkt_eq p x k) < tol) /\
  (forall m, (m < nineq p)%nat ->
     - tol < ca p m * vget x (cv p m) + cb p m /\ 0 < vget s m /\ 0 < vget z m /\
     Rabs (ca p m * vget x (cv p m) + cb p m - vget s m) < tol /\
     vget s m * vget z m < ctol /\
     (ca p m * vget x (cv p m) + cb p m) * vget z m < ctol + tol * vget z m /\
     (vget s m < sqrt ctol \/ vget z m < sqrt ctol)).
Proof.
  intros ldlt params p st st' out W RD HU H HT x s y z tol ctol.
  destruct (C12_satisfied_means_satisfied ldlt params p st st' out W RD HU H HT) as (mu & B1 & _ & B3 & B4 & B5 & _).
  destruct (C06_Solve_interior ldlt params p st st' out W RD HU H) as (Int & _ & _).
  fold x s y z tol in B1, B3, B4, B5, Int.
  assert (AbsN : forall n f k, (k < n)%nat -> Rabs (f k) <= norm2 n f).
  { intros n f k Hk. unfold norm2. rewrite <- sqrt_Rsqr_abs. apply sqrt_le_1_alt. unfold Rsqr.
    apply (Rsum_pos_term n (fun i => f i * f i) k); [|exact Hk]. intros i _. pose proof (Rle_0_sqr (f i)) as Q. exact Q. }
  splits.
  - intros i Hi. eapply Rle_lt_trans; [apply (AbsN (nv p) (kkt_dual p x y z)); exact Hi|exact B1].
  - intros k Hk. eapply Rle_lt_trans; [apply (AbsN (neq p) (kkt_eq p x)); exact Hk|exact B3].
  - intros m Hm. destruct (Int m Hm) as [S0 Z0].
    assert (B4' : Rabs (kkt_ineq p x s m) < tol) by (eapply Rle_lt_trans; [apply (AbsN (nineq p) (kkt_ineq p x s)); exact Hm|exact B4]).
    unfold kkt_ineq in B4'. pose proof (Rabs_def2 _ _ B4') as [C1 C2].
    assert (NP : 0 < INR (nineq p)) by (apply lt_0_INR; lia).
    assert (SZ : vget s m * vget z m < ctol).
    { eapply Rle_lt_trans; [apply (Rsum_pos_term (nineq p) (fun i => vget s i * vget z i) m); [|exact Hm]|].
      - intros i Hi. destruct (Int i Hi). apply Rlt_le, Rmult_lt_0_compat; assumption.
      - specialize (B5 ltac:(lia)). apply (Rmult_lt_compat_l _ _ _ NP) in B5. unfold ctol.
        replace (INR (nineq p) * (Rsum (nineq p) (fun i => vget s i * vget z i) / INR (nineq p)))
          with (Rsum (nineq p) (fun i => vget s i * vget z i)) in B5 by (field; lra). exact B5. }
    set (c := ca p m * vget x (cv p m) + cb p m) in *.
    assert (c * vget z m < ctol + tol * vget z m).
    { assert (c * vget z m < (vget s m + tol) * vget z m) by (apply Rmult_lt_compat_r; lra). lra. }
    splits; auto; try lra.
    destruct (Rlt_le_dec (vget s m) (sqrt ctol)) as [|L1]; [left; assumption|]. destruct (Rlt_le_dec (vget z m) (sqrt ctol)) as [|L2]; [right; assumption|exfalso].
    pose proof (Rmult_lt_0_compat _ _ S0 Z0) as P. pose proof (sqrt_pos ctol) as SP.
    pose proof (Rmult_le_compat _ _ _ _ SP SP L1 L2) as Q. rewrite sqrt_sqrt in Q by lra. lra.
Qed.
