(** C92: local convergence of Solve to a regular minimiser with a small residual, damped or not (exact arithmetic). *)
From Coq Require Import String List Bool Arith ZArith QArith Reals Lra Lia.
From Verif Require Import Scalar Outcome LinAlg Structs Constraint QPModel NullSpace Residual Nonlinear RInst NSProps
  Spec QPBlocks QPAlgebra QPNewton QPStep ResProps LinProps QPReuse LSProps LSPoly NLSTrace NLSProps NLSReal NLSTotal MeritProps Penalty
  QPSolve QPRegular Optimality NLSRate Factorisations NLSRegular NLSQuadratic NLSQuadraticLocal.
Import ListNotations.
Local Open Scope outcome_scope.
Local Open Scope string_scope.
Local Open Scope list_scope.
Local Open Scope R_scope.

(** ** Specification *)

(** Sum over all residual components of the product of f and h, and of the square of f. *)
Definition rdot (pr : Problem R) (f h : residual R -> nat -> R) : R :=
  Rlsum (map (fun r => Rsum (res_dim r) (fun k => f r k * h r k)) (pr_costs pr)).
(** Residual k of r at x. *)
Definition rv (x : list R) (r : residual R) (k : nat) : R := vget (res_f r (gathered r x)) k.
(** Derivative along u of residual k of r at x. *)
Definition jv (x u : list R) (r : residual R) (k : nat) : R := jac_dx r x u k.

(** Every equality constraint is an affine function of the variables, with the returned Jacobian. *)
Definition affine_constraints (pr : Problem R) : Prop := forall r, In r (pr_eq pr) ->
  forall x u t k, (k < res_dim r)%nat -> length u = length x ->
  vget (res_f r (gathered r (ray x u t))) k = vget (res_f r (gathered r x)) k + t * jac_dx r x u k.

(** xs satisfies the equality constraints and is a stationary point of the cost on them; every direction u tangent to the constraints changes
    the residuals by at least m |u|; around xs the Jacobian is Lipschitz continuous with constant Lam; and the residuals at xs are small:
    Lam |r(xs)| <= m^2 / 16. *)
Record small_residual_minimiser (pr : Problem R) (xs : list R) (rho0 Lam m : R) : Prop := {
  sm_length : length xs = Z.to_nat (pr_dimension pr);
  sm_m : 0 < m; sm_Lam : 0 <= Lam; sm_rho : 0 < rho0;
  sm_feasible : eq_l1_at pr xs = 0;
  sm_stationary : forall u, length u = length xs -> tangent pr xs u -> rdot pr (rv xs) (jv xs u) = 0;
  sm_stretch : forall u, length u = length xs -> tangent pr xs u ->
    m ^ 2 * Rsum (length xs) (fun i => vget u i ^ 2) <= rdot pr (jv xs u) (jv xs u);
  sm_lipschitz : forall x y u, length x = length xs -> length y = length xs -> length u = length xs ->
    distance x xs <= rho0 -> distance y xs <= rho0 ->
    let d := fun r k => jv x u r k - jv y u r k in
    rdot pr d d <= (Lam * distance x y) ^ 2 * Rsum (length xs) (fun i => vget u i ^ 2);
  sm_small : Lam * sqrt (rdot pr (rv xs) (rv xs)) <= m ^ 2 / 16 }.

(** The linear algebra used for steps without inequality constraints is exact, and finds full rank for the constraint Jacobians. *)
Record exact_steps (ldlt : mat R -> option (mat R)) (qr : mat R -> QRResult R) (llt : mat R -> option (list R -> list R)) (pr : Problem R) : Prop := {
  xs_factorizations : exact_factorizations ldlt qr llt pr;
  xs_ldlt : pr_eq pr = [] -> fails_only_if_singular ldlt;
  xs_rank : pr_eq pr <> [] -> (0 < eq_rows pr <= pdim pr)%nat /\
    forall v lambda errs qp, length v = pdim pr -> LinearizeAndFillQP v lambda pr = Ok (errs, qp) -> qrRank (qr (qA qp)) = mrows (qA qp) }.

(** ** Affine constraints *)
Lemma affine_constraints_jac : forall pr r x x' u k, affine_constraints pr -> In r (pr_eq pr) -> (k < res_dim r)%nat ->
  length x' = length x -> length u = length x -> jac_dx r x' u k = jac_dx r x u k.
Proof.
  intros pr r x x' u k AF Hr Hk LX LU. apply (jac_constant (MkProblem (pr_dimension pr) [] [] (pr_eq pr))); auto.
  intros q [[]|Hq] y w t j Hj LW. apply AF; assumption.
Qed.
Lemma affine_tangent : forall pr x x' u, affine_constraints pr -> length x' = length x -> length u = length x -> tangent pr x u -> tangent pr x' u.
Proof. intros pr x x' u AF LX LU T r Hr k Hk. rewrite (affine_constraints_jac pr r x x' u k AF Hr Hk LX LU). apply T; assumption. Qed.
Lemma feasible_components : forall pr x, eq_l1_at pr x = 0 <-> forall r, In r (pr_eq pr) -> forall k, (k < res_dim r)%nat -> vget (res_f r (gathered r x)) k = 0.
Proof.
  intros pr x. unfold eq_l1_at. split.
  - intros H r Hr k Hk. apply Rabs_zero.
    pose proof (Rlsum_zero_inv _ _ _ (fun a _ => Rsum_nonneg _ _ (fun i _ => Rabs_pos (vget (res_f a (gathered a x)) i))) H r Hr) as Z. cbv beta in Z.
    apply (Rsum_zero_terms _ _ (fun i _ => Rabs_pos (vget (res_f r (gathered r x)) i)) Z k Hk).
  - intro H. apply Rlsum_zero. intros r Hr. apply Rsum_0. intros k Hk. rewrite (H r Hr k Hk). apply Rabs_R0.
Qed.
Lemma feasible_ray : forall pr x u, affine_constraints pr -> length u = length x -> eq_l1_at pr x = 0 -> (tangent pr x u <-> eq_l1_at pr (ray x u 1) = 0).
Proof.
  intros pr x u AF LU FX. rewrite feasible_components in FX |- *. split.
  - intros T r Hr k Hk. rewrite (AF r Hr x u 1 k Hk LU), (FX r Hr k Hk), (T r Hr k Hk). ring.
  - intros H r Hr k Hk. specialize (H r Hr k Hk). rewrite (AF r Hr x u 1 k Hk LU), (FX r Hr k Hk) in H. lra.
Qed.
Lemma no_constraints_affine : forall pr, pr_eq pr = [] -> affine_constraints pr /\ forall x, eq_l1_at pr x = 0.
Proof. intros pr E. split; [intros r Hr; rewrite E in Hr; destruct Hr|intro x; unfold eq_l1_at; rewrite E; reflexivity]. Qed.

(** ** Sums of products *)
Lemma rdot_ext : forall pr f f' h h', (forall r k, In r (pr_costs pr) -> (k < res_dim r)%nat -> f r k = f' r k /\ h r k = h' r k) ->
  rdot pr f h = rdot pr f' h'.
Proof.
  intros pr f f' h h' H. unfold rdot. f_equal. apply map_ext_in. intros r Hr. apply Rsum_ext. intros k Hk. destruct (H r k Hr Hk) as [-> ->]. reflexivity.
Qed.
Lemma rdot_sym : forall pr f h, rdot pr f h = rdot pr h f.
Proof. intros. unfold rdot. f_equal. apply map_ext. intro r. apply Rsum_ext. intros. ring. Qed.
Lemma rdot_comb : forall pr f h g a b, rdot pr (fun r k => a * f r k + b * h r k) g = a * rdot pr f g + b * rdot pr h g.
Proof.
  intros. unfold rdot. rewrite <- !Rlsum_map_scal, <- Rlsum_map_plus. f_equal. apply map_ext. intro r.
  rewrite <- !Rsum_scal_l, <- Rsum_plus. apply Rsum_ext. intros. ring.
Qed.
Lemma rdot_nonneg : forall pr f, 0 <= rdot pr f f.
Proof.
  intros. unfold rdot. induction (pr_costs pr) as [|r l IH]; cbn [map Rlsum]; [lra|].
  pose proof (Rsum_nonneg (res_dim r) (fun k => f r k * f r k) (fun k _ => sq_nonneg _)). lra.
Qed.
Lemma rdot_sq : forall pr f h, rdot pr (fun r k => f r k + h r k) (fun r k => f r k + h r k) = rdot pr f f + 2 * rdot pr f h + rdot pr h h.
Proof.
  intros pr f h.
  assert (E : forall g, rdot pr (fun r k => f r k + h r k) g = rdot pr f g + rdot pr h g).
  { intro g. rewrite (rdot_ext pr _ (fun r k => 1 * f r k + 1 * h r k) g g) by (intros; split; [ring|reflexivity]). rewrite rdot_comb. ring. }
  rewrite E, (rdot_sym pr f), (rdot_sym pr h), !E, (rdot_sym pr h f). ring.
Qed.
Lemma disc_le : forall A B N, 0 <= A -> 0 <= N -> (forall t, 0 <= A - 2 * t * B + t * t * N) -> B * B <= A * N.
Proof.
  intros A B N A0 N0 H. destruct (Req_dec N 0) as [->|NZ].
  - destruct (Req_dec B 0) as [->|BZ]; [lra|]. exfalso. specialize (H ((A + 1) / (2 * B))).
    replace (A - 2 * ((A + 1) / (2 * B)) * B + (A + 1) / (2 * B) * ((A + 1) / (2 * B)) * 0) with (-1) in H by (field; exact BZ). lra.
  - specialize (H (B / N)). assert (NP : 0 < N) by lra.
    replace (A - 2 * (B / N) * B + B / N * (B / N) * N) with (A - B * B / N) in H by (field; exact NZ).
    apply (Rmult_le_reg_r (/ N)); [apply Rinv_0_lt_compat; exact NP|]. replace (A * N * / N) with A by (field; exact NZ). unfold Rdiv in H. lra.
Qed.
(** Norm of residual components. *)
Definition rn (pr : Problem R) (f : residual R -> nat -> R) : R := sqrt (rdot pr f f).
Lemma rn_pos : forall pr f, 0 <= rn pr f.
Proof. intros. apply sqrt_pos. Qed.
Lemma rn_sq : forall pr f, rn pr f * rn pr f = rdot pr f f.
Proof. intros. apply sqrt_sqrt, rdot_nonneg. Qed.
Lemma rdot_CS : forall pr f h, Rabs (rdot pr f h) <= rn pr f * rn pr h.
Proof.
  intros pr f h. apply Rsqr_incr_0_var; [|apply Rmult_le_pos; apply rn_pos]. rewrite <- Rsqr_abs. unfold Rsqr.
  replace (rn pr f * rn pr h * (rn pr f * rn pr h)) with ((rn pr f * rn pr f) * (rn pr h * rn pr h)) by ring. rewrite !rn_sq.
  apply disc_le; try apply rdot_nonneg. intro t.
  replace (rdot pr f f - 2 * t * rdot pr f h + t * t * rdot pr h h) with (rdot pr (fun r k => f r k + - t * h r k) (fun r k => f r k + - t * h r k)); [apply rdot_nonneg|].
  rewrite rdot_sq. rewrite (rdot_sym pr f (fun r k => - t * h r k)).
  assert (E : forall g, rdot pr (fun r k => - t * h r k) g = - t * rdot pr h g).
  { intro g. rewrite (rdot_ext pr _ (fun r k => - t * h r k + 0 * h r k) g g) by (intros; split; [ring|reflexivity]). rewrite rdot_comb. ring. }
  rewrite !E, (rdot_sym pr h (fun r k => - t * h r k)), E, (rdot_sym pr h f). ring.
Qed.
Lemma rn_triangle : forall pr f h, rn pr (fun r k => f r k + h r k) <= rn pr f + rn pr h.
Proof.
  intros pr f h. pose proof (rn_pos pr f). pose proof (rn_pos pr h). apply Rsqr_incr_0_var; [|lra]. unfold Rsqr. rewrite rn_sq, rdot_sq, <- !rn_sq.
  pose proof (rdot_CS pr f h) as C. pose proof (Rle_abs (rdot pr f h)). lra.
Qed.
Lemma rn_ext : forall pr f f', (forall r k, In r (pr_costs pr) -> (k < res_dim r)%nat -> f r k = f' r k) -> rn pr f = rn pr f'.
Proof. intros pr f f' H. unfold rn. f_equal. apply rdot_ext. intros. split; apply H; assumption. Qed.

Lemma rdot_plus_l : forall pr f h g, rdot pr (fun r k => f r k + h r k) g = rdot pr f g + rdot pr h g.
Proof.
  intros. rewrite (rdot_ext pr _ (fun r k => 1 * f r k + 1 * h r k) g g) by (intros; split; [ring|reflexivity]). rewrite rdot_comb. ring.
Qed.
Lemma rdot_minus_l : forall pr f h g, rdot pr (fun r k => f r k - h r k) g = rdot pr f g - rdot pr h g.
Proof.
  intros. rewrite (rdot_ext pr _ (fun r k => 1 * f r k + (-1) * h r k) g g) by (intros; split; [ring|reflexivity]). rewrite rdot_comb. ring.
Qed.
Lemma rdot_minus_r : forall pr f h g, rdot pr g (fun r k => f r k - h r k) = rdot pr g f - rdot pr g h.
Proof. intros. rewrite !(rdot_sym pr g). apply rdot_minus_l. Qed.
Lemma rdot_swap : forall pr f h, rdot pr (fun r k => f r k - h r k) (fun r k => f r k - h r k) = rdot pr (fun r k => h r k - f r k) (fun r k => h r k - f r k).
Proof. intros. unfold rdot. f_equal. apply map_ext. intro r. apply Rsum_ext. intros. ring. Qed.
Lemma rdot_opp : forall pr f, rdot pr (fun r k => - f r k) (fun r k => - f r k) = rdot pr f f.
Proof. intros. unfold rdot. f_equal. apply map_ext. intro r. apply Rsum_ext. intros. ring. Qed.

(** Euclidean norm of the first n coordinates. *)
Definition vn (n : nat) (u : list R) : R := sqrt (Rsum n (fun i => vget u i ^ 2)).
Lemma vn_pos : forall n u, 0 <= vn n u.
Proof. intros. apply sqrt_pos. Qed.
Lemma vn_sq : forall n u, vn n u * vn n u = Rsum n (fun i => vget u i ^ 2).
Proof. intros. apply sqrt_sqrt, Rsum_nonneg. intros. apply pow2_ge_0. Qed.

(** Derivatives of weighted sums of residual components. *)
Lemma deriv_Rsum : forall n (f : nat -> R -> R) (d : nat -> R) t, (forall k, (k < n)%nat -> derivable_pt_lim (f k) t (d k)) ->
  derivable_pt_lim (fun s => Rsum n (fun k => f k s)) t (Rsum n d).
Proof.
  induction n as [|n IH]; intros f d t H; cbn [Rsum]; [apply derivable_pt_lim_const|].
  apply (derivable_pt_lim_plus (fun s => Rsum n (fun k => f k s)) (f n)); [apply IH; intros; apply H; lia|apply H; lia].
Qed.
Lemma deriv_Rlsum : forall A (l : list A) (f : A -> R -> R) (d : A -> R) t, (forall a, In a l -> derivable_pt_lim (f a) t (d a)) ->
  derivable_pt_lim (fun s => Rlsum (map (fun a => f a s) l)) t (Rlsum (map d l)).
Proof.
  intros A l f d t. induction l as [|a l IH]; intro H; cbn [map Rlsum]; [apply derivable_pt_lim_const|].
  apply (derivable_pt_lim_plus (f a) (fun s => Rlsum (map (fun a => f a s) l))); [apply H; left; reflexivity|apply IH; intros; apply H; right; assumption].
Qed.

(** ** The Gauss-Newton step near xs *)
Section Geometry.
  Variable pr : Problem R.
  Variable xs : list R.
  Variables rho0 Lam m : R.
  Hypothesis SM : small_residual_minimiser pr xs rho0 Lam m.
  Hypothesis DC : derivatives_correct pr.
  Hypothesis IX : forall r, In r (pr_costs pr) \/ In r (pr_eq pr) -> idx_ok r (length xs).
  Notation n := (length xs).

  Lemma sm_dim : n = pdim pr.
  Proof. apply (sm_length _ _ _ _ _ SM). Qed.

  Lemma ray_get : forall x u t i, length x = length u -> vget (ray x u t) i = vget x i + t * vget u i.
  Proof. intros x u t i H. unfold ray. rewrite vadd_get by (rewrite vscale_length; exact H). rewrite vscale_get. ring. Qed.
  Lemma ray_ray : forall x u t h, length x = length u -> ray (ray x u t) u h = ray x u (t + h).
  Proof.
    intros x u t h E. apply (vget_ext R R_ops).
    - rewrite !ray_length; auto. rewrite ray_length; auto.
    - intros i Hi. rewrite !ray_get; auto; [ring|]. rewrite ray_length; auto.
  Qed.
  Lemma ray_0 : forall x u, length x = length u -> ray x u 0 = x.
  Proof. intros x u E. apply (vget_ext R R_ops); [apply ray_length; exact E|]. intros i _. rewrite ray_get by exact E. ring. Qed.

  (** Balls are convex. *)
  Lemma ball_convex : forall x u t R0, length x = n -> length u = n -> 0 <= t <= 1 -> 0 <= R0 ->
    distance x xs <= R0 -> distance (ray x u 1) xs <= R0 -> distance (ray x u t) xs <= R0.
  Proof.
    intros x u t R0 LX LU Ht HR H0 H1. assert (E : length x = length u) by congruence.
    apply Rsqr_incr_0_var; [|exact HR].
    apply Rsqr_incr_1 in H0; [|apply distance_nonneg|exact HR]. apply Rsqr_incr_1 in H1; [|apply distance_nonneg|exact HR].
    rewrite !Rsqr_pow2, !distance_sq in *. unfold dist2 in *.
    apply Rle_trans with ((1 - t) * Rsum n (fun i => (vget x i - vget xs i) ^ 2) + t * Rsum n (fun i => (vget (ray x u 1) i - vget xs i) ^ 2)); [|nra].
    rewrite <- !Rsum_scal_l, <- Rsum_plus. apply Rsum_le. intros i Hi. rewrite !ray_get by exact E.
    set (a := vget x i - vget xs i). set (b := vget u i).
    replace (vget x i + t * b - vget xs i) with (a + t * b) by (unfold a; ring). replace (vget x i + 1 * b - vget xs i) with (a + b) by (unfold a; ring).
    assert (0 <= t * (1 - t) * (b * b)) by (apply Rmult_le_pos; [nra|apply sq_nonneg]). nra.
  Qed.
  Lemma ray_distance : forall x u t, length x = n -> length u = n -> 0 <= t <= 1 -> distance x (ray x u t) <= vn n u.
  Proof.
    intros x u t LX LU Ht. assert (E : length x = length u) by congruence. unfold distance, vn. rewrite ray_length by exact E. rewrite LX.
    apply sqrt_le_1_alt, Rsum_le. intros i Hi. rewrite ray_get by exact E.
    replace (vget x i - (vget x i + t * vget u i)) with (- (t * vget u i)) by ring. assert (t * t <= 1) by nra. pose proof (sq_nonneg (vget u i)). nra.
  Qed.

  (** First order Taylor expansion with remainder. *)
  Lemma taylor : forall x u, length x = n -> length u = n -> distance x xs <= rho0 -> distance (ray x u 1) xs <= rho0 ->
    rn pr (fun r k => rv (ray x u 1) r k - rv x r k - jv x u r k) <= Lam * (vn n u * vn n u).
  Proof.
    intros x u LX LU H0 H1. assert (E : length x = length u) by congruence.
    set (a := fun r k => rv (ray x u 1) r k - rv x r k - jv x u r k).
    pose proof (sm_Lam _ _ _ _ _ SM) as LP. pose proof (vn_pos n u) as UP.
    assert (TP : 0 <= Lam * (vn n u * vn n u)) by (apply Rmult_le_pos; [exact LP|apply Rmult_le_pos; exact UP]).
    destruct (MVT_cor2 (fun t => rdot pr a (rv (ray x u t))) (fun t => rdot pr a (jv (ray x u t) u)) 0 1 Rlt_0_1) as (c & EQ & Hc).
    - intros t _. unfold rdot. apply (deriv_Rlsum _ (pr_costs pr) (fun r s => Rsum (res_dim r) (fun k => a r k * rv (ray x u s) r k)) (fun r => Rsum (res_dim r) (fun k => a r k * jv (ray x u t) u r k))).
      intros r Hr. apply (deriv_Rsum (res_dim r) (fun k s => a r k * rv (ray x u s) r k) (fun k => a r k * jv (ray x u t) u r k)).
      intros k Hk. apply (derivable_pt_lim_scal (fun s => rv (ray x u s) r k) (a r k)).
      destruct (DC r (or_introl Hr) (ray x u t) u ltac:(rewrite ray_length by exact E; rewrite <- sm_dim; exact LX) ltac:(rewrite <- sm_dim; exact LU) k Hk) as [_ D].
      intros eps He. destruct (D eps He) as [d Hd]. exists d. intros h Hh Hh2. specialize (Hd h Hh Hh2).
      fold (ray (ray x u t) u (0 + h)) in Hd. fold (ray (ray x u t) u 0) in Hd. rewrite !ray_ray, Rplus_0_l, Rplus_0_r in Hd by exact E. exact Hd.
    - assert (AA : rdot pr a a = rdot pr a (fun r k => jv (ray x u c) u r k - jv x u r k)).
      { assert (X : forall f h, rdot pr a (fun r k => f r k - h r k) = rdot pr a f - rdot pr a h).
        { intros f h. rewrite !(rdot_sym pr a). rewrite (rdot_ext pr (fun r k => f r k - h r k) (fun r k => 1 * f r k + (-1) * h r k) a a) by (intros; split; [ring|reflexivity]).
          rewrite rdot_comb. ring. }
        unfold a at 2. rewrite X, (X (rv (ray x u 1)) (rv x)), X. rewrite ray_0 in EQ by exact E. lra. }
      assert (C : 0 <= c <= 1) by lra.
      assert (BC : distance (ray x u c) xs <= rho0) by (apply ball_convex; auto; pose proof (sm_rho _ _ _ _ _ SM); lra).
      assert (DD : rn pr (fun r k => jv (ray x u c) u r k - jv x u r k) <= Lam * (vn n u * vn n u)).
      { apply Rsqr_incr_0_var; [|exact TP]. unfold Rsqr at 1. rewrite rn_sq.
        pose proof (sm_lipschitz _ _ _ _ _ SM x (ray x u c) u LX ltac:(rewrite ray_length; congruence) LU H0 BC) as LI. cbv zeta in LI.
        rewrite rdot_swap.
        eapply Rle_trans; [exact LI|]. rewrite <- vn_sq. unfold Rsqr.
        pose proof (ray_distance x u c LX LU C) as RD. pose proof (distance_nonneg x (ray x u c)) as DN.
        assert (X : (Lam * distance x (ray x u c)) ^ 2 <= (Lam * vn n u) ^ 2).
        { apply pow_incr. split; [apply Rmult_le_pos; assumption|apply Rmult_le_compat_l; assumption]. }
        replace (Lam * (vn n u * vn n u) * (Lam * (vn n u * vn n u))) with ((Lam * vn n u) ^ 2 * (vn n u * vn n u)) by ring.
        apply Rmult_le_compat_r; [apply Rmult_le_pos; exact UP|exact X]. }
      pose proof (rdot_CS pr a (fun r k => jv (ray x u c) u r k - jv x u r k)) as CS. rewrite <- AA in CS. rewrite <- rn_sq in CS.
      rewrite Rabs_pos_eq in CS by (apply Rmult_le_pos; apply rn_pos). pose proof (rn_pos pr a) as AP.
      destruct (Req_dec (rn pr a) 0) as [Z|NZ]; [lra|]. eapply Rle_trans; [|exact DD]. apply (Rmult_le_reg_l (rn pr a)); lra.
  Qed.

  (** The Jacobian near xs. *)
  Lemma jac_near : forall x w, length x = n -> length w = n -> distance x xs <= rho0 ->
    rn pr (fun r k => jv x w r k - jv xs w r k) <= Lam * distance x xs * vn n w.
  Proof.
    intros x w LX LW HD. pose proof (sm_Lam _ _ _ _ _ SM) as LP. pose proof (distance_nonneg x xs) as DP. pose proof (vn_pos n w) as WP.
    apply Rsqr_incr_0_var; [|repeat apply Rmult_le_pos; assumption]. unfold Rsqr at 1. rewrite rn_sq.
    assert (D0 : distance xs xs <= rho0) by (rewrite dist_self; pose proof (sm_rho _ _ _ _ _ SM); lra).
    eapply Rle_trans; [apply (sm_lipschitz _ _ _ _ _ SM x xs w LX eq_refl LW HD D0)|]. rewrite <- vn_sq. unfold Rsqr. right. ring.
  Qed.
  Lemma stretch_near : forall x w, length x = n -> length w = n -> tangent pr xs w -> distance x xs <= rho0 -> Lam * distance x xs <= m / 16 ->
    15 / 16 * m * vn n w <= rn pr (jv x w).
  Proof.
    intros x w LX LW TW HD HS. pose proof (sm_m _ _ _ _ _ SM) as MP. pose proof (vn_pos n w) as WP.
    assert (A : m * vn n w <= rn pr (jv xs w)).
    { apply Rsqr_incr_0_var; [|apply rn_pos]. unfold Rsqr at 2. rewrite rn_sq. eapply Rle_trans; [|apply (sm_stretch _ _ _ _ _ SM w LW TW)].
      rewrite <- vn_sq. unfold Rsqr. right. ring. }
    pose proof (jac_near x w LX LW HD) as B.
    assert (C : rn pr (jv xs w) <= rn pr (jv x w) + rn pr (fun r k => jv x w r k - jv xs w r k)).
    { rewrite (rn_ext pr (jv xs w) (fun r k => jv x w r k + (-1) * (jv x w r k - jv xs w r k))) by (intros; ring).
      eapply Rle_trans; [apply rn_triangle|]. right. f_equal. unfold rn. f_equal.
      rewrite <- (rdot_opp pr (fun r k => jv x w r k - jv xs w r k)). apply rdot_ext. intros; split; ring. }
    assert (Lam * distance x xs * vn n w <= m / 16 * vn n w) by (apply Rmult_le_compat_r; assumption). lra.
  Qed.

  (** Real number facts. *)
  Lemma contraction_arith : forall a b h mu L T lam, 0 < mu -> 0 <= b -> 0 <= h -> 0 <= L -> 0 <= T -> 0 <= lam ->
    mu * b <= a -> L * h <= mu -> a * a + lam * (b * b) <= L * (h * h) * a + (T + lam) * h * b ->
    (mu ^ 2 + lam) * b <= (mu * L * h + T + lam) * h.
  Proof.
    intros a b h mu L T lam MP B0 H0 L0 T0 LP AB LH Q.
    assert (P1 : 0 <= L * (h * h)) by (apply Rmult_le_pos; [exact L0|apply Rmult_le_pos; exact H0]).
    assert (P2 : 0 <= (mu * L * h + T) * h) by (apply Rmult_le_pos; [|exact H0]; apply Rplus_le_le_0_compat; [repeat apply Rmult_le_pos; lra|exact T0]).
    destruct (Rle_dec (mu * b) (L * (h * h))) as [C|C].
    - assert (BH : b <= h).
      { apply (Rmult_le_reg_l mu); [exact MP|]. eapply Rle_trans; [exact C|]. replace (L * (h * h)) with (L * h * h) by ring. apply Rmult_le_compat_r; assumption. }
      assert (X : mu * (mu * b) <= mu * (L * (h * h))) by (apply Rmult_le_compat_l; lra).
      assert (Y : lam * b <= lam * h) by (apply Rmult_le_compat_l; assumption). assert (0 <= T * h) by (apply Rmult_le_pos; assumption).
      replace ((mu ^ 2 + lam) * b) with (mu * (mu * b) + lam * b) by ring. replace ((mu * L * h + T + lam) * h) with (mu * (L * (h * h)) + T * h + lam * h) by ring. lra.
    - apply Rnot_le_lt in C.
      assert (BP : 0 < b) by (destruct (Req_dec b 0) as [Z|]; [subst; lra|lra]).
      assert (X : mu * b * (mu * b - L * (h * h)) <= a * (a - L * (h * h))) by (apply Rmult_le_compat; [apply Rmult_le_pos; lra|lra|exact AB|lra]).
      apply (Rmult_le_reg_r b); [exact BP|].
      replace ((mu ^ 2 + lam) * b * b) with (mu * b * (mu * b - L * (h * h)) + mu * b * (L * (h * h)) + lam * (b * b)) by ring.
      replace ((mu * L * h + T + lam) * h * b) with (mu * b * (L * (h * h)) + (T + lam) * h * b) by ring. lra.
  Qed.
  Lemma armijo_arith : forall mu lam L h T q d2 l, 0 < mu -> 0 <= lam -> 0 <= L -> 0 <= h -> 0 <= T -> 0 <= d2 -> 0 <= l ->
    L * h <= mu / 8 -> L * T <= mu ^ 2 / 8 -> mu ^ 2 * d2 <= q -> d2 <= 4 * (h * h) -> l * l <= (T + L * (h * h)) ^ 2 + lam * (h * h) ->
    2 * (l * (L * d2)) + (L * d2) * (L * d2) <= / 2 * (q + lam * d2).
  Proof.
    intros mu lam L h T q d2 l MP LP L0 H0 T0 D0 l0 LH LT Q D4 LL.
    assert (LH0 : 0 <= L * h) by (apply Rmult_le_pos; assumption). assert (LT0 : 0 <= L * T) by (apply Rmult_le_pos; assumption).
    assert (LH2 : (L * h) * (L * h) <= mu ^ 2 / 64).
    { replace (mu ^ 2 / 64) with ((mu / 8) * (mu / 8)) by field. apply Rmult_le_compat; assumption. }
    (* L l <= 7/32 mu^2 + lam / 8 *)
    assert (A : (L * l) * (L * l) <= (L * T + (L * h) * (L * h)) ^ 2 + lam * ((L * h) * (L * h))).
    { replace ((L * l) * (L * l)) with (L * L * (l * l)) by ring.
      replace ((L * T + (L * h) * (L * h)) ^ 2 + lam * ((L * h) * (L * h))) with (L * L * ((T + L * (h * h)) ^ 2 + lam * (h * h))) by ring.
      apply Rmult_le_compat_l; [apply sq_nonneg|exact LL]. }
    assert (B : (L * l) * (L * l) <= (9 / 64 * mu ^ 2) ^ 2 + lam * (mu ^ 2 / 64)).
    { eapply Rle_trans; [exact A|]. apply Rplus_le_compat; [apply pow_incr; split; [apply Rplus_le_le_0_compat; [exact LT0|apply sq_nonneg]|lra]|].
      apply Rmult_le_compat_l; assumption. }
    assert (M2 : 0 <= mu ^ 2) by apply pow2_ge_0.
    assert (C : L * l <= 3 / 16 * mu ^ 2 + lam / 16).
    { apply Rsqr_incr_0_var; [|lra]. unfold Rsqr. eapply Rle_trans; [exact B|].
      assert (0 <= lam * mu ^ 2) by (apply Rmult_le_pos; assumption). assert (0 <= lam * lam) by apply sq_nonneg. assert (0 <= mu ^ 2 * mu ^ 2) by apply sq_nonneg. nra. }
    assert (X1 : l * (L * d2) <= (3 / 16 * mu ^ 2 + lam / 16) * d2) by (replace (l * (L * d2)) with (L * l * d2) by ring; apply Rmult_le_compat_r; assumption).
    assert (X2 : (L * d2) * (L * d2) <= mu ^ 2 / 16 * d2).
    { replace (L * d2 * (L * d2)) with (L * L * d2 * d2) by ring. apply Rmult_le_compat_r; [exact D0|].
      apply Rle_trans with (L * L * (4 * (h * h))); [apply Rmult_le_compat_l; [apply sq_nonneg|exact D4]|]. replace (L * L * (4 * (h * h))) with (4 * (L * h * (L * h))) by ring. lra. }
    assert (0 <= lam * d2) by (apply Rmult_le_pos; assumption). nra.
  Qed.

  Definition vdot (u v : list R) : R := Rsum n (fun i => vget u i * vget v i).
  Lemma vdot_CS : forall u v, Rabs (vdot u v) <= vn n u * vn n v.
  Proof.
    intros u v. apply Rsqr_incr_0_var; [|apply Rmult_le_pos; apply vn_pos]. rewrite <- Rsqr_abs. unfold Rsqr at 2.
    replace (vn n u * vn n v * (vn n u * vn n v)) with ((vn n u * vn n u) * (vn n v * vn n v)) by ring. rewrite !vn_sq. rewrite Rsqr_pow2.
    rewrite (Rsum_ext n (fun i => vget u i ^ 2) (fun i => vget u i * vget u i)) by (intros; ring).
    rewrite (Rsum_ext n (fun i => vget v i ^ 2) (fun i => vget v i * vget v i)) by (intros; ring). apply Rsum_CS2.
  Qed.
  Definition rnorm : R := rn pr (rv xs).
  Definition mu : R := 15 / 16 * m.

  Lemma cost_rn : forall x, cost_at pr x = / 2 * rdot pr (rv x) (rv x).
  Proof.
    intro x. unfold cost_at, rdot. rewrite <- Rlsum_map_scal. f_equal. apply map_ext. intro r. f_equal. apply Rsum_ext. intros k Hk. unfold rv. ring.
  Qed.

  (** One step from x, with damping lam: the step dx satisfies the normal equations. *)
  Lemma local_step : forall x dx lam, length x = n -> length dx = n -> tangent pr xs dx -> tangent pr xs (towards x xs) -> 0 <= lam -> distance x xs <= rho0 -> Lam * distance x xs <= m / 16 ->
    (forall v, length v = n -> tangent pr xs v -> rdot pr (fun r k => rv x r k + jv x dx r k) (jv x v) + lam * vdot dx v = 0) ->
    let xp := ray x dx 1 in let h := distance x xs in
    (mu ^ 2 + lam) * distance xp xs <= (mu * Lam * h + Lam * rnorm + lam) * h /\
    distance xp xs <= h /\ distance xp xs <= rho0 /\
    2 * cost_at pr xp <= 2 * cost_at pr x - / 2 * (rdot pr (jv x dx) (jv x dx) + lam * vdot dx dx) /\
    mu ^ 2 * vdot dx dx <= rdot pr (jv x dx) (jv x dx) /\
    h <= vn n dx + distance xp xs.
  Proof.
    intros x dx lam LX LD TD TU LP HD HS NE xp h. fold h in HD, HS.
    pose proof (sm_m _ _ _ _ _ SM) as MP. pose proof (sm_Lam _ _ _ _ _ SM) as L0. pose proof (distance_nonneg x xs) as H0. fold h in H0.
    pose proof (sm_small _ _ _ _ _ SM) as ST. fold (rn pr (rv xs)) in ST. fold rnorm in ST. pose proof (rn_pos pr (rv xs)) as T0. fold rnorm in T0.
    assert (ED : length x = length dx) by congruence. assert (LXP : length xp = n) by (unfold xp; rewrite ray_length; congruence).
    set (u := towards x xs). assert (LU : length u = n) by apply towards_length.
    set (w := mkvec n (fun i => vget xp i - vget xs i)). assert (LW : length w = n) by apply mkvec_length.
    assert (VU : vn n u = h) by (unfold vn, u; apply norm_towards).
    assert (VW : vn n w = distance xp xs).
    { unfold vn, distance. f_equal. apply Rsum_ext. intros i Hi. unfold w. rewrite vget_mkvec by exact Hi. reflexivity. }
    set (b := vn n w) in *. pose proof (vn_pos n w) as B0. fold b in B0. rewrite <- VW.
    assert (GW : forall i, (i < n)%nat -> vget dx i = vget u i + vget w i).
    { intros i Hi. unfold w, u, towards. rewrite !vget_mkvec by exact Hi. unfold xp. rewrite ray_get by exact ED. ring. }
    assert (JW : forall y r k, In r (pr_costs pr) -> jv y dx r k = jv y u r k + jv y w r k).
    { intros y r k Hr. unfold jv, jac_dx. rewrite <- Rsum_plus. apply Rsum_ext. intros a Ha. rewrite GW by (apply (gidx_range r n (IX r (or_introl Hr)) a Ha)). ring. }
    assert (TW : tangent pr xs w).
    { intros r Hr k Hk. pose proof (TD r Hr k Hk) as D1. pose proof (TU r Hr k Hk) as D2. fold u in D2. unfold jac_dx in *.
      rewrite (Rsum_ext _ _ (fun a => mget (snd (res_fJ r (gathered r xs))) k a * vget u (gidx r a) + mget (snd (res_fJ r (gathered r xs))) k a * vget w (gidx r a))) in D1
        by (intros a Ha; rewrite GW by (apply (gidx_range r n (IX r (or_intror Hr)) a Ha)); ring).
      rewrite Rsum_plus in D1. lra. }
    assert (END : ray x u 1 = xs) by (apply seg_end; exact LX).
    assert (DS : distance xs xs <= rho0) by (rewrite dist_self; pose proof (sm_rho _ _ _ _ _ SM); lra).
    (* the linearisation at x, at xs *)
    set (del := fun r k => rv (ray x u 1) r k - rv x r k - jv x u r k).
    assert (DEL : rn pr del <= Lam * (h * h)) by (rewrite <- VU; apply taylor; auto; rewrite END; exact DS).
    set (rho := fun r k => rv x r k + jv x u r k). set (ell := fun r k => rv x r k + jv x dx r k).
    assert (ELL : forall r k, In r (pr_costs pr) -> (k < res_dim r)%nat -> ell r k = rho r k + jv x w r k) by (intros r k Hr Hk; unfold ell, rho; rewrite (JW x r k Hr); ring).
    assert (RHO : forall r k, rho r k = rv xs r k - del r k) by (intros r k; unfold del, rho; rewrite END; ring).
    set (a := rn pr (jv x w)). pose proof (rn_pos pr (jv x w)) as A0. fold a in A0.
    assert (AB : mu * b <= a) by (unfold mu, b, a; apply stretch_near; assumption).
    assert (Vdw : vdot dx w = vdot u w + b * b).
    { unfold vdot, b. rewrite vn_sq, <- Rsum_plus. apply Rsum_ext. intros i Hi. rewrite GW by exact Hi. ring. }
    assert (UW : Rabs (vdot u w) <= h * b).
    { rewrite <- VU. apply vdot_CS. }
    assert (N1 : rdot pr rho (jv x w) + a * a + lam * (vdot u w + b * b) = 0).
    { pose proof (NE w LW TW) as Q. fold ell in Q. rewrite Vdw in Q. unfold a. rewrite rn_sq, <- rdot_plus_l.
      rewrite (rdot_ext pr _ ell _ (jv x w)) by (intros r k Hr Hk; split; [symmetry; apply ELL; assumption|reflexivity]). exact Q. }
    assert (N2 : Rabs (rdot pr rho (jv x w)) <= Lam * (h * h) * a + Lam * rnorm * h * b).
    { rewrite (rdot_ext pr rho (fun r k => rv xs r k - del r k) _ (jv x w)) by (intros; split; [apply RHO|reflexivity]). rewrite rdot_minus_l.
      replace (rdot pr (rv xs) (jv x w)) with (rdot pr (rv xs) (fun r k => jv x w r k - jv xs w r k)).
      2: { rewrite rdot_minus_r, (sm_stationary _ _ _ _ _ SM w LW TW). ring. }
      unfold Rminus at 1. eapply Rle_trans; [apply Rabs_triang|]. rewrite Rabs_Ropp, Rplus_comm. apply Rplus_le_compat.
      - eapply Rle_trans; [apply rdot_CS|]. apply Rmult_le_compat_r; assumption.
      - eapply Rle_trans; [apply rdot_CS|]. fold rnorm. replace (Lam * rnorm * h * b) with (rnorm * (Lam * h * b)) by ring.
        apply Rmult_le_compat_l; [exact T0|]. apply jac_near; assumption. }
    assert (MU : 0 < mu) by (unfold mu; lra).
    assert (S1 : Lam * h <= mu / 8) by (unfold mu; lra).
    assert (S2 : Lam * rnorm <= mu ^ 2 / 8) by (unfold mu; pose proof (pow2_ge_0 m); nra).
    assert (LT0 : 0 <= Lam * rnorm) by (apply Rmult_le_pos; assumption).
    assert (CON : (mu ^ 2 + lam) * b <= (mu * Lam * h + Lam * rnorm + lam) * h).
    { apply (contraction_arith a b h mu Lam (Lam * rnorm) lam); auto; [lra|].
      pose proof (Rle_abs (- rdot pr rho (jv x w))) as Q1. rewrite Rabs_Ropp in Q1. pose proof (Rle_abs (- vdot u w)) as Q2. rewrite Rabs_Ropp in Q2.
      assert (lam * - vdot u w <= lam * (h * b)) by (apply Rmult_le_compat_l; lra). nra. }
    assert (BH : b <= h).
    { pose proof (pow_lt mu 2 MU). apply (Rmult_le_reg_l (mu ^ 2 + lam)); [lra|]. eapply Rle_trans; [exact CON|]. apply Rmult_le_compat_r; [exact H0|].
      assert (mu * (Lam * h) <= mu * (mu / 8)) by (apply Rmult_le_compat_l; lra). nra. }
    assert (QD : mu ^ 2 * vdot dx dx <= rdot pr (jv x dx) (jv x dx)).
    { pose proof (stretch_near x dx LX LD TD HD HS) as Q. fold mu in Q. rewrite <- rn_sq.
      replace (vdot dx dx) with (vn n dx * vn n dx) by (rewrite vn_sq; unfold vdot; apply Rsum_ext; intros; ring).
      replace (mu ^ 2 * (vn n dx * vn n dx)) with ((mu * vn n dx) * (mu * vn n dx)) by ring.
      assert (0 <= mu * vn n dx) by (apply Rmult_le_pos; [lra|apply vn_pos]). apply Rmult_le_compat; assumption. }
    assert (DD : vdot dx dx = h * h + 2 * vdot u w + b * b).
    { rewrite <- VU. unfold b, vdot. rewrite !vn_sq, <- Rsum_scal_l, <- !Rsum_plus. apply Rsum_ext. intros i Hi. rewrite GW by exact Hi. ring. }
    splits; auto; try lra.
    - (* decrease *)
      assert (DT : rn pr (fun r k => rv xp r k - rv x r k - jv x dx r k) <= Lam * vdot dx dx).
      { replace (vdot dx dx) with (vn n dx * vn n dx) by (rewrite vn_sq; unfold vdot; apply Rsum_ext; intros; ring).
        apply taylor; auto. fold xp. rewrite <- VW. lra. }
      assert (RX : rn pr (rv xp) <= rn pr ell + Lam * vdot dx dx).
      { rewrite (rn_ext pr (rv xp) (fun r k => ell r k + (rv xp r k - rv x r k - jv x dx r k))) by (intros; unfold ell; ring).
        eapply Rle_trans; [apply rn_triangle|]. lra. }
      assert (EL1 : rdot pr ell ell = rdot pr (rv x) (rv x) - rdot pr (jv x dx) (jv x dx) - 2 * (lam * vdot dx dx)).
      { pose proof (NE dx LD TD) as Q. rewrite rdot_plus_l in Q. unfold ell. rewrite rdot_sq. lra. }
      assert (EL2 : rdot pr ell ell <= (rnorm + Lam * (h * h)) ^ 2 + lam * (h * h)).
      { assert (RB : rdot pr rho rho <= (rnorm + Lam * (h * h)) ^ 2).
        { rewrite <- rn_sq. assert (RR : rn pr rho <= rnorm + Lam * (h * h)).
          { rewrite (rn_ext pr rho (fun r k => rv xs r k + - del r k)) by (intros; rewrite RHO; ring). eapply Rle_trans; [apply rn_triangle|].
            unfold rn at 2. rewrite rdot_opp. fold (rn pr del). fold rnorm. lra. }
          pose proof (rn_pos pr rho). replace ((rnorm + Lam * (h * h)) ^ 2) with ((rnorm + Lam * (h * h)) * (rnorm + Lam * (h * h))) by ring. apply Rmult_le_compat; assumption. }
        assert (EE : rdot pr rho rho = rdot pr ell ell + 2 * (lam * vdot dx w) + a * a).
        { pose proof (NE w LW TW) as Q. fold ell in Q.
          rewrite (rdot_ext pr rho (fun r k => ell r k - jv x w r k) rho (fun r k => ell r k - jv x w r k)) by (intros r k Hr Hk; rewrite (ELL r k Hr Hk); split; ring).
          rewrite rdot_minus_l, !rdot_minus_r, (rdot_sym pr (jv x w) ell). unfold a. rewrite rn_sq. lra. }
        rewrite Vdw in EE. pose proof (sq_nonneg a).
        assert (0 <= lam * (vdot dx dx)) by (apply Rmult_le_pos; [exact LP|unfold vdot; apply Rsum_nonneg; intros; apply sq_nonneg]).
        assert (0 <= lam * (b * b)) by (apply Rmult_le_pos; [exact LP|apply sq_nonneg]). rewrite DD in *. nra. }
      assert (D0 : 0 <= vdot dx dx) by (unfold vdot; apply Rsum_nonneg; intros; apply sq_nonneg).
      pose proof (rn_pos pr ell) as E0. rewrite <- rn_sq in EL2.
      assert (D4 : vdot dx dx <= 4 * (h * h)).
      { rewrite DD. pose proof (Rle_abs (vdot u w)). assert (h * b <= h * h) by (apply Rmult_le_compat_l; assumption). assert (b * b <= h * h) by (apply Rmult_le_compat; assumption). lra. }
      pose proof (armijo_arith mu lam Lam h rnorm (rdot pr (jv x dx) (jv x dx)) (vdot dx dx) (rn pr ell) MU LP L0 H0 T0 D0 E0 S1 S2 QD D4 EL2) as AR.
      assert (LD0 : 0 <= Lam * vdot dx dx) by (apply Rmult_le_pos; assumption).
      assert (SQ : rdot pr (rv xp) (rv xp) <= (rn pr ell + Lam * vdot dx dx) * (rn pr ell + Lam * vdot dx dx)).
      { rewrite <- rn_sq. pose proof (rn_pos pr (rv xp)). apply Rmult_le_compat; assumption. }
      rewrite !cost_rn. pose proof (rn_sq pr ell) as ES. rewrite EL1 in ES.
      assert (0 <= lam * vdot dx dx) by (apply Rmult_le_pos; assumption). nra.
    - (* the length of the step *)
      apply Rsqr_incr_0_var; [|pose proof (vn_pos n dx); lra]. unfold Rsqr.
      assert (E1 : h * h = vn n dx * vn n dx - 2 * vdot dx w + b * b).
      { rewrite Vdw. replace (vn n dx * vn n dx) with (vdot dx dx) by (rewrite vn_sq; unfold vdot; apply Rsum_ext; intros; ring). rewrite DD. ring. }
      assert (CS : Rabs (vdot dx w) <= vn n dx * b).
      { apply vdot_CS. }
      pose proof (Rle_abs (- vdot dx w)) as Q. rewrite Rabs_Ropp in Q. nra.
  Qed.
End Geometry.

(** ** Bounds *)

(** lambda before iteration k, if all steps succeed. *)
Fixpoint damping (pa : NLSParams R) (k : nat) : R :=
  match k with
  | Datatypes.O => n_lambda_initial pa
  | Datatypes.S k => Rmax (damping pa k * n_lambda_decrease_on_success pa) (n_min_lambda pa)
  end.
(** Factor between successive errors: quadratic convergence in e, slowed down by the residual norm T at the minimiser and by lam. *)
Definition rate (mu Lam T lam e : R) : R := (mu * Lam * e + Lam * T + lam) / (mu ^ 2 + lam).
(** Bound on the error before iteration k. *)
Fixpoint local_bound (mu Lam T : R) (pa : NLSParams R) (e : R) (k : nat) : R :=
  match k with
  | Datatypes.O => e
  | Datatypes.S k => let b := local_bound mu Lam T pa e k in rate mu Lam T (Rmax (damping pa k) 0) b * b
  end.

(** What a solve from vars near xs comes to. *)
Definition local_outcome {S : Type} (pa : NLSParams R) (pr : Problem R) (xs : list R) (Lam m rho : R) (vars : list R)
    (r : nls_result (F := R) (S := S)) : Prop :=
  let log := out_iterations (res_out r) in
  let bound := local_bound (mu m) Lam (rnorm pr xs) pa (distance vars xs) in
  (* every step is a full one, and lambda falls; only the last iteration can find the point stationary instead *)
  (forall k info, nth_error log k = Some info ->
     it_lambda info = damping pa k /\
     (it_step_result info = SS_SUCCESS /\ (exists e, it_line_search_steps info = [MkStep 1 e]) \/
      it_step_result info = FIRST_ORDER_SATISFIED /\ Datatypes.S k = length log)) /\
  (* all points visited satisfy the equality constraints *)
  (forall info, In info log -> err_equality (it_errors_initial info) = 0) /\ eq_l1_at pr (res_vars r) = 0 /\
  (* the distance to the minimiser *)
  distance (res_vars r) xs <= bound (successes log) /\
  (* Solve ends for one of these reasons *)
  (satisfied (out_termination_state (res_out r)) \/ out_termination_state (res_out r) = NLS_MAX_ITERATIONS \/
   out_termination_state (res_out r) = USER_CALLBACK) /\
  (out_termination_state (res_out r) = NLS_MAX_ITERATIONS -> successes log = Z.to_nat (n_max_iterations pa)) /\
  (out_termination_state (res_out r) = SATISFIED_FIRST_ORDER_TOL ->
     (3 / 4 * mu m ^ 2 * distance (res_vars r) xs) ^ 2 <= (mu m ^ 2 + Rmax (damping pa (successes log)) 0) * n_absolute_first_derivative_tol pa) /\
  (* f0 is the cost before the last iteration *)
  (out_termination_state (res_out r) = SATISFIED_RELATIVE_TOL ->
     exists j info, length log = Datatypes.S j /\ nth_error log j = Some info /\
     let f0 := err_f (it_errors_initial info) in
     (3 / 4 * mu m ^ 2 * distance (res_vars r) xs) ^ 2 <= 4 * (mu m ^ 2 + Rmax (damping pa j) 0) * (n_relative_exit_tol pa * f0)) /\
  (* the cost falls by the factor 1 - relative_exit_tol in every iteration but the last *)
  (forall k info, nth_error log k = Some info -> err_f (it_errors_initial info) <= cost_at pr vars * (1 - n_relative_exit_tol pa) ^ k) /\
  (* so there are at most N iterations, if N such decreases reach the absolute tolerance, or if the bound on the error does *)
  (forall N, (1 <= N)%nat ->
     (cost_at pr vars * (1 - n_relative_exit_tol pa) ^ N < n_absolute_exit_tol pa \/
      exists M, 0 <= M /\ (forall x, length x = length xs -> distance x xs <= rho -> cost_at pr x <= / 2 * (M * distance x xs) ^ 2) /\
                / 2 * (M * bound N) ^ 2 < n_absolute_exit_tol pa) ->
     (length log <= N)%nat /\
     ((Z.of_nat N <= n_max_iterations pa)%Z -> out_termination_state (res_out r) <> NLS_MAX_ITERATIONS)).

Section Local.
  Variable ldlt : mat R -> option (mat R).
  Variable qr : mat R -> QRResult R.
  Variable llt : mat R -> option (list R -> list R).
  Variable eigs : mat R -> QPEigenvalues R.
  Context {S : Type}.
  Variable cb : option (S -> NLSIteration R -> S * bool).
  Variable pa : NLSParams R.
  Variable pr : Problem R.
  Variable g : nat -> garbage R.
  Variable xs : list R.
  Variables rho0 Lam m rho : R.
  Hypothesis SM : small_residual_minimiser pr xs rho0 Lam m.
  Hypothesis RR : rho <= rho0.
  Hypothesis RS : Lam * rho <= m / 16.
  Hypothesis NI : pr_ineq pr = [].
  Hypothesis AF : affine_constraints pr.
  Hypothesis DI : distinct_indices pr.
  Hypothesis DC : derivatives_correct pr.
  Hypothesis VC : value_consistent pr.
  Hypothesis XS : exact_steps ldlt qr llt pr.

  Notation iteration_spec := (iteration_spec ldlt qr llt eigs None pa pr).
  Notation mu := (mu m).
  Notation T := (rnorm pr xs).

  Lemma mu_pos : 0 < mu.
  Proof. unfold NLSLocal.mu. pose proof (sm_m _ _ _ _ _ SM). lra. Qed.
  Lemma near_ball : forall x, distance x xs <= rho -> distance x xs <= rho0 /\ Lam * distance x xs <= m / 16.
  Proof.
    intros x H. split; [lra|]. apply Rle_trans with (Lam * rho); [|exact RS]. apply Rmult_le_compat_l; [apply (sm_Lam _ _ _ _ _ SM)|exact H].
  Qed.

  Lemma lin_cost_rdot : forall x u, (forall r, In r (pr_costs pr) -> idx_ok r (length xs)) ->
    lin_cost pr x (vget u) = / 2 * rdot pr (fun r k => rv x r k + jv x u r k) (fun r k => rv x r k + jv x u r k).
  Proof.
    intros x u _. unfold lin_cost, rdot. rewrite <- Rlsum_map_scal. f_equal. apply map_ext_in. intros r Hr. f_equal. apply Rsum_ext. intros k Hk.
    unfold lin_residual, rv, jv, jac_dx. rewrite (VC r (or_introl Hr)). ring.
  Qed.
  Lemma curvature_rdot : forall x u, lin_curvature pr x (vget u) = rdot pr (jv x u) (jv x u).
  Proof.
    intros x u. rewrite curvature_jac. unfold rdot. f_equal. apply map_ext. intro r. apply Rsum_ext. intros k Hk. unfold jv. ring.
  Qed.

  (** The step of one iteration satisfies the normal equations. *)
  Lemma normal_equations : forall qp x dx lam, (forall r, In r (pr_costs pr) -> idx_ok r (length xs)) ->
    length dx = nv qp -> nv qp = length xs -> forall v, length v = length xs ->
    bform qp dx v + gdot qp v = 0 ->
    (forall u, qform qp u = lin_curvature pr x (vget u) + lam * Rsum (length xs) (fun i => vget u i ^ 2)) ->
    (forall u, cost_at pr x + objective qp u = lin_cost pr x (vget u) + / 2 * lam * Rsum (length xs) (fun i => vget u i ^ 2)) ->
    rdot pr (fun r k => rv x r k + jv x dx r k) (jv x v) + lam * vdot xs dx v = 0.
  Proof.
    intros qp x dx lam IX LD NV v LV ST QF OBJ.
    pose proof (OBJ (along (nv qp) dx v 1)) as O1. rewrite objective_along, ST in O1. pose proof (OBJ dx) as O0.
    rewrite !lin_cost_rdot in * by exact IX. rewrite (QF v), curvature_rdot in O1.
    assert (GA : forall i, (i < length xs)%nat -> vget (along (nv qp) dx v 1) i = vget dx i + vget v i).
    { intros i Hi. unfold along. rewrite vget_mkvec by (rewrite NV; exact Hi). ring. }
    assert (JA : forall r k, In r (pr_costs pr) -> rv x r k + jv x (along (nv qp) dx v 1) r k = (rv x r k + jv x dx r k) + jv x v r k).
    { intros r k Hr. unfold jv, jac_dx. rewrite Rplus_assoc, <- Rsum_plus. f_equal. apply Rsum_ext. intros a Ha. rewrite GA by (apply (gidx_range r _ (IX r Hr) a Ha)). ring. }
    rewrite (rdot_ext pr (fun r k => rv x r k + jv x (along (nv qp) dx v 1) r k) (fun r k => (rv x r k + jv x dx r k) + jv x v r k)
       (fun r k => rv x r k + jv x (along (nv qp) dx v 1) r k) (fun r k => (rv x r k + jv x dx r k) + jv x v r k)) in O1 by (intros r k Hr Hk; split; apply JA; exact Hr).
    rewrite rdot_sq in O1.
    assert (SA : Rsum (length xs) (fun i => vget (along (nv qp) dx v 1) i ^ 2) =
      Rsum (length xs) (fun i => vget dx i ^ 2) + 2 * vdot xs dx v + Rsum (length xs) (fun i => vget v i ^ 2)).
    { unfold vdot. rewrite <- Rsum_scal_l, <- !Rsum_plus. apply Rsum_ext. intros i Hi. rewrite GA by exact Hi. ring. }
    rewrite SA in O1. lra.
  Qed.

  (** One iteration. *)
  Lemma local_iteration : forall gk st info ex st',
    well_posed pa pr (ns_vars st) -> ns_opt st = NOMINAL -> distance (ns_vars st) xs <= rho /\ eq_l1_at pr (ns_vars st) = 0 ->
    iteration_spec gk st info ex st' ->
    let lam := Rmax (ns_lambda st) 0 in let h := distance (ns_vars st) xs in
    (length (ns_vars st') = pdim pr /\ eq_l1_at pr (ns_vars st') = 0) /\ ns_opt st' = NOMINAL /\ it_lambda info = ns_lambda st /\
    err_f (it_errors_initial info) = cost_at pr (ns_vars st) /\
    ((it_step_result info = SS_SUCCESS /\
       (exists e, it_line_search_steps info = [MkStep 1 e]) /\
       (ex = Some SATISFIED_ABSOLUTE_TOL \/ ex = Some SATISFIED_RELATIVE_TOL \/ ex = None) /\
       ns_lambda st' = Rmax (ns_lambda st * n_lambda_decrease_on_success pa) (n_min_lambda pa) /\
       (mu ^ 2 + lam) * distance (ns_vars st') xs <= (mu * Lam * h + Lam * T + lam) * h /\ distance (ns_vars st') xs <= h /\
       (cost_at pr (ns_vars st') < n_absolute_exit_tol pa -> ex = Some SATISFIED_ABSOLUTE_TOL) /\
       (ex = None -> cost_at pr (ns_vars st') <= cost_at pr (ns_vars st) * (1 - n_relative_exit_tol pa)) /\
       (ex = Some SATISFIED_RELATIVE_TOL ->
          (3 / 4 * mu ^ 2 * h) ^ 2 <= 4 * (mu ^ 2 + lam) * (n_relative_exit_tol pa * cost_at pr (ns_vars st)))) \/
     (it_step_result info = FIRST_ORDER_SATISFIED /\ ns_vars st' = ns_vars st /\ ns_lambda st' = ns_lambda st /\ ex = Some SATISFIED_FIRST_ORDER_TOL /\
       (3 / 4 * mu ^ 2 * h) ^ 2 <= (mu ^ 2 + lam) * n_absolute_first_derivative_tol pa)).
  Proof.
    intros gk st info ex st' WP NO [BALL FX] HI lam h. pose proof (wp_params _ _ _ WP) as PV.
    pose proof (xs_factorizations _ _ _ _ XS) as EF.
    pose proof (iteration_vars _ _ _ _ _ _ _ _ _ _ _ _ (npv_ls _ PV) HI) as [V1 V2].
    assert (IL : it_lambda info = ns_lambda st) by (destruct HI as (? & ? & ? & _ & _ & _ & _ & _ & _ & _ & Q & _); apply Q).
    destruct (iteration_exact _ _ _ _ _ _ _ _ _ _ _ _ NI DI EF HI)
      as (qp & dx & cand & HL & HC & HS & VS & LD & NV & FE & PSD & ST & DF & DE & EV & QF & OBJ).
    set (x := ns_vars st) in *. pose proof (wp_vars _ _ _ WP) as LV. fold (pdim pr) in LV.
    pose proof (sm_length _ _ _ _ _ SM) as LS. fold (pdim pr) in LS.
    pose proof (wp_idx pr pa x x WP eq_refl) as IX.
    assert (IX2 : forall r, In r (pr_costs pr) \/ In r (pr_eq pr) -> idx_ok r (length xs)) by (intros r Hr; rewrite LS, <- LV; apply IX; exact Hr).
    pose proof (C25_linearisation_errors _ _ _ _ _ VC HL) as CE. rewrite (eval_errors_R _ _ IX) in CE. apply Ok_inj in CE.
    assert (CF : err_f (it_errors_initial info) = cost_at pr x) by (rewrite <- CE; reflexivity).
    assert (CEq : err_equality (it_errors_initial info) = 0) by (rewrite <- CE; exact FX).
    assert (E0 : eq_l1 qp = 0) by congruence.
    pose proof (feasible_tangent qp dx E0 FE) as TA.
    fold lam in QF, OBJ. rewrite CF, <- LS in OBJ. rewrite <- LS in QF.
    assert (LP : 0 <= lam) by apply Rmax_r.
    assert (LD' : length dx = length xs) by congruence. assert (LX : length x = length xs) by congruence.
    assert (TX : tangent pr x dx) by (apply (tangent_qp _ _ _ _ _ dx DI HL); exact TA).
    assert (TD : tangent pr xs dx) by (apply (affine_tangent pr x xs dx AF); [congruence|congruence|exact TX]).
    assert (LT : length (towards x xs) = length xs) by apply towards_length.
    assert (TU : tangent pr xs (towards x xs)).
    { apply (affine_tangent pr x xs (towards x xs) AF); [congruence|congruence|].
      apply (feasible_ray pr x (towards x xs) AF); [congruence|exact FX|]. rewrite seg_end by exact LX. apply (sm_feasible _ _ _ _ _ SM). }
    assert (NEQ : forall v, length v = length xs -> tangent pr xs v -> rdot pr (fun r k => rv x r k + jv x dx r k) (jv x v) + lam * vdot xs dx v = 0).
    { intros v Lv Tv. apply (normal_equations qp x dx lam (fun r Hr => IX2 r (or_introl Hr)) LD ltac:(congruence) v Lv); [|exact QF|exact OBJ].
      apply ST. apply (tangent_qp _ _ _ _ _ v DI HL). apply (affine_tangent pr xs x v AF); [congruence|exact Lv|exact Tv]. }
    destruct (near_ball x BALL) as [B0 BS]. fold h in B0, BS.
    destruct (local_step pr xs rho0 Lam m SM DC IX2 x dx lam LX LD' TD TU LP B0 BS NEQ) as (CON & LE & INB & DEC & QD & SL).
    fold h in CON, LE, SL. set (xp := ray x dx 1) in *.
    assert (LXP : length xp = pdim pr) by (unfold xp; rewrite ray_length by congruence; congruence).
    assert (SS : Rsum (length xs) (fun i => vget dx i ^ 2) = vdot xs dx dx) by (unfold vdot; apply Rsum_ext; intros; ring).
    assert (QQ : qform qp dx = rdot pr (jv x dx) (jv x dx) + lam * vdot xs dx dx) by (rewrite QF, curvature_rdot, SS; reflexivity).
    assert (S0 : qform qp dx = - gdot qp dx) by (pose proof (ST dx TA) as Q; change (bform qp dx dx) with (qform qp dx) in Q; lra).
    assert (V0 : 0 <= vdot xs dx dx) by (unfold vdot; apply Rsum_nonneg; intros; apply sq_nonneg).
    assert (Q0 : 0 <= qform qp dx) by apply PSD.
    (* the full step passes the Armijo test *)
    destruct (C28_line_search_log None (ls_of pa pr st info dx) (npv_ls _ PV) _ _ _ HS) as (LG & CH & L1 & _ & init & last & Es & PT & REJ & RES).
    assert (EZ : eq_l1_at pr xp = 0) by (apply (feasible_ray pr x dx AF); [congruence|exact FX|exact TX]).
    assert (EA : errors_at None (ls_of pa pr st info dx) 1 = Ok (MkErrors (cost_at pr xp) 0)).
    { unfold errors_at, point_at, RetractCandidateVars. cbn [li_vars li_dx li_pr ls_of]. fold x.
      replace (length x =? length dx)%nat with true by (symmetry; apply Nat.eqb_eq; congruence). cbn [ub_unless bind]. fold (ray x dx 1). fold xp.
      replace (MkErrors (cost_at pr xp) 0) with (MkErrors (cost_at pr xp) (eq_l1_at pr xp)) by (rewrite EZ; reflexivity). apply eval_errors_R. intros r Hr. rewrite LXP, <- LV. apply IX. exact Hr. }
    assert (FIRST : forall s l, it_line_search_steps info = s :: l ->
       s = MkStep 1 (MkErrors (cost_at pr xp) 0) /\ armijo (ls_of pa pr st info dx) s = true).
    { intros s l El. pose proof (chain_first1 _ _ CH s l El) as A1. cbn [f1 R_ops] in A1.
      assert (IS : In s (it_line_search_steps info)) by (rewrite El; left; reflexivity).
      unfold logged in LG. rewrite Forall_forall in LG. specialize (LG s IS). rewrite A1, EA in LG. apply Ok_inj in LG.
      split; [destruct s as [a e]; cbn [step_alpha step_errors] in *; congruence|].
      unfold armijo, merit, slope. cbn [li_pre li_dd li_penalty li_c1 ls_of]. rewrite <- LG, A1. cbn [err_f err_equality].
      rewrite CF, CEq, DF, DE, E0. cbn [fadd fmul fneg R_ops]. rewrite R_1em4.
      match goal with |- fleb ?a ?b = true => destruct (R_fleb a b) as [_|B]; [reflexivity|exfalso; apply B] end. rewrite QQ in S0, Q0. lra. }
    assert (INIT : init = []).
    { destruct init as [|s init]; [reflexivity|exfalso]. cbn [app] in Es. destruct (FIRST _ _ Es) as [_ P].
      inversion REJ as [|? ? RJ _]; subst. destruct RJ. congruence. }
    subst init. cbn [app] in Es. destruct (FIRST _ _ Es) as [LA P1].
    assert (SR : it_step_result info = SS_SUCCESS \/ it_step_result info = FIRST_ORDER_SATISFIED).
    { destruct (it_step_result info); auto; exfalso.
      - destruct RES as ((_ & X) & _). congruence.
      - destruct RES as (_ & _ & _ & X). unfold ascending, slope in X. cbn [li_dd li_penalty ls_of] in X.
        match type of X with fgtb ?a ?b = true => destruct (R_fgtb a b) as [Y|]; [|discriminate] end.
        rewrite DF, DE, E0 in Y. cbn [fadd fmul f0 R_ops] in Y. lra.
      - discriminate RES.
      - destruct RES as ((_ & X) & _). congruence. }
    pose proof mu_pos as MP. pose proof (pow_lt mu 2 MP) as M2. pose proof (distance_nonneg x xs) as H0. fold h in H0.
    assert (A3 : 3 / 4 * mu ^ 2 * h <= (mu ^ 2 + lam) * vn (length xs) dx).
    { pose proof (sm_small _ _ _ _ _ SM) as SMA. fold (rn pr (rv xs)) in SMA. fold T in SMA.
      assert (A1 : mu * Lam * h + Lam * T + lam <= mu ^ 2 / 4 + lam).
      { assert (mu * (Lam * h) <= mu * (mu / 8)) by (apply Rmult_le_compat_l; [lra|]; unfold NLSLocal.mu; pose proof (sm_m _ _ _ _ _ SM); lra).
        assert (Lam * T <= mu ^ 2 / 8) by (unfold NLSLocal.mu; pose proof (pow2_ge_0 m); nra). nra. }
      assert (A2 : (mu ^ 2 + lam) * h <= (mu ^ 2 + lam) * vn (length xs) dx + (mu ^ 2 / 4 + lam) * h).
      { assert ((mu ^ 2 + lam) * h <= (mu ^ 2 + lam) * (vn (length xs) dx + distance xp xs)) by (apply Rmult_le_compat_l; lra).
        assert ((mu * Lam * h + Lam * T + lam) * h <= (mu ^ 2 / 4 + lam) * h) by (apply Rmult_le_compat_r; lra). lra. }
      lra. }
    assert (A5 : (3 / 4 * mu ^ 2 * h) ^ 2 <= (mu ^ 2 + lam) * ((mu ^ 2 + lam) * vdot xs dx dx)).
    { assert (A4 : 0 <= 3 / 4 * mu ^ 2 * h) by (apply Rmult_le_pos; lra).
      apply Rle_trans with (((mu ^ 2 + lam) * vn (length xs) dx) ^ 2); [apply pow_incr; split; assumption|].
      replace (((mu ^ 2 + lam) * vn (length xs) dx) ^ 2) with ((mu ^ 2 + lam) * ((mu ^ 2 + lam) * (vn (length xs) dx * vn (length xs) dx))) by ring.
      rewrite vn_sq, SS. apply Rle_refl. }
    destruct SR as [SR|SR].
    - assert (VX : ns_vars st' = xp).
      { rewrite (VS SR). unfold point_at, RetractCandidateVars in PT. cbn [li_vars li_dx ls_of] in PT. rewrite LA in PT. cbn [step_alpha] in PT. fold x in PT.
        replace (length x =? length dx)%nat with true in PT by (symmetry; apply Nat.eqb_eq; congruence). cbn [ub_unless bind] in PT.
        apply Ok_inj in PT. symmetry. exact PT. }
      rewrite VX.
      assert (X : ns_lambda st' = fmax (fmul (ns_lambda st) (n_lambda_decrease_on_success pa)) (n_min_lambda pa) /\ ns_opt st' = NOMINAL /\
        (ex = Some SATISFIED_ABSOLUTE_TOL \/ ex = Some SATISFIED_RELATIVE_TOL \/ ex = None) /\
        (cost_at pr xp < n_absolute_exit_tol pa -> ex = Some SATISFIED_ABSOLUTE_TOL) /\
        (ex = None -> cost_at pr xp <= cost_at pr x * (1 - n_relative_exit_tol pa)) /\
        (ex = Some SATISFIED_RELATIVE_TOL -> cost_at pr x * (1 - n_relative_exit_tol pa) < cost_at pr xp)).
      { destruct HI as (? & ? & ? & _ & _ & _ & _ & _ & _ & HU & _). rewrite SR, NO, Es, LA in HU. unfold UpdateLambdaAndCheckExitConditions in HU.
        inv_bind HU. cbn [length Nat.sub nth step_errors app] in HU. unfold Errors_LInfinity, Errors_Total in HU. cbn [err_f err_equality] in HU.
        rewrite R_fmax, (Rmax_left _ _ (cost_at_nonneg pr xp)), CF, CEq in HU. cbn [fadd fmul fsub f1 R_ops] in HU.
        match type of HU with (if fltb ?a ?b then _ else (if fgtb ?c ?e then _ else _)) = _ => destruct (R_fltb a b) as [LT1|LT1]; [|destruct (R_fgtb c e) as [LT2|LT2]] end;
          apply Ok_inj in HU; apply pair_inj in HU; destruct HU as [<- <-]; splits; auto; intros; try discriminate; try lra. }
      destruct X as (X1 & X2 & X3 & X4 & X5 & X6). rewrite R_fmax in X1. cbn [fmul R_ops] in X1. splits; auto.
      left. splits; auto; [rewrite Es, LA; eexists; reflexivity|]. intro E. specialize (X6 E). 
      eapply Rle_trans; [exact A5|]. replace (4 * (mu ^ 2 + lam) * (n_relative_exit_tol pa * cost_at pr x)) with ((mu ^ 2 + lam) * (4 * (n_relative_exit_tol pa * cost_at pr x))) by ring.
      apply Rmult_le_compat_l; [lra|]. lra.
    - rewrite SR in V1. specialize (V1 ltac:(discriminate)). rewrite V1. fold x.
      assert (X : ns_lambda st' = ns_lambda st /\ ns_opt st' = NOMINAL /\ ex = Some SATISFIED_FIRST_ORDER_TOL).
      { destruct HI as (? & ? & ? & _ & _ & _ & _ & _ & _ & HU & _). rewrite SR in HU. unfold UpdateLambdaAndCheckExitConditions in HU.
        apply Ok_inj in HU. apply pair_inj in HU. destruct HU as [<- <-]. splits; auto. }
      destruct X as (X1 & X2 & X3). splits; auto. right. splits; auto.
      rewrite SR in RES. destruct RES as (_ & _ & STA). apply stationary_test in STA. rewrite DF, DE, E0 in STA.
      assert (X : Rabs (gdot qp dx) < n_absolute_first_derivative_tol pa) by (eapply Rle_lt_trans; [apply Rmax_l|exact STA]).
      apply Rabs_def2 in X.
      eapply Rle_trans; [exact A5|]. apply Rmult_le_compat_l; [lra|]. lra.
  Qed.

  (** ** All iterations *)
  Definition local_ok (st : nls_state R) : Prop :=
    well_posed pa pr (ns_vars st) /\ 0 < ns_penalty st /\ lambda_ok pa st /\ ns_opt st = NOMINAL /\ distance (ns_vars st) xs <= rho /\ eq_l1_at pr (ns_vars st) = 0.

  (** The quadratic model curves upwards along the constraints. *)
  Lemma local_curved : forall st errs qp d, local_ok st -> LinearizeAndFillQP (ns_vars st) (ns_lambda st) pr = Ok (errs, qp) ->
    length d = pdim pr -> (exists i, (i < pdim pr)%nat /\ vget d i <> 0) -> qp_tangent qp d -> 0 < qform qp d.
  Proof.
    intros st errs qp d (WP & _ & LO & NO & BALL & FX) HL LD (i & Hi & NZ) TD.
    destruct (C24_linearised_qp _ _ _ _ _ DI HL) as (_ & _ & _ & QF & _). rewrite QF.
    pose proof (wp_vars _ _ _ WP) as LV. pose proof (sm_length _ _ _ _ _ SM) as LS. fold (pdim pr) in LS, LV, QF |- *. rewrite curvature_rdot, <- LS.
    destruct (near_ball _ BALL) as [B0 BS].
    assert (TS : tangent pr xs d).
    { apply (affine_tangent pr (ns_vars st) xs d AF); [congruence|congruence|]. apply (tangent_qp _ _ _ _ _ d DI HL). exact TD. }
    pose proof (stretch_near pr xs rho0 Lam m SM (ns_vars st) d ltac:(congruence) ltac:(congruence) TS B0 BS) as SN.
    assert (SS : 0 < Rsum (length xs) (fun j => vget d j ^ 2)).
    { apply Rlt_le_trans with (vget d i ^ 2); [pose proof (Rsqr_pos_lt _ NZ) as Q; unfold Rsqr in Q; lra|].
      apply (Rsum_pos_term (length xs) (fun j => vget d j ^ 2) i); [intros; apply pow2_ge_0|]. rewrite LS. lia. }
    assert (VP : 0 < vn (length xs) d) by (apply sqrt_lt_R0; exact SS).
    assert (MV : 0 < 15 / 16 * m * vn (length xs) d) by (apply Rmult_lt_0_compat; [pose proof (sm_m _ _ _ _ _ SM); lra|exact VP]).
    rewrite <- rn_sq. assert (0 <= Rmax (ns_lambda st) 0 * Rsum (length xs) (fun j => vget d j ^ 2)) by (apply Rmult_le_pos; [apply Rmax_r|lra]). nra.
  Qed.

  Lemma local_no_bad_factorization : forall st, local_ok st -> ~ factorization_failed_at ldlt pr (ns_vars st) (ns_lambda st).
  Proof.
    intros st SO [NE (errs & qp & HL & w & H & WN & RK & EL)]. destruct NE as [NE|NE]; [contradiction|]. pose proof SO as (WP & _).
    apply (xs_ldlt _ _ _ _ XS NE H (nv qp + neq qp)%nat (proj1 RK) (proj1 (proj2 RK)) EL).
    destruct (no_eq_rows pa pr NE _ _ _ _ WP HL) as [NQ NV].
    destruct (linearise_total pr (ns_vars st) (ns_lambda st) (wp_vars _ _ _ WP) (wp_index _ _ _ WP) (fun c Hc => proj1 (wp_cons _ _ _ WP c Hc)) (wp_dim _ _ _ WP))
      as (errs' & qp' & HL' & GR & GC & CL & AR & AC & BL & QC).
    rewrite HL in HL'. apply Ok_inj in HL'. apply pair_inj in HL'. destruct HL' as [<- <-].
    apply (C52_reduced_system_nonsingular qp w H); auto.
    - constructor; unfold nv, neq; try congruence.
      intros c Hc. rewrite QC in Hc. apply in_map_iff in Hc. destruct Hc as (c1 & <- & Hc1). rewrite NI in Hc1. destruct Hc1.
    - intros y _ k Hk. lia.
    - intros d LD (i & Hi & NZ) TD. apply (local_curved st errs qp d SO HL); [congruence| |exact TD]. exists i. split; [lia|exact NZ].
  Qed.

  Lemma local_state_step : forall k st st' info ex, local_ok st ->
    nls_iterate ldlt qr llt eigs None pa pr (g k) (Z.of_nat k) st = Ok (IterDone st' info ex) -> local_ok st'.
  Proof.
    intros k st st' info ex SO H. pose proof SO as (WP & PP & LO & NO & BALL & FX).
    destruct (iterate_total ldlt qr llt eigs None pa pr (g k) (Z.of_nat k) st WP PP LO) as [(r & E & X)|[_ X]].
    - intros f Q. discriminate.
    - intros _ Q. destruct (xs_rank _ _ _ _ XS Q) as [RA RB]. split; [exact RA|]. intros errs qp HL. apply (RB _ _ _ _ (wp_vars _ _ _ WP) HL).
    - rewrite H in E. apply Ok_inj in E. destruct (X _ _ _ (eq_sym E)) as (LV & PP' & LO').
      pose proof H as HI. apply iterate_spec in HI. destruct HI as [_ HI].
      destruct (local_iteration _ _ _ _ _ WP NO (conj BALL FX) HI) as ([_ FX'] & NO' & _ & _ & R).
      unfold local_ok. splits; auto.
      + eapply well_posed_vars; [exact WP|exact LV].
      + destruct R as [(_ & _ & _ & _ & _ & LE & _)|(_ & -> & _)]; [lra|exact BALL].
    - destruct (local_no_bad_factorization st SO X).
  Qed.

  Lemma local_iterate_returns : forall k st, local_ok st ->
    exists st' info ex, nls_iterate ldlt qr llt eigs None pa pr (g k) (Z.of_nat k) st = Ok (IterDone st' info ex).
  Proof.
    intros k st SO. pose proof SO as (WP & PP & LO & NO & BALL & FX).
    destruct (iterate_total ldlt qr llt eigs None pa pr (g k) (Z.of_nat k) st WP PP LO) as [(r & E & X)|[_ X]].
    - intros f Q. discriminate.
    - intros _ Q. destruct (xs_rank _ _ _ _ XS Q) as [RA RB]. split; [exact RA|]. intros errs qp HL. apply (RB _ _ _ _ (wp_vars _ _ _ WP) HL).
    - destruct r as [|st' info ex]; [exfalso|eauto].
      unfold nls_iterate in E. inv_bind E. destruct a as [ep qp]. inv_bind E. destruct a as [o dx].
      assert (QI : QPWasIndefinite o = false).
      { unfold ComputeStepDirection, use_null_space in Hm0. rewrite NI in Hm0. destruct (pr_eq pr) as [|e0 es] eqn:EQ.
        - inv_bind Hm0. inv_bind Hm0. destruct a0 as [st1 outs]. apply Ok_inj in Hm0. apply pair_inj in Hm0. destruct Hm0 as [<- _]. reflexivity.
        - apply bind_ok_inv in Hm0. destruct Hm0 as ([t x] & HN & HD).
          destruct t; apply Ok_inj in HD; apply pair_inj in HD; destruct HD as [<- _]; [reflexivity|exfalso].
          destruct (proj2 (xs_factorizations _ _ _ _ XS) ltac:(rewrite EQ; discriminate) _ _ _ _ Hm) as [QX CX].
          destruct (C21_termination_states qr llt qp _ _ x QX CX HN) as [_ X']. destruct (X' eq_refl) as (_ & d & (i & Hi & NZ) & TD & LE).
          destruct (C24_linearised_qp _ _ _ _ _ DI Hm) as ((_ & _ & CL & _) & _). fold (pdim pr) in CL. assert (NV : nv qp = pdim pr) by exact CL.
          assert (P : 0 < qform qp (mkvec (nv qp) d)).
          { apply (local_curved st ep qp _ SO Hm); [rewrite mkvec_length; exact NV| |].
            - exists i. split; [lia|]. rewrite vget_mkvec by exact Hi. exact NZ.
            - intros l Hl. rewrite <- (TD l Hl). apply Rsum_ext. intros j Hj. rewrite vget_mkvec by exact Hj. reflexivity. }
          unfold qform in P. rewrite (Rsum_ext (nv qp) _ (fun i => Rsum (nv qp) (fun j => d i * Gs qp i j * d j))) in P; [lra|].
          intros a Ha. apply Rsum_ext. intros b Hb. rewrite !vget_mkvec by assumption. reflexivity. }
      rewrite QI in E. inv_bind E. inv_bind E. destruct a0 as [[? ?] ?]. inv_bind E. destruct a0. discriminate.
    - destruct (local_no_bad_factorization st SO X).
  Qed.

  Lemma local_loop_returns : forall n iter log st cs, local_ok st ->
    exists r, nls_loop ldlt qr llt eigs None cb n pa pr g iter log st cs = Ok r.
  Proof.
    induction n as [|n IH]; intros iter log st cs SO; cbn [nls_loop]; [eauto|].
    destruct (local_iterate_returns iter st SO) as (st' & info & ex & E). rewrite E. cbn [bind].
    destruct (call_cb cb cs info) as [cs' pc]. destruct ex as [t|]; [eauto|]. destruct pc; [|eauto].
    apply IH. apply (local_state_step _ _ _ _ _ SO E).
  Qed.

  (** The rate. *)
  Lemma rate_facts : forall lam b, 0 <= lam -> 0 <= b <= rho ->
    0 <= rate mu Lam T lam b /\ rate mu Lam T lam b <= (mu ^ 2 / 4 + lam) / (mu ^ 2 + lam) /\ (mu ^ 2 / 4 + lam) / (mu ^ 2 + lam) < 1.
  Proof.
    intros lam b LP [B0 BR]. pose proof mu_pos as MP. pose proof (pow_lt mu 2 MP) as M2. pose proof (sm_Lam _ _ _ _ _ SM) as L0.
    pose proof (sm_small _ _ _ _ _ SM) as SMA. fold (rn pr (rv xs)) in SMA. fold T in SMA. pose proof (rn_pos pr (rv xs)) as T0. fold T in T0.
    assert (LB : 0 <= Lam * b) by (apply Rmult_le_pos; assumption). assert (LT : 0 <= Lam * T) by (apply Rmult_le_pos; assumption).
    assert (LR : Lam * b <= m / 16) by (apply Rle_trans with (Lam * rho); [apply Rmult_le_compat_l; assumption|exact RS]).
    assert (A1 : mu * Lam * b + Lam * T + lam <= mu ^ 2 / 4 + lam).
    { assert (mu * (Lam * b) <= mu * (mu / 8)) by (apply Rmult_le_compat_l; [lra|]; unfold NLSLocal.mu; pose proof (sm_m _ _ _ _ _ SM); lra).
      assert (Lam * T <= mu ^ 2 / 8) by (unfold NLSLocal.mu; pose proof (pow2_ge_0 m); nra). nra. }
    assert (IP : 0 < / (mu ^ 2 + lam)) by (apply Rinv_0_lt_compat; lra).
    assert (A0 : 0 <= mu * Lam * b) by (replace (mu * Lam * b) with (mu * (Lam * b)) by ring; apply Rmult_le_pos; lra).
    unfold rate, Rdiv. splits.
    - apply Rmult_le_pos; lra.
    - apply Rmult_le_compat_r; lra.
    - apply (Rmult_lt_reg_r (mu ^ 2 + lam)); [lra|]. rewrite Rmult_assoc, Rinv_l by lra. lra.
  Qed.
  Lemma rate_step : forall lam h b y, 0 <= lam -> 0 <= h <= b -> b <= rho -> (mu ^ 2 + lam) * y <= (mu * Lam * h + Lam * T + lam) * h -> y <= rate mu Lam T lam b * b.
  Proof.
    intros lam h b y LP [H0 HB] BR H. pose proof mu_pos as MP. pose proof (pow_lt mu 2 MP) as M2. pose proof (sm_Lam _ _ _ _ _ SM) as L0.
    pose proof (rn_pos pr (rv xs)) as T0. fold T in T0. assert (LT : 0 <= Lam * T) by (apply Rmult_le_pos; assumption).
    apply (Rmult_le_reg_l (mu ^ 2 + lam)); [lra|]. unfold rate.
    replace ((mu ^ 2 + lam) * ((mu * Lam * b + Lam * T + lam) / (mu ^ 2 + lam) * b)) with ((mu * Lam * b + Lam * T + lam) * b) by (field; lra).
    eapply Rle_trans; [exact H|].
    assert (X : mu * Lam * h <= mu * Lam * b) by (apply Rmult_le_compat_l; [apply Rmult_le_pos; lra|exact HB]).
    assert (0 <= mu * Lam * h) by (apply Rmult_le_pos; [apply Rmult_le_pos; lra|exact H0]).
    apply Rmult_le_compat; lra.
  Qed.
  Lemma local_bound_ball : forall e k, 0 <= e <= rho -> 0 <= local_bound mu Lam T pa e k <= e.
  Proof.
    intros e k He. induction k as [|k IH]; cbn [local_bound]; [lra|]. set (b := local_bound mu Lam T pa e k) in *.
    destruct (rate_facts (Rmax (damping pa k) 0) b (Rmax_r _ _) ltac:(lra)) as (R0 & R1 & R2).
    split; [apply Rmult_le_pos; lra|]. apply Rle_trans with (1 * b); [apply Rmult_le_compat_r; lra|lra].
  Qed.

  Lemma local_convergence : forall vars cs,
    well_posed pa pr vars -> distance vars xs <= rho -> eq_l1_at pr vars = 0 ->
    exists r, NLS_Solve ldlt qr llt eigs None cb pa pr g vars cs = Ok r /\ local_outcome pa pr xs Lam m rho vars r.
  Proof.
    intros vars cs WP BALL FX. pose proof (wp_params _ _ _ WP) as PV.
    assert (SO : local_ok (MkNS vars (n_lambda_initial pa) (n_equality_penalty_initial pa) NOMINAL)).
    { unfold local_ok; splits; cbn [ns_vars ns_penalty ns_lambda]; auto; [apply (wp_penalty _ _ _ WP)|].
      split; cbn [ns_lambda ns_opt]; [apply (npv_li _ PV)|discriminate]. }
    assert (RET : exists r, NLS_Solve ldlt qr llt eigs None cb pa pr g vars cs = Ok r).
    { unfold NLS_Solve. destruct (C49_params_checked pa) as [[E _]|[_ N]]; [|destruct (N PV)]. rewrite E. cbn [bind]. apply local_loop_returns; assumption. }
    destruct RET as [r H]. exists r. split; [exact H|]. unfold local_outcome. cbv zeta. set (log := out_iterations (res_out r)). set (bound := local_bound mu Lam T pa (distance vars xs)).
    destruct (solve_history _ _ _ _ _ _ _ _ _ _ _ _ H) as (sts & css & exs & A & B & C & D & HLn & HH & TT). fold log in C, HLn, HH, TT.
    pose proof (distance_nonneg vars xs) as D0.
    assert (BB : forall k, 0 <= bound k <= rho) by (intro k; pose proof (local_bound_ball (distance vars xs) k ltac:(lra)); unfold bound; lra).
    assert (G : forall k, (k <= length log)%nat -> local_ok (sts k) /\
      ((k < length log)%nat -> ns_lambda (sts k) = damping pa k) /\
      distance (ns_vars (sts k)) xs <= bound (successes (firstn k log)) /\ ((k < length log)%nat -> successes (firstn k log) = k)).
    { induction k as [|k IH]; intro Hk.
      - rewrite A. splits; auto. cbn [init_state ns_vars firstn successes]. unfold bound. cbn [local_bound]. apply Rle_refl.
      - destruct (nth_error log k) as [info|] eqn:E; [|apply nth_error_None in E; lia].
        destruct (IH ltac:(lia)) as (I1 & I2 & I3 & I4). specialize (I2 ltac:(lia)). specialize (I4 ltac:(lia)).
        destruct (HH k info E) as (HI & _ & HX). change (0 + k)%nat with k in HI.
        pose proof (local_state_step _ _ _ _ _ I1 HI) as SO'.
        pose proof HI as HS. apply iterate_spec in HS. destruct HS as [_ HS].
        destruct I1 as (WPk & _ & _ & NOk & Bk).
        destruct (local_iteration _ _ _ _ _ WPk NOk Bk HS) as (_ & _ & _ & CFk & R).
        rewrite (firstn_snoc _ _ _ _ E), successes_app, I4. cbn [successes]. rewrite I4 in I3.
        destruct R as [(SR & _ & _ & LA & CON & _)|(SR & EV & _ & EE & _)]; rewrite SR.
        + replace (k + (1 + 0))%nat with (Datatypes.S k) by lia. splits; auto.
          * intros _. rewrite LA, I2. reflexivity.
          * rewrite I2 in CON. unfold bound. cbn [local_bound]. fold (bound k).
            apply (rate_step _ (distance (ns_vars (sts k)) xs)); [apply Rmax_r|split; [apply distance_nonneg|exact I3]|apply BB|exact CON].
        + assert (Q : Datatypes.S k = length log).
          { destruct (Nat.lt_ge_cases (Datatypes.S k) (length log)) as [X|X]; [|lia]. destruct (HX X) as [Y _]. congruence. }
          rewrite EV. replace (k + (0 + 0))%nat with k by lia. splits; auto; intros; lia. }
    assert (IT : forall k info, nth_error log k = Some info -> (k < length log)%nat /\ local_ok (sts k) /\ ns_lambda (sts k) = damping pa k /\ successes (firstn k log) = k /\
       iteration_spec (g k) (sts k) info (exs k) (sts (Datatypes.S k))).
    { intros k info Hn. assert (LT : (k < length log)%nat) by (apply nth_error_Some; congruence).
      destruct (G k ltac:(lia)) as (I1 & I2 & _ & I4). destruct (HH k info Hn) as (HI & _). apply iterate_spec in HI. destruct HI as [_ HI]. splits; auto. }
    assert (CO : forall k, (k < length log)%nat -> cost_at pr (ns_vars (sts k)) <= cost_at pr vars * (1 - n_relative_exit_tol pa) ^ k).
    { induction k as [|k IH]; intro Hk; [rewrite A; cbn [init_state ns_vars pow]; lra|].
      destruct (nth_error log k) as [info|] eqn:E; [|apply nth_error_None in E; lia]. specialize (IH ltac:(lia)).
      destruct (IT _ _ E) as (_ & (WPk & _ & _ & NOk & Bk) & _ & _ & HS). destruct (HH _ _ E) as (_ & _ & X). destruct (X Hk) as [EN _].
      destruct (local_iteration _ _ _ _ _ WPk NOk Bk HS) as (_ & _ & _ & _ & R).
      destruct R as [(_ & _ & _ & _ & _ & _ & _ & Y & _)|(_ & _ & _ & EE & _)]; [|congruence]. specialize (Y EN).
      pose proof (npv_rel _ PV) as [P0 P1]. eapply Rle_trans; [exact Y|]. cbn [pow].
      apply Rle_trans with (cost_at pr vars * (1 - n_relative_exit_tol pa) ^ k * (1 - n_relative_exit_tol pa)); [apply Rmult_le_compat_r; lra|right; ring]. }
    assert (NEV : forall N, (1 <= N)%nat ->
       (cost_at pr vars * (1 - n_relative_exit_tol pa) ^ N < n_absolute_exit_tol pa \/
        exists M, 0 <= M /\ (forall x, length x = length xs -> distance x xs <= rho -> cost_at pr x <= / 2 * (M * distance x xs) ^ 2) /\
                  / 2 * (M * bound N) ^ 2 < n_absolute_exit_tol pa) ->
      forall info, nth_error log (N - 1) = Some info -> exs (N - 1)%nat <> None).
    { intros N HN HB info Hn EN. destruct (IT _ _ Hn) as (LT & (WPk & _ & _ & NOk & Bk) & _ & SF & HS).
      destruct (local_iteration _ _ _ _ _ WPk NOk Bk HS) as ([LN _] & _ & _ & CFk & R).
      destruct R as [(SR & _ & _ & _ & _ & _ & AB & DEC & _)|(_ & _ & _ & EE & _)]; [|congruence]. specialize (DEC EN).
      enough (X : cost_at pr (ns_vars (sts (Datatypes.S (N - 1)))) < n_absolute_exit_tol pa) by (specialize (AB X); congruence).
      destruct HB as [HB|(M & M0 & GR & HB)].
      - eapply Rle_lt_trans; [exact DEC|]. eapply Rle_lt_trans; [|exact HB]. pose proof (npv_rel _ PV) as [P0 P1].
        replace N with (Datatypes.S (N - 1)) at 2 by lia. cbn [pow].
        apply Rle_trans with (cost_at pr vars * (1 - n_relative_exit_tol pa) ^ (N - 1) * (1 - n_relative_exit_tol pa)); [apply Rmult_le_compat_r; [lra|apply CO; exact LT]|right; ring].
      - destruct (G (Datatypes.S (N - 1)) ltac:(lia)) as ((_ & _ & _ & _ & B1 & _) & _ & B2 & _).
        rewrite (firstn_snoc _ _ _ _ Hn), successes_app, SF in B2. cbn [successes] in B2. rewrite SR in B2. replace (N - 1 + (1 + 0))%nat with N in B2 by lia.
        pose proof (sm_length _ _ _ _ _ SM) as LS. fold (pdim pr) in LS.
        eapply Rle_lt_trans; [apply GR; [congruence|exact B1]|]. eapply Rle_lt_trans; [|exact HB]. apply Rmult_le_compat_l; [lra|]. apply pow_incr.
        split; [apply Rmult_le_pos; [exact M0|apply distance_nonneg]|]. apply Rmult_le_compat_l; assumption. }
    splits.
    - intros k info Hn. destruct (IT _ _ Hn) as (LT & (WPk & _ & _ & NOk & Bk) & LAk & _ & HS).
      destruct (local_iteration _ _ _ _ _ WPk NOk Bk HS) as (_ & _ & IL & _ & R). split; [congruence|].
      destruct R as [(SR & X & _)|(SR & EV & _ & EE & _)]; [left; auto|right]. split; [exact SR|].
      destruct (Nat.lt_ge_cases (Datatypes.S k) (length log)) as [X|X]; [|lia]. destruct (HH k info Hn) as (_ & _ & Y). destruct (Y X) as [Z _]. congruence.
    - intros info Hin. apply In_nth_error in Hin. destruct Hin as [k Hn]. destruct (IT _ _ Hn) as (LT & (WPk & _ & _ & NOk & _ & Fk) & _ & _ & HS).
      destruct (iteration_exact _ _ _ _ _ _ _ _ _ _ _ _ NI DI (xs_factorizations _ _ _ _ XS) HS) as (qp & dx & cand & HL & _).
      pose proof (C25_linearisation_errors _ _ _ _ _ VC HL) as CE. rewrite (eval_errors_R _ _ (wp_idx pr pa _ _ WPk eq_refl)) in CE. apply Ok_inj in CE.
      rewrite <- CE. exact Fk.
    - destruct (G (length log) ltac:(lia)) as ((_ & _ & _ & _ & _ & X) & _). rewrite C in X. exact X.
    - destruct (G (length log) ltac:(lia)) as (_ & _ & X & _). rewrite C, firstn_all in X. exact X.
    - pose proof (C35_termination_states _ _ _ _ _ _ _ _ _ _ _ _ H) as T35. cbv zeta in T35. destruct T35 as (_ & _ & _ & T35). unfold satisfied.
      destruct (out_termination_state (res_out r)); auto; exfalso.
      + destruct TT as (j & info & _ & Hn & EX'). destruct (IT _ _ Hn) as (LT & (WPk & _ & _ & NOk & Bk) & _ & _ & HS).
        destruct (local_iteration _ _ _ _ _ WPk NOk Bk HS) as (_ & _ & _ & CFk & R).
        destruct R as [(SR & _ & [X|[X|X]] & _)|(SR & EV & _ & EE & _)]; congruence.
      + destruct TT as (_ & _ & X). destruct (X eq_refl) as [_ IND].
        destruct (local_iterate_returns (length log) (sts (length log)) (proj1 (G (length log) ltac:(lia)))) as (? & ? & ? & RT).
        change (0 + length log)%nat with (length log) in IND. unfold iterate in IND. rewrite IND in RT. discriminate.
    - intro E. rewrite E in TT. destruct TT as (X & Y & _). specialize (Y eq_refl). rewrite <- Y.
      destruct (length log) as [|j] eqn:EL.
      + destruct log; [reflexivity|discriminate].
      + destruct (nth_error log j) as [info|] eqn:En; [|apply nth_error_None in En; lia].
        destruct (IT _ _ En) as (LT & (WPk & _ & _ & NOk & Bk) & _ & SF & HS).
        destruct (local_iteration _ _ _ _ _ WPk NOk Bk HS) as (_ & _ & _ & CFk & R).
        pose proof (firstn_snoc _ _ _ _ En) as FS'. rewrite <- EL, firstn_all in FS'. rewrite FS', successes_app, SF. cbn [successes].
        destruct R as [(SR & _)|(SR & EV & _ & EE & _)]; [rewrite SR; lia|exfalso].
        destruct (X _ _ En) as [Z _]. congruence.
    - intro E. rewrite E in TT. destruct TT as (j & info & Lj & Hn & EX'). destruct (IT _ _ Hn) as (LT & (WPk & _ & _ & NOk & Bk) & LAk & SF & HS).
      destruct (local_iteration _ _ _ _ _ WPk NOk Bk HS) as (_ & _ & _ & CFk & R).
      destruct R as [(SR & _ & [X|[X|X]] & _)|(SR & EV & _ & EE & FO)]; try congruence.
      pose proof (firstn_snoc _ _ _ _ Hn) as FS'. rewrite <- Lj, firstn_all in FS'. rewrite FS', successes_app, SF. cbn [successes]. rewrite SR.
      replace (j + (0 + 0))%nat with j by lia. rewrite <- C, Lj, EV, <- LAk in *. exact FO.
    - intro E. rewrite E in TT. destruct TT as (j & info & Lj & Hn & EX'). exists j, info. split; [exact Lj|]. split; [exact Hn|].
      destruct (IT _ _ Hn) as (LT & (WPk & _ & _ & NOk & Bk) & LAk & SF & HS).
      destruct (local_iteration _ _ _ _ _ WPk NOk Bk HS) as (_ & _ & _ & CFk & R). cbv zeta. rewrite CFk.
      destruct R as [(SR & _ & _ & _ & _ & LE & _ & _ & RE)|(SR & EV & _ & EE & FO)]; [|congruence]. rewrite LAk in RE. rewrite <- C, Lj.
      eapply Rle_trans; [|exact (RE EX')]. pose proof mu_pos as MP. pose proof (pow_lt mu 2 MP) as M2. apply pow_incr.
      pose proof (distance_nonneg (ns_vars (sts (Datatypes.S j))) xs).
      split; [apply Rmult_le_pos; lra|]. apply Rmult_le_compat_l; lra.
    - intros k info Hn. destruct (IT _ _ Hn) as (LT & (WPk & _ & _ & NOk & Bk) & _ & _ & HS).
      destruct (local_iteration _ _ _ _ _ WPk NOk Bk HS) as (_ & _ & _ & CFk & _). rewrite CFk. apply CO. exact LT.
    - intros N HN HB. split.
      { destruct (Nat.le_gt_cases (length log) N) as [L|L]; [exact L|exfalso].
        destruct (nth_error log (N - 1)) as [info|] eqn:E; [|apply nth_error_None in E; lia].
        destruct (HH _ _ E) as (_ & _ & X). destruct (X ltac:(lia)) as [Y _]. apply (NEV N HN HB info E Y). }
      intros MX E. rewrite E in TT. destruct TT as (X & Y & _). specialize (Y eq_refl).
      destruct (nth_error log (N - 1)) as [info|] eqn:En; [|apply nth_error_None in En; lia].
      destruct (X _ _ En) as [Z _]. apply (NEV N HN HB info En Z).
  Qed.
End Local.

(** ** Rates *)

(** With the parameters of the solver, lambda never rises above its first value while steps succeed. *)
Lemma damping_le : forall pa k, nls_params_valid pa -> Rmax (damping pa k) 0 <= Rmax (n_lambda_initial pa) 0.
Proof.
  intros pa k PV. destruct (npv_ds _ PV) as [D0 D1]. destruct (npv_li _ PV) as [L0 _].
  induction k as [|k IH]; cbn [damping]; [apply Rle_refl|].
  apply Rmax_lub; [|apply Rmax_r]. apply Rmax_lub.
  - destruct (Rle_dec 0 (damping pa k)) as [P|N].
    + eapply Rle_trans; [|exact IH]. eapply Rle_trans; [|apply Rmax_l]. nra.
    + pose proof (Rmax_r (n_lambda_initial pa) 0). nra.
  - eapply Rle_trans; [exact L0|apply Rmax_l].
Qed.

(** Factor by which the error falls in every iteration: below 1, and 1/4 without damping. *)
Definition linear_factor (m lam : R) : R := (mu m ^ 2 / 4 + lam) / (mu m ^ 2 + lam).

Lemma local_bound_linear : forall (pa : NLSParams R) (pr : Problem R) xs rho0 Lam m rho e,
  small_residual_minimiser pr xs rho0 Lam m -> Lam * rho <= m / 16 -> nls_params_valid pa -> 0 <= e <= rho ->
  forall k, local_bound (mu m) Lam (rnorm pr xs) pa e k <= linear_factor m (Rmax (n_lambda_initial pa) 0) ^ k * e.
Proof.
  intros pa pr xs rho0 Lam m rho e SM RS PV [E0 E1].
  assert (MP : 0 < mu m) by (unfold mu; pose proof (sm_m _ _ _ _ _ SM); lra). pose proof (pow_lt _ 2 MP) as M2.
  set (l0 := Rmax (n_lambda_initial pa) 0). assert (L0 : 0 <= l0) by apply Rmax_r. set (q := linear_factor m l0).
  induction k as [|k IH]; [cbn [local_bound pow]; lra|]. cbn [local_bound pow].
  pose proof (local_bound_ball pa pr xs rho0 Lam m rho SM RS e k ltac:(lra)) as B0. set (b := local_bound _ _ _ _ _ k) in *.
  destruct (rate_facts pr xs rho0 Lam m rho SM RS (Rmax (damping pa k) 0) b (Rmax_r _ _) ltac:(lra)) as (R0 & R1 & _).
  assert (RQ : rate (mu m) Lam (rnorm pr xs) (Rmax (damping pa k) 0) b <= q).
  { eapply Rle_trans; [exact R1|]. unfold q, linear_factor. pose proof (damping_le pa k PV) as DL. fold l0 in DL. set (l := Rmax (damping pa k) 0) in *.
    assert (LP : 0 <= l) by apply Rmax_r. set (a := mu m ^ 2) in *.
    apply (Rmult_le_reg_r ((a + l) * (a + l0))); [apply Rmult_lt_0_compat; lra|].
    replace ((a / 4 + l) / (a + l) * ((a + l) * (a + l0))) with ((a / 4 + l) * (a + l0)) by (field; lra).
    replace ((a / 4 + l0) / (a + l0) * ((a + l) * (a + l0))) with ((a / 4 + l0) * (a + l)) by (field; lra). nra. }
  rewrite Rmult_assoc. apply Rmult_le_compat; lra.
Qed.

(** C93: affine equality constraints, from a start that satisfies them. *)
Theorem C93_affine_constraints : forall (ldlt : mat R -> option (mat R)) qr llt eigs (S : Type) (cb : option (S -> NLSIteration R -> S * bool))
    (pa : NLSParams R) (pr : Problem R) g xs rho0 Lam m rho,
  small_residual_minimiser pr xs rho0 Lam m -> rho <= rho0 -> Lam * rho <= m / 16 ->
  pr_ineq pr = [] -> affine_constraints pr -> distinct_indices pr -> derivatives_correct pr -> value_consistent pr ->
  exact_steps ldlt qr llt pr ->
  forall vars cs, well_posed pa pr vars -> distance vars xs <= rho -> eq_l1_at pr vars = 0 ->
  exists r, NLS_Solve ldlt qr llt eigs None cb pa pr g vars cs = Ok r /\ local_outcome pa pr xs Lam m rho vars r.
Proof.
  intros ldlt qr llt eigs S cb pa pr g xs rho0 Lam m rho SM RR RS NI AF DI DC VC X vars cs WP BALL FX.
  apply (local_convergence ldlt qr llt eigs cb pa pr g xs rho0 Lam m rho); assumption.
Qed.
Theorem C93_linear_rate : forall (ldlt : mat R -> option (mat R)) qr llt eigs (S : Type) (cb : option (S -> NLSIteration R -> S * bool))
    (pa : NLSParams R) (pr : Problem R) g xs rho0 Lam m rho,
  small_residual_minimiser pr xs rho0 Lam m -> rho <= rho0 -> Lam * rho <= m / 16 ->
  pr_ineq pr = [] -> affine_constraints pr -> distinct_indices pr -> derivatives_correct pr -> value_consistent pr ->
  exact_steps ldlt qr llt pr ->
  forall vars cs, well_posed pa pr vars -> distance vars xs <= rho -> eq_l1_at pr vars = 0 ->
  let q := linear_factor m (Rmax (n_lambda_initial pa) 0) in
  0 < q < 1 /\
  exists r, NLS_Solve ldlt qr llt eigs None cb pa pr g vars cs = Ok r /\
    distance (res_vars r) xs <= q ^ successes (out_iterations (res_out r)) * distance vars xs /\
    (out_termination_state (res_out r) = NLS_MAX_ITERATIONS ->
       distance (res_vars r) xs <= q ^ Z.to_nat (n_max_iterations pa) * distance vars xs).
Proof.
  intros ldlt qr llt eigs S cb pa pr g xs rho0 Lam m rho SM RR RS NI AF DI DC VC X vars cs WP BALL FX q.
  pose proof (wp_params _ _ _ WP) as PV. pose proof (distance_nonneg vars xs) as D0.
  assert (MP : 0 < mu m) by (unfold mu; pose proof (sm_m _ _ _ _ _ SM); lra). pose proof (pow_lt _ 2 MP) as M2.
  set (l0 := Rmax (n_lambda_initial pa) 0) in *. assert (L0 : 0 <= l0) by apply Rmax_r.
  assert (Q : 0 < q < 1).
  { unfold q, linear_factor. split; [apply Rdiv_lt_0_compat; lra|]. apply (Rmult_lt_reg_r (mu m ^ 2 + l0)); [lra|]. unfold Rdiv. rewrite Rmult_assoc, Rinv_l by lra. lra. }
  split; [exact Q|].
  destruct (C93_affine_constraints ldlt qr llt eigs S cb pa pr g xs rho0 Lam m rho SM RR RS NI AF DI DC VC X vars cs WP BALL FX) as (r & H & P).
  unfold local_outcome in P. cbv zeta in P. destruct P as (_ & _ & _ & P & _ & MX & _ & _ & _ & _). exists r. split; [exact H|].
  assert (B : forall k, local_bound (mu m) Lam (rnorm pr xs) pa (distance vars xs) k <= q ^ k * distance vars xs).
  { intro k. apply (local_bound_linear pa pr xs rho0 Lam m rho _ SM RS PV (conj D0 BALL)). }
  split; [eapply Rle_trans; [exact P|apply B]|]. intro E. rewrite (MX E) in P. eapply Rle_trans; [exact P|apply B].
Qed.

(** Exact linear algebra exists: affine constraints whose Jacobian has independent rows at one point qualify. *)
Lemma affine_rows : forall pr v lambda errs qp v' lambda' errs' qp' k j, affine_constraints pr -> distinct_indices pr ->
  length v = pdim pr -> length v' = pdim pr ->
  LinearizeAndFillQP v lambda pr = Ok (errs, qp) -> LinearizeAndFillQP v' lambda' pr = Ok (errs', qp') ->
  (k < eq_rows pr)%nat -> (j < pdim pr)%nat -> mget (qA qp) k j = mget (qA qp') k j.
Proof.
  intros pr v lambda errs qp v' lambda' errs' qp' k j AF DI LV LV' HL HL' Hk Hj.
  destruct (C24_linearised_qp _ _ _ _ _ DI HL) as ((_ & _ & CL & _) & _). destruct (C24_linearised_qp _ _ _ _ _ DI HL') as ((_ & _ & CL' & _) & _).
  destruct (qp_rows pr k Hk DI) as (r & i & Hr & Hi & X). set (e := mkvec (pdim pr) (fun a => kd j a)).
  assert (LE : length e = pdim pr) by apply mkvec_length.
  destruct (X v lambda errs qp e HL) as [_ R1]. destruct (X v' lambda' errs' qp' e HL') as [_ R2].
  rewrite (affine_constraints_jac pr r v' v e i AF Hr Hi) in R1 by congruence.
  assert (E : forall q : QP R, nv q = pdim pr -> Rsum (nv q) (fun a => Ae q k a * vget e a) = mget (qA q) k j).
  { intros q NV. rewrite NV. rewrite (Rsum_ext _ _ (fun a => kd j a * Ae q k a)).
    - rewrite Rsum_kd_l by exact Hj. reflexivity.
    - intros a Ha. unfold e. rewrite vget_mkvec by exact Ha. ring. }
  rewrite E in R1, R2 by assumption. congruence.
Qed.
Theorem C93_exact_steps_exist : exists ldlt qr llt, forall (pa : NLSParams R) (pr : Problem R) x lambda errs qp,
  well_posed pa pr x -> distinct_indices pr -> affine_constraints pr -> LinearizeAndFillQP x lambda pr = Ok (errs, qp) ->
  (pr_eq pr <> [] -> (0 < eq_rows pr <= pdim pr)%nat /\ rows_independent (qA qp)) -> exact_steps ldlt qr llt pr.
Proof.
  exists exact_ldlt, exact_qr, exact_llt. intros pa pr x lambda errs qp WP DI AF HL IND.
  assert (NS : null_space_exact exact_qr exact_llt pr) by (intros v l e q _; split; [apply exact_qr_ok|apply exact_llt_ok]).
  constructor.
  - split; [intros _; apply exact_ldlt_ok|intros _; exact NS].
  - intros _. exact exact_ldlt_fails.
  - intro NE. destruct (IND NE) as [RK RI]. split; [exact RK|]. intros v l e q LV HL'.
    apply (proj2 (exact_qr_ok (qA q))). intros y Hy.
    assert (SH : forall v0 l0 e0 q0, length v0 = pdim pr -> LinearizeAndFillQP v0 l0 pr = Ok (e0, q0) -> mrows (qA q0) = eq_rows pr /\ mcols (qA q0) = pdim pr).
    { intros v0 l0 e0 q0 L0 H0. destruct (C24_linearised_qp _ _ _ _ _ DI H0) as ((_ & _ & _ & AC & AR) & _). split; [|exact AC].
      destruct (qp_rows pr 0 ltac:(lia) DI) as (r & i & _ & _ & X). destruct (X v0 l0 e0 q0 [] H0) as [N _]. unfold neq in N. congruence. }
    destruct (SH _ _ _ _ (wp_vars _ _ _ WP) HL) as [MR MC]. destruct (SH _ _ _ _ LV HL') as [MR' MC'].
    rewrite MR' in *. rewrite MC' in Hy. unfold rows_independent in RI. rewrite MR, MC in RI. apply RI. intros j Hj.
    rewrite <- (Hy j Hj). apply Rsum_ext. intros k Hk.
    rewrite (affine_rows pr x lambda errs qp v l e q k j AF DI (wp_vars _ _ _ WP) LV HL HL' Hk Hj). reflexivity.
Qed.

(** C92: no constraints at all. *)
Lemma unconstrained_steps : forall ldlt qr llt (pr : Problem R), pr_eq pr = [] -> ldlt_exact (pdim pr) ldlt -> fails_only_if_singular ldlt ->
  exact_steps ldlt qr llt pr.
Proof. intros ldlt qr llt pr NE EX FS. constructor; [split; [intros _; exact EX|intro X; congruence]|intros _; exact FS|intro X; congruence]. Qed.
Theorem C92_local_convergence : forall (ldlt : mat R -> option (mat R)) qr llt eigs (S : Type) (cb : option (S -> NLSIteration R -> S * bool))
    (pa : NLSParams R) (pr : Problem R) g xs rho0 Lam m rho,
  small_residual_minimiser pr xs rho0 Lam m -> rho <= rho0 -> Lam * rho <= m / 16 ->
  pr_ineq pr = [] -> pr_eq pr = [] -> distinct_indices pr -> derivatives_correct pr -> value_consistent pr ->
  ldlt_exact (pdim pr) ldlt -> fails_only_if_singular ldlt ->
  forall vars cs, well_posed pa pr vars -> distance vars xs <= rho ->
  exists r, NLS_Solve ldlt qr llt eigs None cb pa pr g vars cs = Ok r /\ local_outcome pa pr xs Lam m rho vars r.
Proof.
  intros ldlt qr llt eigs S cb pa pr g xs rho0 Lam m rho SM RR RS NI NE DI DC VC EX FS vars cs WP BALL.
  destruct (no_constraints_affine pr NE) as [AF FX].
  apply (local_convergence ldlt qr llt eigs cb pa pr g xs rho0 Lam m rho); auto using unconstrained_steps.
Qed.
Theorem C92_linear_rate : forall (ldlt : mat R -> option (mat R)) qr llt eigs (S : Type) (cb : option (S -> NLSIteration R -> S * bool))
    (pa : NLSParams R) (pr : Problem R) g xs rho0 Lam m rho,
  small_residual_minimiser pr xs rho0 Lam m -> rho <= rho0 -> Lam * rho <= m / 16 ->
  pr_ineq pr = [] -> pr_eq pr = [] -> distinct_indices pr -> derivatives_correct pr -> value_consistent pr ->
  ldlt_exact (pdim pr) ldlt -> fails_only_if_singular ldlt ->
  forall vars cs, well_posed pa pr vars -> distance vars xs <= rho ->
  let q := linear_factor m (Rmax (n_lambda_initial pa) 0) in
  0 < q < 1 /\
  exists r, NLS_Solve ldlt qr llt eigs None cb pa pr g vars cs = Ok r /\
    distance (res_vars r) xs <= q ^ successes (out_iterations (res_out r)) * distance vars xs /\
    (out_termination_state (res_out r) = NLS_MAX_ITERATIONS ->
       distance (res_vars r) xs <= q ^ Z.to_nat (n_max_iterations pa) * distance vars xs).
Proof.
  intros ldlt qr llt eigs S cb pa pr g xs rho0 Lam m rho SM RR RS NI NE DI DC VC EX FS vars cs WP BALL.
  destruct (no_constraints_affine pr NE) as [AF FX].
  apply (C93_linear_rate ldlt qr llt eigs S cb pa pr g xs rho0 Lam m rho); auto using unconstrained_steps.
Qed.

(** A minimiser where the residuals are zero, with a lambda that may fall to zero: the bounds on successive errors fall faster than
    every geometric sequence. *)
Theorem C92_superlinear : forall (pa : NLSParams R) (pr : Problem R) xs rho0 Lam m rho e,
  small_residual_minimiser pr xs rho0 Lam m -> Lam * rho <= m / 16 -> nls_params_valid pa -> 0 <= e <= rho ->
  cost_at pr xs = 0 -> n_min_lambda pa <= 0 ->
  forall eps, 0 < eps -> exists N, forall k, (N <= k)%nat ->
    let bound := local_bound (mu m) Lam (rnorm pr xs) pa e in
    bound (Datatypes.S k) <= eps * bound k.
Proof.
  intros pa pr xs rho0 Lam m rho e SM RS PV [E0 E1] CZ ML eps EP.
  assert (TZ : rnorm pr xs = 0).
  { unfold rnorm, rn. rewrite cost_rn in CZ. replace (rdot pr (rv xs) (rv xs)) with 0 by lra. apply sqrt_0. }
  assert (MP : 0 < mu m) by (unfold mu; pose proof (sm_m _ _ _ _ _ SM); lra). pose proof (pow_lt _ 2 MP) as M2.
  pose proof (sm_Lam _ _ _ _ _ SM) as LP.
  set (l0 := Rmax (n_lambda_initial pa) 0) in *. assert (L0 : 0 <= l0) by apply Rmax_r. destruct (npv_ds _ PV) as [D0 D1].
  set (d := n_lambda_decrease_on_success pa) in *.
  assert (DK : forall k, Rmax (damping pa k) 0 <= d ^ k * l0).
  { induction k as [|k IH]; [cbn [damping pow]; fold l0; lra|]. cbn [damping pow]. fold d.
    assert (P0 : 0 <= d ^ k * l0) by (apply Rmult_le_pos; [apply pow_le; exact D0|exact L0]).
    assert (P1 : 0 <= d * (d ^ k * l0)) by (apply Rmult_le_pos; assumption). rewrite Rmult_assoc.
    apply Rmax_lub; [|exact P1]. apply Rmax_lub; [|lra]. rewrite Rmult_comm. pose proof (Rmax_l (damping pa k) 0). apply Rmult_le_compat_l; lra. }
  set (q := linear_factor m l0).
  assert (Q : 0 < q < 1).
  { unfold q, linear_factor. split; [apply Rdiv_lt_0_compat; lra|]. apply (Rmult_lt_reg_r (mu m ^ 2 + l0)); [lra|]. unfold Rdiv. rewrite Rmult_assoc, Rinv_l by lra. lra. }
  set (bd := local_bound (mu m) Lam (rnorm pr xs) pa e).
  assert (BB : forall k, 0 <= bd k <= e) by (intro k; apply (local_bound_ball pa pr xs rho0 Lam m rho SM RS e k ltac:(lra))).
  assert (BQ : forall k, bd k <= q ^ k * e).
  { intro k. apply (local_bound_linear pa pr xs rho0 Lam m rho e SM RS PV (conj E0 E1)). }
  (* choose N *)
  set (c := mu m * Lam * e + l0 + 1). assert (CP : 0 < c) by (unfold c; assert (0 <= mu m * Lam * e) by (apply Rmult_le_pos; [apply Rmult_le_pos; lra|lra]); lra).
  assert (TP : 0 < eps * mu m ^ 2 / (2 * c)) by (apply Rdiv_lt_0_compat; [apply Rmult_lt_0_compat|]; lra).
  destruct (pow_lt_1_zero q ltac:(rewrite Rabs_pos_eq; lra) _ TP) as [N1 HN1].
  destruct (pow_lt_1_zero d ltac:(rewrite Rabs_pos_eq; lra) _ TP) as [N2 HN2].
  exists (Nat.max N1 N2). intros k Hk. cbv zeta. fold bd.
  change (bd (Datatypes.S k)) with (rate (mu m) Lam (rnorm pr xs) (Rmax (damping pa k) 0) (bd k) * bd k).
  apply Rmult_le_compat_r; [apply BB|]. unfold rate. rewrite TZ, Rmult_0_r, Rplus_0_r.
  specialize (HN1 k ltac:(lia)). specialize (HN2 k ltac:(lia)).
  rewrite Rabs_pos_eq in HN1 by (apply pow_le; lra). rewrite Rabs_pos_eq in HN2 by (apply pow_le; lra).
  set (t := eps * mu m ^ 2 / (2 * c)) in *. set (l := Rmax (damping pa k) 0). assert (LPP : 0 <= l) by apply Rmax_r.
  assert (X1 : mu m * Lam * bd k <= mu m * Lam * e * t).
  { rewrite !Rmult_assoc. apply Rmult_le_compat_l; [lra|]. apply Rmult_le_compat_l; [exact LP|]. eapply Rle_trans; [apply BQ|]. rewrite Rmult_comm. apply Rmult_le_compat_l; lra. }
  assert (X2 : l <= l0 * t) by (eapply Rle_trans; [apply DK|]; rewrite Rmult_comm; apply Rmult_le_compat_l; lra).
  assert (X3 : mu m * Lam * bd k + l <= eps * mu m ^ 2 / 2).
  { apply Rle_trans with (c * t); [unfold c; lra|]. right. unfold t. field. lra. }
  apply (Rmult_le_reg_r (mu m ^ 2 + l)); [lra|]. unfold Rdiv. rewrite Rmult_assoc, Rinv_l by lra.
  assert (0 <= eps * l) by (apply Rmult_le_pos; lra). assert (0 < eps * mu m ^ 2) by (apply Rmult_lt_0_compat; lra). lra.
Qed.

(** A zero where the Jacobian is injective is a minimiser with small residual. *)
Lemma regular_zero_small : forall pa pr xs rho0 L, well_posed pa pr xs -> pr_ineq pr = [] -> distinct_indices pr ->
  regular_zero pr xs -> eq_l1_at pr xs = 0 -> 0 < rho0 -> 0 <= L -> jacobian_lipschitz pr xs rho0 L ->
  exists Lam m, small_residual_minimiser pr xs rho0 Lam m.
Proof.
  intros pa pr xs rho0 L WP NI DI RZ FX R0 L0 JL.
  assert (LS : length xs = pdim pr) by apply (wp_vars _ _ _ WP).
  destruct (curvature_at_zero pr xs LS (wp_dim _ _ _ WP) (wp_index _ _ _ WP) NI DI RZ) as (m0 & M0 & CU).
  pose proof (res_total_nonneg pr) as TP. set (T := res_total pr) in *.
  assert (ZR : forall h, rdot pr (rv xs) h = 0).
  { intro h. unfold rdot. apply Rlsum_zero. intros r Hr. apply Rsum_0. intros k Hk. unfold rv. rewrite (zero_residuals pr xs RZ r k Hr Hk). ring. }
  exists ((T + 1) * L), (sqrt m0). constructor.
  - exact LS.
  - apply sqrt_lt_R0. exact M0.
  - apply Rmult_le_pos; lra.
  - exact R0.
  - exact FX.
  - intros u LU _. apply ZR.
  - intros u LU _. replace (sqrt m0 ^ 2) with (sqrt m0 * sqrt m0) by ring. rewrite sqrt_sqrt by lra.
    eapply Rle_trans; [apply CU|]. rewrite curvature_jac. right. unfold rdot. f_equal. apply map_ext. intro r. apply Rsum_ext. intros k Hk. unfold jv. ring.
  - intros x y u LX LY LU DX DY. cbv zeta. unfold rdot.
    rewrite (map_ext _ (fun r => Rsum (res_dim r) (fun k => (jv x u r k - jv y u r k) ^ 2))) by (intro r; apply Rsum_ext; intros; ring).
    eapply Rle_trans; [apply (squares_le pr (fun r k => jv x u r k - jv y u r k) (L * distance x y * sqrt (Rsum (length xs) (fun i => vget u i ^ 2))))|].
    { intros r k Hr Hk. apply (JL r Hr x y u k LX LY LU DX DY Hk). }
    fold T. rewrite !Rpow_mult_distr.
    replace (sqrt (Rsum (length xs) (fun i => vget u i ^ 2)) ^ 2) with (Rsum (length xs) (fun i => vget u i ^ 2)).
    2: { rewrite <- Rsqr_pow2. symmetry. apply Rsqr_sqrt, Rsum_nonneg. intros. apply pow2_ge_0. }
    assert (T2 : T <= (T + 1) ^ 2) by nra.
    assert (P : 0 <= L ^ 2 * distance x y ^ 2 * Rsum (length xs) (fun i => vget u i ^ 2)).
    { apply Rmult_le_pos; [apply Rmult_le_pos; apply pow2_ge_0|apply Rsum_nonneg; intros; apply pow2_ge_0]. }
    apply Rle_trans with (T * (L ^ 2 * distance x y ^ 2 * Rsum (length xs) (fun i => vget u i ^ 2))); [right; ring|].
    apply Rle_trans with ((T + 1) ^ 2 * (L ^ 2 * distance x y ^ 2 * Rsum (length xs) (fun i => vget u i ^ 2))); [apply Rmult_le_compat_r; assumption|right; ring].
  - rewrite ZR, sqrt_0, Rmult_0_r. pose proof (pow2_ge_0 (sqrt m0)). lra.
Qed.

(** Every regular zero of smooth residuals has a ball from which Solve converges to it, whatever the damping parameters: in at most N
    iterations, the error falling at least by the factor q in each. *)
Theorem C92_regular_zero_damped : forall (pa : NLSParams R) (pr : Problem R) (xs : list R) (rho0 L : R),
  well_posed pa pr xs -> pr_ineq pr = [] -> pr_eq pr = [] -> distinct_indices pr ->
  derivatives_correct pr -> value_consistent pr ->
  regular_zero pr xs -> 0 < rho0 -> 0 <= L -> jacobian_lipschitz pr xs rho0 L ->
  exists rho q N, 0 < rho /\ 0 < q < 1 /\
    forall ldlt qr llt eigs (S : Type) (cb : option (S -> NLSIteration R -> S * bool)) g vars cs,
    ldlt_exact (pdim pr) ldlt -> fails_only_if_singular ldlt ->
    length vars = length xs -> distance vars xs <= rho ->
    exists r, NLS_Solve ldlt qr llt eigs None cb pa pr g vars cs = Ok r /\
    let log := out_iterations (res_out r) in
    (forall k info, nth_error log k = Some info -> it_lambda info = damping pa k /\
       (it_step_result info = SS_SUCCESS /\ (exists e, it_line_search_steps info = [MkStep 1 e]) \/
        it_step_result info = FIRST_ORDER_SATISFIED /\ Datatypes.S k = length log)) /\
    distance (res_vars r) xs <= q ^ successes log * distance vars xs /\
    (length log <= N)%nat /\
    ((Z.of_nat N <= n_max_iterations pa)%Z ->
       satisfied (out_termination_state (res_out r)) \/ out_termination_state (res_out r) = USER_CALLBACK).
Proof.
  intros pa pr xs rho0 L WP NI NE DI DC VC RZ R0 L0 JL. pose proof (wp_params _ _ _ WP) as PV.
  destruct (regular_zero_small pa pr xs rho0 L WP NI DI RZ (proj2 (no_constraints_affine pr NE) xs) R0 L0 JL) as (Lam & m & SM).
  destruct (basin_exists pr xs rho0 L (wp_vars _ _ _ WP) (wp_dim _ _ _ WP) (wp_index _ _ _ WP) NI DI DC VC RZ JL R0 L0)
    as (rho1 & kappa & m1 & M & RP & _ & QB).
  pose proof (qb_M _ _ _ _ _ _ QB) as BP. pose proof (sm_m _ _ _ _ _ SM) as MP. pose proof (sm_Lam _ _ _ _ _ SM) as LP.
  set (rho := Rmin (Rmin rho0 rho1) (m / 16 / (Lam + 1))).
  assert (RHO : 0 < rho) by (unfold rho; repeat apply Rmin_glb_lt; try assumption; apply Rdiv_lt_0_compat; lra).
  assert (R1 : rho <= rho0 /\ rho <= rho1).
  { pose proof (Rmin_l (Rmin rho0 rho1) (m / 16 / (Lam + 1))) as Q. fold rho in Q. pose proof (Rmin_l rho0 rho1). pose proof (Rmin_r rho0 rho1). lra. }
  assert (R2 : Lam * rho <= m / 16).
  { pose proof (Rmin_r (Rmin rho0 rho1) (m / 16 / (Lam + 1))) as Q. fold rho in Q.
    apply Rle_trans with ((Lam + 1) * (m / 16 / (Lam + 1))); [apply Rmult_le_compat; lra|right; field; lra]. }
  set (q := linear_factor m (Rmax (n_lambda_initial pa) 0)).
  assert (QQ : 0 < q < 1).
  { unfold q, linear_factor. assert (M1 : 0 < mu m) by (unfold mu; lra). pose proof (pow_lt _ 2 M1). pose proof (Rmax_r (n_lambda_initial pa) 0).
    split; [apply Rdiv_lt_0_compat; lra|]. apply (Rmult_lt_reg_r (mu m ^ 2 + Rmax (n_lambda_initial pa) 0)); [lra|]. unfold Rdiv. rewrite Rmult_assoc, Rinv_l by lra. lra. }
  set (c := M ^ 2 * rho ^ 2 + 1). assert (CP : 0 < c) by (unfold c; pose proof (pow2_ge_0 M); pose proof (pow2_ge_0 rho); nra).
  destruct (pow_lt_1_zero q ltac:(rewrite Rabs_pos_eq; lra) (n_absolute_exit_tol pa / c)) as [N HN]; [apply Rdiv_lt_0_compat; [apply (npv_abs _ PV)|exact CP]|].
  exists rho, q, (Datatypes.S N). split; [exact RHO|]. split; [exact QQ|].
  intros ldlt qr llt eigs S cb g vars cs EX FS LV HD.
  assert (WPV : well_posed pa pr vars) by (exact (well_posed_vars pa pr _ _ WP LV)).
  destruct (C92_linear_rate ldlt qr llt eigs S cb pa pr g xs rho0 Lam m rho SM (proj1 R1) R2 NI NE DI DC VC EX FS vars cs WPV HD) as (_ & r & H & D & _).
  destruct (C92_local_convergence ldlt qr llt eigs S cb pa pr g xs rho0 Lam m rho SM (proj1 R1) R2 NI NE DI DC VC EX FS vars cs WPV HD) as (r' & H' & P).
  rewrite H in H'. apply Ok_inj in H'. subst r'. unfold local_outcome in P. cbv zeta in P. destruct P as (P1 & _ & _ & _ & P3 & _ & _ & _ & _ & PN).
  exists r. split; [exact H|]. intro log.
  assert (B : forall k, 0 <= local_bound (mu m) Lam (rnorm pr xs) pa (distance vars xs) k <= q ^ k * rho).
  { intro k. split; [apply (local_bound_ball pa pr xs rho0 Lam m rho SM R2); split; [apply distance_nonneg|exact HD]|].
    eapply Rle_trans; [apply (local_bound_linear pa pr xs rho0 Lam m rho _ SM R2 PV (conj (distance_nonneg vars xs) HD))|].
    apply Rmult_le_compat_l; [apply pow_le; lra|exact HD]. }
  destruct (PN (Datatypes.S N) ltac:(lia)) as [LEN MX].
  { right. exists M. split; [exact BP|]. split.
    - intros x LX DX. apply (qb_growth _ _ _ _ _ _ QB x LX). lra.
    - specialize (HN (Datatypes.S N) ltac:(lia)). rewrite Rabs_pos_eq in HN by (apply pow_le; lra).
      specialize (B (Datatypes.S N)). set (b := local_bound _ _ _ _ _ _) in *. set (t := q ^ Datatypes.S N) in *.
      assert (T0 : 0 <= t <= 1).
      { unfold t. split; [apply pow_le; lra|]. clear - QQ. induction (Datatypes.S N) as [|k IH]; cbn [pow]; [lra|].
        assert (0 <= q ^ k) by (apply pow_le; lra). nra. }
      assert (X : b ^ 2 <= t * rho ^ 2).
      { apply Rle_trans with ((t * rho) ^ 2); [apply pow_incr; exact B|]. replace ((t * rho) ^ 2) with (t * t * rho ^ 2) by ring.
        apply Rmult_le_compat_r; [apply pow2_ge_0|nra]. }
      assert (Y : t * c < n_absolute_exit_tol pa).
      { apply (Rmult_lt_reg_r (/ c)); [apply Rinv_0_lt_compat; exact CP|]. replace (t * c * / c) with t by (field; lra). exact HN. }
      pose proof (pow2_ge_0 M). pose proof (pow2_ge_0 rho). pose proof (pow2_ge_0 b).
      assert (Z1 : M ^ 2 * b ^ 2 <= M ^ 2 * (t * rho ^ 2)) by (apply Rmult_le_compat_l; assumption).
      replace ((M * b) ^ 2) with (M ^ 2 * b ^ 2) by ring.
      assert (0 <= M ^ 2 * b ^ 2) by (apply Rmult_le_pos; assumption). unfold c in Y.
      replace (t * (M ^ 2 * rho ^ 2 + 1)) with (M ^ 2 * (t * rho ^ 2) + t) in Y by ring. lra. }
  splits; auto. intro HM. specialize (MX HM). destruct P3 as [X|[X|X]]; [left; exact X|contradiction|right; exact X].
Qed.

(** C93, and C92 without constraints, for the user: any accuracy is reached. For every eps there are a number of iterations N and a tolerance tol
    such that all valid parameters asking for that much, with lambda_initial at most lmax, put the result within eps of the minimiser, unless the
    absolute tolerance is met at the result or the callback asks to stop. *)
Theorem C93_any_accuracy : forall (ldlt : mat R -> option (mat R)) qr llt eigs (S : Type) (cb : option (S -> NLSIteration R -> S * bool))
    (pr : Problem R) g xs rho0 Lam m rho,
  small_residual_minimiser pr xs rho0 Lam m -> rho <= rho0 -> Lam * rho <= m / 16 ->
  pr_ineq pr = [] -> affine_constraints pr -> distinct_indices pr -> derivatives_correct pr -> value_consistent pr ->
  exact_steps ldlt qr llt pr ->
  forall vars cs eps lmax, distance vars xs <= rho -> eq_l1_at pr vars = 0 -> 0 < eps -> 0 <= lmax ->
  exists N tol, 0 < tol /\
  forall pa, well_posed pa pr vars -> n_lambda_initial pa <= lmax -> (Z.of_nat N <= n_max_iterations pa)%Z ->
    n_absolute_first_derivative_tol pa <= tol -> n_relative_exit_tol pa * cost_at pr vars <= tol ->
  exists r, NLS_Solve ldlt qr llt eigs None cb pa pr g vars cs = Ok r /\
    (distance (res_vars r) xs <= eps \/
     cost_at pr (res_vars r) < n_absolute_exit_tol pa \/
     out_termination_state (res_out r) = USER_CALLBACK).
Proof.
  intros ldlt qr llt eigs S cb pr g xs rho0 Lam m rho SM RR RS NI AF DI DC VC X vars cs eps lmax BALL FX EP LM.
  pose proof (distance_nonneg vars xs) as D0.
  assert (MP : 0 < mu m) by (unfold mu; pose proof (sm_m _ _ _ _ _ SM); lra). pose proof (pow_lt _ 2 MP) as M2.
  set (q := linear_factor m lmax).
  assert (Q : 0 < q < 1).
  { unfold q, linear_factor. split; [apply Rdiv_lt_0_compat; lra|]. apply (Rmult_lt_reg_r (mu m ^ 2 + lmax)); [lra|]. unfold Rdiv. rewrite Rmult_assoc, Rinv_l by lra. lra. }
  assert (YP : 0 < eps / (distance vars xs + 1)) by (apply Rdiv_lt_0_compat; lra).
  destruct (pow_lt_1_zero q ltac:(rewrite Rabs_pos_eq; lra) _ YP) as [N HN].
  set (K := 3 / 4 * mu m ^ 2). assert (KP : 0 < K) by (unfold K; lra).
  set (tol := (K * eps) ^ 2 / (4 * (mu m ^ 2 + lmax))).
  assert (KE : 0 < (K * eps) ^ 2) by (apply pow_lt, Rmult_lt_0_compat; lra).
  assert (TP : 0 < tol) by (apply Rdiv_lt_0_compat; lra).
  assert (TE : 4 * (mu m ^ 2 + lmax) * tol = (K * eps) ^ 2) by (unfold tol; field; lra).
  exists N, tol. split; [exact TP|]. intros pa WP LI MI FD RT. pose proof (wp_params _ _ _ WP) as PV.
  destruct (C93_affine_constraints ldlt qr llt eigs S cb pa pr g xs rho0 Lam m rho SM RR RS NI AF DI DC VC X vars cs WP BALL FX) as (r & H & P).
  unfold local_outcome in P. cbv zeta in P. destruct P as (_ & _ & _ & PB & PT & MX & PF & PR & PC & _). exists r. split; [exact H|].
  assert (DL : forall k, 0 <= Rmax (damping pa k) 0 <= lmax).
  { intro k. split; [apply Rmax_r|]. eapply Rle_trans; [apply damping_le; exact PV|]. apply Rmax_lub; assumption. }
  assert (CLOSE : forall l t, 0 <= l <= lmax -> t <= tol -> (K * distance (res_vars r) xs) ^ 2 <= 4 * (mu m ^ 2 + l) * t -> distance (res_vars r) xs <= eps).
  { intros l t [L0 L1] T1 E. pose proof (distance_nonneg (res_vars r) xs) as DR.
    destruct (Rle_lt_dec (distance (res_vars r) xs) eps) as [|G]; [assumption|exfalso].
    assert (K * eps < K * distance (res_vars r) xs) by (apply Rmult_lt_compat_l; assumption).
    assert ((K * eps) * (K * eps) < (K * distance (res_vars r) xs) * (K * distance (res_vars r) xs)) by (apply Rmult_le_0_lt_compat; try assumption; apply Rmult_le_pos; lra).
    assert ((mu m ^ 2 + l) * t <= (mu m ^ 2 + l) * tol) by (apply Rmult_le_compat_l; lra).
    assert ((mu m ^ 2 + l) * tol <= (mu m ^ 2 + lmax) * tol) by (apply Rmult_le_compat_r; lra).
    cbn [pow] in E, TE. nra. }
  destruct PT as [[T|[T|T]]|[T|T]]; [| | | |right; right; exact T].
  - right; left. destruct (proj1 (C35_tolerance_holds_at_result ldlt qr llt eigs None cb pa pr g vars cs r H) T) as (e & E & B).
    match type of B with fltb ?a ?b = true => destruct (R_fltb a b) as [C|]; [|discriminate B] end.
    rewrite R_fmax in C. pose proof (Rmax_l (err_f e) (err_equality e)) as CE.
    destruct (solve_history _ _ _ _ _ _ _ _ _ _ _ _ H) as (sts & css & exs & A0 & _ & AV & _ & HY).
    pose proof (vars_length ldlt qr llt eigs None cb pr g pa vars r sts css exs (npv_ls _ PV) ltac:(intros f Hf; discriminate Hf) A0 HY _ (le_n _)) as VL.
    rewrite AV in VL. rewrite (eval_errors_R pr _ (wp_idx pr pa vars (res_vars r) WP VL)) in E. apply Ok_inj in E. subst e. cbn [err_f] in CE, C. lra.
  - left. destruct (PR T) as (j & info & _ & Hn & B). fold K in B. apply (CLOSE _ _ (DL j)) with (2 := B).
    eapply Rle_trans; [|exact RT]. apply Rmult_le_compat_l; [apply (npv_rel _ PV)|]. eapply Rle_trans; [apply (PC j info Hn)|].
    rewrite <- (Rmult_1_r (cost_at pr vars)) at 2. apply Rmult_le_compat_l; [apply cost_at_nonneg|].
    apply Rle_trans with (1 ^ j); [apply pow_incr; pose proof (npv_rel _ PV); lra|rewrite pow1; apply Rle_refl].
  - left. specialize (PF T). fold K in PF. apply (CLOSE _ (n_absolute_first_derivative_tol pa) (DL (successes (out_iterations (res_out r)))) FD).
    eapply Rle_trans; [exact PF|]. pose proof (DL (successes (out_iterations (res_out r)))). pose proof (npv_fd _ PV).
    assert (0 <= (mu m ^ 2 + Rmax (damping pa (successes (out_iterations (res_out r)))) 0) * n_absolute_first_derivative_tol pa) by (apply Rmult_le_pos; lra). lra.
  - left. rewrite (MX T) in PB. eapply Rle_trans; [exact PB|]. eapply Rle_trans; [apply (local_bound_linear pa pr xs rho0 Lam m rho _ SM RS PV (conj D0 BALL))|].
    set (M := Z.to_nat (n_max_iterations pa)). set (l := Rmax (n_lambda_initial pa) 0).
    assert (L0 : 0 <= l <= lmax) by (split; [apply Rmax_r|apply Rmax_lub; assumption]).
    assert (QL : 0 <= linear_factor m l <= q).
    { unfold q, linear_factor. set (a := mu m ^ 2) in *. split; [apply Rlt_le, Rdiv_lt_0_compat; lra|].
      apply (Rmult_le_reg_r ((a + l) * (a + lmax))); [apply Rmult_lt_0_compat; lra|].
      replace ((a / 4 + l) / (a + l) * ((a + l) * (a + lmax))) with ((a / 4 + l) * (a + lmax)) by (field; lra).
      replace ((a / 4 + lmax) / (a + lmax) * ((a + l) * (a + lmax))) with ((a / 4 + lmax) * (a + l)) by (field; lra). nra. }
    assert (QM : linear_factor m l ^ M <= q ^ M) by (apply pow_incr; exact QL).
    specialize (HN M ltac:(unfold M; lia)). rewrite Rabs_pos_eq in HN by (apply pow_le; lra).
    assert (B1 : linear_factor m l ^ M * distance vars xs <= eps / (distance vars xs + 1) * distance vars xs) by (apply Rmult_le_compat_r; lra).
    assert (B2 : eps / (distance vars xs + 1) * distance vars xs <= eps / (distance vars xs + 1) * (distance vars xs + 1)) by (apply Rmult_le_compat_l; lra).
    replace (eps / (distance vars xs + 1) * (distance vars xs + 1)) with eps in B2 by (field; lra). lra.
Qed.
