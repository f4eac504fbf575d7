(** C91, continued: every regular zero of smooth residuals has a ball of quadratic convergence. *)
From Coq Require Import String List Bool Arith ZArith QArith Reals Lra Lia.
From Verif Require Import Scalar Outcome LinAlg Structs Constraint QPModel NullSpace Residual Nonlinear RInst NSProps
  Spec QPBlocks QPAlgebra QPNewton QPStep ResProps LinProps QPReuse LSProps LSPoly NLSTrace NLSProps NLSReal NLSTotal MeritProps Penalty
  QPSolve QPRegular Optimality NLSRate Factorisations NLSRegular NLSQuadratic.
Import ListNotations.
Local Open Scope outcome_scope.
Local Open Scope string_scope.
Local Open Scope list_scope.
Local Open Scope R_scope.

(** ** Specification *)

(** Around xs, the derivative of every residual is Lipschitz continuous:
    |(J(x) - J(y)) u| <= L |x - y| |u| in every component. *)
Definition jacobian_lipschitz (pr : Problem R) (xs : list R) (rho L : R) : Prop :=
  forall r, In r (pr_costs pr) -> forall x y u k,
  length x = length xs -> length y = length xs -> length u = length xs ->
  distance x xs <= rho -> distance y xs <= rho -> (k < res_dim r)%nat ->
  Rabs (jac_dx r x u k - jac_dx r y u k) <= L * distance x y * sqrt (Rsum (length xs) (fun i => vget u i ^ 2)).

(** xs is a zero of all residuals where no direction leaves all of them unchanged to first order. *)
Definition regular_zero (pr : Problem R) (xs : list R) : Prop :=
  cost_at pr xs = 0 /\
  forall u, length u = length xs -> (forall r k, In r (pr_costs pr) -> (k < res_dim r)%nat -> jac_dx r xs u k = 0) ->
    forall i, (i < length xs)%nat -> vget u i = 0.

(** ** Sums *)
Lemma Rlsum_map_le : forall A (f h : A -> R) l, (forall a, In a l -> f a <= h a) -> Rlsum (map f l) <= Rlsum (map h l).
Proof.
  intros A f h l. induction l as [|a l IH]; intro H; cbn [map Rlsum]; [lra|].
  pose proof (H a (or_introl eq_refl)). specialize (IH (fun b Hb => H b (or_intror Hb))). lra.
Qed.
Lemma Rlsum_map_scal : forall A (f : A -> R) c l, Rlsum (map (fun a => c * f a) l) = c * Rlsum (map f l).
Proof. intros A f c l. induction l as [|a l IH]; cbn [map Rlsum]; [ring|]. rewrite IH. ring. Qed.
Lemma Rlsum_map_plus : forall A (f h : A -> R) l, Rlsum (map (fun a => f a + h a) l) = Rlsum (map f l) + Rlsum (map h l).
Proof. intros A f h l. induction l as [|a l IH]; cbn [map Rlsum]; [ring|]. rewrite IH. ring. Qed.
Lemma Rlsum_map_zero : forall A (f : A -> R) l, (forall a, In a l -> 0 <= f a) -> Rlsum (map f l) = 0 -> forall a, In a l -> f a = 0.
Proof.
  intros A f l. induction l as [|b l IH]; intros H E a; [intros []|]. cbn [map Rlsum] in E.
  assert (0 <= Rlsum (map f l)).
  { clear - H. assert (G : forall c, In c l -> 0 <= f c) by (intros; apply H; right; assumption). clear H.
    induction l as [|c l IH]; cbn [map Rlsum]; [lra|]. pose proof (G c (or_introl eq_refl)). specialize (IH (fun d Hd => G d (or_intror Hd))). lra. }
  pose proof (H b (or_introl eq_refl)). intros [<-|Ha]; [lra|]. apply IH; auto; [intros; apply H; right; assumption|lra].
Qed.

(** Number of residual components. *)
Definition res_total (pr : Problem R) : R := Rlsum (map (fun r => INR (res_dim r)) (pr_costs pr)).
Lemma res_total_nonneg : forall pr, 0 <= res_total pr.
Proof.
  intros. unfold res_total. induction (pr_costs pr) as [|r l IH]; cbn [map Rlsum]; [lra|]. pose proof (pos_INR (res_dim r)). lra.
Qed.
(** A sum over all components is at most their number times a bound. *)
Lemma all_components_le : forall pr (f : residual R -> nat -> R) c, (forall r k, In r (pr_costs pr) -> (k < res_dim r)%nat -> f r k <= c) ->
  Rlsum (map (fun r => Rsum (res_dim r) (f r)) (pr_costs pr)) <= c * res_total pr.
Proof.
  intros pr f c H. unfold res_total. rewrite <- Rlsum_map_scal. apply Rlsum_map_le. intros r Hr.
  eapply Rle_trans; [apply Rsum_le; intros k Hk; apply (H r k Hr Hk)|]. right.
  generalize (res_dim r). intro n. induction n as [|n IH]; [cbn [Rsum INR]; ring|]. cbn [Rsum]. rewrite IH, S_INR. ring.
Qed.

(** ** Segments *)
Section Segment.
  Variables x xs : list R.
  Hypothesis LX : length x = length xs.
  Definition towards : list R := mkvec (length xs) (fun i => vget xs i - vget x i).
  Lemma towards_length : length towards = length xs.
  Proof. apply mkvec_length. Qed.
  Lemma seg_length : forall t, length (ray x towards t) = length xs.
  Proof. intro t. rewrite ray_length by (rewrite towards_length; exact LX). exact LX. Qed.
  Lemma seg_get : forall t i, (i < length xs)%nat -> vget (ray x towards t) i = vget x i + t * (vget xs i - vget x i).
  Proof.
    intros t i Hi. unfold ray. rewrite vadd_get by (rewrite vscale_length, towards_length; exact LX). rewrite vscale_get.
    unfold towards. rewrite vget_mkvec by exact Hi. ring.
  Qed.
  Lemma seg_end : ray x towards 1 = xs.
  Proof. apply (vget_ext R R_ops); [apply seg_length|]. intros i Hi. rewrite seg_length in Hi. rewrite seg_get by exact Hi. ring. Qed.
  Lemma seg_start : ray x towards 0 = x.
  Proof. apply (vget_ext R R_ops); [rewrite seg_length; auto|]. intros i Hi. rewrite seg_length in Hi. rewrite seg_get by exact Hi. ring. Qed.
  Lemma towards_norm : Rsum (length xs) (fun i => vget towards i ^ 2) = dist2 x xs.
  Proof. unfold dist2. apply Rsum_ext. intros i Hi. unfold towards. rewrite vget_mkvec by exact Hi. ring. Qed.
  Lemma seg_dist_end : forall t, 0 <= t <= 1 -> distance (ray x towards t) xs <= distance x xs.
  Proof.
    intros t Ht. unfold distance. apply sqrt_le_1_alt, Rsum_le. intros i Hi. rewrite seg_get by exact Hi.
    replace (vget x i + t * (vget xs i - vget x i) - vget xs i) with ((1 - t) * (vget x i - vget xs i)) by ring.
    rewrite Rpow_mult_distr. pose proof (pow2_ge_0 (vget x i - vget xs i)). assert ((1 - t) ^ 2 <= 1) by nra. nra.
  Qed.
  Lemma seg_dist_start : forall t, 0 <= t <= 1 -> distance x (ray x towards t) <= distance x xs.
  Proof.
    intros t Ht. unfold distance. rewrite seg_length. apply sqrt_le_1_alt, Rsum_le. intros i Hi. rewrite seg_get by exact Hi.
    replace (vget x i - (vget x i + t * (vget xs i - vget x i))) with (t * (vget x i - vget xs i)) by ring.
    rewrite Rpow_mult_distr. pose proof (pow2_ge_0 (vget x i - vget xs i)). assert (t ^ 2 <= 1) by nra. nra.
  Qed.
  Lemma seg_shift : forall t h, ray (ray x towards t) towards h = ray x towards (t + h).
  Proof.
    intros t h. apply (vget_ext R R_ops).
    - rewrite ray_length by (rewrite seg_length, towards_length; reflexivity). rewrite !seg_length. reflexivity.
    - intros i Hi. rewrite ray_length, seg_length in Hi by (rewrite seg_length, towards_length; reflexivity).
      unfold ray at 1. rewrite vadd_get by (rewrite vscale_length, towards_length, seg_length; reflexivity).
      rewrite vscale_get, !seg_get by exact Hi. unfold towards. rewrite vget_mkvec by exact Hi. ring.
  Qed.

  Variable pr : Problem R.
  Hypothesis LS : length xs = pdim pr.
  Hypothesis DC : derivatives_correct pr.
  (** The mean value theorem for one component. *)
  Lemma seg_mvt : forall r k, In r (pr_costs pr) -> (k < res_dim r)%nat -> exists c, 0 < c < 1 /\
    vget (res_f r (gathered r xs)) k - vget (res_f r (gathered r x)) k = jac_dx r (ray x towards c) towards k.
  Proof.
    intros r k Hr Hk.
    destruct (MVT_cor2 (fun t => vget (res_f r (gathered r (ray x towards t))) k) (fun t => jac_dx r (ray x towards t) towards k) 0 1 Rlt_0_1) as (c & E & Hc).
    - intros c _.
      destruct (DC r (or_introl Hr) (ray x towards c) towards ltac:(rewrite seg_length; exact LS) ltac:(rewrite towards_length; exact LS) k Hk) as [_ D].
      intros eps He. destruct (D eps He) as [d Hd]. exists d. intros h Hh Hh2. specialize (Hd h Hh Hh2).
      fold (ray (ray x towards c) towards (0 + h)) in Hd. fold (ray (ray x towards c) towards 0) in Hd.
      rewrite !seg_shift, Rplus_0_l, Rplus_0_r in Hd. exact Hd.
    - exists c. split; [exact Hc|]. rewrite seg_end, seg_start in E. lra.
  Qed.
End Segment.

(** ** Coercivity *)
Lemma injective_coercive : forall (p : QP R), psd p -> (forall u, length u = nv p -> qform p u = 0 -> forall i, (i < nv p)%nat -> vget u i = 0) ->
  exists m0, 0 < m0 /\ forall u, length u = nv p -> m0 * Rsum (nv p) (fun i => vget u i ^ 2) <= qform p u.
Proof.
  intros p P INJ. set (n := nv p) in *.
  set (e := fun i => mkvec n (fun j => kd i j)).
  assert (BE : forall i u, (i < n)%nat -> bform p (e i) u = Rsum n (fun j => Gs p i j * vget u j)).
  { intros i u Hi. unfold bform. fold n. transitivity (Rsum n (fun k => kd i k * Rsum n (fun j => Gs p k j * vget u j))).
    - apply Rsum_ext. intros k Hk. rewrite <- Rsum_scal_l. apply Rsum_ext. intros j Hj. unfold e. rewrite vget_mkvec by exact Hk. ring.
    - apply (Rsum_kd_l n (fun k => Rsum n (fun j => Gs p k j * vget u j)) i Hi). }
  destruct (inverse_or_kernel n (Gs p)) as [[X HX]|(v & (i0 & Hi0 & NZ) & HK)].
  - set (A := Rsum n (fun k => Rsum n (fun i => X i k * X i k))). set (B := Rsum n (fun i => qform p (e i))).
    assert (A0 : 0 <= A) by (apply Rsum_nonneg; intros; apply Rsum_nonneg; intros; apply sq_nonneg).
    assert (B0 : 0 <= B) by (apply Rsum_nonneg; intros; apply P).
    assert (AB : 0 <= A * B) by (apply Rmult_le_pos; assumption).
    exists (/ (A * B + 1)). split; [apply Rinv_0_lt_compat; lra|]. intros u LU.
    apply (Rmult_le_reg_l (A * B + 1)); [lra|]. rewrite <- Rmult_assoc, Rinv_r, Rmult_1_l by lra.
    pose proof (P u) as PU.
    apply Rle_trans with (A * (B * qform p u)); [|nra].
    unfold A. rewrite Rmult_comm. rewrite <- Rsum_scal_l. apply Rsum_le. intros k Hk.
    set (w := fun i => Rsum n (fun j => Gs p i j * vget u j)).
    assert (E : vget u k = Rsum n (fun i => X i k * w i)).
    { unfold w. rewrite (Rsum_ext n (fun i => X i k * _) (fun i => Rsum n (fun j => vget u j * (Gs p j i * X i k)))).
      - rewrite Rsum_swap. rewrite (Rsum_ext n _ (fun j => vget u j * kd j k)).
        + rewrite (Rsum_kd n (vget u) k Hk). reflexivity.
        + intros j Hj. rewrite Rsum_scal_l. rewrite <- (HX j k Hj Hk). unfold fmulm. ring.
      - intros i Hi. rewrite <- Rsum_scal_l. apply Rsum_ext. intros j Hj. rewrite (Gs_sym p i j). ring. }
    rewrite E. eapply Rle_trans; [apply Rsum_CS2|]. rewrite (Rmult_comm (B * qform p u)). apply Rmult_le_compat_l; [apply Rsum_nonneg; intros; apply sq_nonneg|].
    unfold B. rewrite Rmult_comm, <- Rsum_scal_l. apply Rsum_le. intros i Hi. unfold w. rewrite <- BE by exact Hi.
    pose proof (psd_CS p (e i) u P) as C. fold n in C. unfold Rsqr in C. nra.
  - exfalso. apply NZ. set (u := mkvec n v).
    assert (Z : qform p u = 0).
    { unfold qform. fold n. apply Rsum_0. intros i Hi.
      rewrite (Rsum_ext _ _ (fun j => v i * (Gs p i j * v j))).
      - rewrite Rsum_scal_l, (HK i Hi). ring.
      - intros j Hj. unfold u. rewrite !vget_mkvec by assumption. ring. }
    pose proof (INJ u (mkvec_length _ _ _) Z i0 Hi0) as Q. unfold u in Q. rewrite vget_mkvec in Q by exact Hi0. exact Q.
Qed.

(** The Jacobian of one residual at a point is bounded. *)
Definition entry_bound (r : residual R) (x : list R) (k : nat) : R :=
  Rsum (length (res_index r)) (fun a => Rabs (mget (snd (res_fJ r (gathered r x))) k a)).
Lemma jac_bounded : forall r x u k n, idx_ok r n -> length u = n ->
  Rabs (jac_dx r x u k) <= entry_bound r x k * sqrt (Rsum n (fun i => vget u i ^ 2)).
Proof.
  intros r x u k n IX LU. unfold jac_dx, entry_bound. eapply Rle_trans; [apply Rsum_Rabs|]. rewrite Rmult_comm, <- Rsum_scal_l.
  apply Rsum_le. intros a Ha. rewrite Rabs_mult, Rmult_comm. apply Rmult_le_compat_r; [apply Rabs_pos|].
  rewrite <- sqrt_Rsqr_abs. apply sqrt_le_1_alt. unfold Rsqr.
  replace (vget u (gidx r a) * vget u (gidx r a)) with (vget u (gidx r a) ^ 2) by ring.
  apply (Rsum_pos_term n (fun i => vget u i ^ 2)); [intros; apply pow2_ge_0|]. apply (gidx_range r n IX a Ha).
Qed.

(** ** A ball around a regular zero *)
Section Basin.
  Variable pr : Problem R.
  Variable xs : list R.
  Variables rho0 L : R.
  Hypothesis LS : length xs = pdim pr.
  Hypothesis DIM : (0 < pr_dimension pr)%Z.
  Hypothesis IX : forall r, In r (pr_costs pr) \/ In r (pr_eq pr) -> forall i, In i (res_index r) -> (0 <= i < pr_dimension pr)%Z.
  Hypothesis NI : pr_ineq pr = [].
  Hypothesis DI : distinct_indices pr.
  Hypothesis DC : derivatives_correct pr.
  Hypothesis VC : value_consistent pr.
  Hypothesis RZ : regular_zero pr xs.
  Hypothesis JL : jacobian_lipschitz pr xs rho0 L.
  Hypothesis R0 : 0 < rho0.
  Hypothesis L0 : 0 <= L.

  Lemma basin_idx : forall r, In r (pr_costs pr) -> idx_ok r (length xs).
  Proof. intros r Hr i Hi. pose proof (IX r (or_introl Hr) i Hi) as H. rewrite LS. unfold pdim. lia. Qed.

  Lemma zero_residuals : forall r k, In r (pr_costs pr) -> (k < res_dim r)%nat -> vget (res_f r (gathered r xs)) k = 0.
  Proof.
    intros r k Hr Hk. destruct RZ as [Z _]. unfold cost_at in Z.
    assert (P : forall q : residual R, 0 <= Rsum (res_dim q) (fun k => vget (res_f q (gathered q xs)) k ^ 2)) by (intro q; apply Rsum_nonneg; intros; apply pow2_ge_0).
    assert (P2 : forall q, In q (pr_costs pr) -> 0 <= / 2 * Rsum (res_dim q) (fun k => vget (res_f q (gathered q xs)) k ^ 2)) by (intros q _; specialize (P q); lra).
    pose proof (Rlsum_map_zero _ (fun q : residual R => / 2 * Rsum (res_dim q) (fun k => vget (res_f q (gathered q xs)) k ^ 2)) (pr_costs pr)
      P2 Z r Hr) as E. cbv beta in E.
    pose proof (Rsum_pos_term (res_dim r) (fun k => vget (res_f r (gathered r xs)) k ^ 2) k (fun i _ => pow2_ge_0 _) Hk) as T. cbv beta in T.
    assert (Q : vget (res_f r (gathered r xs)) k ^ 2 = 0) by (pose proof (pow2_ge_0 (vget (res_f r (gathered r xs)) k)); lra).
    apply Rsqr_0_uniq. rewrite Rsqr_pow2. exact Q.
  Qed.

  Lemma norm_towards : forall x, sqrt (Rsum (length xs) (fun i => vget (towards x xs) i ^ 2)) = distance x xs.
  Proof. intro x. rewrite towards_norm. reflexivity. Qed.

  (** Squares of all components bounded by one bound. *)
  Lemma squares_le : forall (f : residual R -> nat -> R) c, (forall r k, In r (pr_costs pr) -> (k < res_dim r)%nat -> Rabs (f r k) <= c) ->
    Rlsum (map (fun r => Rsum (res_dim r) (fun k => f r k ^ 2)) (pr_costs pr)) <= c ^ 2 * res_total pr.
  Proof.
    intros f c H. apply (all_components_le pr (fun r k => f r k ^ 2)). intros r k Hr Hk. rewrite <- (pow2_abs (f r k)).
    apply pow_incr. split; [apply Rabs_pos|apply H; assumption].
  Qed.

  Lemma half_sum : forall (f : residual R -> nat -> R),
    Rlsum (map (fun r => / 2 * Rsum (res_dim r) (fun k => f r k ^ 2)) (pr_costs pr)) = / 2 * Rlsum (map (fun r => Rsum (res_dim r) (fun k => f r k ^ 2)) (pr_costs pr)).
  Proof. intro f. apply (Rlsum_map_scal _ (fun r => Rsum (res_dim r) (fun k => f r k ^ 2))). Qed.

  Lemma dist_self : forall x, distance x x = 0.
  Proof. intro x. unfold distance. rewrite (Rsum_0 (length x)); [apply sqrt_0|]. intros; ring. Qed.

  Lemma lin_is_jac : forall r x v k, In r (pr_costs pr) ->
    lin_residual r x v k = vget (res_f r (gathered r x)) k + jac_dx r x (mkvec (length xs) v) k.
  Proof.
    intros r x v k Hr. unfold lin_residual, jac_dx. rewrite (VC r (or_introl Hr)). f_equal. apply Rsum_ext. intros a Ha.
    rewrite vget_mkvec by (apply (gidx_range r _ (basin_idx r Hr) a Ha)). reflexivity.
  Qed.

  (** The linearisation at x, at xs. *)
  Lemma model_component : forall x r k, length x = length xs -> distance x xs <= rho0 -> In r (pr_costs pr) -> (k < res_dim r)%nat ->
    Rabs (lin_residual r x (fun i => vget xs i - vget x i) k) <= L * distance x xs ^ 2.
  Proof.
    intros x r k LX HD Hr Hk. rewrite (lin_is_jac _ _ _ _ Hr). fold (towards x xs).
    destruct (seg_mvt x xs LX pr LS DC r k Hr Hk) as (c & Hc & E). rewrite (zero_residuals _ _ Hr Hk) in E.
    replace (vget (res_f r (gathered r x)) k) with (- jac_dx r (ray x (towards x xs) c) (towards x xs) k) by lra.
    replace (- jac_dx r (ray x (towards x xs) c) (towards x xs) k + jac_dx r x (towards x xs) k)
      with (jac_dx r x (towards x xs) k - jac_dx r (ray x (towards x xs) c) (towards x xs) k) by ring.
    assert (C : 0 <= c <= 1) by lra.
    pose proof (seg_length x xs LX c) as SL. pose proof (seg_dist_end x xs LX c C) as SE. pose proof (seg_dist_start x xs LX c C) as SS.
    eapply Rle_trans; [apply (JL r Hr x (ray x (towards x xs) c) (towards x xs) k LX SL (towards_length x xs) HD ltac:(lra) Hk)|].
    rewrite norm_towards. replace (L * distance x xs ^ 2) with (L * distance x xs * distance x xs) by ring.
    apply Rmult_le_compat_r; [apply distance_nonneg|]. apply Rmult_le_compat_l; assumption.
  Qed.

  Definition jac_bound : R := Rlsum (map (fun r => Rsum (res_dim r) (entry_bound r xs)) (pr_costs pr)).
  Lemma entry_bound_nonneg : forall r k, 0 <= entry_bound r xs k.
  Proof. intros. apply Rsum_nonneg. intros. apply Rabs_pos. Qed.
  Lemma jac_bound_each : forall r k, In r (pr_costs pr) -> (k < res_dim r)%nat -> entry_bound r xs k <= jac_bound.
  Proof.
    intros r k Hr Hk. eapply Rle_trans; [apply (Rsum_pos_term (res_dim r) (entry_bound r xs) k (fun i _ => entry_bound_nonneg r i) Hk)|].
    unfold jac_bound. clear - Hr. assert (P : forall q : residual R, 0 <= Rsum (res_dim q) (entry_bound q xs)) by (intro; apply Rsum_nonneg; intros; apply entry_bound_nonneg).
    induction (pr_costs pr) as [|q l IH]; [destruct Hr|]. cbn [map Rlsum].
    assert (N : 0 <= Rlsum (map (fun r => Rsum (res_dim r) (entry_bound r xs)) l)).
    { clear - P. induction l as [|q l IH]; cbn [map Rlsum]; [lra|]. pose proof (P q). lra. }
    destruct Hr as [<-|Hr]; [lra|]. specialize (IH Hr). pose proof (P q). lra.
  Qed.
  Lemma jac_bound_nonneg : 0 <= jac_bound.
  Proof.
    unfold jac_bound. clear. induction (pr_costs pr) as [|q l IH]; cbn [map Rlsum]; [lra|].
    pose proof (Rsum_nonneg (res_dim q) (entry_bound q xs) (fun i _ => entry_bound_nonneg q i)). lra.
  Qed.

  Lemma value_component : forall x r k, length x = length xs -> distance x xs <= rho0 -> In r (pr_costs pr) -> (k < res_dim r)%nat ->
    Rabs (vget (res_f r (gathered r x)) k) <= (jac_bound + L * rho0) * distance x xs.
  Proof.
    intros x r k LX HD Hr Hk.
    destruct (seg_mvt x xs LX pr LS DC r k Hr Hk) as (c & Hc & E). rewrite (zero_residuals _ _ Hr Hk) in E.
    set (y := ray x (towards x xs) c) in *. set (u := towards x xs) in *.
    replace (vget (res_f r (gathered r x)) k) with (- (jac_dx r xs u k + (jac_dx r y u k - jac_dx r xs u k))) by lra.
    rewrite Rabs_Ropp. eapply Rle_trans; [apply Rabs_triang|].
    assert (C : 0 <= c <= 1) by lra.
    pose proof (seg_length x xs LX c) as SL. fold u y in SL. pose proof (seg_dist_end x xs LX c C) as SE. fold u y in SE.
    pose proof (jac_bounded r xs u k (length xs) (basin_idx r Hr) (towards_length x xs)) as J1. unfold u in J1. rewrite norm_towards in J1. fold u in J1.
    pose proof (JL r Hr y xs u k SL eq_refl (towards_length x xs) ltac:(lra) ltac:(rewrite dist_self; lra) Hk) as J2.
    unfold u in J2. rewrite norm_towards in J2. fold u in J2. pose proof (distance_nonneg x xs) as D0. pose proof (distance_nonneg y xs) as D1.
    assert (A : entry_bound r xs k * distance x xs <= jac_bound * distance x xs) by (apply Rmult_le_compat_r; [exact D0|apply jac_bound_each; assumption]).
    assert (B : L * distance y xs * distance x xs <= L * rho0 * distance x xs).
    { apply Rmult_le_compat_r; [exact D0|]. apply Rmult_le_compat_l; [exact L0|lra]. }
    lra.
  Qed.

  Lemma curvature_compare : forall x v, length x = length xs -> distance x xs <= rho0 ->
    / 2 * lin_curvature pr xs v - L ^ 2 * distance x xs ^ 2 * Rsum (length xs) (fun i => v i ^ 2) * res_total pr <= lin_curvature pr x v.
  Proof.
    intros x v LX HD.
    assert (J : forall y, lin_curvature pr y v = Rlsum (map (fun r => Rsum (res_dim r) (fun k => jac_dx r y (mkvec (length xs) v) k ^ 2)) (pr_costs pr))).
    { intro y. rewrite <- curvature_jac. unfold lin_curvature. f_equal. apply map_ext_in. intros r Hr. apply Rsum_ext. intros k Hk. f_equal. f_equal.
      unfold lin_residual. f_equal. apply Rsum_ext. intros a Ha. f_equal. rewrite vget_mkvec by (apply (gidx_range r _ (basin_idx r Hr) a Ha)). reflexivity. }
    rewrite !J. set (u := mkvec (length xs) v).
    assert (NU : Rsum (length xs) (fun i => vget u i ^ 2) = Rsum (length xs) (fun i => v i ^ 2)).
    { apply Rsum_ext. intros i Hi. unfold u. rewrite vget_mkvec by exact Hi. reflexivity. }
    assert (D : Rlsum (map (fun r => Rsum (res_dim r) (fun k => (jac_dx r x u k - jac_dx r xs u k) ^ 2)) (pr_costs pr)) <=
      (L * distance x xs * sqrt (Rsum (length xs) (fun i => v i ^ 2))) ^ 2 * res_total pr).
    { apply (squares_le (fun r k => jac_dx r x u k - jac_dx r xs u k)). intros r k Hr Hk. rewrite <- NU.
      apply (JL r Hr x xs u k LX eq_refl (mkvec_length _ _ _) HD ltac:(rewrite dist_self; lra) Hk). }
    rewrite !Rpow_mult_distr in D.
    replace (sqrt (Rsum (length xs) (fun i => v i ^ 2)) ^ 2) with (Rsum (length xs) (fun i => v i ^ 2)) in D.
    2: { rewrite <- Rsqr_pow2. symmetry. apply Rsqr_sqrt, Rsum_nonneg. intros. apply pow2_ge_0. }
    assert (P : / 2 * Rlsum (map (fun r => Rsum (res_dim r) (fun k => jac_dx r xs u k ^ 2)) (pr_costs pr)) <=
      Rlsum (map (fun r => Rsum (res_dim r) (fun k => jac_dx r x u k ^ 2) + Rsum (res_dim r) (fun k => (jac_dx r x u k - jac_dx r xs u k) ^ 2)) (pr_costs pr))).
    { rewrite <- Rlsum_map_scal. apply Rlsum_map_le. intros r Hr. rewrite <- Rsum_scal_l, <- Rsum_plus. apply Rsum_le. intros k Hk.
      pose proof (pow2_ge_0 (jac_dx r xs u k - 2 * jac_dx r x u k)). nra. }
    rewrite Rlsum_map_plus in P. lra.
  Qed.

  (** Coercivity of the Gauss-Newton matrix at xs. *)
  Lemma curvature_at_zero : exists m0, 0 < m0 /\ forall v, m0 * Rsum (length xs) (fun i => v i ^ 2) <= lin_curvature pr xs v.
  Proof.
    destruct (linearise_total pr xs 0 LS IX ltac:(intros c Hc; rewrite NI in Hc; destruct Hc) DIM) as (errs & qp & HL & _ & _ & CL & _).
    destruct (C24_linearised_qp _ _ _ _ _ DI HL) as (_ & _ & _ & QF & _). destruct (C24_convex _ _ _ _ _ DI HL) as [P _].
    assert (NV : nv qp = length xs) by (unfold nv; congruence).
    assert (QC : forall u, qform qp u = lin_curvature pr xs (vget u)) by (intro u; rewrite QF, Rmax_left by lra; ring).
    destruct (injective_coercive qp P) as (m0 & M0 & HM).
    - intros u LU Q i Hi. rewrite NV in *. destruct RZ as [_ INJ]. apply (INJ u LU); [|exact Hi]. intros r k Hr Hk.
      rewrite QC, curvature_jac in Q.
      pose proof (Rlsum_map_zero _ (fun r => Rsum (res_dim r) (fun k => jac_dx r xs u k ^ 2)) (pr_costs pr)
        (fun q _ => Rsum_nonneg _ _ (fun j _ => pow2_ge_0 _)) Q r Hr) as E. cbv beta in E.
      pose proof (Rsum_pos_term (res_dim r) (fun k => jac_dx r xs u k ^ 2) k (fun i _ => pow2_ge_0 _) Hk) as T. cbv beta in T.
      apply Rsqr_0_uniq. rewrite Rsqr_pow2. pose proof (pow2_ge_0 (jac_dx r xs u k)). lra.
    - exists m0. split; [exact M0|]. intro v. rewrite NV in HM. specialize (HM (mkvec (length xs) v) (mkvec_length _ _ _)). rewrite QC in HM.
      rewrite (Rsum_ext _ _ (fun i => v i ^ 2)) in HM by (intros i Hi; rewrite vget_mkvec by exact Hi; reflexivity).
      eapply Rle_trans; [exact HM|]. right. unfold lin_curvature. f_equal. apply map_ext_in. intros r Hr. apply Rsum_ext. intros k Hk. f_equal. f_equal.
      unfold lin_residual. f_equal. apply Rsum_ext. intros a Ha. f_equal. rewrite vget_mkvec by (apply (gidx_range r _ (basin_idx r Hr) a Ha)). reflexivity.
  Qed.

  Theorem basin_exists : exists rho kappa m M, 0 < rho /\ 0 < kappa /\ quadratic_basin pr xs rho kappa m M.
  Proof.
    destruct curvature_at_zero as (m0 & M0 & CU). pose proof (res_total_nonneg pr) as TP. set (T := res_total pr) in *.
    set (kappa := (T + 1) * (L + 1)). set (m := sqrt m0 / 2). set (M := (T + 1) * (jac_bound + L * rho0)).
    assert (KP : 0 < kappa) by (apply Rmult_lt_0_compat; lra).
    assert (MP : 0 < m) by (unfold m; pose proof (sqrt_lt_R0 m0 M0); lra).
    assert (MM : m ^ 2 = m0 / 4) by (unfold m; replace ((sqrt m0 / 2) ^ 2) with (sqrt m0 * sqrt m0 / 4) by field; rewrite sqrt_sqrt by lra; reflexivity).
    assert (LR : 0 <= L * rho0) by (apply Rmult_le_pos; lra).
    pose proof jac_bound_nonneg as JB.
    assert (BP : 0 <= M) by (apply Rmult_le_pos; lra).
    assert (KL : T * L ^ 2 <= kappa ^ 2).
    { unfold kappa. rewrite Rpow_mult_distr. pose proof (pow2_ge_0 L). assert (0 <= (L + 1) ^ 2 - L ^ 2) by nra. assert (0 <= (T + 1) ^ 2 - T) by nra.
      apply Rle_trans with ((T + 1) ^ 2 * L ^ 2); [apply Rmult_le_compat_r; lra|]. apply Rmult_le_compat_l; [apply pow2_ge_0|lra]. }
    set (rho := Rmin rho0 (Rmin (m / 2 / kappa) (49 / 100 * m ^ 2 / ((M + 1) * kappa)))).
    assert (MK : 0 < (M + 1) * kappa) by (apply Rmult_lt_0_compat; lra).
    assert (RP : 0 < rho).
    { unfold rho. repeat apply Rmin_glb_lt; [exact R0| |]; apply Rdiv_lt_0_compat; try assumption; [lra|]. pose proof (pow_lt m 2 MP). lra. }
    assert (R1 : rho <= rho0) by apply Rmin_l.
    assert (R2 : rho <= m / 2 / kappa) by (unfold rho; eapply Rle_trans; [apply Rmin_r|apply Rmin_l]).
    assert (R3 : rho <= 49 / 100 * m ^ 2 / ((M + 1) * kappa)) by (unfold rho; eapply Rle_trans; [apply Rmin_r|apply Rmin_r]).
    assert (S2 : kappa * rho <= m / 2).
    { apply Rle_trans with (kappa * (m / 2 / kappa)); [apply Rmult_le_compat_l; lra|]. right. field. lra. }
    assert (S3 : (M + 1) * kappa * rho <= 49 / 100 * m ^ 2).
    { apply Rle_trans with ((M + 1) * kappa * (49 / 100 * m ^ 2 / ((M + 1) * kappa))); [apply Rmult_le_compat_l; lra|]. right. field. lra. }
    exists rho, kappa, m, M. split; [exact RP|]. split; [exact KP|]. constructor; try lra; try exact LS.
    - intros x LX HD. unfold lin_cost. rewrite half_sum. apply Rmult_le_compat_l; [lra|].
      eapply Rle_trans; [apply (squares_le (fun r k => lin_residual r x (fun i => vget xs i - vget x i) k) (L * distance x xs ^ 2))|].
      { intros r k Hr Hk. apply model_component; auto. lra. }
      fold T. rewrite !Rpow_mult_distr. pose proof (pow2_ge_0 (distance x xs ^ 2)).
      replace (L ^ 2 * (distance x xs ^ 2) ^ 2 * T) with (T * L ^ 2 * (distance x xs ^ 2) ^ 2) by ring. apply Rmult_le_compat_r; assumption.
    - intros x LX HD v. eapply Rle_trans; [|apply (curvature_compare x v LX ltac:(lra))]. fold T.
      set (s := Rsum (length xs) (fun i => v i ^ 2)). assert (SP : 0 <= s) by (apply Rsum_nonneg; intros; apply pow2_ge_0).
      specialize (CU v). fold s in CU. pose proof (distance_nonneg x xs) as D0.
      assert (A : T * L ^ 2 * distance x xs ^ 2 <= m ^ 2 / 4).
      { apply Rle_trans with (kappa ^ 2 * rho ^ 2).
        - apply Rmult_le_compat; [apply Rmult_le_pos; [exact TP|apply pow2_ge_0]|apply pow2_ge_0|exact KL|apply pow_incr; split; assumption].
        - rewrite <- Rpow_mult_distr. replace (m ^ 2 / 4) with ((m / 2) ^ 2) by field. apply pow_incr. split; [apply Rmult_le_pos; lra|exact S2]. }
      replace (L ^ 2 * distance x xs ^ 2 * s * T) with (T * L ^ 2 * distance x xs ^ 2 * s) by ring.
      assert (B : T * L ^ 2 * distance x xs ^ 2 * s <= m ^ 2 / 4 * s) by (apply Rmult_le_compat_r; assumption).
      rewrite MM in *. nra.
    - intros x LX HD. unfold cost_at. rewrite half_sum. apply Rmult_le_compat_l; [lra|].
      eapply Rle_trans; [apply (squares_le (fun r k => vget (res_f r (gathered r x)) k) ((jac_bound + L * rho0) * distance x xs))|].
      { intros r k Hr Hk. apply value_component; auto. lra. }
      fold T. unfold M. rewrite !Rpow_mult_distr.
      pose proof (pow2_ge_0 (jac_bound + L * rho0)). pose proof (pow2_ge_0 (distance x xs)). assert (T <= (T + 1) ^ 2) by nra.
      match goal with |- ?a * ?b * T <= ?t * ?a' * ?b' => replace (a * b * T) with (T * (a * b)) by ring; replace (t * a' * b') with (t * (a * b)) by ring end.
      apply Rmult_le_compat_r; [apply Rmult_le_pos; assumption|assumption].
    - assert (0 <= kappa * rho) by (apply Rmult_le_pos; lra). lra.
  Qed.
End Basin.

(** ** C91, for every regular zero *)

Lemma squared_bound_mono : forall K a b k, 0 <= K -> 0 <= a <= b -> 0 <= squared_bound K a k <= squared_bound K b k.
Proof.
  intros K a b k KP AB. induction k as [|k IH]; cbn [squared_bound]; [exact AB|].
  split; [apply Rmult_le_pos; [exact KP|apply pow2_ge_0]|]. apply Rmult_le_compat_l; [exact KP|]. apply pow_incr. exact IH.
Qed.

(** C91: every regular zero xs of smooth residuals has a ball and a number N such that Solve, started anywhere in the ball, with any exact
    factorisation and user callback, ends after at most N iterations, each of which takes the full step and squares the error. *)
Theorem C91_converges_from_nearby : forall (pa : NLSParams R) (pr : Problem R) (xs : list R) (rho0 L : R),
  well_posed pa pr xs -> pr_ineq pr = [] -> pr_eq pr = [] -> distinct_indices pr ->
  derivatives_correct pr -> value_consistent pr ->
  regular_zero pr xs -> 0 < rho0 -> 0 <= L -> jacobian_lipschitz pr xs rho0 L ->
  n_lambda_initial pa <= 0 ->
  exists rho K N, 0 < rho /\ 0 < K /\ K * rho < 1 /\
    forall ldlt qr llt eigs (S : Type) (cb : option (S -> NLSIteration R -> S * bool)) g vars cs,
    ldlt_exact (pdim pr) ldlt -> fails_only_if_singular ldlt ->
    length vars = length xs -> distance vars xs <= rho ->
    exists r, NLS_Solve ldlt qr llt eigs None cb pa pr g vars cs = Ok r /\
    let log := out_iterations (res_out r) in
    (satisfied (out_termination_state (res_out r)) \/ out_termination_state (res_out r) = NLS_MAX_ITERATIONS \/
     out_termination_state (res_out r) = USER_CALLBACK) /\
    (forall k info, nth_error log k = Some info ->
       it_step_result info = SS_SUCCESS /\ (exists e, it_line_search_steps info = [MkStep 1 e]) \/
       it_step_result info = FIRST_ORDER_SATISFIED /\ Datatypes.S k = length log) /\
    distance (res_vars r) xs <= squared_bound K (distance vars xs) (successes log) /\
    (length log <= N)%nat /\
    ((Z.of_nat N <= n_max_iterations pa)%Z -> out_termination_state (res_out r) <> NLS_MAX_ITERATIONS).
Proof.
  intros pa pr xs rho0 L WP NI NE DI DC VC RZ R0 L0 JL LI.
  destruct (basin_exists pr xs rho0 L (wp_vars _ _ _ WP) (wp_dim _ _ _ WP) (wp_index _ _ _ WP) NI DI DC VC RZ JL R0 L0)
    as (rho & kappa & m & M & RP & KP & QB).
  pose proof (qb_m _ _ _ _ _ _ QB) as MP. pose proof (qb_M _ _ _ _ _ _ QB) as BP.
  assert (KK : 0 < kappa / m) by (apply Rdiv_lt_0_compat; assumption).
  assert (KR : kappa / m * rho < 1).
  { apply (Rmult_lt_reg_l m); [exact MP|]. replace (m * (kappa / m * rho)) with (kappa * rho) by (field; lra).
    pose proof (qb_small _ _ _ _ _ _ QB). lra. }
  destruct (C91_enough_steps (kappa / m) rho M (n_absolute_exit_tol pa) KK ltac:(lra) KR (npv_abs _ (wp_params _ _ _ WP)) BP) as (N & N1 & HN).
  exists rho, (kappa / m), N. splits; auto.
  intros ldlt qr llt eigs S cb g vars cs EX FS LV HD.
  destruct (C91_local_quadratic_convergence ldlt qr llt eigs cb pa pr g xs rho kappa m M QB NI NE DI EX VC FS vars cs
    (well_posed_vars pa pr _ _ WP LV) LI HD) as (r & H & P1 & P2 & P3 & P4 & P5 & P6).
  exists r. split; [exact H|]. intro log. splits; auto.
  - apply P6; [exact N1|]. eapply Rle_lt_trans; [|exact HN]. apply Rmult_le_compat_l; [lra|].
    pose proof (squared_bound_mono (kappa / m) (distance vars xs) rho N ltac:(lra) (conj (distance_nonneg vars xs) HD)).
    apply pow_incr. split; [apply Rmult_le_pos; lra|]. apply Rmult_le_compat_l; lra.
  - apply P6; [exact N1|]. eapply Rle_lt_trans; [|exact HN]. apply Rmult_le_compat_l; [lra|].
    pose proof (squared_bound_mono (kappa / m) (distance vars xs) rho N ltac:(lra) (conj (distance_nonneg vars xs) HD)).
    apply pow_incr. split; [apply Rmult_le_pos; lra|]. apply Rmult_le_compat_l; lra.
Qed.
