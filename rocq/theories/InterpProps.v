(** C29, C30: the polynomial models used by the line search, over the reals. *)
From Coq Require Import String List Bool Arith ZArith QArith Reals Lra Lia.
From Verif Require Import Scalar Outcome LinAlg Structs Nonlinear RInst.
Local Open Scope R_scope.

(** ** C29: quadratic *)

(** For every parabola q with q(0) = phi_0, q'(0) = phi'_0 and q(a0) = phi(a0): a step is returned iff the
    slope is not positive and the parabola is strictly convex; the step is then its unique minimiser. *)
Theorem C29_quadratic : forall A B C a0 phi_0 dphi_0 phi_a0,
  let q t := A * t ^ 2 + B * t + C in
  a0 <> 0 -> q 0 = phi_0 -> derivable_pt_lim q 0 dphi_0 -> q a0 = phi_a0 ->
  match QuadraticApproxMinimum phi_0 dphi_0 a0 phi_a0 with
  | Some m => dphi_0 <= 0 /\ 0 < A /\ derivable_pt_lim q m 0 /\ forall t, t <> m -> q m < q t
  | None => 0 < dphi_0 \/ A <= 0
  end.
Proof.
  intros A B C a0 phi_0 dphi_0 phi_a0 q Ha Q0 QD QA.
  assert (DQ : forall t, derivable_pt_lim q t (2 * A * t + B)).
  { intro t. unfold q.
    replace (2 * A * t + B) with (A * (2 * t) + B * 1 + 0) by ring.
    apply (derivable_pt_lim_plus (fun t => A * t ^ 2 + B * t) (fun _ => C)); [|apply derivable_pt_lim_const].
    apply (derivable_pt_lim_plus (fun t => A * t ^ 2) (fun t => B * t)).
    - apply (derivable_pt_lim_scal (fun t => t ^ 2)). replace (2 * t) with (INR 2 * t ^ (Nat.pred 2)) by (simpl; ring).
      apply derivable_pt_lim_pow.
    - apply (derivable_pt_lim_scal (fun t => t)). apply derivable_pt_lim_id. }
  assert (EB : B = dphi_0).
  { apply (uniqueness_limite q 0); [|exact QD]. specialize (DQ 0). replace (2 * A * 0 + B) with B in DQ by ring. exact DQ. }
  assert (EC : C = phi_0) by (rewrite <- Q0; unfold q; ring).
  assert (N : phi_a0 - dphi_0 * a0 - phi_0 = A * a0 ^ 2) by (rewrite <- QA, <- EB, <- EC; unfold q; ring).
  assert (P2 : 0 < a0 ^ 2) by (simpl; rewrite Rmult_1_r; nra).
  unfold QuadraticApproxMinimum. cbn [fsub fmul fneg fdiv R_ops f0]. rewrite R_2. rewrite N.
  destruct (R_fgtb dphi_0 0) as [H1|H1]; cbn [orb]; [left; exact H1|].
  destruct (R_fleb (A * a0 ^ 2) 0) as [H2|H2].
  - right. nra.
  - assert (HA : 0 < A) by nra.
    set (m := - dphi_0 * a0 * a0 / (2 * (A * a0 ^ 2))).
    assert (M : 2 * A * m + B = 0) by (unfold m; rewrite EB; field; split; lra).
    splits; [lra|exact HA| |].
    + rewrite <- M. apply DQ.
    + intros t Ht. assert (E : q t - q m = A * (t - m) ^ 2).
      { unfold q. replace B with (- 2 * A * m) by lra. ring. }
      assert (0 < (t - m) ^ 2) by (simpl; rewrite Rmult_1_r; assert (t - m <> 0) by lra; nra). nra.
Qed.

Example C29_quadratic_example : QuadraticApproxMinimum 1 (-2) 1 (1 : R) = Some (1 / 2).
Proof.
  unfold QuadraticApproxMinimum. cbn [fsub fmul fneg fdiv R_ops f0]. rewrite R_2.
  destruct (R_fgtb (-2) 0) as [H|H]; [lra|]. cbn [orb].
  destruct (R_fleb (1 - -2 * 1 - 1) 0) as [H2|H2]; [lra|]. f_equal. field.
Qed.

(** ** C29: cubic *)

(** The cubic model. *)
Definition cubic (a b dphi_0 phi_0 t : R) : R := a * t ^ 3 + b * t ^ 2 + dphi_0 * t + phi_0.

Lemma cubic_derive : forall a b d c t, derivable_pt_lim (cubic a b d c) t (3 * a * t ^ 2 + 2 * b * t + d).
Proof.
  intros. unfold cubic.
  replace (3 * a * t ^ 2 + 2 * b * t + d) with (a * (3 * t ^ 2) + b * (2 * t) + d * 1 + 0) by ring.
  apply (derivable_pt_lim_plus (fun t => a * t ^ 3 + b * t ^ 2 + d * t) (fun _ => c)); [|apply derivable_pt_lim_const].
  apply (derivable_pt_lim_plus (fun t => a * t ^ 3 + b * t ^ 2) (fun t => d * t)).
  - apply (derivable_pt_lim_plus (fun t => a * t ^ 3) (fun t => b * t ^ 2)).
    + apply (derivable_pt_lim_scal (fun t => t ^ 3)). replace (3 * t ^ 2) with (INR 3 * t ^ (Nat.pred 3)) by (simpl; ring).
      apply derivable_pt_lim_pow.
    + apply (derivable_pt_lim_scal (fun t => t ^ 2)). replace (2 * t) with (INR 2 * t ^ (Nat.pred 2)) by (simpl; ring).
      apply derivable_pt_lim_pow.
  - apply (derivable_pt_lim_scal (fun t => t)). apply derivable_pt_lim_id.
Qed.

(** CubicApproxCoeffs: requires alpha_0 > alpha_1 > 0, and returns the cubic with the given value and slope
    at 0 through both points. *)
Theorem C29_cubic_interpolates : forall phi_0 dphi_0 a0 phi_a0 a1 phi_a1 : R,
  (0 < a1 < a0 ->
   exists a b, CubicApproxCoeffs phi_0 dphi_0 a0 phi_a0 a1 phi_a1 = Ok (a, b) /\
     cubic a b dphi_0 phi_0 0 = phi_0 /\ derivable_pt_lim (cubic a b dphi_0 phi_0) 0 dphi_0 /\
     cubic a b dphi_0 phi_0 a0 = phi_a0 /\ cubic a b dphi_0 phi_0 a1 = phi_a1) /\
  (~ (0 < a1 < a0) -> exists w, CubicApproxCoeffs phi_0 dphi_0 a0 phi_a0 a1 phi_a1 = Throw (AssertFailed w)).
Proof.
  intros phi_0 dphi_0 a0 phi_a0 a1 phi_a1. unfold CubicApproxCoeffs.
  destruct (R_fgtb a1 f0) as [H1|H1]; simpl in H1; cbn [f_assert bind].
  - destruct (R_fgtb a0 a1) as [H2|H2]; cbn [f_assert bind].
    + split; [intros _|intro N; exfalso; apply N; lra].
      do 2 eexists. split; [reflexivity|]. cbn [fadd fsub fmul fneg fdiv R_ops f1].
      assert (D : a0 * a0 * a0 * (a1 * a1) - a1 * a1 * a1 * (a0 * a0) <> 0).
      { replace (a0 * a0 * a0 * (a1 * a1) - a1 * a1 * a1 * (a0 * a0)) with ((a0 * a1) * (a0 * a1) * (a0 - a1)) by ring.
        apply Rmult_integral_contrapositive_currified; [|lra].
        apply Rmult_integral_contrapositive_currified; apply Rmult_integral_contrapositive_currified; lra. }
      splits.
      * unfold cubic. ring.
      * pose proof (cubic_derive
          (a1 * a1 * (1 / (a0 * a0 * a0 * (a1 * a1) - a1 * a1 * a1 * (a0 * a0))) * (phi_a0 - phi_0 - dphi_0 * a0) +
           - (a0 * a0) * (1 / (a0 * a0 * a0 * (a1 * a1) - a1 * a1 * a1 * (a0 * a0))) * (phi_a1 - phi_0 - dphi_0 * a1))
          (- (a1 * a1 * a1) * (1 / (a0 * a0 * a0 * (a1 * a1) - a1 * a1 * a1 * (a0 * a0))) * (phi_a0 - phi_0 - dphi_0 * a0) +
           a0 * a0 * a0 * (1 / (a0 * a0 * a0 * (a1 * a1) - a1 * a1 * a1 * (a0 * a0))) * (phi_a1 - phi_0 - dphi_0 * a1)) dphi_0 phi_0 0) as CD.
        match type of CD with derivable_pt_lim _ _ ?v => replace v with dphi_0 in CD by ring end. exact CD.
      * unfold cubic. field. exact D.
      * unfold cubic. field. exact D.
    + split; [intro; exfalso; lra|intros _; eauto].
  - split; [intro; exfalso; lra|intros _; eauto].
Qed.

(** CubicApproxMinimum: whenever a step m is returned, it is a stationary point and a local minimiser of the
    cubic (up to the tolerance 1e-12 used to clamp a slightly negative discriminant). *)
Theorem C29_cubic_minimum : forall a b dphi_0 phi_0 m : R,
  CubicApproxMinimum dphi_0 (a, b) = Some m ->
  let disc := b ^ 2 - 3 * a * dphi_0 in
  a <> 0 /\ - (1 / 10 ^ 12) <= disc /\
  (0 <= disc -> derivable_pt_lim (cubic a b dphi_0 phi_0) m 0) /\
  (0 < disc -> exists r, 0 < r /\ forall t, t <> m -> Rabs (t - m) < r -> cubic a b dphi_0 phi_0 m < cubic a b dphi_0 phi_0 t) /\
  (disc < 0 -> derivable_pt_lim (cubic a b dphi_0 phi_0) m (- disc / (3 * a))).
Proof.
  intros a b dphi_0 phi_0 m H disc. unfold CubicApproxMinimum in H. cbn [fsub fmul fneg fdiv fadd fsqrt R_ops f0] in H.
  rewrite R_3, R_m1em12 in H.
  destruct (R_feqb a 0) as [HA|HA]; cbn [orb] in H; [discriminate|].
  destruct (R_fltb (b * b - 3 * a * dphi_0) (-1 / 1000000000000)) as [HD|HD]; [discriminate|].
  injection H as H. replace (b * b - 3 * a * dphi_0) with disc in * by (unfold disc; ring).
  rewrite R_fmax in H. set (s := sqrt (Rmax disc 0)) in *.
  assert (M : 3 * a * m = - b + s) by (rewrite <- H; field; exact HA).
  pose proof (cubic_derive a b dphi_0 phi_0 m) as CD.
  assert (V : 3 * a * (3 * a * m ^ 2 + 2 * b * m + dphi_0) = s ^ 2 - disc).
  { replace (3 * a * (3 * a * m ^ 2 + 2 * b * m + dphi_0)) with ((3 * a * m) ^ 2 + 2 * b * (3 * a * m) + 3 * a * dphi_0) by ring.
    rewrite M. unfold disc. ring. }
  assert (VV : 3 * a * m ^ 2 + 2 * b * m + dphi_0 = (s ^ 2 - disc) / (3 * a)).
  { apply (Rmult_eq_reg_l (3 * a)); [|lra]. rewrite V. field. exact HA. }
  rewrite VV in CD.
  assert (S2 : s ^ 2 = Rmax disc 0) by (unfold s; simpl; rewrite Rmult_1_r; apply sqrt_sqrt; apply Rmax_r).
  splits.
  - exact HA.
  - simpl. lra.
  - intro HP. rewrite S2, Rmax_left in CD by lra. replace ((disc - disc) / (3 * a)) with 0 in CD by (field; exact HA). exact CD.
  - intro HP.
    assert (SP : 0 < s) by (unfold s; apply sqrt_lt_R0; rewrite Rmax_left by lra; exact HP).
    assert (PA : 0 < Rabs a) by (apply Rabs_pos_lt; exact HA).
    exists (s / Rabs a). split; [apply Rdiv_lt_0_compat; assumption|]. intros t NE HT.
    assert (DV0 : 3 * a * m ^ 2 + 2 * b * m + dphi_0 = 0) by (rewrite VV, S2, Rmax_left by lra; field; exact HA).
    assert (E : cubic a b dphi_0 phi_0 t - cubic a b dphi_0 phi_0 m = (t - m) ^ 2 * (a * (t - m) + s)).
    { unfold cubic. replace s with (3 * a * m + b) by lra. replace dphi_0 with (- (3 * a * m ^ 2 + 2 * b * m)) by lra. ring. }
    assert (Rabs (a * (t - m)) < s).
    { rewrite Rabs_mult. apply (Rmult_lt_compat_l (Rabs a)) in HT; [|exact PA].
      replace (Rabs a * (s / Rabs a)) with s in HT by (field; lra). exact HT. }
    apply Rabs_def2 in H0.
    assert (0 < (t - m) ^ 2) by (simpl; rewrite Rmult_1_r; assert (t - m <> 0) by lra; nra).
    assert (0 < (t - m) ^ 2 * (a * (t - m) + s)) by (apply Rmult_lt_0_compat; lra). lra.
  - intro HN. rewrite S2, Rmax_right in CD by lra. replace ((0 - disc) / (3 * a)) with (- disc / (3 * a)) in CD by (field; exact HA). exact CD.
Qed.

(** ** C30 *)

(** After a failed Armijo test with a descending direction the quadratic step exists and lies strictly
    between 0 and alpha / (2 (1 - c1)); for c1 = 1e-4 it is strictly below alpha, so it is never rejected
    as an invalid step size. *)
Theorem C30_quadratic_backtracks : forall phi_0 dphi_0 alpha phi_alpha c1 : R,
  0 < alpha -> dphi_0 < 0 -> 0 <= c1 < 1 ->
  phi_alpha > phi_0 + dphi_0 * alpha * c1 ->
  exists m, QuadraticApproxMinimum phi_0 dphi_0 alpha phi_alpha = Some m /\
    0 < m < alpha / (2 * (1 - c1)) /\ (c1 <= 1 / 2 -> m < alpha).
Proof.
  intros phi_0 dphi_0 alpha phi_alpha c1 HA HD HC HF.
  unfold QuadraticApproxMinimum. cbn [fsub fmul fneg fdiv R_ops f0]. rewrite R_2.
  set (num := phi_alpha - dphi_0 * alpha - phi_0).
  assert (HN : num > (1 - c1) * (- dphi_0 * alpha)) by (unfold num; lra).
  assert (HP : 0 < - dphi_0 * alpha) by nra.
  assert (N0 : 0 < num) by nra.
  destruct (R_fgtb dphi_0 0) as [H1|H1]; [lra|]. cbn [orb].
  destruct (R_fleb num 0) as [H2|H2]; [lra|].
  eexists. split; [reflexivity|].
  assert (U : - dphi_0 * alpha * alpha / (2 * num) < alpha / (2 * (1 - c1))).
  { apply (Rmult_lt_reg_r (2 * num * (1 - c1))); [nra|].
    replace (- dphi_0 * alpha * alpha / (2 * num) * (2 * num * (1 - c1))) with (alpha * ((1 - c1) * (- dphi_0 * alpha))) by (field; lra).
    replace (alpha / (2 * (1 - c1)) * (2 * num * (1 - c1))) with (alpha * num) by (field; lra).
    apply Rmult_lt_compat_l; lra. }
  splits.
  - apply Rdiv_lt_0_compat; nra.
  - exact U.
  - intro HH. eapply Rlt_le_trans; [exact U|].
    apply (Rmult_le_reg_r (2 * (1 - c1))); [lra|]. replace (alpha / (2 * (1 - c1)) * (2 * (1 - c1))) with alpha by (field; lra). nra.
Qed.

(** The cubic step, when returned (with a non-negative discriminant), is positive after two failed Armijo
    tests; if phi did not go below phi(0) at the last step it is returned unless the cubic coefficient is
    exactly zero, and lies strictly below the last step. *)
Theorem C30_cubic_backtracks : forall phi_0 dphi_0 a0 phi_a0 a1 phi_a1 c1 a b : R,
  0 < a1 < a0 -> dphi_0 < 0 -> 0 <= c1 < 1 ->
  phi_a0 > phi_0 + dphi_0 * a0 * c1 -> phi_a1 > phi_0 + dphi_0 * a1 * c1 ->
  CubicApproxCoeffs phi_0 dphi_0 a0 phi_a0 a1 phi_a1 = Ok (a, b) ->
  (forall m, CubicApproxMinimum dphi_0 (a, b) = Some m -> 0 < m) /\
  (phi_a1 >= phi_0 -> a <> 0 -> exists m, CubicApproxMinimum dphi_0 (a, b) = Some m /\ 0 < m < a1).
Proof.
  intros phi_0 dphi_0 a0 phi_a0 a1 phi_a1 c1 a b HA HD HC F0 F1 E.
  destruct (proj1 (C29_cubic_interpolates phi_0 dphi_0 a0 phi_a0 a1 phi_a1) HA) as (a' & b' & E' & _ & _ & I0 & I1).
  rewrite E in E'. apply Ok_inj in E'. apply pair_inj in E'. destruct E' as [<- <-].
  unfold cubic in I0, I1.
  (* a t + b > 0 at both steps *)
  assert (G1 : 0 < a * a1 + b).
  { assert (0 < a1 ^ 2 * (a * a1 + b)).
    { replace (a1 ^ 2 * (a * a1 + b)) with (phi_a1 - dphi_0 * a1 - phi_0) by (rewrite <- I1; ring).
      assert (0 < - dphi_0 * a1) by (apply Rmult_lt_0_compat; lra).
      assert (0 < (1 - c1) * (- dphi_0 * a1)) by (apply Rmult_lt_0_compat; lra). lra. }
    assert (0 < a1 ^ 2) by (simpl; rewrite Rmult_1_r; nra). nra. }
  assert (POS : forall m, CubicApproxMinimum dphi_0 (a, b) = Some m -> 0 < m).
  { intros m H. unfold CubicApproxMinimum in H. cbn [fsub fmul fneg fdiv fadd fsqrt R_ops f0] in H. rewrite R_3, R_m1em12 in H.
    destruct (R_feqb a 0) as [HZ|HZ]; cbn [orb] in H; [discriminate|].
    destruct (R_fltb (b * b - 3 * a * dphi_0) (-1 / 1000000000000)) as [HDD|HDD]; [discriminate|].
    injection H as <-. rewrite R_fmax. set (disc := b * b - 3 * a * dphi_0) in *. set (s := sqrt (Rmax disc 0)).
    assert (S0 : 0 <= s) by (apply sqrt_pos).
    assert (S2 : s * s = Rmax disc 0) by (unfold s; apply sqrt_sqrt; apply Rmax_r).
    destruct (Rlt_le_dec 0 a) as [PA|PA].
    - assert (DP : b * b < disc) by (unfold disc; nra).
      rewrite Rmax_left in S2 by nra. apply Rdiv_lt_0_compat; [|lra]. nra.
    - assert (NA : a < 0) by lra. assert (PB : 0 < b) by nra.
      assert (SB : s < b).
      { destruct (Rlt_le_dec disc 0); [rewrite Rmax_right in S2 by lra; nra|].
        rewrite Rmax_left in S2 by lra. assert (disc < b * b) by (unfold disc; nra). nra. }
      replace ((- b + s) / (3 * a)) with ((b - s) / (3 * - a)) by (field; lra). apply Rdiv_lt_0_compat; lra. }
  split; [exact POS|]. intros HG HZ.
  (* g(a1) = a a1^2 + b a1 + dphi >= 0 *)
  assert (GG : 0 <= a * a1 ^ 2 + b * a1 + dphi_0).
  { assert (0 <= a1 * (a * a1 ^ 2 + b * a1 + dphi_0)).
    { replace (a1 * (a * a1 ^ 2 + b * a1 + dphi_0)) with (phi_a1 - phi_0) by (rewrite <- I1; ring). lra. }
    nra. }
  assert (DISC : 0 < b * b - 3 * a * dphi_0).
  { destruct (Rlt_le_dec 0 a) as [PA|PA]; [nra|]. assert (NA : a < 0) by lra.
    (* (2 a a1 + b)^2 = 4 a g(a1) + b^2 - 4 a dphi >= 0 and 4 a g <= 0 *)
    assert (Q : (2 * a * a1 + b) * (2 * a * a1 + b) = 4 * a * (a * a1 ^ 2 + b * a1 + dphi_0) + (b * b - 4 * a * dphi_0)) by ring.
    pose proof (Rle_0_sqr (2 * a * a1 + b)) as SQ. unfold Rsqr in SQ. nra. }
  assert (SM : exists m, CubicApproxMinimum dphi_0 (a, b) = Some m).
  { unfold CubicApproxMinimum. cbn [fsub fmul fneg fdiv fadd fsqrt R_ops f0]. rewrite R_3, R_m1em12.
    destruct (R_feqb a 0); [contradiction|]. cbn [orb].
    destruct (R_fltb (b * b - 3 * a * dphi_0) (-1 / 1000000000000)); [lra|]. eauto. }
  destruct SM as [m SM]. exists m. split; [exact SM|]. split; [apply POS; exact SM|].
  unfold CubicApproxMinimum in SM. cbn [fsub fmul fneg fdiv fadd fsqrt R_ops f0] in SM. rewrite R_3, R_m1em12 in SM.
  destruct (R_feqb a 0); [contradiction|]. cbn [orb] in SM.
  destruct (R_fltb (b * b - 3 * a * dphi_0) (-1 / 1000000000000)); [lra|]. injection SM as SM.
  rewrite R_fmax, Rmax_left in SM by lra. set (disc := b * b - 3 * a * dphi_0) in *. set (s := sqrt disc) in *.
  assert (SP : 0 < s) by (apply sqrt_lt_R0; exact DISC).
  assert (S2 : s * s = disc) by (apply sqrt_sqrt; lra).
  assert (M : 3 * a * m = - b + s) by (rewrite <- SM; field; exact HZ).
  (* p'(a1) = 3a (a1 - m)(a1 - m'), with 3 a m' = - b - s *)
  set (m' := (- b - s) / (3 * a)).
  assert (M' : 3 * a * m' = - b - s) by (unfold m'; field; exact HZ).
  assert (P' : 3 * a * ((a1 - m) * (a1 - m')) = 3 * a * a1 ^ 2 + 2 * b * a1 + dphi_0).
  { apply (Rmult_eq_reg_l (3 * a)); [|lra].
    replace (3 * a * (3 * a * ((a1 - m) * (a1 - m')))) with ((3 * a * a1 - 3 * a * m) * (3 * a * a1 - 3 * a * m')) by ring.
    rewrite M, M'. replace ((3 * a * a1 - (- b + s)) * (3 * a * a1 - (- b - s))) with ((3 * a * a1 + b) * (3 * a * a1 + b) - s * s) by ring.
    rewrite S2. unfold disc. ring. }
  destruct (Rlt_le_dec 0 a) as [PA|PA].
  - assert (DP : 0 < 3 * a * a1 ^ 2 + 2 * b * a1 + dphi_0).
    { replace (3 * a * a1 ^ 2 + 2 * b * a1 + dphi_0) with ((a * a1 ^ 2 + b * a1 + dphi_0) + a1 * (a * a1 + b) + a1 * (a * a1)) by ring.
      assert (0 < a1 * (a * a1 + b)) by (apply Rmult_lt_0_compat; lra). assert (0 < a1 * (a * a1)) by (apply Rmult_lt_0_compat; [lra|apply Rmult_lt_0_compat; lra]). lra. }
    assert (MM : m' < m) by (apply (Rmult_lt_reg_l (3 * a)); lra).
    rewrite <- P' in DP. destruct (Rlt_le_dec m a1) as [|LE]; [assumption|exfalso].
    assert (m' < 0). { assert (b * b < s * s) by (rewrite S2; unfold disc; nra). assert (- b - s < 0).
      { destruct (Rlt_le_dec (- b - s) 0) as [|GE]; [assumption|exfalso]. assert (0 <= (- b - s) * (- b + s)) by (apply Rmult_le_pos; lra). lra. }
      apply (Rmult_lt_reg_l (3 * a)); lra. }
    assert (0 <= (m - a1) * (a1 - m')) by (apply Rmult_le_pos; lra).
    assert (0 <= 3 * a * ((m - a1) * (a1 - m'))) by (apply Rmult_le_pos; lra). lra.
  - assert (NA : a < 0) by lra. assert (PB : 0 < b) by nra.
    destruct (Rlt_le_dec (3 * - a * a1) b) as [LT|GE].
    + assert (DP : 0 < 3 * a * a1 ^ 2 + 2 * b * a1 + dphi_0).
      { replace (3 * a * a1 ^ 2 + 2 * b * a1 + dphi_0) with ((a * a1 ^ 2 + b * a1 + dphi_0) + a1 * (2 * a * a1 + b)) by ring.
        assert (0 < - a * a1) by (apply Rmult_lt_0_compat; lra). assert (0 < 2 * a * a1 + b) by lra. assert (0 < a1 * (2 * a * a1 + b)) by (apply Rmult_lt_0_compat; lra). lra. }
      rewrite <- P' in DP. assert (MM : m < m') by (apply (Rmult_lt_reg_l (3 * - a)); lra).
      destruct (Rlt_le_dec m a1) as [|LE]; [assumption|exfalso].
      assert (0 <= (m - a1) * (m' - a1)) by (apply Rmult_le_pos; lra).
      assert (0 <= 3 * - a * ((m - a1) * (m' - a1))) by (apply Rmult_le_pos; lra). lra.
    + apply (Rmult_lt_reg_l (3 * - a)); lra.
Qed.

(** Finding: when the three data lie on a parabola the fitted cubic coefficient is exactly zero and no step
    is returned, although that parabola has a minimiser; the line search then ends with FAILURE_INVALID_ALPHA. *)
Theorem C30_cubic_gives_up_on_parabola : forall A B C a0 a1 : R,
  let q t := A * t ^ 2 + B * t + C in
  0 < a1 < a0 ->
  exists a b, CubicApproxCoeffs C B a0 (q a0) a1 (q a1) = Ok (a, b) /\ CubicApproxMinimum B (a, b) = None.
Proof.
  intros A B C a0 a1 q H.
  destruct (proj1 (C29_cubic_interpolates C B a0 (q a0) a1 (q a1)) H) as (a & b & E & _ & _ & I0 & I1).
  exists a, b. split; [exact E|].
  assert (Z : a = 0).
  { unfold cubic, q in *.
    assert (E0 : a0 ^ 2 * (a * a0 + b - A) = 0) by lra.
    assert (E1 : a1 ^ 2 * (a * a1 + b - A) = 0) by lra.
    apply Rmult_integral in E0. apply Rmult_integral in E1.
    destruct E0 as [E0|E0]; [exfalso; simpl in E0; nra|]. destruct E1 as [E1|E1]; [exfalso; simpl in E1; nra|].
    assert (a * (a0 - a1) = 0) by lra. apply Rmult_integral in H0. lra. }
  subst a. unfold CubicApproxMinimum. change (@f0 R R_ops) with 0. destruct (R_feqb 0 0); [reflexivity|lra].
Qed.

(** The give-up cannot happen on the first cubic step (the one that follows a quadratic step): if the step
    a1 chosen by the quadratic fit fails the Armijo test with c1 <= 1/2, the fitted cubic is a true cubic. *)
Theorem C30_first_cubic_is_proper : forall phi_0 dphi_0 a0 phi_a0 a1 phi_a1 c1 a b : R,
  0 < a0 -> dphi_0 < 0 -> 0 <= c1 <= 1 / 2 ->
  phi_a0 > phi_0 + dphi_0 * a0 * c1 ->
  QuadraticApproxMinimum phi_0 dphi_0 a0 phi_a0 = Some a1 ->
  phi_a1 > phi_0 + dphi_0 * a1 * c1 ->
  CubicApproxCoeffs phi_0 dphi_0 a0 phi_a0 a1 phi_a1 = Ok (a, b) -> a <> 0.
Proof.
  intros phi_0 dphi_0 a0 phi_a0 a1 phi_a1 c1 a b HA HD HC F0 EQ F1 E Z.
  destruct (C30_quadratic_backtracks phi_0 dphi_0 a0 phi_a0 c1 HA HD ltac:(lra) F0) as (m & EM & [MP _] & MU).
  rewrite EQ in EM. injection EM as <-. specialize (MU (proj2 HC)).
  destruct (proj1 (C29_cubic_interpolates phi_0 dphi_0 a0 phi_a0 a1 phi_a1) (conj MP MU)) as (a' & b' & E' & _ & _ & I0 & I1).
  rewrite E in E'. apply Ok_inj in E'. apply pair_inj in E'. destruct E' as [<- <-].
  unfold cubic in I0, I1. subst a.
  unfold QuadraticApproxMinimum in EQ. cbn [fsub fmul fneg fdiv R_ops f0] in EQ. rewrite R_2 in EQ.
  destruct (R_fgtb dphi_0 0) as [H1|H1]; [lra|]. cbn [orb] in EQ.
  destruct (R_fleb (phi_a0 - dphi_0 * a0 - phi_0) 0) as [H2|H2]; [discriminate|]. injection EQ as EQ.
  assert (N : phi_a0 - dphi_0 * a0 - phi_0 = b * a0 ^ 2) by (rewrite <- I0; ring).
  rewrite N in EQ, H2.
  assert (P2 : 0 < a0 ^ 2) by (simpl; rewrite Rmult_1_r; nra).
  assert (PB : 0 < b) by nra.
  assert (M : 2 * b * a1 = - dphi_0) by (rewrite <- EQ; field; split; lra).
  assert (V : phi_a1 = phi_0 + dphi_0 * a1 * (1 / 2)).
  { rewrite <- I1. replace dphi_0 with (- (2 * b * a1)) by lra. field. }
  assert (dphi_0 * a1 < 0) by nra. nra.
Qed.
