(** Properties of the scalar kernels in IEEE binary64 arithmetic (rounding, infinities, NaN):
    C01-C03 (bounds on variables), C06/C07 (step lengths), C11/C12 (maxima with NaN). *)
From Coq Require Import String List Bool ZArith QArith Reals Lra Lia.
From Flocq Require Import Core BinarySingleNaN Plus_error Relative.
From Verif Require Import Scalar Outcome LinAlg Structs Constraint QPModel FloatInst.
Import ListNotations.
Local Open Scope R_scope.

Lemma dofZ_exact : forall z : Z, (Z.abs z < 2 ^ 53)%Z -> is_finite (dofZ z) = true /\ B2R (dofZ z) = IZR z.
Proof.
  intros z Hz. pose proof (binary_normalize_correct prec emax _ _ mode_NE z 0 false) as H. cbv zeta in H.
  assert (E : F2R (Float radix2 z 0) = IZR z) by (unfold F2R; cbn; ring).
  rewrite E in H. cbn [round_mode] in H. fold (rnd (IZR z)) in H.
  assert (G : generic_format radix2 fexp64 (IZR z)).
  { change fexp64 with (FLT_exp (3 - emax - prec) prec). apply generic_format_FLT.
    exists (Float radix2 z 0); [symmetry; exact E|exact Hz|cbn; lia]. }
  assert (R1 : rnd (IZR z) = IZR z) by (apply round_generic; [apply valid_rnd_N|exact G]).
  rewrite R1 in H. rewrite Rlt_bool_true in H; [tauto|].
  rewrite <- abs_IZR. apply Rlt_trans with (IZR (2 ^ 53)); [apply IZR_lt; exact Hz|].
  change (IZR (2 ^ 53)) with (bpow radix2 53). apply bpow_lt. reflexivity.
Qed.

Lemma d1_finite : is_finite (dofZ 1) = true. Proof. apply (dofZ_exact 1). reflexivity. Qed.
Lemma d1_B2R : B2R (dofZ 1) = 1. Proof. apply (dofZ_exact 1). reflexivity. Qed.
Lemma d1_shape : exists m e H, dofZ 1 = B754_finite false m e H.
Proof. eexists. eexists. eexists. reflexivity. Qed.

Lemma dmult_1_l : forall x : double, dmult (dofZ 1) x = x.
Proof.
  intro x. destruct (is_finite x) eqn:Fx.
  - pose proof (Bmult_correct prec emax _ _ mode_NE (dofZ 1) x) as H. cbn [round_mode] in H.
    rewrite d1_B2R, Rmult_1_l in H. fold (rnd (B2R x)) in H. rewrite rnd_B2R in H.
    rewrite Rlt_bool_true in H by apply B2R_lt_big. destruct H as (A & B & C).
    rewrite d1_finite, Fx in B. apply B2R_Bsign_inj; auto.
    unfold dmult. rewrite C by (apply finite_not_nan; exact B). destruct d1_shape as (? & ? & ? & ->). destruct (Bsign x); reflexivity.
  - destruct d1_shape as (? & ? & ? & ->). destruct x as [s|s| |s m e H]; try discriminate; [|reflexivity].
    destruct s; reflexivity.
Qed.
Lemma dmult_m1_l : forall x : double, dmult (Bopp (dofZ 1)) x = Bopp x.
Proof.
  intro x. destruct (is_finite x) eqn:Fx.
  - pose proof (Bmult_correct prec emax _ _ mode_NE (Bopp (dofZ 1)) x) as H. cbn [round_mode] in H.
    rewrite B2R_Bopp, d1_B2R in H. replace (- (1) * B2R x) with (B2R (Bopp x)) in H by (rewrite B2R_Bopp; ring).
    fold (rnd (B2R (Bopp x))) in H. rewrite rnd_B2R in H.
    rewrite Rlt_bool_true in H by apply B2R_lt_big. destruct H as (A & B & C).
    rewrite is_finite_Bopp, d1_finite, Fx in B. apply B2R_Bsign_inj; auto; [rewrite is_finite_Bopp; exact Fx|].
    unfold dmult. rewrite C by (apply finite_not_nan; exact B).
    destruct d1_shape as (? & ? & ? & ->). destruct x as [[|]|[|]| |[|] ? ? ?]; try discriminate; reflexivity.
  - destruct d1_shape as (? & ? & ? & ->). destruct x as [s|s| |s m e H]; try discriminate; [|reflexivity].
    destruct s; reflexivity.
Qed.
Lemma ddiv_1_r : forall x : double, ddiv x (dofZ 1) = x.
Proof.
  intro x. destruct (is_finite x) eqn:Fx.
  - assert (N : B2R (dofZ 1) <> 0) by (rewrite d1_B2R; lra).
    pose proof (Bdiv_correct prec emax _ _ mode_NE x (dofZ 1) N) as H. cbn [round_mode] in H.
    rewrite d1_B2R in H. replace (B2R x / 1) with (B2R x) in H by field. fold (rnd (B2R x)) in H. rewrite rnd_B2R in H.
    rewrite Rlt_bool_true in H by apply B2R_lt_big. destruct H as (A & B & C).
    rewrite Fx in B. apply B2R_Bsign_inj; auto.
    unfold ddiv. rewrite C by (apply finite_not_nan; exact B). destruct d1_shape as (? & ? & ? & ->). destruct (Bsign x); reflexivity.
  - destruct d1_shape as (? & ? & ? & ->). destruct x as [s|s| |s m e H]; try discriminate; [|reflexivity].
    destruct s; reflexivity.
Qed.

Lemma clampR_pos : forall r, 0 <= r -> 0 <= clampR r.
Proof. intros r H. pose proof big_pos. rewrite <- (clampR_id 0) by (rewrite Rabs_R0; lra). apply clampR_mono. exact H. Qed.
Lemma clampR_spos : forall r, 0 < r -> 0 < clampR r.
Proof.
  intros r H. pose proof big_pos. unfold clampR. apply Rlt_le_trans with (Rmin r big); [|apply Rmax_r].
  unfold Rmin. destruct (Rle_dec r big); lra.
Qed.
Lemma clampR_sneg : forall r, r < 0 -> clampR r < 0.
Proof.
  intros r H. pose proof big_pos. unfold clampR. rewrite Rmin_left by lra. unfold Rmax. destruct (Rle_dec (- big) r); lra.
Qed.

(** Subtraction decides comparisons exactly: rounding never changes the sign of x - v. *)
Lemma sub_sign : forall x v : double, is_finite x = true -> is_finite v = true ->
  forall z, approximates z (B2R x - B2R v) -> Bleb (B754_zero false) z = Rle_bool (B2R v) (B2R x).
Proof.
  intros x v Fx Fv z [N E]. rewrite Bleb_ev by auto. cbn [ev B2R]. rewrite E.
  case (Rle_bool_spec (B2R v)); intro H.
  - apply Rle_bool_true. apply clampR_pos. rewrite <- rnd_0. apply rnd_mono. lra.
  - apply Rle_bool_false. apply clampR_sneg.
    assert (A : rnd (B2R x - B2R v) <= 0) by (rewrite <- rnd_0; apply rnd_mono; lra).
    assert (B : rnd (B2R x - B2R v) <> 0).
    { replace (B2R x - B2R v) with (B2R x + B2R (Bopp v)) by (rewrite B2R_Bopp; ring).
      apply rnd_plus_neq_0. rewrite B2R_Bopp. lra. }
    lra.
Qed.

Lemma approximates_R : forall z r, approximates z r -> Rabs (rnd r) < big -> is_finite z = true /\ B2R z = rnd r.
Proof.
  intros z r [N E] B. rewrite clampR_id in E by lra.
  destruct z as [s|s| |s m e H]; try discriminate; try (split; [reflexivity|exact E]).
  exfalso. rewrite <- E in B. pose proof big_pos. cbn [ev] in B. destruct s; [rewrite Rabs_Ropp in B|]; rewrite Rabs_pos_eq in B; lra.
Qed.

Definition fmt (r : R) : Prop := generic_format radix2 fexp64 r.
Lemma rnd_fmt : forall r, fmt r -> rnd r = r.
Proof. intros. apply round_generic; [apply valid_rnd_N|assumption]. Qed.
Lemma fmt_F2R : forall m e : Z, (Z.abs m < 2 ^ 53)%Z -> (-1074 <= e)%Z -> fmt (IZR m * bpow radix2 e).
Proof.
  intros m e Hm He. unfold fmt. change fexp64 with (FLT_exp (3 - emax - prec) prec). apply generic_format_FLT.
  exists (Float radix2 m e); [reflexivity|exact Hm|exact He].
Qed.
Lemma fmt_bpow : forall e : Z, (-1074 <= e)%Z -> fmt (bpow radix2 e).
Proof. intros e He. rewrite <- (Rmult_1_l (bpow radix2 e)). apply (fmt_F2R 1); [reflexivity|exact He]. Qed.

Definition eta : R := bpow radix2 (-1075).
Lemma eta_pos : 0 < eta. Proof. apply bpow_gt_0. Qed.
(** error of one rounding: relative 2^-53 or absolute 2^-1075 *)
Lemma rnd_error : forall x, 0 <= x -> x * (1 - / 1000000) - eta <= rnd x <= x * (1 + / 1000000) + eta.
Proof.
  intros x Hx. destruct (error_N_FLT radix2 (3 - emax - prec) prec prec_gt_0_ (fun t => negb (Z.even t)) x) as (ep & et & A & B & _ & E).
  change (round radix2 (FLT_exp (3 - emax - prec) prec) (Znearest (fun t => negb (Z.even t))) x) with (rnd x) in E.
  rewrite E.
  assert (U : / 2 * bpow radix2 (- prec + 1) <= / 1000000).
  { change (- prec + 1)%Z with (-52)%Z. cbn [bpow radix2 radix_val]. 
    change (Z.pow_pos 2 52) with 4503599627370496%Z. lra. }
  assert (V : / 2 * bpow radix2 (3 - emax - prec) = eta).
  { unfold eta. change (3 - emax - prec)%Z with (-1074)%Z. replace (-1074)%Z with (1 + -1075)%Z by lia. rewrite bpow_plus.
    change (bpow radix2 1) with 2. field. }
  rewrite V in B. assert (A' : Rabs ep <= / 1000000) by lra. apply Rabs_le_inv in A', B. nra.
Qed.

Lemma lit_0_995_bounds : forall red, is_finite (flit (Ops := D_ops red) lit_0_995) = true /\
  1 / 2 <= B2R (flit (Ops := D_ops red) lit_0_995) <= 255 / 256.
Proof.
  intro red. cbn [flit D_ops lit_0_995 Qnum Qden].
  destruct (dofZ_exact 995 ltac:(reflexivity)) as [F1 E1]. destruct (dofZ_exact 1000 ltac:(reflexivity)) as [F2 E2].
  pose proof (ddiv_approx _ _ F1 F2 ltac:(rewrite E2; lra)) as A. rewrite E1, E2 in A.
  assert (L : rnd (1 / 2) = 1 / 2) by (apply rnd_fmt; replace (1/2) with (IZR 1 * bpow radix2 (-1)) by (cbn; lra); apply fmt_F2R; [reflexivity|lia]).
  assert (H : rnd (255 / 256) = 255 / 256) by (apply rnd_fmt; replace (255/256) with (IZR 255 * bpow radix2 (-8)) by (cbn; lra); apply fmt_F2R; [reflexivity|lia]).
  assert (B1 : rnd (1 / 2) <= rnd (995 / 1000)) by (apply rnd_mono; lra).
  assert (B2 : rnd (995 / 1000) <= rnd (255 / 256)) by (apply rnd_mono; lra).
  assert (BB : 1 < big) by (unfold big; change 1 with (bpow radix2 0); apply bpow_lt; reflexivity).
  apply approximates_R in A; [|rewrite Rabs_pos_eq; lra]. destruct A as [A1 A2]. split; [exact A1|]. rewrite A2. lra.
Qed.

Section Ops.
  Variable red : eigen_red.
  Let O : Ops double := D_ops red.
  Local Existing Instance O.

  (** C01 in binary64: for every finite x and EVERY bound v (finite, infinite or NaN) the test decides
      exactly what the comparison of x with v decides; rounding plays no role. *)
  Theorem C01_binary64_Var_ge : forall (i : Z) (v x : double), is_finite x = true ->
    IsFeasible (O := O) (Var_ge (O := O) i v) x = Bleb v x.
  Proof.
    intros i v x Fx. unfold IsFeasible, Var_ge, fgeb. cbn [la lb fadd fmul fneg f0 f1 fleb O D_ops].
    rewrite dmult_1_l. destruct (is_finite v) eqn:Fv.
    - rewrite (sub_sign x v) by (auto; replace (B2R x - B2R v) with (B2R x + B2R (Bopp v)) by (rewrite B2R_Bopp; ring);
        apply dplus_approx; auto; rewrite is_finite_Bopp; exact Fv).
      rewrite Bleb_correct by auto. reflexivity.
    - destruct v as [s|[|]| |s m e H]; try discriminate; destruct x as [s'|s'| |[|] m' e' H']; try discriminate; reflexivity.
  Qed.
  Theorem C01_binary64_Var_le : forall (i : Z) (v x : double), is_finite x = true ->
    IsFeasible (O := O) (Var_le (O := O) i v) x = Bleb x v.
  Proof.
    intros i v x Fx. unfold IsFeasible, Var_le, fgeb. cbn [la lb fadd fmul fneg f0 f1 fleb O D_ops].
    rewrite dmult_m1_l. destruct (is_finite v) eqn:Fv.
    - rewrite (sub_sign v x) by (auto; replace (B2R v - B2R x) with (B2R (Bopp x) + B2R v) by (rewrite B2R_Bopp; ring);
        apply dplus_approx; auto; rewrite is_finite_Bopp; exact Fx).
      rewrite Bleb_correct by auto. reflexivity.
    - destruct v as [s|[|]| |s m e H]; try discriminate; destruct x as [s'|s'| |[|] m' e' H']; try discriminate; reflexivity.
  Qed.
  (** Non-finite points: NaN is never feasible; an infinite point is infeasible for the infinite bound
      it equals (finding: inf - inf is NaN). *)
  Theorem C01_binary64_non_finite : forall (i : Z) (v : double),
    IsFeasible (O := O) (Var_ge (O := O) i v) B754_nan = false /\
    IsFeasible (O := O) (Var_le (O := O) i v) B754_nan = false /\
    IsFeasible (O := O) (Var_ge (O := O) i (B754_infinity false)) (B754_infinity false) = false /\
    IsFeasible (O := O) (Var_le (O := O) i (B754_infinity true)) (B754_infinity true) = false.
  Proof. intros i v. repeat split; try reflexivity; destruct v as [?|[|]| |? ? ? ?]; reflexivity. Qed.

  (** C02 in binary64: for bounds on variables ClampX is exact: it returns x if x satisfies the bound
      and otherwise the bound itself, with no rounding, for every x and v except NaN. *)
  Theorem C02_binary64_ClampX : forall (i : Z) (v x : double), is_nan v = false -> is_nan x = false ->
    ClampX (O := O) (Var_ge (O := O) i v) x = Ok (if Bltb x v then v else x) /\
    ClampX (O := O) (Var_le (O := O) i v) x = Ok (if Bltb v x then v else x).
  Proof.
    intros i v x Nv Nx. unfold ClampX, Var_ge, Var_le. cbn [la lb fneg fdiv fltb feqb f0 f1 O D_ops].
    assert (A : Beqb (dofZ 1) (B754_zero false) = false) by reflexivity.
    assert (B : Beqb (Bopp (dofZ 1)) (B754_zero false) = false) by reflexivity.
    assert (C : Bltb (dofZ 1) (B754_zero false) = false) by reflexivity.
    assert (D : Bltb (Bopp (dofZ 1)) (B754_zero false) = true) by reflexivity.
    rewrite A, B, C, D. cbn [negb f_assert bind]. rewrite !Bopp_involutive, !ddiv_1_r.
    unfold fmax, fmin. cbn [fltb O D_ops]. split; reflexivity.
  Qed.

  (** C03 in binary64: the shifted constraint holds at dx = 0 exactly when the original one holds at x,
      for every finite coefficient and every x, b (NaN and infinities included). *)
  Theorem C03_binary64_ShiftTo_origin : forall (c : lic double) (x : double), is_finite (la c) = true ->
    IsFeasible (O := O) (ShiftTo (O := O) c x) f0 = IsFeasible (O := O) c x.
  Proof.
    intros [i a b] x Fa. unfold IsFeasible, ShiftTo, fgeb. cbn [la lb fadd fmul f0 fleb O D_ops] in *.
    set (b' := dplus (dmult a x) b).
    assert (Z : exists s, dmult a (B754_zero false) = B754_zero s).
    { destruct a as [s|s| |s m e H]; try discriminate; eexists; reflexivity. }
    destruct Z as [s ->]. destruct b' as [[|]|[|]| |[|] m e H]; destruct s; reflexivity.
  Qed.

  (** One entry of the ratio test. *)
  Definition dstep (tau alpha : double) (vd : double * double) : double :=
    let (v, dv) := vd in
    if fleb (fadd v dv) f0 && fgtb (fabs dv) f0
    then let candidate := fdiv (fmul (fneg tau) v) dv in
         if fltb candidate alpha then candidate else alpha
    else alpha.

  Definition unit_step (a : double) : Prop := is_finite a = true /\ 0 < B2R a <= 1.
  (** An entry the test can handle: v is positive, and when the full step would make it non-positive
      neither v nor the ratio v/|dv| is within a factor 2^14 of the underflow threshold 2^-1074. *)
  Definition tame (v dv : double) : Prop :=
    is_finite v = true /\ is_finite dv = true /\ 0 < B2R v /\
    (B2R v + B2R dv <= 0 -> bpow radix2 (-1060) <= B2R v /\ bpow radix2 (-1060) * - B2R dv <= B2R v).
  Definition keeps (a v dv : double) : Prop := Bltb f0 (dplus v (dmult dv a)) = true.

  Lemma full_sum : forall v dv : double, is_finite v = true -> is_finite dv = true ->
    Bleb (dplus v dv) (B754_zero false) = Rle_bool (B2R v + B2R dv) 0.
  Proof.
    intros v dv Fv Fd. destruct (dplus_approx v dv Fv Fd) as [N E]. rewrite Bleb_ev by auto. cbn [ev B2R]. rewrite E.
    case (Rle_bool_spec (B2R v + B2R dv)); intro H.
    - apply Rle_bool_true. pose proof big_pos. rewrite <- (clampR_id 0) by (rewrite Rabs_R0; lra). apply clampR_mono.
      rewrite <- rnd_0. apply rnd_mono. lra.
    - apply Rle_bool_false. apply clampR_spos.
      assert (A : 0 <= rnd (B2R v + B2R dv)) by (rewrite <- rnd_0; apply rnd_mono; lra).
      assert (B : rnd (B2R v + B2R dv) <> 0) by (apply rnd_plus_neq_0; lra). lra.
  Qed.

  (** For a step in (0,1], an entry stays positive as soon as the rounded decrease is below v. *)
  Lemma mult_unit : forall a dv : double, unit_step a -> is_finite dv = true ->
    is_finite (dmult dv a) = true /\ B2R (dmult dv a) = rnd (B2R a * B2R dv).
  Proof.
    intros a dv [Fa Ha] Fd. apply approximates_R; [rewrite Rmult_comm; apply dmult_approx; auto|].
    apply Rle_lt_trans with (Rabs (B2R dv)); [|apply B2R_lt_big].
    destruct (Rle_dec 0 (B2R dv)) as [P|P].
    - rewrite (Rabs_pos_eq (B2R dv)) by lra. rewrite Rabs_pos_eq.
      + rewrite <- (rnd_B2R dv) at 2. apply rnd_mono. nra.
      + rewrite <- rnd_0. apply rnd_mono. nra.
    - rewrite (Rabs_left (B2R dv)) by lra. rewrite Rabs_left1.
      + apply Ropp_le_contravar. rewrite <- (rnd_B2R dv) at 1. apply rnd_mono. nra.
      + rewrite <- rnd_0. apply rnd_mono. nra.
  Qed.
  Lemma keeps_R : forall a v dv : double, unit_step a -> is_finite v = true -> is_finite dv = true ->
    0 < B2R v + rnd (B2R a * B2R dv) -> keeps a v dv.
  Proof.
    intros a v dv U Fv Fd H. destruct (mult_unit a dv U Fd) as [Fm Em]. unfold keeps. cbn [f0 O D_ops].
    destruct (dplus_approx v _ Fv Fm) as [N E]. rewrite Em in E. rewrite Bltb_ev by auto. apply Rlt_bool_true.
    cbn [ev B2R]. rewrite E. apply clampR_spos.
    assert (A : 0 <= rnd (B2R v + rnd (B2R a * B2R dv))) by (rewrite <- rnd_0; apply rnd_mono; lra).
    assert (B : rnd (B2R v + rnd (B2R a * B2R dv)) <> 0) by (rewrite <- Em; apply rnd_plus_neq_0; rewrite Em; lra). lra.
  Qed.

  Lemma big_gt_1 : 1 < big.
  Proof. unfold big. change 1 with (bpow radix2 0). apply bpow_lt. reflexivity. Qed.

  (** The candidate step of an entry a full step would make non-positive. *)
  Lemma candidate_spec : forall tau v dv : double,
    is_finite tau = true -> 1 / 2 <= B2R tau <= 255 / 256 -> tame v dv -> B2R v + B2R dv <= 0 ->
    let c := ddiv (dmult (Bopp tau) v) dv in
    unit_step c /\ (forall a, unit_step a -> B2R a <= B2R c -> keeps a v dv).
  Proof.
    intros tau v dv Ft Ht (Fv & Fd & Pv & T) Hn c. destruct (T Hn) as [T1 T2]. clear T.
    set (V := B2R v) in *. set (D := - B2R dv) in *. assert (HD : V <= D) by (unfold D; lra).
    pose proof eta_pos as EP. pose proof big_gt_1 as BG. pose proof big_pos as BP.
    assert (E1 : eta * 32768 = bpow radix2 (-1060)).
    { unfold eta. change 32768 with (bpow radix2 15). rewrite <- bpow_plus. reflexivity. }
    assert (W : 0 < B2R tau * V <= 255 / 256 * V) by (split; [apply Rmult_lt_0_compat; lra|apply Rmult_le_compat_r; lra]).
    assert (W2 : 1 / 2 * V <= B2R tau * V) by (apply Rmult_le_compat_r; lra).
    (* the product *)
    set (w := B2R tau * V) in *. pose proof (rnd_error w ltac:(lra)) as RW.
    assert (RV : rnd w <= V) by (unfold V; rewrite <- (rnd_B2R v); apply rnd_mono; fold V; lra).
    pose proof (B2R_lt_big v) as BV. fold V in BV. rewrite Rabs_pos_eq in BV by lra.
    pose proof (B2R_lt_big dv) as BD. rewrite Rabs_left1 in BD by (unfold D in *; lra). fold D in BD.
    assert (AP : approximates (dmult (Bopp tau) v) (- w)).
    { replace (- w) with (B2R (Bopp tau) * B2R v) by (rewrite B2R_Bopp; unfold w, V; ring). apply dmult_approx; auto. rewrite is_finite_Bopp. exact Ft. }
    apply approximates_R in AP; [|rewrite rnd_opp, Rabs_Ropp, Rabs_pos_eq by lra; lra].
    destruct AP as [FP EPp]. rewrite rnd_opp in EPp.
    (* the quotient *)
    assert (ID : 0 < / D) by (apply Rinv_0_lt_compat; lra).
    set (q := rnd w * / D).
    assert (Hq : q * D = rnd w) by (unfold q; field; lra).
    assert (q0 : 0 <= q) by (unfold q; apply Rmult_le_pos; lra).
    assert (q1 : q <= 1) by (apply Rmult_le_reg_r with D; lra).
    assert (q2 : bpow radix2 (-1062) <= q).
    { apply Rmult_le_reg_r with D; [lra|]. rewrite Hq.
      replace (bpow radix2 (-1062)) with (/ 4 * bpow radix2 (-1060)); [lra|].
      change (-1060)%Z with (2 + -1062)%Z. rewrite bpow_plus. change (bpow radix2 2) with 4. field. }
    assert (AC : approximates c q).
    { unfold c. replace q with (B2R (dmult (Bopp tau) v) / B2R dv).
      - apply ddiv_approx; auto. unfold D in *. lra.
      - rewrite EPp. unfold q, D. field. unfold D in *. lra. }
    assert (RQ : bpow radix2 (-1062) <= rnd q <= 1).
    { split.
      - rewrite <- (rnd_fmt (bpow radix2 (-1062))) by (apply fmt_bpow; lia). apply rnd_mono. exact q2.
      - rewrite <- d1_B2R. rewrite <- (rnd_B2R (dofZ 1)). apply rnd_mono. rewrite d1_B2R. exact q1. }
    pose proof (bpow_gt_0 radix2 (-1062)) as B62.
    apply approximates_R in AC; [|rewrite Rabs_pos_eq; lra]. destruct AC as [FC EC].
    split; [split; [exact FC|rewrite EC; lra]|].
    intros a U Ha. apply keeps_R; auto. destruct U as [Fa Ua].
    replace (B2R a * B2R dv) with (- (B2R a * D)) by (unfold D; ring). rewrite rnd_opp.
    rewrite EC in Ha. pose proof (rnd_error q q0) as Rq.
    assert (S1 : B2R a * D <= rnd q * D) by (apply Rmult_le_compat_r; lra).
    assert (S2 : rnd q * D <= (q * (1 + / 1000000) + eta) * D) by (apply Rmult_le_compat_r; lra).
    assert (S3 : (q * (1 + / 1000000) + eta) * D = (q * D) * (1 + / 1000000) + eta * D) by ring.
    rewrite Hq in S3. assert (S4 : 0 <= B2R a * D) by (apply Rmult_le_pos; lra).
    pose proof (rnd_error (B2R a * D) S4) as Rf. fold V.
    assert (S5 : eta * D * 32768 <= V) by (rewrite <- E1 in T2; lra).
    assert (S6 : eta * 32768 <= V) by lra.
    lra.
  Qed.

  Lemma not_cut_keeps : forall a v dv : double, unit_step a -> is_finite v = true -> is_finite dv = true ->
    0 < B2R v -> 0 < B2R v + B2R dv -> keeps a v dv.
  Proof.
    intros a v dv U Fv Fd Pv H. apply keeps_R; auto. destruct U as [Fa Ua]. destruct (Rle_dec 0 (B2R dv)) as [P|P].
    - assert (0 <= rnd (B2R a * B2R dv)) by (rewrite <- rnd_0; apply rnd_mono; nra). lra.
    - assert (B2R dv <= rnd (B2R a * B2R dv)) by (rewrite <- (rnd_B2R dv) at 1; apply rnd_mono; nra). lra.
  Qed.

  Lemma dstep_spec : forall tau alpha v dv : double,
    is_finite tau = true -> 1 / 2 <= B2R tau <= 255 / 256 -> tame v dv -> unit_step alpha ->
    unit_step (dstep tau alpha (v, dv)) /\ B2R (dstep tau alpha (v, dv)) <= B2R alpha /\
    (forall a, unit_step a -> B2R a <= B2R (dstep tau alpha (v, dv)) -> keeps a v dv).
  Proof.
    intros tau alpha v dv Ft Ht TM U. pose proof TM as (Fv & Fd & Pv & _). unfold dstep, fgtb.
    cbn [fleb fadd f0 fabs fltb fdiv fmul fneg O D_ops]. rewrite full_sum by auto.
    case (Rle_bool_spec (B2R v + B2R dv)); intro H; cbn [andb].
    - assert (E : Bltb (B754_zero false) (Babs dv) = true).
      { rewrite Bltb_correct by (auto; rewrite is_finite_Babs; exact Fd). apply Rlt_bool_true. rewrite B2R_Babs. cbn [B2R].
        apply Rabs_pos_lt. lra. }
      rewrite E. destruct (candidate_spec tau v dv Ft Ht TM H) as [UC KC]. set (c := ddiv (dmult (Bopp tau) v) dv) in *.
      cbv zeta. rewrite Bltb_correct by (apply UC || apply U). case Rlt_bool_spec; intro L.
      + split; [exact UC|]. split; [lra|exact KC].
      + split; [exact U|]. split; [lra|]. intros a Ua La. apply KC; [exact Ua|lra].
    - split; [exact U|]. split; [lra|]. intros a Ua La. apply not_cut_keeps; auto.
  Qed.

  Lemma dfold_spec : forall tau l alpha,
    is_finite tau = true -> 1 / 2 <= B2R tau <= 255 / 256 ->
    Forall (fun vd => tame (fst vd) (snd vd)) l -> unit_step alpha ->
    let a' := fold_left (dstep tau) l alpha in
    unit_step a' /\ B2R a' <= B2R alpha /\ Forall (fun vd => keeps a' (fst vd) (snd vd)) l.
  Proof.
    intros tau l. induction l as [|[v dv] l IH]; intros alpha Ft Ht HT U; cbn [fold_left].
    - repeat split; try apply U; auto. lra.
    - inversion HT as [|? ? T1 T2]; subst. cbn [fst snd] in T1.
      destruct (dstep_spec tau alpha v dv Ft Ht T1 U) as (U1 & L1 & K1).
      destruct (IH (dstep tau alpha (v, dv)) Ft Ht T2 U1) as (U2 & L2 & K2). cbv zeta in *.
      split; [exact U2|]. split; [lra|]. constructor; [|exact K2]. cbn [fst snd]. apply K1; [exact U2|exact L2].
  Qed.

  (** C07 in binary64: for all vectors of positive doubles and all finite directions, with the tau the
      solver uses, the computed step is in (0,1] and the updated entries v + alpha*dv, as computed, are
      all strictly positive, provided the entries a full step would make non-positive are not within a
      factor 2^14 of underflow. *)
  Theorem C07_binary64_step_length : forall val dval : list double,
    length val = length dval ->
    (forall i, (i < length val)%nat -> tame (nth i val f0) (nth i dval f0)) ->
    exists alpha, ComputeAlphaVec (O := O) val dval (flit lit_0_995) = Ok alpha /\
      is_finite alpha = true /\ 0 < B2R alpha <= 1 /\
      forall i, (i < length val)%nat ->
        Bltb f0 (fadd (nth i val f0) (fmul (nth i dval f0) alpha)) = true.
  Proof.
    intros val dval HL HT. destruct (lit_0_995_bounds red) as [Ft Ht]. fold O in Ft, Ht. set (tau := flit lit_0_995) in *. clearbody tau. unfold ComputeAlphaVec.
    rewrite HL, Nat.eqb_refl. cbn [f_assert bind].
    assert (A : fgtb tau f0 = true).
    { unfold fgtb. cbn [fltb f0 O D_ops]. rewrite Bltb_correct by auto. apply Rlt_bool_true. cbn [B2R]. lra. }
    assert (B : fleb tau f1 = true).
    { cbn [fleb f1 O D_ops]. rewrite Bleb_correct by (auto; apply d1_finite). apply Rle_bool_true. rewrite d1_B2R. lra. }
    rewrite A, B. cbn [f_assert bind]. eexists. split; [reflexivity|].
    change (fold_left _ (combine val dval) f1) with (fold_left (dstep tau) (combine val dval) (dofZ 1)).
    assert (HF : Forall (fun vd => tame (fst vd) (snd vd)) (combine val dval)).
    { apply Forall_forall. intros vd Hin. apply (In_nth _ _ (f0, f0)) in Hin. destruct Hin as (i & Hi & <-).
      rewrite combine_length in Hi. rewrite combine_nth by exact HL. cbn [fst snd]. apply HT. lia. }
    assert (U1 : unit_step (dofZ 1)) by (split; [apply d1_finite|rewrite d1_B2R; lra]).
    destruct (dfold_spec tau (combine val dval) (dofZ 1) Ft Ht HF U1) as ([F U] & _ & K). cbv zeta in *.
    split; [exact F|]. split; [exact U|]. intros i Hi. rewrite Forall_forall in K.
    specialize (K (nth i val f0, nth i dval f0)). cbn [fst snd] in K. apply K.
    rewrite <- combine_nth by exact HL. apply nth_In. rewrite combine_length. lia.
  Qed.

  (** The smallest positive double 2^-1074. *)
  Definition dmin_pos : double := binary_normalize prec emax prec_gt_0_ prec_lt_emax_ mode_NE 1 (-1074) false.
  Definition dpow2 (e : Z) : double := binary_normalize prec emax prec_gt_0_ prec_lt_emax_ mode_NE 1 e false.

  (** C07: the proviso is needed (finding). With v = 2^-1074 and the direction -v, and with v = 2^-500
      and the direction -5 * 2^572, the computed step makes the updated entry zero or negative. *)
  Theorem C07_binary64_underflow_refuted :
    (exists alpha, ComputeAlphaVec (O := O) [dmin_pos] [Bopp dmin_pos] (flit lit_0_995) = Ok alpha /\
       Bltb f0 dmin_pos = true /\ Bltb f0 (fadd dmin_pos (fmul (Bopp dmin_pos) alpha)) = false) /\
    (let v := dpow2 (-500) in let dv := dmult (Bopp (dofZ 5)) (dpow2 572) in
     exists alpha, ComputeAlphaVec (O := O) [v] [dv] (flit lit_0_995) = Ok alpha /\
       Bltb f0 v = true /\ Bltb (fadd v (fmul dv alpha)) f0 = true).
  Proof.
    split; [|cbv zeta]; eexists; (split; [reflexivity|]); split; vm_compute; reflexivity.
  Qed.

  (** A case in which the proviso holds and the step is cut: v = (1, 2), dv = (-4, 1). *)
  Example C07_binary64_case : 
    (forall i, (i < 2)%nat -> tame (nth i [dofZ 1; dofZ 2] f0) (nth i [dofZ (-4); dofZ 1] f0)) /\
    exists alpha, ComputeAlphaVec (O := O) [dofZ 1; dofZ 2] [dofZ (-4); dofZ 1] (flit lit_0_995) = Ok alpha /\
      Bltb alpha (dofZ 1) = true.
  Proof.
    split.
    - intros i Hi. destruct (dofZ_exact 1 ltac:(reflexivity)) as [F1 E1]. destruct (dofZ_exact 2 ltac:(reflexivity)) as [F2 E2].
      destruct (dofZ_exact (-4) ltac:(reflexivity)) as [F4 E4].
      assert (S : bpow radix2 (-1060) < 1 / 4).
      { replace (1 / 4) with (bpow radix2 (-2)) by (cbn; lra). apply bpow_lt. lia. }
      pose proof (bpow_gt_0 radix2 (-1060)).
      destruct i as [|[|i]]; [| |lia]; cbn [nth]; unfold tame; rewrite ?E1, ?E2, ?E4; repeat split; auto; try lra.
    - eexists. split; [reflexivity|]. vm_compute. reflexivity.
  Qed.

  (** ** Maxima and NaN (C11, C12) *)
  Lemma fmax_d : forall a b : double, is_nan a = false ->
    is_nan (fmax a b) = false /\ ev a <= ev (fmax a b) /\ (is_nan b = false -> ev b <= ev (fmax a b)) /\
    (fmax a b = a \/ fmax a b = b).
  Proof.
    intros a b Na. unfold fmax. cbn [fltb O D_ops]. destruct (Bltb a b) eqn:E.
    - apply Bltb_true in E. destruct E as (_ & Nb & L). repeat split; auto; try lra.
    - repeat split; auto; try lra. intro Nb. apply Bltb_false in E; auto.
  Qed.
  Lemma fmax_nan_l : forall b : double, fmax B754_nan b = B754_nan. Proof. reflexivity. Qed.

  (** C11 in binary64: the maximum is NaN exactly when the FIRST component is NaN; otherwise it bounds
      all components that are not NaN and is one of the components. NaN in any other component is
      silently dropped (finding). *)
  Theorem C11_binary64_max : forall k : KKTError double,
    (is_nan (KKT_Max k) = is_nan (r_dual k)) /\
    (is_nan (r_dual k) = false ->
       (forall c, In c [r_dual k; r_comp k; r_primal_eq k; r_primal_ineq k] ->
          is_nan c = true \/ ev c <= ev (KKT_Max k)) /\
       In (KKT_Max k) [r_dual k; r_comp k; r_primal_eq k; r_primal_ineq k]).
  Proof.
    intros [a b c d]. unfold KKT_Max, fmax_list. cbn [fold_left r_dual r_comp r_primal_eq r_primal_ineq].
    destruct (is_nan a) eqn:Na.
    - assert (a = B754_nan) by (destruct a; try discriminate; reflexivity). subst a. rewrite !fmax_nan_l. split; [reflexivity|discriminate].
    - destruct (fmax_d a b Na) as (N1 & A1 & B1 & C1). set (m1 := fmax a b) in *.
      destruct (fmax_d m1 c N1) as (N2 & A2 & B2 & C2). set (m2 := fmax m1 c) in *.
      destruct (fmax_d m2 d N2) as (N3 & A3 & B3 & C3). set (m3 := fmax m2 d) in *.
      split; [exact N3|]. intros _. split.
      + intros x [<-|[<-|[<-|[<-|[]]]]].
        * right. lra.
        * destruct (is_nan b) eqn:E; [left; reflexivity|right]. specialize (B1 eq_refl). lra.
        * destruct (is_nan c) eqn:E; [left; reflexivity|right]. specialize (B2 eq_refl). lra.
        * destruct (is_nan d) eqn:E; [left; reflexivity|right]. specialize (B3 eq_refl). lra.
      + destruct C3 as [->| ->]; [|cbn; tauto]. destruct C2 as [->| ->]; [|cbn; tauto]. destruct C1 as [->| ->]; cbn; tauto.
  Qed.
  Theorem C11_binary64_nan_dropped : forall x y z : double, is_nan x = false ->
    KKT_Max (MkKKT x B754_nan B754_nan B754_nan) = x /\
    Errors_LInfinity (MkErrors x B754_nan) = x /\
    Errors_LInfinity (MkErrors B754_nan x) = B754_nan /\
    DD_LInfinity (MkDD x B754_nan) = Babs x /\
    is_nan (KKT_Max (MkKKT B754_nan x y z)) = true.
  Proof.
    intros x y z Nx. unfold KKT_Max, fmax_list, Errors_LInfinity, DD_LInfinity, fmax.
    cbn [fold_left r_dual r_comp r_primal_eq r_primal_ineq err_f err_equality d_f d_equality fltb fabs O D_ops Babs].
    rewrite !Bltb_nan_r. repeat split; reflexivity.
  Qed.

  (** C12 in binary64: a test Max() < tol that succeeds guarantees that the dual residual is a number
      below tol and that every other residual is below tol or NaN. *)
  Theorem C12_binary64_tolerance_test : forall (k : KKTError double) (tol : double),
    fltb (KKT_Max k) tol = true ->
    Bltb (r_dual k) tol = true /\
    (forall c, In c [r_comp k; r_primal_eq k; r_primal_ineq k] -> is_nan c = true \/ Bltb c tol = true).
  Proof.
    intros k tol H. cbn [fltb O D_ops] in H. apply Bltb_true in H. destruct H as (NM & NT & L).
    destruct (C11_binary64_max k) as [E M]. rewrite E in NM. destruct (M NM) as [U _].
    assert (G : forall c, is_nan c = false -> ev c <= ev (KKT_Max k) -> Bltb c tol = true).
    { intros c Nc Lc. rewrite Bltb_ev by auto. apply Rlt_bool_true. lra. }
    split.
    - destruct (U (r_dual k) (or_introl eq_refl)) as [X|X]; [congruence|auto].
    - intros c Hc. destruct (U c (or_intror Hc)) as [X|X]; [left; exact X|].
      destruct (is_nan c) eqn:Nc; [left; reflexivity|right; auto].
  Qed.
End Ops.
