(** IEEE 754 binary64: the instance of [Ops] in which the library really computes.

    [double] is Flocq's type of binary64 data (signed zeros, infinities, one NaN); the operations
    are the correctly rounded ones of IEEE 754, round to nearest even.  Operations whose value
    IEEE 754 does not fix (Eigen's reductions, in which the order of the additions is free, and
    std::pow) are parameters collected in [eigen_red]; every theorem holds for all of them. *)
From Coq Require Import List Bool ZArith QArith Reals Lra Lia.
From Flocq Require Import Core BinarySingleNaN Plus_error Relative.
From Verif Require Import Scalar.
Import ListNotations.
Local Open Scope R_scope.

Definition prec : Z := 53.
Definition emax : Z := 1024.
Global Instance prec_gt_0_ : Prec_gt_0 prec := eq_refl.
Global Instance prec_lt_emax_ : Prec_lt_emax prec emax := eq_refl.
Notation double := (binary_float prec emax).
Notation fexp64 := (SpecFloat.fexp prec emax).
Global Instance fexp64_valid : Valid_exp fexp64 := fexp_correct prec emax prec_gt_0_.
Global Instance fexp64_mono : Monotone_exp fexp64 := fexp_monotone prec emax.

Definition dplus : double -> double -> double := Bplus mode_NE.
Definition dminus : double -> double -> double := Bminus mode_NE.
Definition dmult : double -> double -> double := Bmult mode_NE.
Definition ddiv : double -> double -> double := Bdiv mode_NE.
Definition dofZ (z : Z) : double := binary_normalize prec emax prec_gt_0_ prec_lt_emax_ mode_NE z 0 false.

(** Parameters: results of Eigen's reductions (any order of additions) and of std::pow(x, 3). *)
Record eigen_red : Type := MkRed {
  red_dot : list double -> list double -> double;
  red_sum : list double -> double;
  red_max : list double -> double;
  red_min : list double -> double;
  red_cube : double -> double }.

(** A decimal literal p/q of the sources is the double nearest to p/q; p and q are small enough to
    be exact, so one correctly rounded division computes it. *)
Definition D_ops (e : eigen_red) : Ops double := {|
  f0 := B754_zero false; f1 := dofZ 1;
  fadd := dplus; fsub := dminus; fmul := dmult; fdiv := ddiv;
  fneg := Bopp; fabs := Babs; fsqrt := Bsqrt mode_NE; fcube := red_cube e;
  fltb := Bltb; fleb := Bleb; feqb := Beqb;
  ffinite := is_finite; fnan := B754_nan;
  flit := fun q => ddiv (dofZ (Qnum q)) (dofZ (Zpos (Qden q)));
  fofnat := fun n => dofZ (Z.of_nat n);
  fdot := red_dot e; fsum := red_sum e; fmaxcoeff := red_max e; fmincoeff := red_min e |}.

(** rounding to nearest even in binary64, without overflow *)
Definition rnd (r : R) : R := round radix2 fexp64 ZnearestE r.
Definition big : R := bpow radix2 emax.

Lemma big_pos : 0 < big. Proof. apply bpow_gt_0. Qed.
Lemma rnd_mono : forall a b, a <= b -> rnd a <= rnd b.
Proof. intros. apply round_le; [apply fexp64_valid|apply valid_rnd_N|assumption]. Qed.
Lemma rnd_0 : rnd 0 = 0.
Proof. apply round_0. apply valid_rnd_N. Qed.
Lemma rnd_B2R : forall x : double, rnd (B2R x) = B2R x.
Proof. intro. apply round_generic; [apply valid_rnd_N|apply generic_format_B2R]. Qed.

(** The position of a datum that is not NaN on the extended line; infinities sit at +-2^1024, which
    is beyond every finite datum. *)
Definition ev (x : double) : R :=
  match x with
  | B754_infinity s => if s then - big else big
  | _ => B2R x
  end.

Lemma ev_finite : forall x : double, is_finite x = true -> ev x = B2R x.
Proof. intros [s|s| |s m e H] F; try discriminate; reflexivity. Qed.
Lemma B2R_lt_big : forall x : double, Rabs (B2R x) < big.
Proof. intro. apply abs_B2R_lt_emax. Qed.
Lemma ev_le_big : forall x : double, - big <= ev x <= big.
Proof.
  intro x. pose proof big_pos. pose proof (B2R_lt_big x) as B. apply Rabs_def2 in B.
  destruct x as [s|[|]| |s m e H']; cbn [ev B2R] in *; lra.
Qed.

(** Clamping to the extended line. *)
Definition clampR (r : R) : R := Rmax (- big) (Rmin r big).
Lemma clampR_mono : forall a b, a <= b -> clampR a <= clampR b.
Proof.
  intros. unfold clampR. apply Rle_max_compat_l. unfold Rmin. destruct (Rle_dec a big); destruct (Rle_dec b big); lra.
Qed.
Lemma clampR_id : forall a, Rabs a <= big -> clampR a = a.
Proof.
  intros a H. apply Rabs_le_inv in H. unfold clampR. rewrite Rmin_left by lra. apply Rmax_right. lra.
Qed.
Lemma clampR_hi : forall a, big <= a -> clampR a = big.
Proof. intros a H. pose proof big_pos. unfold clampR. rewrite Rmin_right by lra. apply Rmax_right. lra. Qed.
Lemma clampR_lo : forall a, a <= - big -> clampR a = - big.
Proof. intros a H. pose proof big_pos. unfold clampR. rewrite Rmin_left by lra. apply Rmax_left. lra. Qed.

(** Comparisons of non-NaN data are comparisons of positions. *)
Lemma Bltb_ev : forall x y : double, is_nan x = false -> is_nan y = false ->
  Bltb x y = Rlt_bool (ev x) (ev y).
Proof.
  intros x y Nx Ny. pose proof big_pos as BP.
  destruct (is_finite x) eqn:Fx; destruct (is_finite y) eqn:Fy.
  - rewrite Bltb_correct, !ev_finite by assumption. reflexivity.
  - rewrite (ev_finite x Fx). pose proof (B2R_lt_big x) as B. apply Rabs_def2 in B.
    destruct y as [s|[|]| |s m e H]; try discriminate; cbn [ev];
    destruct x as [s'|s'| |s' m' e' H']; try discriminate; try destruct s'; cbn -[B2R big Rlt_bool] in *;
      symmetry; first [apply Rlt_bool_true; lra | apply Rlt_bool_false; lra].
  - rewrite (ev_finite y Fy). pose proof (B2R_lt_big y) as B. apply Rabs_def2 in B.
    destruct x as [s|[|]| |s m e H]; try discriminate; cbn [ev];
    destruct y as [s'|s'| |s' m' e' H']; try discriminate; try destruct s'; cbn -[B2R big Rlt_bool] in *;
      symmetry; first [apply Rlt_bool_true; lra | apply Rlt_bool_false; lra].
  - destruct x as [s|[|]| |s m e H]; try discriminate; destruct y as [s'|[|]| |s' m' e' H']; try discriminate;
      cbn -[B2R big Rlt_bool] in *;
      symmetry; first [apply Rlt_bool_true; lra | apply Rlt_bool_false; lra].
Qed.

Lemma Bleb_ev : forall x y : double, is_nan x = false -> is_nan y = false ->
  Bleb x y = Rle_bool (ev x) (ev y).
Proof.
  intros x y Nx Ny.
  assert (E : Bleb x y = negb (Bltb y x)).
  { unfold Bleb, Bltb, SpecFloat.SFleb, SpecFloat.SFltb.
    change (SpecFloat.SFcompare (B2SF x) (B2SF y)) with (Bcompare x y).
    change (SpecFloat.SFcompare (B2SF y) (B2SF x)) with (Bcompare y x).
    rewrite (Bcompare_swap _ _ x y).
    assert (C : Bcompare x y <> None).
    { unfold Bcompare. destruct x as [?|[|]| |[|] ? ? ?]; destruct y as [?|[|]| |[|] ? ? ?]; try discriminate. }
    destruct (Bcompare x y) as [[| |]|]; try reflexivity. contradiction C; reflexivity. }
  rewrite E, Bltb_ev by assumption. case Rle_bool_spec; intro; [rewrite Rlt_bool_false|rewrite Rlt_bool_true]; auto.
Qed.

Lemma Bleb_true : forall x y : double, Bleb x y = true ->
  is_nan x = false /\ is_nan y = false /\ ev x <= ev y.
Proof.
  intros x y H. assert (Nx : is_nan x = false) by (destruct x; auto).
  assert (Ny : is_nan y = false) by (destruct y; auto; destruct x as [?|[|]| |[|] ? ? ?]; discriminate).
  repeat split; auto. rewrite Bleb_ev in H by assumption. revert H. case Rle_bool_spec; [auto|discriminate].
Qed.
Lemma Bltb_true : forall x y : double, Bltb x y = true ->
  is_nan x = false /\ is_nan y = false /\ ev x < ev y.
Proof.
  intros x y H. assert (Nx : is_nan x = false) by (destruct x; auto).
  assert (Ny : is_nan y = false) by (destruct y; auto; destruct x as [?|[|]| |[|] ? ? ?]; discriminate).
  repeat split; auto. rewrite Bltb_ev in H by assumption. revert H. case Rlt_bool_spec; [auto|discriminate].
Qed.
Lemma Bleb_false : forall x y : double, is_nan x = false -> is_nan y = false -> Bleb x y = false -> ev y < ev x.
Proof. intros x y A B. rewrite Bleb_ev by assumption. case Rle_bool_spec; [discriminate|auto]. Qed.
Lemma Bltb_false : forall x y : double, is_nan x = false -> is_nan y = false -> Bltb x y = false -> ev y <= ev x.
Proof. intros x y A B. rewrite Bltb_ev by assumption. case Rlt_bool_spec; [discriminate|auto]. Qed.
Lemma Bltb_nan_l : forall y : double, Bltb B754_nan y = false. Proof. reflexivity. Qed.
Lemma Bltb_nan_r : forall x : double, Bltb x B754_nan = false.
Proof. destruct x as [?|[|]| |[|] ? ? ?]; reflexivity. Qed.
Lemma Bleb_nan_r : forall x : double, Bleb x B754_nan = false.
Proof. destruct x as [?|[|]| |[|] ? ? ?]; reflexivity. Qed.

Lemma sign_pos : forall x : double, is_nan x = false -> Bsign x = false -> 0 <= ev x.
Proof.
  intros [s|s| |s m e H] _ E; cbn in E; try subst s; cbn [ev B2R]; try lra.
  - apply Rlt_le, big_pos.
  - apply F2R_ge_0. cbn. lia.
Qed.
Lemma sign_neg : forall x : double, is_nan x = false -> Bsign x = true -> ev x <= 0.
Proof.
  intros [s|s| |s m e H] N E; cbn in E; try subst s; try discriminate; cbn [ev B2R]; try lra.
  - pose proof big_pos. lra.
  - apply F2R_le_0. cbn. lia.
Qed.
Lemma B2SF_inf : forall (x : double) s, B2SF x = SpecFloat.S754_infinity s -> x = B754_infinity s.
Proof. intros x s H; destruct x; try discriminate. inversion H. reflexivity. Qed.
Lemma overflow_NE : forall s, binary_overflow prec emax mode_NE s = SpecFloat.S754_infinity s.
Proof. reflexivity. Qed.

Lemma finite_not_nan : forall x : double, is_finite x = true -> is_nan x = false.
Proof. intros [?|?| |? ? ? ?]; auto. Qed.
Lemma rnd_opp : forall r, rnd (- r) = - rnd r.
Proof. intro. apply round_NE_opp. Qed.

(** The result of an operation on finite operands is the clamped rounding of the exact result. *)
Definition approximates (z : double) (r : R) : Prop := is_nan z = false /\ ev z = clampR (rnd r).

Lemma approximates_finite : forall z r, is_finite z = true -> B2R z = rnd r -> approximates z r.
Proof.
  intros z r F E. split; [apply finite_not_nan; exact F|]. rewrite ev_finite by exact F. rewrite E.
  symmetry. apply clampR_id. rewrite <- E. apply Rlt_le, B2R_lt_big.
Qed.
Lemma approximates_overflow : forall z r s, B2SF z = SpecFloat.S754_infinity s ->
  big <= Rabs (rnd r) -> (s = false -> 0 <= r) -> (s = true -> r <= 0) -> approximates z r.
Proof.
  intros z r s E B P N. apply B2SF_inf in E. subst z. split; [reflexivity|]. cbn [ev].
  pose proof big_pos. destruct s.
  - assert (rnd r <= 0) by (rewrite <- rnd_0; apply rnd_mono; auto).
    rewrite Rabs_left1 in B by lra. symmetry. apply clampR_lo. lra.
  - assert (0 <= rnd r) by (rewrite <- rnd_0; apply rnd_mono; auto).
    rewrite Rabs_pos_eq in B by lra. symmetry. apply clampR_hi. lra.
Qed.

Lemma Bsign_R : forall x : double, is_finite x = true ->
  (Bsign x = false -> 0 <= B2R x) /\ (Bsign x = true -> B2R x <= 0).
Proof.
  intros x F. rewrite <- (ev_finite x F). split; intro; [apply sign_pos|apply sign_neg]; auto; apply finite_not_nan; auto.
Qed.

Lemma dplus_approx : forall x y : double, is_finite x = true -> is_finite y = true ->
  approximates (dplus x y) (B2R x + B2R y).
Proof.
  intros x y Fx Fy. pose proof (Bplus_correct prec emax _ _ mode_NE x y Fx Fy) as H.
  destruct (Bsign_R x Fx) as [Px Nx]. destruct (Bsign_R y Fy) as [Py Ny].
  cbn [round_mode] in H. fold (rnd (B2R x + B2R y)) big in H. revert H. case Rlt_bool_spec; intros B H.
  - destruct H as (E & F & _). apply approximates_finite; auto.
  - destruct H as [E S]. rewrite overflow_NE in E. eapply approximates_overflow; [exact E|exact B| |]; intro X; rewrite X in *.
    + specialize (Px eq_refl). specialize (Py (eq_sym S)). lra.
    + specialize (Nx eq_refl). specialize (Ny (eq_sym S)). lra.
Qed.
Lemma dminus_approx : forall x y : double, is_finite x = true -> is_finite y = true ->
  approximates (dminus x y) (B2R x - B2R y).
Proof.
  intros x y Fx Fy. pose proof (Bminus_correct prec emax _ _ mode_NE x y Fx Fy) as H.
  destruct (Bsign_R x Fx) as [Px Nx]. destruct (Bsign_R y Fy) as [Py Ny].
  cbn [round_mode] in H. fold (rnd (B2R x - B2R y)) big in H. revert H. case Rlt_bool_spec; intros B H.
  - destruct H as (E & F & _). apply approximates_finite; auto.
  - destruct H as [E S]. rewrite overflow_NE in E. eapply approximates_overflow; [exact E|exact B| |]; intro X; rewrite X in *;
    destruct (Bsign y); try discriminate.
    + specialize (Px eq_refl). specialize (Ny eq_refl). lra.
    + specialize (Nx eq_refl). specialize (Py eq_refl). lra.
Qed.
Lemma dmult_approx : forall x y : double, is_finite x = true -> is_finite y = true ->
  approximates (dmult x y) (B2R x * B2R y).
Proof.
  intros x y Fx Fy. pose proof (Bmult_correct prec emax _ _ mode_NE x y) as H.
  destruct (Bsign_R x Fx) as [Px Nx]. destruct (Bsign_R y Fy) as [Py Ny].
  cbn [round_mode] in H. fold (rnd (B2R x * B2R y)) big in H. revert H. case Rlt_bool_spec; intros B H.
  - destruct H as (E & F & _). apply approximates_finite; auto. unfold dmult. rewrite F, Fx, Fy. reflexivity.
  - rewrite overflow_NE in H. eapply approximates_overflow; [exact H|exact B| |]; intro X;
    destruct (Bsign x), (Bsign y); try discriminate;
    repeat match goal with K : ?a = ?a -> _ |- _ => specialize (K eq_refl) end.
    + replace (B2R x * B2R y) with (- B2R x * - B2R y) by ring. apply Rmult_le_pos; lra.
    + apply Rmult_le_pos; lra.
    + assert (0 <= - B2R x * B2R y) by (apply Rmult_le_pos; lra). lra.
    + assert (0 <= B2R x * - B2R y) by (apply Rmult_le_pos; lra). lra.
Qed.
Lemma ddiv_approx : forall x y : double, is_finite x = true -> is_finite y = true -> B2R y <> 0 ->
  approximates (ddiv x y) (B2R x / B2R y).
Proof.
  intros x y Fx Fy Y. pose proof (Bdiv_correct prec emax _ _ mode_NE x y Y) as H.
  destruct (Bsign_R x Fx) as [Px Nx]. destruct (Bsign_R y Fy) as [Py Ny].
  cbn [round_mode] in H. fold (rnd (B2R x / B2R y)) big in H. revert H. case Rlt_bool_spec; intros B H.
  - destruct H as (E & F & _). apply approximates_finite; auto. unfold ddiv. rewrite F, Fx. reflexivity.
  - rewrite overflow_NE in H. eapply approximates_overflow; [exact H|exact B| |]; intro X;
    destruct (Bsign x), (Bsign y); try discriminate;
    repeat match goal with K : ?a = ?a -> _ |- _ => specialize (K eq_refl) end;
    unfold Rdiv.
    + assert (0 < / - B2R y) by (apply Rinv_0_lt_compat; lra).
      replace (B2R x * / B2R y) with (- B2R x * / - B2R y) by (field; lra). apply Rmult_le_pos; lra.
    + assert (0 < / B2R y) by (apply Rinv_0_lt_compat; lra). apply Rmult_le_pos; lra.
    + assert (0 < / B2R y) by (apply Rinv_0_lt_compat; lra).
      assert (0 <= - B2R x * / B2R y) by (apply Rmult_le_pos; lra). lra.
    + assert (0 < / - B2R y) by (apply Rinv_0_lt_compat; lra).
      assert (0 <= B2R x * / - B2R y) by (apply Rmult_le_pos; lra).
      replace (B2R x * / B2R y) with (- (B2R x * / - B2R y)) by (field; lra). lra.
Qed.

(** Sums of two data never underflow to zero: the sign of x + y survives rounding. *)
Lemma rnd_plus_neq_0 : forall x y : double, B2R x + B2R y <> 0 -> rnd (B2R x + B2R y) <> 0.
Proof.
  intros x y H. unfold rnd.
  change fexp64 with (FLT_exp (3 - emax - prec) prec).
  apply round_plus_neq_0; [apply FLT_exp_valid|apply (monotone_exp_not_FTZ _)|apply valid_rnd_N| | |exact H].
  - apply prec_gt_0_.
  - apply (generic_format_B2R prec emax).
  - apply (generic_format_B2R prec emax).
Qed.
