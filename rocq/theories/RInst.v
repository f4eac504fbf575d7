(** Exact real arithmetic: the instance [R_ops] of [Ops R] and finite sums. *)
From Coq Require Import List Bool Arith ZArith QArith Reals Qreals Lra Lia.
From Verif Require Import Scalar LinAlg.
Import ListNotations.
Local Open Scope R_scope.

Definition Rltb (a b : R) : bool := if Rlt_dec a b then true else false.
Definition Rleb (a b : R) : bool := if Rle_dec a b then true else false.
Definition Reqb (a b : R) : bool := if Req_EM_T a b then true else false.

Lemma Rltb_spec : forall a b, reflect (a < b) (Rltb a b).
Proof. intros. unfold Rltb. destruct (Rlt_dec a b); constructor; assumption. Qed.
Lemma Rleb_spec : forall a b, reflect (a <= b) (Rleb a b).
Proof. intros. unfold Rleb. destruct (Rle_dec a b); constructor; assumption. Qed.
Lemma Reqb_spec : forall a b, reflect (a = b) (Reqb a b).
Proof. intros. unfold Reqb. destruct (Req_EM_T a b); constructor; assumption. Qed.

Fixpoint Rdot (u v : list R) : R :=
  match u, v with
  | x :: u', y :: v' => x * y + Rdot u' v'
  | _, _ => 0
  end.
Fixpoint Rlsum (l : list R) : R :=
  match l with [] => 0 | x :: l' => x + Rlsum l' end.
(** maxCoeff / minCoeff of a non-empty vector *)
Definition Rmaxcoeff (l : list R) : R :=
  match l with [] => 0 | x :: l' => fold_left Rmax l' x end.
Definition Rmincoeff (l : list R) : R :=
  match l with [] => 0 | x :: l' => fold_left Rmin l' x end.

(** There is no NaN among the reals and every real is finite; [fnan] is an arbitrary value, used
    only for fields that are documented as unset. *)
Global Instance R_ops : Ops R := {|
  f0 := 0; f1 := 1;
  fadd := Rplus; fsub := Rminus; fmul := Rmult; fdiv := Rdiv;
  fneg := Ropp; fabs := Rabs; fsqrt := sqrt; fcube := fun x => x ^ 3;
  fltb := Rltb; fleb := Rleb; feqb := Reqb;
  ffinite := fun _ => true; fnan := 0;
  flit := Q2R; fofnat := INR;
  fdot := Rdot; fsum := Rlsum; fmaxcoeff := Rmaxcoeff; fmincoeff := Rmincoeff |}.

(** Sum of f 0 .. f (n-1). *)
Fixpoint Rsum (n : nat) (f : nat -> R) : R :=
  match n with O => 0 | S n' => Rsum n' f + f n' end.

Lemma Rsum_ext : forall n f g, (forall i, (i < n)%nat -> f i = g i) -> Rsum n f = Rsum n g.
Proof.
  induction n; intros f g H; simpl; [reflexivity|].
  rewrite (IHn f g) by (intros; apply H; lia). rewrite H by lia. reflexivity.
Qed.

Lemma Rsum_0 : forall n f, (forall i, (i < n)%nat -> f i = 0) -> Rsum n f = 0.
Proof.
  induction n; intros f H; simpl; [reflexivity|].
  rewrite IHn by (intros; apply H; lia). rewrite H by lia. ring.
Qed.

Lemma Rsum_plus : forall n f g, Rsum n (fun i => f i + g i) = Rsum n f + Rsum n g.
Proof. induction n; intros; simpl; [ring|]. rewrite IHn. ring. Qed.
Lemma Rsum_minus : forall n f g, Rsum n (fun i => f i - g i) = Rsum n f - Rsum n g.
Proof. induction n; intros; simpl; [ring|]. rewrite IHn. ring. Qed.
Lemma Rsum_opp : forall n f, Rsum n (fun i => - f i) = - Rsum n f.
Proof. induction n; intros; simpl; [ring|]. rewrite IHn. ring. Qed.
Lemma Rsum_scal_l : forall n a f, Rsum n (fun i => a * f i) = a * Rsum n f.
Proof. induction n; intros; simpl; [ring|]. rewrite IHn. ring. Qed.
Lemma Rsum_scal_r : forall n a f, Rsum n (fun i => f i * a) = Rsum n f * a.
Proof. induction n; intros; simpl; [ring|]. rewrite IHn. ring. Qed.

Lemma Rsum_swap : forall n m (f : nat -> nat -> R),
  Rsum n (fun i => Rsum m (fun j => f i j)) = Rsum m (fun j => Rsum n (fun i => f i j)).
Proof.
  induction n; intros m f; simpl.
  - symmetry. apply Rsum_0. reflexivity.
  - rewrite IHn. rewrite <- Rsum_plus. reflexivity.
Qed.

Lemma Rsum_delta : forall n k (f : nat -> R), (k < n)%nat ->
  Rsum n (fun i => if Nat.eqb i k then f i else 0) = f k.
Proof.
  induction n; intros k f H; [lia|]. simpl.
  destruct (Nat.eqb_spec n k) as [->|Hne].
  - rewrite Rsum_0; [ring|]. intros i Hi. destruct (Nat.eqb_spec i k); [lia|reflexivity].
  - rewrite IHn by lia. ring.
Qed.

Lemma Rsum_delta_out : forall n k (f : nat -> R), (n <= k)%nat ->
  Rsum n (fun i => if Nat.eqb i k then f i else 0) = 0.
Proof.
  intros. apply Rsum_0. intros i Hi. destruct (Nat.eqb_spec i k); [lia|reflexivity].
Qed.

Lemma Rsum_app : forall n m f, Rsum (n + m) f = Rsum n f + Rsum m (fun i => f (n + i)%nat).
Proof.
  intros n m f. induction m; simpl.
  - rewrite Nat.add_0_r. ring.
  - rewrite Nat.add_succ_r. simpl. rewrite IHm. ring.
Qed.

Lemma Rsum_S_first : forall n f, Rsum (S n) f = f O + Rsum n (fun i => f (S i)).
Proof.
  intros n f. induction n; [simpl; ring|].
  change (Rsum (S (S n)) f) with (Rsum (S n) f + f (S n)). rewrite IHn. simpl. ring.
Qed.

Lemma Rsum_nonneg : forall n f, (forall i, (i < n)%nat -> 0 <= f i) -> 0 <= Rsum n f.
Proof.
  induction n; intros f H; simpl; [lra|].
  assert (0 <= Rsum n f) by (apply IHn; intros; apply H; lia).
  assert (0 <= f n) by (apply H; lia). lra.
Qed.

Lemma Rsum_le : forall n f g, (forall i, (i < n)%nat -> f i <= g i) -> Rsum n f <= Rsum n g.
Proof.
  induction n; intros f g H; simpl; [lra|].
  assert (Rsum n f <= Rsum n g) by (apply IHn; intros; apply H; lia).
  assert (f n <= g n) by (apply H; lia). lra.
Qed.

Lemma Rsum_pos_term : forall n f k, (forall i, (i < n)%nat -> 0 <= f i) -> (k < n)%nat ->
  f k <= Rsum n f.
Proof.
  induction n; intros f k H Hk; [lia|]. simpl.
  destruct (Nat.eq_dec k n) as [->|Hne].
  - assert (0 <= Rsum n f) by (apply Rsum_nonneg; intros; apply H; lia). lra.
  - assert (f k <= Rsum n f) by (apply IHn; [intros; apply H; lia|lia]).
    assert (0 <= f n) by (apply H; lia). lra.
Qed.

Lemma Rsum_zero_terms : forall n f, (forall i, (i < n)%nat -> 0 <= f i) -> Rsum n f = 0 ->
  forall k, (k < n)%nat -> f k = 0.
Proof.
  intros n f H H0 k Hk. assert (f k <= Rsum n f) by (apply Rsum_pos_term; assumption).
  assert (0 <= f k) by (apply H; assumption). lra.
Qed.

Lemma Rsum_Rabs : forall n f, Rabs (Rsum n f) <= Rsum n (fun i => Rabs (f i)).
Proof.
  induction n; intros; simpl; [rewrite Rabs_R0; lra|].
  eapply Rle_trans; [apply Rabs_triang|]. specialize (IHn f). lra.
Qed.

(** Dot products and list sums as sums. *)
Lemma Rdot_Rsum : forall u v, length u = length v ->
  Rdot u v = Rsum (length u) (fun i => vget u i * vget v i).
Proof.
  induction u as [|x u IH]; intros [|y v] H; simpl in H; try discriminate; [reflexivity|].
  cbn [length]. rewrite Rsum_S_first. simpl Rdot. rewrite IH by congruence. reflexivity.
Qed.

Lemma Rdot_n : forall n u v, length u = n -> length v = n ->
  Rdot u v = Rsum n (fun i => vget u i * vget v i).
Proof. intros n u v <- H. apply Rdot_Rsum. congruence. Qed.

Lemma Rlsum_Rsum : forall u, Rlsum u = Rsum (length u) (fun i => vget u i).
Proof.
  induction u as [|x u IH]; [reflexivity|].
  cbn [length]. rewrite Rsum_S_first. simpl Rlsum. rewrite IH. reflexivity.
Qed.

Lemma Rdot_sym : forall u v, Rdot u v = Rdot v u.
Proof. induction u; intros [|y v]; simpl; auto. rewrite IHu. ring. Qed.

Lemma Rdot_self_nonneg : forall u, 0 <= Rdot u u.
Proof. induction u; simpl; [lra|]. nra. Qed.

Lemma sq_nonneg : forall x : R, 0 <= x * x.
Proof. intro x. apply Rle_0_sqr. Qed.

(** Cauchy-Schwarz for [Rsum]. *)
Lemma Rsum_CS_aux : forall n f g t,
  0 <= Rsum n (fun i => f i * f i) - 2 * t * Rsum n (fun i => f i * g i)
       + t * t * Rsum n (fun i => g i * g i).
Proof.
  intros n f g t.
  replace (Rsum n (fun i => f i * f i) - 2 * t * Rsum n (fun i => f i * g i)
       + t * t * Rsum n (fun i => g i * g i))
    with (Rsum n (fun i => (f i - t * g i) * (f i - t * g i))).
  - apply Rsum_nonneg. intros. apply sq_nonneg.
  - rewrite <- !Rsum_scal_l, <- Rsum_minus, <- Rsum_plus. apply Rsum_ext. intros; ring.
Qed.

Lemma Rsum_CS2 : forall n f g,
  (Rsum n (fun i => f i * g i)) ^ 2 <= Rsum n (fun i => f i * f i) * Rsum n (fun i => g i * g i).
Proof.
  intros n f g.
  set (A := Rsum n (fun i => f i * f i)). set (B := Rsum n (fun i => f i * g i)).
  set (C := Rsum n (fun i => g i * g i)).
  assert (HA : 0 <= A) by (apply Rsum_nonneg; intros; apply sq_nonneg).
  assert (HC : 0 <= C) by (apply Rsum_nonneg; intros; apply sq_nonneg).
  assert (Q : forall t, 0 <= A - 2 * t * B + t * t * C) by (intro t; apply Rsum_CS_aux).
  destruct (Req_dec C 0) as [C0|C0].
  - assert (B = 0).
    { apply Rsum_0. intros i Hi.
      assert (g i * g i = 0).
      { apply (Rsum_zero_terms n (fun i => g i * g i)); auto. intros; apply sq_nonneg. }
      assert (g i = 0) by (destruct (Rmult_integral _ _ H); assumption). rewrite H0. ring. }
    rewrite H, C0. lra.
  - assert (0 < C) by lra.
    specialize (Q (B / C)).
    replace (A - 2 * (B / C) * B + B / C * (B / C) * C) with ((A * C - B ^ 2) / C) in Q
      by (field; lra).
    assert (0 <= A * C - B ^ 2).
    { apply Rmult_le_reg_r with (/ C); [apply Rinv_0_lt_compat; lra|].
      rewrite Rmult_0_l. exact Q. }
    lra.
Qed.

Lemma Rsum_CS : forall n f g,
  Rabs (Rsum n (fun i => f i * g i))
    <= sqrt (Rsum n (fun i => f i * f i)) * sqrt (Rsum n (fun i => g i * g i)).
Proof.
  intros n f g.
  rewrite <- sqrt_mult by (apply Rsum_nonneg; intros; apply sq_nonneg).
  rewrite <- sqrt_Rsqr_abs. apply sqrt_le_1_alt. unfold Rsqr.
  pose proof (Rsum_CS2 n f g). simpl in H. rewrite Rmult_1_r in H. exact H.
Qed.

(** Comparison booleans of [R_ops], in [destruct]-friendly form. *)
Lemma R_fltb : forall a b : R, reflect (a < b) (fltb a b).
Proof. exact Rltb_spec. Qed.
Lemma R_fleb : forall a b : R, reflect (a <= b) (fleb a b).
Proof. exact Rleb_spec. Qed.
Lemma R_feqb : forall a b : R, reflect (a = b) (feqb a b).
Proof. exact Reqb_spec. Qed.
Lemma R_fgtb : forall a b : R, reflect (a > b) (fgtb a b).
Proof. intros. apply Rltb_spec. Qed.
Lemma R_fgeb : forall a b : R, reflect (a >= b) (fgeb a b).
Proof.
  intros. unfold fgeb. destruct (R_fleb b a); constructor; lra.
Qed.
Lemma R_fmax : forall a b : R, fmax a b = Rmax a b.
Proof.
  intros. unfold fmax. destruct (R_fltb a b); unfold Rmax; destruct (Rle_dec a b); lra.
Qed.
Lemma R_fmin : forall a b : R, fmin a b = Rmin a b.
Proof.
  intros. unfold fmin. destruct (R_fltb b a); unfold Rmin; destruct (Rle_dec a b); lra.
Qed.

Lemma Q2R_lit : forall n d, Q2R (n # d) = IZR n / IZR (Zpos d).
Proof. reflexivity. Qed.

Lemma R_half : flit lit_half = 1 / 2. Proof. reflexivity. Qed.
Lemma R_2 : flit lit_2 = 2. Proof. simpl. unfold Q2R; simpl. lra. Qed.
Lemma R_3 : flit lit_3 = 3. Proof. simpl. unfold Q2R; simpl. lra. Qed.
Lemma R_10 : flit lit_10 = 10. Proof. simpl. unfold Q2R; simpl. lra. Qed.
Lemma R_0_1 : flit lit_0_1 = 1 / 10. Proof. reflexivity. Qed.
Lemma R_0_995 : flit lit_0_995 = 995 / 1000. Proof. reflexivity. Qed.
Lemma R_1em9 : flit lit_1em9 = 1 / 1000000000. Proof. reflexivity. Qed.
Lemma R_1em4 : flit lit_1em4 = 1 / 10000. Proof. reflexivity. Qed.
Lemma R_1em6 : flit lit_1em6 = 1 / 1000000. Proof. reflexivity. Qed.
Lemma R_m1em12 : flit lit_m1em12 = -1 / 1000000000000. Proof. reflexivity. Qed.
