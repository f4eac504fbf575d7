(** C01-C03 in exact arithmetic: half lines, projection, re-linearisation. *)
From Coq Require Import String List Bool ZArith Reals Lra Lia.
From Verif Require Import Scalar Outcome LinAlg Constraint RInst.
Import ListNotations.
Local Open Scope R_scope.

(** C01: Var(i) >= v. *)
Theorem C01_Var_ge : forall (i : Z) (v x : R),
  lvar (Var_ge i v) = i /\ (IsFeasible (Var_ge i v) x = true <-> x >= v).
Proof.
  intros i v x. split; [reflexivity|].
  unfold IsFeasible. destruct (R_fgeb (fadd (fmul (la (Var_ge i v)) x) (lb (Var_ge i v))) f0) as [H|H];
    simpl in *; split; intros; try discriminate; auto; try lra.
Qed.

(** C01: Var(i) <= v. *)
Theorem C01_Var_le : forall (i : Z) (v x : R),
  lvar (Var_le i v) = i /\ (IsFeasible (Var_le i v) x = true <-> x <= v).
Proof.
  intros i v x. split; [reflexivity|].
  unfold IsFeasible. destruct (R_fgeb (fadd (fmul (la (Var_le i v)) x) (lb (Var_le i v))) f0) as [H|H];
    simpl in *; split; intros; try discriminate; auto; try lra.
Qed.

Example C01_case : IsFeasible (Var_ge 3 (2 : R)) 5 = true /\ IsFeasible (Var_le 3 (2 : R)) 5 = false.
Proof.
  split.
  - apply C01_Var_ge. lra.
  - destruct (IsFeasible (Var_le 3 (2 : R)) 5) eqn:E; auto. apply C01_Var_le in E. lra.
Qed.

Lemma IsFeasible_R : forall (c : lic R) (x : R), IsFeasible c x = true <-> la c * x + lb c >= 0.
Proof.
  intros c x. unfold IsFeasible.
  destruct (R_fgeb (fadd (fmul (la c) x) (lb c)) f0) as [H|H]; simpl in *;
    split; intros; auto; try discriminate; exfalso; auto.
Qed.

(** C02: ClampX throws iff a = 0, and otherwise returns the feasible point nearest to x; feasible
    points are fixed and clamping is idempotent. *)
Theorem C02_ClampX_projection : forall (c : lic R) (x : R),
  (la c = 0 -> exists w, ClampX c x = Throw (AssertFailed w)) /\
  (la c <> 0 -> exists y, ClampX c x = Ok y /\
      IsFeasible c y = true /\
      (forall y', IsFeasible c y' = true -> Rabs (y - x) <= Rabs (y' - x)) /\
      (IsFeasible c x = true -> y = x) /\
      ClampX c y = Ok y).
Proof.
  intros [i a b] x. unfold ClampX. cbn [la lb].
  split.
  - intros ->. destruct (R_feqb 0 f0) as [H|H]; simpl in *; [eauto|congruence].
  - intros Ha.
    destruct (R_feqb a f0) as [H0|_]; [simpl in H0; congruence|].
    cbn [negb f_assert bind].
    destruct (R_fltb a f0) as [Hneg|Hpos]; simpl in Hneg || simpl in Hpos.
    + exists (fmin x (fdiv b (fneg a))). rewrite R_fmin. cbn [fdiv fneg R_ops].
      assert (Hi : 0 < / - a) by (apply Rinv_0_lt_compat; lra).
      assert (Hb : a * (b / - a) + b = 0) by (field; lra).
      set (m := b / - a) in *.
      assert (Feas : forall y, IsFeasible (LIC i a b) y = true <-> y <= m).
      { intros y. rewrite IsFeasible_R. cbn [la lb].
        replace (a * y + b) with (a * (y - m)) by (replace b with (- a * m) by lra; ring).
        split; intros; nra. }
      repeat split.
      * apply Feas. apply Rmin_r.
      * intros y' Hy'. apply Feas in Hy'. unfold Rmin. destruct (Rle_dec x m) as [Hx|Hx].
        { rewrite Rminus_diag_eq, Rabs_R0 by reflexivity. apply Rabs_pos. }
        { rewrite !Rabs_left1 by lra. lra. }
      * intros Hx. apply Feas in Hx. unfold Rmin. destruct (Rle_dec x m); lra.
      * f_equal. rewrite R_fmin. unfold Rmin.
        destruct (Rle_dec x m); destruct (Rle_dec _ _); lra.
    + assert (0 < a) by lra.
      exists (fmax x (fdiv (fneg b) a)). rewrite R_fmax. cbn [fdiv fneg R_ops].
      assert (Hb : a * (- b / a) + b = 0) by (field; lra).
      set (m := - b / a) in *.
      assert (Feas : forall y, IsFeasible (LIC i a b) y = true <-> y >= m).
      { intros y. rewrite IsFeasible_R. cbn [la lb].
        replace (a * y + b) with (a * (y - m)) by (replace b with (- a * m) by lra; ring).
        split; intros; nra. }
      repeat split.
      * apply Feas. apply Rle_ge, Rmax_r.
      * intros y' Hy'. apply Feas in Hy'. unfold Rmax. destruct (Rle_dec x m) as [Hx|Hx].
        { rewrite !Rabs_pos_eq by lra. lra. }
        { rewrite Rminus_diag_eq, Rabs_R0 by reflexivity. apply Rabs_pos. }
      * intros Hx. apply Feas in Hx. unfold Rmax. destruct (Rle_dec x m); lra.
      * f_equal. rewrite R_fmax. unfold Rmax.
        destruct (Rle_dec x m); destruct (Rle_dec _ _); lra.
Qed.

(** A concrete case in which the clamp moves the point: x <= 2 applied to 5. *)
Example C02_case : ClampX (Var_le 0 (2 : R)) 5 = Ok 2.
Proof.
  destruct (C02_ClampX_projection (Var_le 0 2) 5) as [_ H].
  destruct H as [y [Hy [Hf [Hn [_ _]]]]]; [simpl; lra|].
  apply C01_Var_le in Hf.
  assert (Rabs (y - 5) <= Rabs (2 - 5)) by (apply Hn; apply C01_Var_le; lra).
  rewrite !Rabs_left1 in H by lra. rewrite Hy. f_equal. lra.
Qed.

(** C03: shifting the linearisation point. *)
Theorem C03_ShiftTo : forall (c : lic R) (x dx : R),
  lvar (ShiftTo c x) = lvar c /\
  (IsFeasible (ShiftTo c x) dx = true <-> IsFeasible c (x + dx) = true).
Proof.
  intros c x dx. split; [reflexivity|]. rewrite !IsFeasible_R. simpl.
  replace (la c * dx + (la c * x + lb c)) with (la c * (x + dx) + lb c) by ring. tauto.
Qed.

Theorem C03_ShiftTo_compose : forall (c : lic R) (x x' : R),
  ShiftTo (ShiftTo c x) x' = ShiftTo c (x + x').
Proof. intros [i a b] x x'. unfold ShiftTo; simpl. f_equal. ring. Qed.

(** The vector overload: for every scalar type, an index beyond the end throws; a valid index
    shifts by that coefficient; a negative index passes the assertion and is undefined (finding). *)
Theorem C03_ShiftToVec : forall (F : Type) (O : Ops F) (c : lic F) (x : list F),
  ((lvar c >= Z.of_nat (length x))%Z -> exists w, ShiftToVec c x = Throw (AssertFailed w)) /\
  ((0 <= lvar c < Z.of_nat (length x))%Z ->
     ShiftToVec c x = Ok (ShiftTo c (nth (Z.to_nat (lvar c)) x f0))) /\
  ((lvar c < 0)%Z -> exists w, ShiftToVec c x = UB w).
Proof.
  intros F O c x. unfold ShiftToVec, f_assert, ub_unless. repeat split; intros H.
  - destruct (Z.ltb_spec (lvar c) (Z.of_nat (length x))); [lia|]. simpl. eauto.
  - destruct (Z.ltb_spec (lvar c) (Z.of_nat (length x))); [|lia].
    destruct (Z.leb_spec 0 (lvar c)); [|lia]. reflexivity.
  - destruct (Z.ltb_spec (lvar c) (Z.of_nat (length x))); [|lia].
    destruct (Z.leb_spec 0 (lvar c)); [lia|]. simpl. eauto.
Qed.

Example C03_case : IsFeasible (ShiftTo (Var_ge 0 (2 : R)) 3) (-1) = true /\
                   IsFeasible (ShiftTo (Var_ge 0 (2 : R)) 3) (-2) = false.
Proof.
  split.
  - apply C03_ShiftTo. apply C01_Var_ge. lra.
  - destruct (IsFeasible _ _) eqn:E; auto. apply C03_ShiftTo in E. apply C01_Var_ge in E. lra.
Qed.
