(** C07: step lengths of the interior point method, over the reals. C09: reported KKT errors. *)
From Coq Require Import List Bool Arith ZArith Reals Lra Lia.
From Verif Require Import Scalar Outcome LinAlg Structs Constraint QPModel QPBlocks RInst Spec QPAlgebra.
Import ListNotations.
Local Open Scope R_scope.

Definition alpha_step (tau alpha : R) (vd : R * R) : R :=
  let (v, dv) := vd in
  if fleb (fadd v dv) f0 && fgtb (fabs dv) f0
  then let candidate := fdiv (fmul (fneg tau) v) dv in
       if fltb candidate alpha then candidate else alpha
  else alpha.

(** What one entry demands of the step. *)
Definition alpha_ok (tau alpha : R) (vd : R * R) : Prop :=
  let (v, dv) := vd in v + dv <= 0 -> v + alpha * dv >= (1 - tau) * v.

Lemma alpha_step_spec : forall tau alpha v dv,
  0 < tau <= 1 -> 0 < v -> 0 < alpha <= 1 ->
  let a' := alpha_step tau alpha (v, dv) in
  0 < a' <= alpha /\ alpha_ok tau a' (v, dv) /\
  (a' = alpha \/ (v + dv <= 0 /\ v + a' * dv = (1 - tau) * v)).
Proof.
  intros tau alpha v dv Ht Hv Ha. unfold alpha_step, alpha_ok.
  destruct (R_fleb (fadd v dv) f0) as [H1|H1]; simpl in H1; cbn [andb].
  - destruct (R_fgtb (fabs dv) f0) as [H2|H2]; simpl in H2.
    + assert (Hd : dv < 0) by lra.
      assert (E : fdiv (fmul (fneg tau) v) dv = tau * v / - dv).
      { simpl. field. lra. }
      rewrite E. set (c := tau * v / - dv).
      assert (Hc : c * - dv = tau * v) by (unfold c; field; lra).
      assert (Hc0 : 0 < c).
      { unfold c. apply Rmult_lt_0_compat; [apply Rmult_lt_0_compat; lra|].
        apply Rinv_0_lt_compat. lra. }
      destruct (R_fltb c alpha) as [H3|H3]; simpl in H3.
      * split; [lra|]. split; [intros _; lra|]. right. split; lra.
      * split; [lra|]. split; [|left; reflexivity]. intros _.
        assert (alpha * - dv <= c * - dv) by (apply Rmult_le_compat_r; lra). lra.
    + exfalso. apply H2. apply Rabs_pos_lt. lra.
  - split; [lra|]. split; [intros; lra|left; reflexivity].
Qed.

Lemma alpha_ok_mono : forall tau a a' v dv, 0 < v -> a' <= a ->
  alpha_ok tau a (v, dv) -> alpha_ok tau a' (v, dv).
Proof.
  intros tau a a' v dv Hv Hle H Hneg. specialize (H Hneg). simpl in *.
  assert (a' * - dv <= a * - dv) by (apply Rmult_le_compat_r; lra). lra.
Qed.

Lemma alpha_fold : forall tau l alpha,
  0 < tau <= 1 -> Forall (fun vd => 0 < fst vd) l -> 0 < alpha <= 1 ->
  let a' := fold_left (alpha_step tau) l alpha in
  0 < a' <= alpha /\ Forall (alpha_ok tau a') l /\
  (a' = alpha \/ exists v dv, In (v, dv) l /\ v + dv <= 0 /\ v + a' * dv = (1 - tau) * v).
Proof.
  intros tau l. induction l as [|[v dv] l IH]; intros alpha Ht Hl Ha; cbn [fold_left].
  - split; [lra|]. split; [constructor|left; reflexivity].
  - inversion Hl as [|? ? Hv Hl']; subst. simpl in Hv.
    destruct (alpha_step_spec tau alpha v dv Ht Hv Ha) as (B & Okk & Mx).
    set (a1 := alpha_step tau alpha (v, dv)) in *.
    destruct (IH a1 Ht Hl' ltac:(lra)) as (B2 & F2 & M2).
    split; [lra|]. split.
    + constructor; [|exact F2]. eapply alpha_ok_mono; [exact Hv|apply B2|exact Okk].
    + destruct M2 as [M2|(v' & dv' & Hin & M2)].
      * rewrite M2. destruct Mx as [Mx|Mx]; [left; exact Mx|right].
        exists v, dv. split; [left; reflexivity|exact Mx].
      * right. exists v', dv'. split; [right; exact Hin|exact M2].
Qed.

Lemma ComputeAlphaVec_fold : forall val dval tau a,
  ComputeAlphaVec val dval tau = Ok a ->
  length val = length dval /\ 0 < tau <= 1 /\
  a = fold_left (alpha_step tau) (combine val dval) 1.
Proof.
  intros val dval tau a H. unfold ComputeAlphaVec in H.
  inv_bind H. inv_bind H. inv_bind H. inversion H; subst; clear H.
  apply f_assert_ok_inv in Hm, Hm0, Hm1. apply Nat.eqb_eq in Hm.
  destruct (R_fgtb tau f0) as [T|T]; [|discriminate]. destruct (R_fleb tau f1) as [T1|T1]; [|discriminate].
  simpl in T, T1. repeat split; auto.
Qed.

Lemma combine_In_nth : forall (u v : list R) a b, length u = length v -> In (a, b) (combine u v) ->
  exists i, (i < length u)%nat /\ vget u i = a /\ vget v i = b.
Proof.
  intros u v a b Hl Hin. apply (In_nth _ _ (0, 0)) in Hin. destruct Hin as (i & Hi & E).
  rewrite combine_length in Hi. rewrite combine_nth in E by exact Hl. exists i.
  inversion E. split; [lia|]. split; reflexivity.
Qed.

(** C07: for every positive vector [val] and every direction of the same size, the step returned is in
    (0,1]; components that a full step would make non-positive keep at least (1 - tau) of their value;
    with tau < 1 every component stays positive; and the step is the largest such one. *)
Theorem C07_step_length : forall (val dval : list R) (tau : R),
  length val = length dval -> 0 < tau <= 1 ->
  (forall i, (i < length val)%nat -> 0 < vget val i) ->
  exists alpha, ComputeAlphaVec val dval tau = Ok alpha /\ 0 < alpha <= 1 /\
    (forall i, (i < length val)%nat -> vget val i + vget dval i <= 0 ->
       vget val i + alpha * vget dval i >= (1 - tau) * vget val i) /\
    (tau < 1 -> forall i, (i < length val)%nat -> vget val i + alpha * vget dval i > 0) /\
    (alpha = 1 \/ exists i, (i < length val)%nat /\ vget val i + vget dval i <= 0 /\
       vget val i + alpha * vget dval i = (1 - tau) * vget val i /\
       forall beta, beta > alpha -> vget val i + beta * vget dval i < (1 - tau) * vget val i).
Proof.
  intros val dval tau Hl Ht Hpos. unfold ComputeAlphaVec.
  rewrite Hl, Nat.eqb_refl. cbn [f_assert bind].
  destruct (R_fgtb tau f0) as [_|T]; [|simpl in T; lra].
  destruct (R_fleb tau f1) as [_|T]; [|simpl in T; lra]. cbn [f_assert bind].
  eexists. split; [reflexivity|].
  fold (alpha_step tau).
  change (fold_left _ (combine val dval) f1) with (fold_left (alpha_step tau) (combine val dval) 1).
  set (al := fold_left (alpha_step tau) (combine val dval) 1).
  assert (Fpos : Forall (fun vd : R * R => 0 < fst vd) (combine val dval)).
  { apply Forall_forall. intros [a b] Hin. apply combine_In_nth in Hin; [|exact Hl].
    destruct Hin as (i & Hi & <- & <-). apply Hpos. exact Hi. }
  destruct (alpha_fold tau (combine val dval) 1 Ht Fpos ltac:(lra)) as (B & FA & MX). fold al in B, FA, MX.
  assert (Bd : forall i, (i < length val)%nat -> vget val i + vget dval i <= 0 ->
                 vget val i + al * vget dval i >= (1 - tau) * vget val i).
  { intros i Hi Hneg. rewrite Forall_forall in FA.
    assert (Hin : In (vget val i, vget dval i) (combine val dval)).
    { unfold vget. rewrite <- combine_nth by exact Hl. apply nth_In. rewrite combine_length. lia. }
    apply (FA _ Hin). exact Hneg. }
  rewrite <- Hl.
  split; [lra|]. split; [exact Bd|]. split.
  - intros Ht1 i Hi. specialize (Hpos i Hi). destruct (Rle_dec (vget val i + vget dval i) 0) as [Hn|Hn].
    + specialize (Bd i Hi Hn). assert (0 < (1 - tau) * vget val i) by (apply Rmult_lt_0_compat; lra). lra.
    + destruct (Rle_dec 0 (vget dval i)) as [Hd|Hd].
      * assert (0 <= al * vget dval i) by (apply Rmult_le_pos; lra). lra.
      * assert (al * - vget dval i <= 1 * - vget dval i) by (apply Rmult_le_compat_r; lra). lra.
  - destruct MX as [MX|(v & dv & Hin & Hneg & Heq)]; [left; exact MX|right].
    apply combine_In_nth in Hin; [|exact Hl]. destruct Hin as (i & Hi & <- & <-).
    exists i. split; [exact Hi|]. split; [exact Hneg|]. split; [exact Heq|].
    intros beta Hb. specialize (Hpos i Hi). rewrite <- Heq.
    assert (al * - vget dval i < beta * - vget dval i) by (apply Rmult_lt_compat_r; lra). lra.
Qed.

Example C07_case : ComputeAlphaVec [1; 2] [-2; 1] (1/2) = Ok (1/4).
Proof.
  unfold ComputeAlphaVec. simpl combine. cbn [length Nat.eqb f_assert bind].
  destruct (R_fgtb (1/2) f0) as [_|T]; [|simpl in T; lra].
  destruct (R_fleb (1/2) f1) as [_|T]; [|simpl in T; lra]. cbn [f_assert bind fold_left].
  destruct (R_fleb (fadd 1 (-2)) f0) as [_|T]; [|simpl in T; lra].
  destruct (R_fgtb (fabs (-2)) f0) as [_|T].
  2: { exfalso. apply T. simpl. apply Rabs_pos_lt. lra. }
  cbn [andb].
  replace (fdiv (fmul (fneg (1 / 2)) 1) (-2)) with (1/4) by (simpl; field).
  destruct (R_fltb (1/4) f1) as [_|T]; [|simpl in T; lra].
  destruct (R_fleb (fadd 2 1) f0) as [T|_]; [simpl in T; lra|]. reflexivity.
Qed.

Lemma vget_forall : forall (l : list R) (P : R -> Prop),
  (forall i, (i < length l)%nat -> P (vget l i)) -> forall x, In x l -> P x.
Proof.
  intros l P H x Hin. apply (In_nth _ _ 0) in Hin. destruct Hin as (i & Hi & <-). apply H. exact Hi.
Qed.

(* ------------------------------------------------------------------ *)
(** ** ComputeErrors *)

Lemma fnorm_norm2 : forall (v : list R) n g, length v = n ->
  (forall i, (i < n)%nat -> vget v i = g i) -> fnorm v = norm2 n g.
Proof.
  intros v n g Hl H. unfold fnorm, fsqnorm, norm2. simpl. rewrite (Rdot_n n) by assumption.
  f_equal. apply Rsum_ext. intros i Hi. rewrite H by exact Hi. reflexivity.
Qed.

Lemma norm2_0 : forall g, norm2 0 g = 0.
Proof. intros. unfold norm2. simpl. apply sqrt_0. Qed.

(** C09: the errors reported for a state whose residual was just evaluated are the Euclidean norms of
    the textbook KKT residuals, the complementarity one being | s .* z - mu |. *)
Theorem C09_reported_errors : forall (p : QP R) (st : ip_solver R) (mu : R),
  wf_qp p -> ready p st ->
  let d := ip_dims st in
  let x := xblk d (ip_vars st) in let s := sblk d (ip_vars st) in
  let y := yblk d (ip_vars st) in let z := zblk d (ip_vars st) in
  ComputeErrors (EvaluateKKTConditions true p st) mu =
    MkKKT (norm2 (nv p) (kkt_dual p x y z))
          (norm2 (nineq p) (fun m => vget s m * vget z m - mu))
          (norm2 (neq p) (kkt_eq p x))
          (norm2 (nineq p) (kkt_ineq p x s)).
Proof.
  intros p st mu W RD d x s y z.
  destruct (eval_r_blocks p st W RD) as (B1 & B2 & B3 & B4).
  pose proof (eval_ready p st RD) as RD'.
  set (st' := EvaluateKKTConditions true p st) in *.
  assert (Ed : ip_dims st' = d) by reflexivity. fold d in B1, B2, B3, B4. fold x s y z in B1, B2, B3, B4.
  unfold ComputeErrors. rewrite Ed.
  pose proof (rd_r _ _ RD') as Lr. rewrite Ed in Lr.
  assert (DN : dN d = nv p) by apply (dN_nv p st RD).
  assert (DM : dM d = nineq p) by apply (dM_ni p st RD).
  assert (DK : dK d = neq p) by apply (dK_ne p st RD).
  assert (E1 : fnorm (xblk d (ip_r st')) = norm2 (nv p) (kkt_dual p x y z)).
  { apply fnorm_norm2; [rewrite xblk_length by exact Lr; exact DN|exact B1]. }
  assert (E3 : (if (0 <? dK d)%nat then fnorm (yblk d (ip_r st')) else f0) = norm2 (neq p) (kkt_eq p x)).
  { destruct (Nat.ltb_spec 0 (dK d)).
    - apply fnorm_norm2; [rewrite yblk_length by exact Lr; exact DK|exact B3].
    - replace (neq p) with O by lia. rewrite norm2_0. reflexivity. }
  assert (E4 : (if HasInequalityConstraints d then fnorm (zblk d (ip_r st')) else f0)
               = norm2 (nineq p) (kkt_ineq p x s)).
  { unfold HasInequalityConstraints. destruct (Nat.ltb_spec 0 (dM d)).
    - apply fnorm_norm2; [rewrite zblk_length by exact Lr; exact DM|exact B4].
    - replace (nineq p) with O by lia. rewrite norm2_0. reflexivity. }
  rewrite E1, E3, E4. f_equal.
  unfold HasInequalityConstraints. destruct (Nat.ltb_spec 0 (dM d)) as [HM|HM].
  - unfold norm2. change (fsqrt ?a) with (sqrt a). f_equal.
    rewrite R_fmax, R_2. cbn [fadd fsub fmul fsum fofnat R_ops f0].
    assert (Ls : length (sblk d (ip_r st')) = nineq p) by (rewrite sblk_length by exact Lr; exact DM).
    assert (Q : fsqnorm (sblk d (ip_r st')) - 2 * (Rlsum (sblk d (ip_r st')) * mu) + mu * mu * INR (dM d)
                = Rsum (nineq p) (fun m => (vget s m * vget z m - mu) * (vget s m * vget z m - mu))).
    { unfold fsqnorm. change (@fdot R R_ops) with Rdot. rewrite (Rdot_n (nineq p)) by exact Ls. rewrite Rlsum_Rsum, Ls.
      rewrite (Rsum_ext (nineq p) (fun i => vget (sblk d (ip_r st')) i * vget (sblk d (ip_r st')) i)
                 (fun m => (vget s m * vget z m) * (vget s m * vget z m)))
        by (intros m Hm; rewrite B2 by exact Hm; reflexivity).
      rewrite (Rsum_ext (nineq p) (fun i => vget (sblk d (ip_r st')) i)
                 (fun m => vget s m * vget z m)) by (intros m Hm; rewrite B2 by exact Hm; reflexivity).
      assert (C : mu * mu * INR (dM d) = Rsum (nineq p) (fun _ => mu * mu)).
      { rewrite DM. clear. induction (nineq p); [simpl; ring|]. rewrite S_INR. simpl. rewrite <- IHn. ring. }
      rewrite C, <- Rsum_scal_r, <- Rsum_scal_l, <- Rsum_minus, <- Rsum_plus.
      apply Rsum_ext. intros; ring. }
    change (@fdiv R R_ops) with Rdiv in *.
    rewrite Q. apply Rmax_left. apply Rsum_nonneg. intros. apply sq_nonneg.
  - replace (nineq p) with O by lia. rewrite norm2_0. reflexivity.
Qed.

(** C09: the residual vector itself. *)
Theorem C09_residual_blocks : forall (p : QP R) (st : ip_solver R),
  wf_qp p -> ready p st ->
  let d := ip_dims st in
  let x := xblk d (ip_vars st) in let s := sblk d (ip_vars st) in
  let y := yblk d (ip_vars st) in let z := zblk d (ip_vars st) in
  let r := ip_r (EvaluateKKTConditions true p st) in
  (forall i, (i < nv p)%nat -> vget (xblk d r) i = kkt_dual p x y z i) /\
  (forall m, (m < nineq p)%nat -> vget (sblk d r) m = kkt_comp s z m) /\
  (forall k, (k < neq p)%nat -> vget (yblk d r) k = kkt_eq p x k) /\
  (forall m, (m < nineq p)%nat -> vget (zblk d r) m = kkt_ineq p x s m).
Proof. intros p st W RD. apply eval_r_blocks; assumption. Qed.
