(** One interior point iteration over the reals: structure, positivity (C06), contraction of the
    primal infeasibility (C19). *)
From Coq Require Import String List Bool Arith ZArith Reals Lra Lia.
From Verif Require Import Scalar Outcome LinAlg Structs Constraint QPModel QPBlocks RInst Spec QPAlgebra
  QPNewton QPAlpha.
Import ListNotations.
Local Open Scope list_scope.
Local Open Scope R_scope.

Lemma vzero_length : forall n, length (vzero n : list R) = n.
Proof. intros. apply repeat_length. Qed.
Lemma vzero_get : forall n i, vget (vzero n : list R) i = 0.
Proof.
  intros n. unfold vget, vzero. induction n; intros [|i]; simpl; auto.
Qed.

Lemma vadd_length : forall u v : list R, length (vadd u v) = Nat.min (length u) (length v).
Proof. intros. unfold vadd. rewrite map_length, combine_length. reflexivity. Qed.
Lemma vscale_length : forall (v : list R) a, length (vscale v a) = length v.
Proof. intros. apply map_length. Qed.
Lemma vscale_get : forall (v : list R) a i, vget (vscale v a) i = vget v i * a.
Proof.
  intros. unfold vscale, vget. change (@f0 R R_ops) with 0.
  set (f := fun x => fmul x a).
  replace (nth i (map f v) 0) with (nth i (map f v) (f 0))
    by (unfold f; simpl; rewrite Rmult_0_l; reflexivity).
  rewrite map_nth. reflexivity.
Qed.
Lemma vadd_get : forall (u v : list R) i, length u = length v -> vget (vadd u v) i = vget u i + vget v i.
Proof.
  intros u v i Hl. unfold vadd, vget. change (@f0 R R_ops) with 0.
  set (f := fun q : R * R => fadd (fst q) (snd q)).
  replace (nth i (map f (combine u v)) 0) with (nth i (map f (combine u v)) (f (0, 0)))
    by (unfold f; simpl; rewrite Rplus_0_l; reflexivity).
  rewrite map_nth, combine_nth by exact Hl. reflexivity.
Qed.

(** The update applied at the end of Iterate. *)
Lemma apply_update_blocks : forall (st : ip_solver R) (al : AlphaValues R),
  length (ip_vars st) = tsize (ip_dims st) -> length (ip_delta st) = tsize (ip_dims st) ->
  let d := ip_dims st in
  let st' := apply_update st al in
  length (ip_vars st') = tsize d /\
  (forall i, vget (xblk d (ip_vars st')) i = vget (xblk d (ip_vars st)) i + primal al * vget (xblk d (ip_delta st)) i) /\
  (forall i, vget (sblk d (ip_vars st')) i = vget (sblk d (ip_vars st)) i + primal al * vget (sblk d (ip_delta st)) i) /\
  (forall i, vget (yblk d (ip_vars st')) i = vget (yblk d (ip_vars st)) i + dual al * vget (yblk d (ip_delta st)) i) /\
  (forall i, vget (zblk d (ip_vars st')) i = vget (zblk d (ip_vars st)) i + dual al * vget (zblk d (ip_delta st)) i).
Proof.
  intros st al Lv Ld d st'. unfold st', apply_update. fold d.
  set (v := ip_vars st) in *. set (dl := ip_delta st) in *. fold d in Lv, Ld.
  assert (LX : length (vadd (xblk d v) (vscale (xblk d dl) (primal al))) = dN d)
    by (rewrite vadd_length, vscale_length, !xblk_length by assumption; lia).
  set (v1 := set_x d _ v).
  assert (L1 : length v1 = tsize d) by (apply set_x_length; assumption).
  assert (LS : length (vadd (sblk d v1) (vscale (sblk d dl) (primal al))) = dM d)
    by (rewrite vadd_length, vscale_length, !sblk_length by assumption; lia).
  set (v2 := set_s d _ v1).
  assert (L2 : length v2 = tsize d) by (apply set_s_length; assumption).
  assert (LY : length (vadd (yblk d v2) (vscale (yblk d dl) (dual al))) = dK d)
    by (rewrite vadd_length, vscale_length, !yblk_length by assumption; lia).
  set (v3 := set_y d _ v2).
  assert (L3 : length v3 = tsize d) by (apply set_y_length; assumption).
  assert (LZ : length (vadd (zblk d v3) (vscale (zblk d dl) (dual al))) = dM d)
    by (rewrite vadd_length, vscale_length, !zblk_length by assumption; lia).
  cbn [with_vars ip_vars].
  split; [apply set_z_length; assumption|].
  rewrite x_set_z, s_set_z, y_set_z, z_set_z by assumption.
  unfold v3 at 1 2 3. rewrite x_set_y, s_set_y, y_set_y by assumption.
  unfold v2 at 1 2. rewrite x_set_s, s_set_s by assumption.
  unfold v1 at 1. rewrite x_set_x by assumption.
  repeat split; intro i.
  - rewrite vadd_get, vscale_get by (rewrite vscale_length, !xblk_length by assumption; lia). ring.
  - rewrite vadd_get, vscale_get by (rewrite vscale_length, !sblk_length by assumption; lia).
    unfold v1. rewrite s_set_x by assumption. ring.
  - rewrite vadd_get, vscale_get by (rewrite vscale_length, !yblk_length by assumption; lia).
    unfold v2, v1. rewrite y_set_s, y_set_x by assumption. ring.
  - rewrite vadd_get, vscale_get by (rewrite vscale_length, !zblk_length by assumption; lia).
    unfold v3, v2, v1. rewrite z_set_y, z_set_s, z_set_x by assumption. ring.
Qed.

Lemma apply_update_keeps : forall F (O : Ops F) (st : ip_solver F) al,
  ip_p (apply_update st al) = ip_p st /\ ip_dims (apply_update st al) = ip_dims st /\
  ip_r (apply_update st al) = ip_r st /\ ip_delta (apply_update st al) = ip_delta st /\
  ip_delta_aff (apply_update st al) = ip_delta_aff st /\ ip_Hinv (apply_update st al) = ip_Hinv st.
Proof. repeat split. Qed.

(** What a successful Iterate did. [stb] is the state handed to the final SolveForUpdate. *)
Lemma Iterate_inv : forall ldlt (p : QP R) mu strat (st st' : ip_solver R) out,
  ready p st -> Iterate ldlt p mu strat st = Ok (st', out) ->
  exists (Hinv : mat R) (stb : ip_solver R) (mu2 : R),
    let d := ip_dims st in
    forallb (fun v => fgtb v f0) (sblk d (ip_vars st)) = true /\
    ldlt (reduced_H true p d (sblk d (ip_vars st)) (zblk d (ip_vars st))) = Some Hinv /\
    ready p stb /\ ip_vars stb = ip_vars st /\ ip_r stb = ip_r (EvaluateKKTConditions true p st) /\
    ip_Hinv stb = Hinv /\ ip_dims stb = d /\
    (nineq p = 0%nat -> mu2 = 0 /\ ip_alpha out = MkAlpha 1 1 /\ ip_mu out = mu) /\
    ((0 < nineq p)%nat -> mu2 = ip_mu out /\
        ComputeAlpha (SolveForUpdate mu2 p stb) (flit lit_0_995) = Ok (ip_alpha out)) /\
    (strat <> PREDICTOR_CORRECTOR -> ip_mu out = mu /\ ip_delta_aff stb = vzero (tsize d)) /\
    st' = apply_update (SolveForUpdate mu2 p stb) (ip_alpha out).
Proof.
  intros ldlt p mu strat st st' out RD H. unfold Iterate in H.
  inv_bind H. rename a into st1. unfold ComputeLDLT in Hm. inv_bind Hm. apply f_assert_ok_inv in Hm0. clear a.
  change (ip_dims (EvaluateKKTConditions true p st)) with (ip_dims st) in Hm, Hm0.
  change (ip_vars (EvaluateKKTConditions true p st)) with (ip_vars st) in Hm, Hm0.
  cbn [negb orb] in Hm0.
  destruct (ldlt _) as [Hinv|] eqn:EL; [|discriminate].
  inversion Hm as [E1]; clear Hm.
  pose proof (eval_ready p st RD) as RDe.
  assert (RD1 : ready p st1).
  { rewrite <- E1. destruct RDe. constructor; cbn [ip_p ip_dims ip_vars ip_r ip_delta ip_delta_aff]; auto;
      rewrite ?vzero_length; auto. }
  assert (V1 : ip_vars st1 = ip_vars st) by (rewrite <- E1; reflexivity).
  assert (R1 : ip_r st1 = ip_r (EvaluateKKTConditions true p st)) by (rewrite <- E1; reflexivity).
  assert (H1 : ip_Hinv st1 = Hinv) by (rewrite <- E1; reflexivity).
  assert (D1 : ip_dims st1 = ip_dims st) by (rewrite <- E1; reflexivity).
  assert (A1 : ip_delta_aff st1 = vzero (tsize (ip_dims st))).
  { rewrite <- E1. simpl. f_equal. apply (rd_aff _ _ RDe). }
  clear E1.
  assert (DM : dM (ip_dims st) = nineq p) by apply (dM_ni p st RD).
  inv_bind H. rename Hm into Hq. destruct a as [[[st2 mu2] probe] mu_aff].
  inv_bind H. rename Hm into Hal. rename a into al. inj_ok H; subst st' out. cbn [ip_alpha ip_mu].
  unfold HasInequalityConstraints in Hq, Hal. rewrite DM in Hq, Hal.
  destruct (Nat.ltb_spec 0 (nineq p)) as [HM|HM].
  - cbn [negb] in Hq.
    destruct strat; [| |inv_bind Hq; rename Hm into Hpr]; inj_ok Hq; subst st2.
    1,2: exists Hinv, st1, mu; subst mu2; splits; intros; splits; auto; try lia.
    exists Hinv, (with_aff (SolveForUpdate f0 p st1) (ip_delta (SolveForUpdate f0 p st1))), mu2. subst mu2.
    set (sta := SolveForUpdate f0 p st1) in *.
    set (stb := with_aff sta (ip_delta sta)) in *.
    assert (RDs : ready p sta) by (apply upd_ready; assumption).
    assert (RDb : ready p stb).
    { destruct RDs. constructor; simpl; auto. }
    splits; intros; splits; eauto; try lia; congruence.
  - cbn [negb] in Hq. inj_ok Hq; subst st2 mu2. inj_ok Hal; subst al.
    exists Hinv, st1, 0. splits; intros; splits; auto; lia.
Qed.

Lemma Iterate_ready : forall ldlt (p : QP R) mu strat (st st' : ip_solver R) out,
  ready p st -> Iterate ldlt p mu strat st = Ok (st', out) ->
  ready p st' /\ ip_dims st' = ip_dims st.
Proof.
  intros ldlt p mu strat st st' out RD H.
  destruct (Iterate_inv _ _ _ _ _ _ _ RD H) as (Hinv & stb & mu2 & _ & _ & RDb & V & _ & _ & D & _ & _ & _ & ->).
  pose proof (upd_ready p stb mu2 RDb) as RDu.
  set (st2 := SolveForUpdate mu2 p stb) in *.
  assert (Ds : ip_dims st2 = ip_dims st) by (rewrite <- D; reflexivity).
  destruct (apply_update_blocks st2 (ip_alpha out) (rd_vars _ _ RDu) (rd_delta _ _ RDu)) as (L & _).
  destruct (apply_update_keeps R R_ops st2 (ip_alpha out)) as (K1 & K2 & K3 & K4 & K5 & K6).
  split; [|rewrite K2; exact Ds].
  destruct RDu. constructor; rewrite ?K1, ?K2, ?K3, ?K4, ?K5; auto.
Qed.

(** All slacks and inequality multipliers are positive. *)
Definition interior (p : QP R) (st : ip_solver R) : Prop :=
  forall m, (m < nineq p)%nat -> 0 < vget (s_block st) m /\ 0 < vget (z_block st) m.

Lemma lit_tau : 0 < flit lit_0_995 < 1.
Proof. rewrite R_0_995. lra. Qed.

Lemma lit_tau' : 0 < flit lit_0_995 <= 1.
Proof. rewrite R_0_995. lra. Qed.

(** Step lengths actually used. *)
Lemma Iterate_alpha : forall ldlt (p : QP R) mu strat (st st' : ip_solver R) out,
  ready p st -> interior p st -> Iterate ldlt p mu strat st = Ok (st', out) ->
  0 < primal (ip_alpha out) <= 1 /\ 0 < dual (ip_alpha out) <= 1.
Proof.
  intros ldlt p mu strat st st' out RD INT H.
  destruct (Iterate_inv _ _ _ _ _ _ _ RD H)
    as (Hinv & stb & mu2 & _ & _ & RDb & V & _ & _ & D & AL0 & AL1 & _ & _).
  destruct (Nat.eq_dec (nineq p) 0) as [E0|E0].
  { destruct (AL0 E0) as (_ & -> & _). simpl. lra. }
  destruct (AL1 ltac:(lia)) as [_ AL]. clear AL0 AL1.
  unfold ComputeAlpha in AL. inv_bind AL. inv_bind AL. inversion AL as [E]. clear AL. simpl.
  pose proof (upd_ready p stb mu2 RDb) as RDu.
  destruct (ComputeAlphaVec_fold _ _ _ _ Hm) as (La & _ & _).
  destruct (ComputeAlphaVec_fold _ _ _ _ Hm0) as (Lb & _ & _).
  pose proof lit_tau as TT.
  assert (DMs : dM (ip_dims st) = nineq p) by apply (dM_ni p st RD).
  pose proof (rd_vars _ _ RD) as Lv.
  change (ip_dims (SolveForUpdate mu2 p stb)) with (ip_dims stb) in *.
  change (ip_vars (SolveForUpdate mu2 p stb)) with (ip_vars stb) in *.
  rewrite D, V in *.
  destruct (C07_step_length _ _ (flit lit_0_995) La lit_tau') as (al & E1 & B1 & _).
  { intros i Hi. rewrite sblk_length in Hi by exact Lv. rewrite DMs in Hi. apply (INT i Hi). }
  destruct (C07_step_length _ _ (flit lit_0_995) Lb lit_tau') as (al' & E1' & B1' & _).
  { intros i Hi. rewrite zblk_length in Hi by exact Lv. rewrite DMs in Hi. apply (INT i Hi). }
  rewrite Hm in E1. rewrite Hm0 in E1'. inversion E1; inversion E1'; subst. split; assumption.
Qed.

(** C06 (one iteration): whatever LDLT returned and whatever the strategy, an iteration keeps s > 0, z > 0. *)
Theorem C06_iteration_keeps_interior : forall ldlt (p : QP R) mu strat (st st' : ip_solver R) out,
  ready p st -> interior p st -> Iterate ldlt p mu strat st = Ok (st', out) ->
  ready p st' /\ interior p st'.
Proof.
  intros ldlt p mu strat st st' out RD INT H.
  destruct (Iterate_ready _ _ _ _ _ _ _ RD H) as [RD' D'].
  split; [exact RD'|]. intros m Hm.
  destruct (Iterate_inv _ _ _ _ _ _ _ RD H)
    as (Hinv & stb & mu2 & _ & _ & RDb & V & _ & _ & D & _ & AL1 & _ & E').
  destruct (AL1 ltac:(lia)) as [_ AL]. clear AL1.
  unfold ComputeAlpha in AL. inv_bind AL. inv_bind AL. inversion AL as [E]. clear AL.
  pose proof (upd_ready p stb mu2 RDb) as RDu.
  destruct (ComputeAlphaVec_fold _ _ _ _ Hm0) as (La & _ & _).
  destruct (ComputeAlphaVec_fold _ _ _ _ Hm1) as (Lb & _ & _).
  pose proof lit_tau as TT.
  assert (DMs : dM (ip_dims st) = nineq p) by apply (dM_ni p st RD).
  pose proof (rd_vars _ _ RD) as Lv.
  rewrite <- E in E'. 
  destruct (apply_update_blocks (SolveForUpdate mu2 p stb) (MkAlpha a a0) (rd_vars _ _ RDu) (rd_delta _ _ RDu))
    as (_ & _ & Bs & _ & Bz).
  change (ip_dims (SolveForUpdate mu2 p stb)) with (ip_dims stb) in *.
  change (ip_vars (SolveForUpdate mu2 p stb)) with (ip_vars stb) in *.
  rewrite D, V in *.
  unfold s_block, z_block. rewrite D', E', Bs, Bz. cbn [primal dual].
  assert (Hsl : length (sblk (ip_dims st) (ip_vars st)) = nineq p) by (rewrite sblk_length by exact Lv; exact DMs).
  assert (Hzl : length (zblk (ip_dims st) (ip_vars st)) = nineq p) by (rewrite zblk_length by exact Lv; exact DMs).
  destruct (C07_step_length _ _ (flit lit_0_995) La lit_tau') as (al & E1 & _ & _ & P1 & _).
  { intros i Hi. rewrite Hsl in Hi. apply (INT i Hi). }
  destruct (C07_step_length _ _ (flit lit_0_995) Lb lit_tau') as (al' & E1' & _ & _ & P2 & _).
  { intros i Hi. rewrite Hzl in Hi. apply (INT i Hi). }
  rewrite Hm0 in E1. rewrite Hm1 in E1'. inversion E1; inversion E1'; subst al al'.
  rewrite Hsl in P1. rewrite Hzl in P2. destruct TT as [_ TT].
  split; [apply (P1 TT m Hm)|apply (P2 TT m Hm)].
Qed.

(** C19: an iteration multiplies A_i x + b_i - s by (1 - alpha_primal), whatever LDLT returned; and
    A_e x + b_e likewise if LDLT returned an exact inverse. *)
Theorem C19_infeasibility_contracts : forall ldlt (p : QP R) mu strat (st st' : ip_solver R) out,
  wf_qp p -> ready p st -> Iterate ldlt p mu strat st = Ok (st', out) ->
  (forall m, (m < nineq p)%nat ->
     kkt_ineq p (x_block st') (s_block st') m
     = (1 - primal (ip_alpha out)) * kkt_ineq p (x_block st) (s_block st) m) /\
  (ldlt_exact (nv p + neq p) ldlt ->
   forall k, (k < neq p)%nat ->
     kkt_eq p (x_block st') k = (1 - primal (ip_alpha out)) * kkt_eq p (x_block st) k).
Proof.
  intros ldlt p mu strat st st' out W RD H.
  destruct (Iterate_ready _ _ _ _ _ _ _ RD H) as [RD' D'].
  destruct (Iterate_inv _ _ _ _ _ _ _ RD H)
    as (Hinv & stb & mu2 & _ & EL & RDb & V & RR & HI & D & _ & _ & _ & E').
  pose proof (upd_ready p stb mu2 RDb) as RDu.
  destruct (apply_update_blocks (SolveForUpdate mu2 p stb) (ip_alpha out) (rd_vars _ _ RDu) (rd_delta _ _ RDu))
    as (_ & Bx & Bs & _ & _).
  destruct (eval_r_blocks p st W RD) as (_ & _ & Re & Ri).
  change (ip_dims (SolveForUpdate mu2 p stb)) with (ip_dims stb) in *.
  change (ip_vars (SolveForUpdate mu2 p stb)) with (ip_vars stb) in *.
  unfold x_block, s_block. rewrite D'. rewrite E'. rewrite D, V in *.
  split.
  - intros m Hm. unfold kkt_ineq at 1. rewrite Bx, Bs.
    pose proof (upd_ds p stb mu2 RDb m Hm) as Eds. rewrite D, RR in Eds.
    rewrite (Ri m Hm) in Eds. rewrite Eds. unfold kkt_ineq. ring.
  - intros Hex k Hk. unfold kkt_eq at 1.
    assert (INV : sym_right_inverse (nv p + neq p)
              (reduced_H true p (ip_dims stb) (sblk (ip_dims stb) (ip_vars stb)) (zblk (ip_dims stb) (ip_vars stb)))
              (ip_Hinv stb)) by (rewrite D, V, HI; apply Hex; [unfold reduced_H; rewrite ?mkmat_rows, (dN_nv p st RD), (dK_ne p st RD); reflexivity
              |unfold reduced_H; rewrite ?mkmat_cols, (dN_nv p st RD), (dK_ne p st RD); reflexivity|exact EL]).
    destruct (upd_rows p stb mu2 W RDb INV) as [_ Er]. specialize (Er k Hk). rewrite D, RR in Er.
    rewrite (Re k Hk) in Er.
    rewrite (Rsum_ext (nv p) _ (fun j => Ae p k j * vget (xblk (ip_dims st) (ip_vars st)) j
        + primal (ip_alpha out) * (Ae p k j * vget (xblk (ip_dims st) (ip_delta (SolveForUpdate mu2 p stb))) j)))
      by (intros j Hj; rewrite Bx; ring).
    rewrite Rsum_plus, Rsum_scal_l, Er. unfold kkt_eq. ring.
Qed.
