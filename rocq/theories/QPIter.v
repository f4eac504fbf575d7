(** One whole interior point iteration over the reals (C08, C17): which linear system the step solves,
    which step lengths are taken, and how each barrier strategy picks mu.  And BuildFullSystem, the
    full matrix the unit tests compare with (C08). *)
From Coq Require Import String List Bool Arith ZArith Reals Lra Lia.
From Verif Require Import Scalar Outcome LinAlg Structs Constraint QPModel QPBlocks RInst Spec QPAlgebra
  QPNewton QPAlpha QPStep QPTrace QPInit QPSolve QPDirect QPBarrier.
Import ListNotations.
Local Open Scope list_scope.
Local Open Scope R_scope.

(* ------------------------------------------------------------------ *)
(** ** Specification *)

(** [(dx, ds, dy, dz)] is the Newton direction of the perturbed KKT conditions of [p] at
    [(x, s, y, z)], aiming at s .* z = mu - corr. *)
Definition newton_direction (p : QP R) (x s y z : list R) (mu : R) (corr : nat -> R)
  (dx ds dy dz : list R) : Prop :=
  (forall i, (i < nv p)%nat ->
     Rsum (nv p) (fun j => Gs p i j * vget dx j)
     - Rsum (neq p) (fun k => Ae p k i * vget dy k)
     - Rsum (nineq p) (fun m => if (cv p m =? i)%nat then ca p m * vget dz m else 0)
     = - kkt_dual p x y z i) /\
  (forall m, (m < nineq p)%nat ->
     vget s m * vget dz m + vget z m * vget ds m = - (kkt_comp s z m + corr m - mu)) /\
  (forall k, (k < neq p)%nat -> Rsum (nv p) (fun j => Ae p k j * vget dx j) = - kkt_eq p x k) /\
  (forall m, (m < nineq p)%nat -> ca p m * vget dx (cv p m) - vget ds m = - kkt_ineq p x s m).

(** [a] is the longest step in (0, 1] that keeps a fraction [1 - tau] of every entry of [v] a full step
    would make non-positive. *)
Definition longest_step (n : nat) (tau : R) (v dv : list R) (a : R) : Prop :=
  0 < a <= 1 /\
  (forall i, (i < n)%nat -> vget v i + vget dv i <= 0 ->
     vget v i + a * vget dv i >= (1 - tau) * vget v i) /\
  (a = 1 \/ exists i, (i < n)%nat /\ vget v i + vget dv i <= 0 /\
     forall b, b > a -> vget v i + b * vget dv i < (1 - tau) * vget v i).

(** s^T z / M *)
Definition complementarity (p : QP R) (s z : list R) : R :=
  Rsum (nineq p) (fun m => vget s m * vget z m) / INR (nineq p).

(* ------------------------------------------------------------------ *)

Lemma vseg_zero : forall a b n m, vget (vseg a b (vzero n : list R)) m = 0.
Proof.
  intros a b n q. unfold vseg, vzero, vget. change (@f0 R R_ops) with 0.
  set (l := firstn b (skipn a (repeat 0 n))).
  destruct (nth_in_or_default q l 0) as [Hin|E]; [|exact E].
  set (v := nth q l 0) in *. clearbody v. unfold l in Hin. clear l.
  assert (H : In v (repeat 0 n)).
  { rewrite <- (firstn_skipn a (repeat 0 n)). apply in_or_app. right.
    rewrite <- (firstn_skipn b (skipn a (repeat 0 n))). apply in_or_app. left. exact Hin. }
  apply repeat_spec in H. exact H.
Qed.

Lemma alpha_longest : forall (p : QP R) (v dv : list R) tau a,
  length v = nineq p -> 0 < tau <= 1 -> (forall i, (i < nineq p)%nat -> 0 < vget v i) ->
  ComputeAlphaVec v dv tau = Ok a -> longest_step (nineq p) tau v dv a.
Proof.
  intros p v dv tau a L T P E. destruct (ComputeAlphaVec_fold _ _ _ _ E) as (La & _ & _).
  rewrite <- L in P |- *.
  destruct (C07_step_length v dv tau La T P) as (a' & E' & B & K & _ & M).
  rewrite E in E'. assert (a' = a) by congruence. subst a'. split; [exact B|]. split; [exact K|].
  destruct M as [M|(i & Hi & H1 & _ & H3)]; [left; exact M|right]. exists i. auto.
Qed.

(** SolveForUpdate on a state whose residual was evaluated at the iterate of [st]. *)
Lemma update_newton : forall (p : QP R) (st stb : ip_solver R) mu,
  wf_qp p -> ready p st -> ready p stb -> interior p st ->
  ip_vars stb = ip_vars st -> ip_dims stb = ip_dims st ->
  ip_r stb = ip_r (EvaluateKKTConditions true p st) ->
  sym_right_inverse (nv p + neq p)
    (reduced_H true p (ip_dims st) (s_block st) (z_block st)) (ip_Hinv stb) ->
  let d := ip_dims st in
  let delta := ip_delta (SolveForUpdate mu p stb) in
  newton_direction p (x_block st) (s_block st) (y_block st) (z_block st) mu
    (fun m => vget (sblk d (ip_delta_aff stb)) m * vget (zblk d (ip_delta_aff stb)) m)
    (xblk d delta) (sblk d delta) (yblk d delta) (zblk d delta).
Proof.
  intros p st stb mu W RD RDb INT V D RR INV d delta. unfold d, delta. clear d delta.
  destruct (C08_update_solves_newton_system p stb mu W RDb) as (N1 & N2 & N3 & N4).
  - rewrite D, V. intros m Hm. destruct (INT m Hm) as [P _]. unfold s_block in P. lra.
  - rewrite D, V. exact INV.
  - rewrite D, V, RR in *. destruct (eval_r_blocks p st W RD) as (B1 & B2 & B3 & B4).
    split; [|split; [|split]].
    + intros i Hi. rewrite (N1 i Hi). f_equal. apply B1; exact Hi.
    + intros m Hm. etransitivity; [exact (N2 m Hm)|]. rewrite (B2 m Hm). reflexivity.
    + intros k Hk. rewrite (N3 k Hk). f_equal. apply B3; exact Hk.
    + intros m Hm. rewrite (N4 m Hm). f_equal. apply B4; exact Hm.
Qed.

(** C08/C17: an iteration that returns, with an exact factorisation, at an interior iterate: the step
    is a Newton direction of the perturbed KKT system scaled by the longest 0.995 fraction-to-boundary
    lengths; FIXED_DECREASE and COMPLEMENTARITY aim at the mu passed in without correction;
    PREDICTOR_CORRECTOR first takes the affine direction (mu = 0), probes the boundary with tau = 1,
    and aims at (mu_affine / mu)^3 * mu with the second order correction ds_aff .* dz_aff. *)
Theorem C08_iteration : forall ldlt (p : QP R) mu strat (st st' : ip_solver R) out,
  wf_qp p -> ready p st -> interior p st -> ldlt_exact (nv p + neq p) ldlt ->
  Iterate ldlt p mu strat st = Ok (st', out) ->
  let x := x_block st in let s := s_block st in let y := y_block st in let z := z_block st in
  let ap := primal (ip_alpha out) in let ad := dual (ip_alpha out) in
  exists (dx ds dy dz : list R) (corr : nat -> R) (target : R),
    newton_direction p x s y z target corr dx ds dy dz /\
    (forall i, vget (x_block st') i = vget x i + ap * vget dx i) /\
    (forall i, vget (s_block st') i = vget s i + ap * vget ds i) /\
    (forall i, vget (y_block st') i = vget y i + ad * vget dy i) /\
    (forall i, vget (z_block st') i = vget z i + ad * vget dz i) /\
    (nineq p = 0%nat -> ap = 1 /\ ad = 1 /\ ip_mu out = mu) /\
    ((0 < nineq p)%nat ->
       target = ip_mu out /\
       longest_step (nineq p) (995 / 1000) s ds ap /\ longest_step (nineq p) (995 / 1000) z dz ad /\
       (strat <> PREDICTOR_CORRECTOR -> target = mu /\ forall m, corr m = 0) /\
       (strat = PREDICTOR_CORRECTOR -> exists dxa dsa dya dza : list R,
          newton_direction p x s y z 0 (fun _ => 0) dxa dsa dya dza /\
          longest_step (nineq p) 1 s dsa (primal (ip_alpha_probe out)) /\
          longest_step (nineq p) 1 z dza (dual (ip_alpha_probe out)) /\
          ip_mu_affine out =
            Rmax (affine_complementarity p s z dsa dza
                    (primal (ip_alpha_probe out)) (dual (ip_alpha_probe out))
                  + (mu - complementarity p s z)) 0 /\
          target = (ip_mu_affine out / mu) ^ 3 * mu /\
          forall m, corr m = vget dsa m * vget dza m)).
Proof.
  intros ldlt p mu strat st st' out W RD INT EX H x s y z ap ad.
  unfold Iterate in H. apply bind_ok_inv in H. destruct H as (st1 & HL & H).
  unfold ComputeLDLT in HL. apply bind_ok_inv in HL. destruct HL as (u & HA & HL).
  change (ip_dims (EvaluateKKTConditions true p st)) with (ip_dims st) in HL.
  change (ip_vars (EvaluateKKTConditions true p st)) with (ip_vars st) in HL.
  change (sblk (ip_dims st) (ip_vars st)) with s in HL.
  change (zblk (ip_dims st) (ip_vars st)) with z in HL.
  destruct (ldlt (reduced_H true p (ip_dims st) s z)) as [Hinv|] eqn:EL; [|discriminate].
  inversion HL as [E1]; clear HL HA u.
  pose proof (eval_ready p st RD) as RDe.
  assert (DN : dN (ip_dims st) = nv p) by apply (dN_nv p st RD).
  assert (DM : dM (ip_dims st) = nineq p) by apply (dM_ni p st RD).
  assert (DK : dK (ip_dims st) = neq p) by apply (dK_ne p st RD).
  assert (INV : sym_right_inverse (nv p + neq p) (reduced_H true p (ip_dims st) s z) Hinv).
  { apply EX; [unfold reduced_H; rewrite mkmat_rows; congruence|unfold reduced_H; rewrite mkmat_cols; congruence|exact EL]. }
  assert (RD1 : ready p st1).
  { rewrite <- E1. destruct RDe. constructor; cbn [ip_p ip_dims ip_vars ip_r ip_delta ip_delta_aff]; auto;
      rewrite ?vzero_length; auto. }
  assert (V1 : ip_vars st1 = ip_vars st) by (rewrite <- E1; reflexivity).
  assert (R1 : ip_r st1 = ip_r (EvaluateKKTConditions true p st)) by (rewrite <- E1; reflexivity).
  assert (H1 : ip_Hinv st1 = Hinv) by (rewrite <- E1; reflexivity).
  assert (D1 : ip_dims st1 = ip_dims st) by (rewrite <- E1; reflexivity).
  assert (A1 : ip_delta_aff st1 = vzero (tsize (ip_dims st))).
  { rewrite <- E1. simpl. f_equal. apply (rd_aff _ _ RDe). }
  clear E1.
  assert (Z1 : forall m, vget (sblk (ip_dims st) (ip_delta_aff st1)) m
                         * vget (zblk (ip_dims st) (ip_delta_aff st1)) m = 0).
  { intros m. rewrite A1. unfold sblk. rewrite vseg_zero. ring. }
  apply bind_ok_inv in H. destruct H as ([[[st2 mu2] probe] mu_aff] & Hq & H).
  apply bind_ok_inv in H. destruct H as (al & Hal & H). inj_ok H; subst st' out.
  unfold ap, ad. cbn [ip_alpha ip_mu ip_alpha_probe ip_mu_affine]. clear ap ad.
  (* the state st2 is an update of some stb *)
  assert (KEY : forall stb mu', ready p stb -> ip_vars stb = ip_vars st -> ip_dims stb = ip_dims st ->
     ip_r stb = ip_r (EvaluateKKTConditions true p st) -> ip_Hinv stb = Hinv ->
     let d := ip_dims st in
     let stu := SolveForUpdate mu' p stb in
     newton_direction p x s y z mu'
       (fun m => vget (sblk d (ip_delta_aff stb)) m * vget (zblk d (ip_delta_aff stb)) m)
       (xblk d (ip_delta stu)) (sblk d (ip_delta stu)) (yblk d (ip_delta stu)) (zblk d (ip_delta stu)) /\
     (forall a tau, 0 < tau <= 1 -> ComputeAlpha stu tau = Ok a ->
        longest_step (nineq p) tau s (sblk d (ip_delta stu)) (primal a) /\
        longest_step (nineq p) tau z (zblk d (ip_delta stu)) (dual a)) /\
     (forall a, let st' := apply_update stu a in
        (forall i, vget (x_block st') i = vget x i + primal a * vget (xblk d (ip_delta stu)) i) /\
        (forall i, vget (s_block st') i = vget s i + primal a * vget (sblk d (ip_delta stu)) i) /\
        (forall i, vget (y_block st') i = vget y i + dual a * vget (yblk d (ip_delta stu)) i) /\
        (forall i, vget (z_block st') i = vget z i + dual a * vget (zblk d (ip_delta stu)) i))).
  { intros stb mu' RDb V D RR HI d stu.
    pose proof (upd_ready p stb mu' RDb) as RDu. change (ready p stu) in RDu.
    assert (Du : ip_dims stu = d) by (unfold d; rewrite <- D; reflexivity).
    assert (Vu : ip_vars stu = ip_vars st) by (rewrite <- V; reflexivity).
    split; [|split].
    - apply (update_newton p st stb mu'); auto. rewrite HI. exact INV.
    - intros a tau T HA. unfold ComputeAlpha in HA. rewrite Du, Vu in HA.
      apply bind_ok_inv in HA. destruct HA as (a1 & Ha1 & HA).
      apply bind_ok_inv in HA. destruct HA as (a2 & Ha2 & HA). inj_ok HA; subst a. cbn [primal dual].
      split; apply alpha_longest; auto.
      + unfold s. rewrite <- DM. apply sblk_length. apply (rd_vars _ _ RD).
      + intros i Hi. apply (INT i Hi).
      + unfold z. rewrite <- DM. apply zblk_length. apply (rd_vars _ _ RD).
      + intros i Hi. apply (INT i Hi).
    - intros a st'.
      destruct (apply_update_blocks stu a (rd_vars _ _ RDu) (rd_delta _ _ RDu)) as (_ & Bx & Bs & By & Bz).
      rewrite Du, Vu in *.
      assert (Ds : ip_dims st' = d) by (unfold st'; rewrite <- Du; reflexivity).
      unfold x_block, s_block, y_block, z_block. rewrite Ds.
      splits; assumption. }
  unfold HasInequalityConstraints in Hq, Hal. rewrite DM in Hq, Hal.
  destruct (Nat.ltb_spec 0 (nineq p)) as [HM|HM].
  - cbn [negb] in Hq.
    assert (T995 : flit lit_0_995 = 995 / 1000) by (rewrite R_0_995; lra).
    rewrite T995 in Hal.
    assert (NONPC : strat <> PREDICTOR_CORRECTOR -> st2 = SolveForUpdate mu p st1 /\ mu2 = mu).
    { intros NP. destruct strat; [| |congruence]; inj_ok Hq; subst; auto. }
    destruct (match strat with PREDICTOR_CORRECTOR => true | _ => false end) eqn:ES.
    + assert (strat = PREDICTOR_CORRECTOR) by (destruct strat; congruence). subst strat. clear NONPC ES.
      apply bind_ok_inv in Hq. destruct Hq as (pr & Hpr & Hq). inj_ok Hq. subst pr.
      set (sta := SolveForUpdate f0 p st1) in *.
      set (stb := with_aff sta (ip_delta sta)) in *.
      assert (RDs : ready p sta) by (apply upd_ready; assumption).
      assert (RDb : ready p stb) by (destruct RDs; constructor; simpl; auto).
      assert (Vb : ip_vars stb = ip_vars st) by (rewrite <- V1; reflexivity).
      assert (Db : ip_dims stb = ip_dims st) by (rewrite <- D1; reflexivity).
      assert (Rb : ip_r stb = ip_r (EvaluateKKTConditions true p st)) by (rewrite <- R1; reflexivity).
      assert (Hb : ip_Hinv stb = Hinv) by (rewrite <- H1; reflexivity).
      assert (Ab : ip_delta_aff stb = ip_delta sta) by reflexivity.
      destruct (KEY st1 0 RD1 V1 D1 R1 H1) as (NA & PA & _).
      change (SolveForUpdate 0 p st1) with sta in NA, PA.
      destruct (PA probe 1 ltac:(lra) Hpr) as [P1 P2]. clear PA.
      destruct (C17_mu_affine_offset p stb mu probe RDb HM) as [EMU _].
      rewrite (ComputeMu_R p stb RDb HM) in EMU.
      unfold s_block, z_block in EMU. rewrite Db, Vb, Ab in EMU. fold (s_block st) (z_block st) in EMU.
      change (s_block st) with s in EMU. change (z_block st) with z in EMU.
      assert (Emu2 : mu2 = (mu_aff / mu) ^ 3 * mu) by (subst mu2 mu_aff; reflexivity).
      assert (Emaff : mu_aff = ComputePredictorCorrectorMuAffine stb mu probe) by (subst; reflexivity).
      assert (E2 : st2 = SolveForUpdate mu2 p stb) by (subst; reflexivity).
      rewrite E2 in Hal |- *.
      destruct (KEY stb mu2 RDb Vb Db Rb Hb) as (NB & PB & UB).
      destruct (PB al (995 / 1000) ltac:(lra) Hal) as [Q1 Q2].
      destruct (UB al) as (U1 & U2 & U3 & U4). clear PB UB.
      exists (xblk (ip_dims st) (ip_delta (SolveForUpdate mu2 p stb))),
             (sblk (ip_dims st) (ip_delta (SolveForUpdate mu2 p stb))),
             (yblk (ip_dims st) (ip_delta (SolveForUpdate mu2 p stb))),
             (zblk (ip_dims st) (ip_delta (SolveForUpdate mu2 p stb))).
      eexists. exists mu2.
      split; [exact NB|]. split; [exact U1|]. split; [exact U2|]. split; [exact U3|]. split; [exact U4|].
      split; [intros; lia|]. intros _. split; [reflexivity|]. split; [exact Q1|]. split; [exact Q2|].
      split; [intros Q; congruence|]. intros _.
      exists (xblk (ip_dims st) (ip_delta sta)), (sblk (ip_dims st) (ip_delta sta)),
             (yblk (ip_dims st) (ip_delta sta)), (zblk (ip_dims st) (ip_delta sta)).
      split; [|split; [exact P1|split; [exact P2|split; [|split; [exact Emu2|]]]]].
      * destruct NA as (A1' & A2' & A3' & A4'). split; [exact A1'|]. split; [|split; [exact A3'|exact A4']].
        intros m Hm. rewrite (A2' m Hm). rewrite (Z1 m). reflexivity.
      * rewrite Emaff, EMU. reflexivity.
      * intros m. rewrite Ab. reflexivity.
    + assert (NP : strat <> PREDICTOR_CORRECTOR) by (destruct strat; congruence).
      destruct (NONPC NP) as [-> ->].
      destruct (KEY st1 mu RD1 V1 D1 R1 H1) as (NB & PB & UB).
      destruct (PB al (995 / 1000) ltac:(lra) Hal) as [Q1 Q2].
      destruct (UB al) as (U1 & U2 & U3 & U4).
      exists (xblk (ip_dims st) (ip_delta (SolveForUpdate mu p st1))),
             (sblk (ip_dims st) (ip_delta (SolveForUpdate mu p st1))),
             (yblk (ip_dims st) (ip_delta (SolveForUpdate mu p st1))),
             (zblk (ip_dims st) (ip_delta (SolveForUpdate mu p st1))).
      eexists. exists mu.
      split; [exact NB|]. split; [exact U1|]. split; [exact U2|]. split; [exact U3|]. split; [exact U4|].
      split; [intros; lia|]. intros _. split; [reflexivity|]. split; [exact Q1|]. split; [exact Q2|].
      split; [|intros; congruence]. intros _. split; [reflexivity|]. exact Z1.
  - cbn [negb] in Hq. inj_ok Hq; subst st2 mu2. inj_ok Hal; subst al.
    destruct (KEY st1 0 RD1 V1 D1 R1 H1) as (NB & _ & UB).
    destruct (UB (MkAlpha 1 1)) as (U1 & U2 & U3 & U4).
    exists (xblk (ip_dims st) (ip_delta (SolveForUpdate 0 p st1))),
           (sblk (ip_dims st) (ip_delta (SolveForUpdate 0 p st1))),
           (yblk (ip_dims st) (ip_delta (SolveForUpdate 0 p st1))),
           (zblk (ip_dims st) (ip_delta (SolveForUpdate 0 p st1))).
    eexists. exists 0.
    split; [exact NB|]. split; [exact U1|]. split; [exact U2|]. split; [exact U3|]. split; [exact U4|].
    split; [intros _; cbn [primal dual]; auto|]. intros; lia.
Qed.

(* ------------------------------------------------------------------ *)
(** ** BuildFullSystem *)

Lemma vget_app1 : forall (u v : list R) i, (i < length u)%nat -> vget (u ++ v) i = vget u i.
Proof. intros. unfold vget. apply app_nth1. assumption. Qed.
Lemma vget_app2 : forall (u v : list R) n i, length u = n -> vget (u ++ v) (n + i) = vget v i.
Proof. intros u v n i <-. unfold vget. rewrite app_nth2 by lia. f_equal. lia. Qed.

Lemma Ai_get_spec : forall (p : QP R) m j, (m < nineq p)%nat ->
  Ai_get p m j = if (cv p m =? j)%nat then ca p m else 0.
Proof.
  intros p m j Hm. unfold Ai_get.
  destruct (nth_error (qcons p) m) as [c|] eqn:E.
  - assert (Ec : con p m = c) by (unfold con; apply nth_error_nth; exact E).
    unfold cv, ca. rewrite Ec. unfold cidx. rewrite Nat.eqb_sym. reflexivity.
  - apply nth_error_None in E. unfold nineq in Hm. lia.
Qed.

Lemma Rsum_Ai_row : forall (p : QP R) m v, wf_qp p -> (m < nineq p)%nat ->
  Rsum (nv p) (fun j => Ai_get p m j * v j) = ca p m * v (cv p m).
Proof.
  intros p m v W Hm. rewrite <- (Rsum_delta (nv p) (cv p m) (fun j => ca p m * v j)) by (apply cv_lt; assumption).
  apply Rsum_ext. intros j Hj. rewrite Ai_get_spec by exact Hm. rewrite Nat.eqb_sym.
  destruct (j =? cv p m)%nat; ring.
Qed.

Section Full.
  Variables (p : QP R) (st : ip_solver R).
  Hypothesis W : wf_qp p.
  Hypothesis RD : ready p st.
  Let N := nv p.
  Let M := nineq p.
  Let K := neq p.
  Let H := fst (BuildFullSystem p st).
  Let r := snd (BuildFullSystem p st).
  Let x := x_block st.
  Let s := s_block st.
  Let y := y_block st.
  Let z := z_block st.

  Let DN : dN (ip_dims st) = N := dN_nv p st RD.
  Let DM : dM (ip_dims st) = M := dM_ni p st RD.
  Let DK : dK (ip_dims st) = K := dK_ne p st RD.

  Lemma full_dims : mrows H = (N + (M + (K + M)))%nat /\ mcols H = (N + (M + (K + M)))%nat.
  Proof.
    unfold H, BuildFullSystem. cbn [fst]. rewrite mkmat_rows, mkmat_cols, DN, DM, DK. lia.
  Qed.

  Lemma full_H : forall i j, (i < N + (M + (K + M)))%nat -> (j < N + (M + (K + M)))%nat ->
    mget H i j =
      if (i <? N)%nat then
        if (j <? N)%nat then Gs p i j
        else if (j <? N + M)%nat then 0
        else if (j <? N + M + K)%nat then Ae p (j - (N + M)) i
        else Ai_get p (j - (N + M + K)) i
      else if (i <? N + M)%nat then
        if (j =? i)%nat then vget z (i - N) / vget s (i - N)
        else if (j =? i + (M + K))%nat then -1 else 0
      else if (i <? N + M + K)%nat then
        if (j <? N)%nat then Ae p (i - (N + M)) j else 0
      else
        if (j <? N)%nat then Ai_get p (i - (N + M + K)) j
        else if (i =? j + (M + K))%nat then -1 else 0.
  Proof.
    intros i j Hi Hj. unfold H, BuildFullSystem. cbn [fst]. rewrite DN, DM, DK.
    rewrite (mget_mkmat R R_ops) by lia. reflexivity.
  Qed.

  Ltac nb := repeat match goal with
    | |- context [(?a <? ?b)%nat] => first
        [ replace (a <? b)%nat with true by (symmetry; apply Nat.ltb_lt; lia)
        | replace (a <? b)%nat with false by (symmetry; apply Nat.ltb_ge; lia) ]
    end.

  Lemma full_r :
    length r = (N + (M + (K + M)))%nat /\
    (forall i, (i < N)%nat -> vget r i = kkt_dual p x y z i) /\
    (forall m, (m < M)%nat -> vget r (N + m) = vget z m) /\
    (forall k, (k < K)%nat -> vget r (N + (M + k)) = kkt_eq p x k) /\
    (forall m, (m < M)%nat -> vget r (N + (M + (K + m))) = kkt_ineq p x s m).
  Proof.
    unfold r, BuildFullSystem. cbn [snd]. rewrite DN, DM, DK.
    change (xblk (ip_dims st) (ip_vars st)) with x. change (sblk (ip_dims st) (ip_vars st)) with s.
    change (yblk (ip_dims st) (ip_vars st)) with y. change (zblk (ip_dims st) (ip_vars st)) with z.
    assert (Lx : length x = nv p) by (apply len_x; assumption).
    assert (Ly : length y = neq p) by (apply len_y; assumption).
    assert (Lz : length z = nineq p) by (apply len_z; assumption).
    set (rd0 := mkvec N (fun i => fadd (fdot (srow (qG p) i) x) (vget (qc p) i))).
    set (rd1 := if (0 <? K)%nat then _ else rd0).
    set (rd2 := if (0 <? M)%nat then _ else rd1).
    assert (G0 : forall i, (i < N)%nat -> vget rd0 i = Rsum (nv p) (fun j => Gs p i j * vget x j) + vget (qc p) i).
    { intros i Hi. unfold rd0. rewrite (vget_mkvec R R_ops) by exact Hi. rewrite (dot_srow p W) by exact Lx. reflexivity. }
    assert (G1 : forall i, (i < N)%nat -> vget rd1 i = Rsum (nv p) (fun j => Gs p i j * vget x j) + vget (qc p) i
                   - Rsum (neq p) (fun k => Ae p k i * vget y k)).
    { intros i Hi. unfold rd1. destruct (Nat.ltb_spec 0 K) as [HK|HK].
      - rewrite (vget_mkvec R R_ops) by exact Hi. rewrite (dot_mcolA p W) by exact Ly. rewrite G0 by exact Hi. reflexivity.
      - rewrite G0 by exact Hi. fold K. replace K with O by lia. simpl. ring. }
    assert (G2 : forall i, (i < N)%nat -> vget rd2 i = kkt_dual p x y z i).
    { intros i Hi. unfold rd2, kkt_dual. destruct (Nat.ltb_spec 0 M) as [HK|HK].
      - rewrite (vget_mkvec R R_ops) by exact Hi. rewrite G1 by exact Hi. simpl. f_equal.
        rewrite (Rdot_n M); [|apply mkvec_length|exact Lz]. apply Rsum_ext. intros m Hm.
        rewrite (vget_mkvec R R_ops) by exact Hm. rewrite Ai_get_spec by exact Hm.
        destruct (cv p m =? i)%nat; ring.
      - rewrite G1 by exact Hi. fold M. replace M with O by lia. simpl. ring. }
    assert (L2 : length rd2 = N).
    { unfold rd2, rd1, rd0. destruct (0 <? M)%nat; [apply mkvec_length|]. destruct (0 <? K)%nat; apply mkvec_length. }
    clearbody rd2. clear rd1 rd0 G0 G1.
    split; [|split; [|split; [|split]]].
    - rewrite !app_length, L2, !mkvec_length. lia.
    - intros i Hi. rewrite vget_app1 by lia. apply G2. exact Hi.
    - intros m Hm. rewrite (vget_app2 _ _ N _ L2). rewrite vget_app1 by (rewrite mkvec_length; lia).
      apply (vget_mkvec R R_ops). exact Hm.
    - intros k Hk. rewrite (vget_app2 _ _ N _ L2). rewrite (vget_app2 _ _ M) by apply mkvec_length.
      rewrite vget_app1 by (rewrite mkvec_length; lia). rewrite (vget_mkvec R R_ops) by exact Hk.
      rewrite (dot_mrowA p W) by assumption. reflexivity.
    - intros m Hm. rewrite (vget_app2 _ _ N _ L2). rewrite (vget_app2 _ _ M) by apply mkvec_length.
      rewrite (vget_app2 _ _ K) by apply mkvec_length. rewrite (vget_mkvec R R_ops) by exact Hm.
      assert (Ed : fdot (mkvec N (fun j => Ai_get p m j)) x = ca p m * vget x (cv p m)).
      { simpl. rewrite (Rdot_n N); [|apply mkvec_length|exact Lx].
        rewrite <- (Rsum_Ai_row p m (vget x) W Hm). apply Rsum_ext. intros j Hj.
        rewrite (vget_mkvec R R_ops) by exact Hj. reflexivity. }
      rewrite Ed. unfold kkt_ineq, cb, con.
      destruct (nth_error (qcons p) m) as [c|] eqn:E.
      + rewrite (nth_error_nth _ _ lic0 E). reflexivity.
      + apply nth_error_None in E. unfold M, nineq in Hm. lia.
  Qed.

  Variables (dx ds ny nz : list R).
  Hypothesis Lx : length dx = N.
  Hypothesis Ls : length ds = M.
  Hypothesis Ly : length ny = K.
  Hypothesis Lz : length nz = M.

  Lemma full_sum : forall h : nat -> R,
    Rsum (N + (M + (K + M))) (fun j => h j * vget (dx ++ ds ++ ny ++ nz) j) =
    Rsum N (fun j => h j * vget dx j) + (Rsum M (fun j => h (N + j)%nat * vget ds j) +
      (Rsum K (fun j => h (N + (M + j))%nat * vget ny j) +
       Rsum M (fun j => h (N + (M + (K + j)))%nat * vget nz j))).
  Proof.
    intros h. rewrite !Rsum_app. f_equal; [|f_equal; [|f_equal]]; apply Rsum_ext; intros j Hj.
    - rewrite vget_app1 by lia. reflexivity.
    - rewrite (vget_app2 _ _ N _ Lx), vget_app1 by lia. reflexivity.
    - rewrite (vget_app2 _ _ N _ Lx), (vget_app2 _ _ M _ Ls), vget_app1 by lia. reflexivity.
    - rewrite (vget_app2 _ _ N _ Lx), (vget_app2 _ _ M _ Ls), (vget_app2 _ _ K _ Ly). reflexivity.
  Qed.

  Let row i := Rsum (N + (M + (K + M))) (fun j => mget H i j * vget (dx ++ ds ++ ny ++ nz) j).

  Lemma full_row_x : forall i, (i < N)%nat ->
    row i = Rsum N (fun j => Gs p i j * vget dx j) + Rsum K (fun k => Ae p k i * vget ny k)
            + Rsum M (fun m => if (cv p m =? i)%nat then ca p m * vget nz m else 0).
  Proof.
    intros i Hi. unfold row. rewrite full_sum.
    rewrite (Rsum_ext N _ (fun j => Gs p i j * vget dx j)).
    2: { intros j Hj. rewrite full_H by lia. nb. reflexivity. }
    rewrite (Rsum_0 M (fun j => mget H i (N + j) * vget ds j)).
    2: { intros j Hj. rewrite full_H by lia. nb. ring. }
    rewrite (Rsum_ext K _ (fun k => Ae p k i * vget ny k)).
    2: { intros k Hk. rewrite full_H by lia. nb. replace (N + (M + k) - (N + M))%nat with k by lia. reflexivity. }
    rewrite (Rsum_ext M _ (fun m => if (cv p m =? i)%nat then ca p m * vget nz m else 0)).
    2: { intros m Hm. rewrite full_H by lia. nb. replace (N + (M + (K + m)) - (N + M + K))%nat with m by lia.
         rewrite Ai_get_spec by exact Hm. destruct (cv p m =? i)%nat; ring. }
    ring.
  Qed.

  Lemma full_row_s : forall m, (m < M)%nat ->
    row (N + m) = vget z m / vget s m * vget ds m - vget nz m.
  Proof.
    intros m Hm. unfold row. rewrite full_sum.
    rewrite (Rsum_0 N).
    2: { intros j Hj. rewrite full_H by lia. nb.
         destruct (Nat.eqb_spec j (N + m)); [lia|]. destruct (Nat.eqb_spec j (N + m + (M + K))); [lia|]. ring. }
    rewrite (Rsum_ext M (fun j => mget H (N + m) (N + j) * vget ds j)
              (fun j => if (j =? m)%nat then vget z j / vget s j * vget ds j else 0)).
    2: { intros j Hj. rewrite full_H by lia. nb.
         destruct (Nat.eqb_spec (N + j) (N + m)).
         - assert (j = m) by lia. subst j. rewrite Nat.eqb_refl. replace (N + m - N)%nat with m by lia. reflexivity.
         - destruct (Nat.eqb_spec j m); [lia|]. destruct (Nat.eqb_spec (N + j) (N + m + (M + K))); [lia|]. ring. }
    rewrite (Rsum_delta M m (fun j => vget z j / vget s j * vget ds j)) by exact Hm.
    rewrite (Rsum_0 K).
    2: { intros j Hj. rewrite full_H by lia. nb.
         destruct (Nat.eqb_spec (N + (M + j)) (N + m)); [lia|].
         destruct (Nat.eqb_spec (N + (M + j)) (N + m + (M + K))); [lia|]. ring. }
    rewrite (Rsum_ext M _ (fun j => if (j =? m)%nat then - vget nz j else 0)).
    2: { intros j Hj. rewrite full_H by lia. nb.
         destruct (Nat.eqb_spec (N + (M + (K + j))) (N + m)); [lia|].
         destruct (Nat.eqb_spec (N + (M + (K + j))) (N + m + (M + K))), (Nat.eqb_spec j m); try lia; ring. }
    rewrite (Rsum_delta M m (fun j => - vget nz j)) by exact Hm. ring.
  Qed.

  Lemma full_row_y : forall k, (k < K)%nat ->
    row (N + (M + k)) = Rsum N (fun j => Ae p k j * vget dx j).
  Proof.
    intros k Hk. unfold row. rewrite full_sum.
    rewrite (Rsum_ext N _ (fun j => Ae p k j * vget dx j)).
    2: { intros j Hj. rewrite full_H by lia. nb. replace (N + (M + k) - (N + M))%nat with k by lia. reflexivity. }
    rewrite !(Rsum_0 M), (Rsum_0 K); [ring|..]; intros j Hj; rewrite full_H by lia; nb; ring.
  Qed.

  Lemma full_row_z : forall m, (m < M)%nat ->
    row (N + (M + (K + m))) = ca p m * vget dx (cv p m) - vget ds m.
  Proof.
    intros m Hm. unfold row. rewrite full_sum.
    rewrite (Rsum_ext N _ (fun j => Ai_get p m j * vget dx j)).
    2: { intros j Hj. rewrite full_H by lia. nb. replace (N + (M + (K + m)) - (N + M + K))%nat with m by lia. reflexivity. }
    unfold N at 1. rewrite (Rsum_Ai_row p m (vget dx) W Hm).
    rewrite (Rsum_ext M (fun j => mget H (N + (M + (K + m))) (N + j) * vget ds j)
              (fun j => if (j =? m)%nat then - vget ds j else 0)).
    2: { intros j Hj. rewrite full_H by lia. nb.
         destruct (Nat.eqb_spec (N + (M + (K + m))) (N + j + (M + K))), (Nat.eqb_spec j m); try lia; ring. }
    rewrite (Rsum_delta M m (fun j => - vget ds j)) by exact Hm.
    rewrite (Rsum_0 K), (Rsum_0 M); [ring|..]; intros j Hj; rewrite full_H by lia; nb.
    - destruct (Nat.eqb_spec (N + (M + (K + m))) (N + (M + (K + j)) + (M + K))); [lia|]. ring.
    - destruct (Nat.eqb_spec (N + (M + (K + m))) (N + (M + j) + (M + K))); [lia|]. ring.
  Qed.
End Full.

(** C08: the matrix and vector of BuildFullSystem are the Newton system with mu = 0: a direction solves
    it (with the multiplier directions negated) exactly when it is the affine Newton direction. *)
Theorem C08_full_system : forall (p : QP R) (st : ip_solver R) (dx ds dy dz : list R),
  wf_qp p -> ready p st -> (forall m, (m < nineq p)%nat -> vget (s_block st) m <> 0) ->
  length dx = nv p -> length ds = nineq p -> length dy = neq p -> length dz = nineq p ->
  let T := (nv p + (nineq p + (neq p + nineq p)))%nat in
  let H := fst (BuildFullSystem p st) in
  let r := snd (BuildFullSystem p st) in
  mrows H = T /\ mcols H = T /\ length r = T /\
  ((forall i, (i < T)%nat ->
      Rsum T (fun j => mget H i j * vget (dx ++ ds ++ vneg dy ++ vneg dz) j) = - vget r i)
   <-> newton_direction p (x_block st) (s_block st) (y_block st) (z_block st) 0 (fun _ => 0) dx ds dy dz).
Proof.
  intros p st dx ds dy dz W RD NZ Lx Ls Ly Lz T H r.
  destruct (full_dims p st RD) as [D1 D2]. destruct (full_r p st W RD) as (Lr & R1 & R2 & R3 & R4).
  split; [exact D1|]. split; [exact D2|]. split; [exact Lr|].
  assert (Ly' : length (vneg dy) = neq p) by (rewrite vneg_length; exact Ly).
  assert (Lz' : length (vneg dz) = nineq p) by (rewrite vneg_length; exact Lz).
  pose proof (full_row_x p st RD dx ds (vneg dy) (vneg dz) Lx Ls Ly' Lz') as X.
  pose proof (full_row_s p st RD dx ds (vneg dy) (vneg dz) Lx Ls Ly' Lz') as S.
  pose proof (full_row_y p st RD dx ds (vneg dy) (vneg dz) Lx Ls Ly' Lz') as Y.
  pose proof (full_row_z p st W RD dx ds (vneg dy) (vneg dz) Lx Ls Ly' Lz') as Z.
  cbv beta zeta in X, S, Y, Z. fold H in X, S, Y, Z. fold r in R1, R2, R3, R4. fold T in X, S, Y, Z.
  assert (EX : forall i, (i < nv p)%nat ->
    Rsum T (fun j => mget H i j * vget (dx ++ ds ++ vneg dy ++ vneg dz) j) =
     Rsum (nv p) (fun j => Gs p i j * vget dx j)
     - Rsum (neq p) (fun k => Ae p k i * vget dy k)
     - Rsum (nineq p) (fun m => if (cv p m =? i)%nat then ca p m * vget dz m else 0)).
  { intros i Hi. rewrite (X i Hi). unfold Rminus. rewrite <- !Rsum_opp. f_equal; [f_equal|].
    - apply Rsum_ext. intros k Hk. rewrite vneg_get. ring.
    - apply Rsum_ext. intros m Hm. rewrite vneg_get. destruct (cv p m =? i)%nat; ring. }
  unfold newton_direction. split.
  - intros A. split; [|split; [|split]].
    + intros i Hi. rewrite <- (EX i Hi), <- (R1 i Hi). apply A. unfold T. lia.
    + intros m Hm. assert (E := A (nv p + m)%nat ltac:(unfold T; lia)).
      rewrite (S m Hm), (R2 m Hm), vneg_get in E. unfold kkt_comp.
      specialize (NZ m Hm).
      assert (E2 : vget dz m = - vget (z_block st) m - vget (z_block st) m / vget (s_block st) m * vget ds m) by lra.
      rewrite E2. field. exact NZ.
    + intros k Hk. assert (E := A (nv p + (nineq p + k))%nat ltac:(unfold T; lia)).
      rewrite (Y k Hk), (R3 k Hk) in E. exact E.
    + intros m Hm. assert (E := A (nv p + (nineq p + (neq p + m)))%nat ltac:(unfold T; lia)).
      rewrite (Z m Hm), (R4 m Hm) in E. exact E.
  - intros (B1 & B2 & B3 & B4) i Hi. unfold T in Hi.
    destruct (Nat.lt_ge_cases i (nv p)) as [H1|H1].
    { rewrite (EX i H1), (R1 i H1). apply B1. exact H1. }
    destruct (Nat.lt_ge_cases i (nv p + nineq p)) as [H2|H2].
    { assert (exists m, i = (nv p + m)%nat /\ (m < nineq p)%nat) as (m & -> & Hm) by (exists (i - nv p)%nat; lia).
      rewrite (S m Hm), (R2 m Hm), vneg_get. specialize (NZ m Hm). specialize (B2 m Hm). unfold kkt_comp in B2.
      apply (Rmult_eq_reg_l (vget (s_block st) m)); [|exact NZ].
      replace (vget (s_block st) m * (vget (z_block st) m / vget (s_block st) m * vget ds m - - vget dz m))
        with (vget (s_block st) m * vget dz m + vget (z_block st) m * vget ds m) by (field; exact NZ).
      lra. }
    destruct (Nat.lt_ge_cases i (nv p + nineq p + neq p)) as [H3|H3].
    { assert (exists k, i = (nv p + (nineq p + k))%nat /\ (k < neq p)%nat) as (k & -> & Hk) by (exists (i - nv p - nineq p)%nat; lia).
      rewrite (Y k Hk), (R3 k Hk). apply B3. exact Hk. }
    assert (exists m, i = (nv p + (nineq p + (neq p + m)))%nat /\ (m < nineq p)%nat) as (m & -> & Hm)
      by (exists (i - nv p - nineq p - neq p)%nat; lia).
    rewrite (Z m Hm), (R4 m Hm). apply B4. exact Hm.
Qed.
