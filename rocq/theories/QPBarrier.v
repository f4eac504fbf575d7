(** C16 (barrier schedule), C17 (predictor-corrector probe), C18 (no inequality constraints), over the reals. *)
From Coq Require Import String List Bool Arith ZArith Reals Lra Lia.
From Verif Require Import Scalar Outcome LinAlg Structs Constraint QPModel QPBlocks RInst Spec
  Props_Constraint QPAlgebra QPNewton QPAlpha QPStep QPTrace QPInit QPSolve.
Import ListNotations.
Local Open Scope list_scope.
Local Open Scope R_scope.

(** ** C16 *)

(** mu logged = mu used, except with the predictor-corrector. *)
Lemma run_logged_mu : forall ldlt params (p : QP R) mu st tr,
  ready p st -> p_barrier_strategy params <> PREDICTOR_CORRECTOR ->
  ip_run ldlt params p mu st tr ->
  forall mu' it st', In (mu', it, st') tr -> ip_mu (ip_outputs it) = mu' /\ ready p st'.
Proof.
  intros ldlt params p mu st tr RD NPC HR.
  induction HR as [mu st|mu st it mu' st' tr S HR IH]; intros mu'' it'' st'' Hin; [destruct Hin|].
  inversion S as [? ? st1 outs HI]; subst.
  destruct (Iterate_ready _ _ _ _ _ _ _ RD HI) as [RD1 _].
  pose proof (eval_ready p st1 RD1) as RD2.
  destruct Hin as [Heq|Hin].
  - apply pair_inj in Heq. destruct Heq as [Heq <-]. apply pair_inj in Heq. destruct Heq as [<- <-].
    split; [|exact RD2]. cbn [ip_outputs].
    destruct (Iterate_inv _ _ _ _ _ _ _ RD HI) as (Hinv & stb & mu2 & _ & _ & _ & _ & _ & _ & _ & _ & _ & A & _).
    apply A. exact NPC.
  - apply (IH RD2 _ _ _ Hin).
Qed.

(** C16: FIXED_DECREASE: the k-th logged mu is initial_mu * sigma^k. *)
Theorem C16_fixed_decrease : forall ldlt params (p : QP R) st st' out,
  wf_qp p -> ready p st ->
  (p_initial_guess_method params = USER_PROVIDED -> interior p st) ->
  p_barrier_strategy params = FIXED_DECREASE ->
  p_decrease_mu_only_on_small_error params = false ->
  p_initialize_mu_with_complementarity params = false ->
  IP_Solve ldlt params st = Ok (st', out) ->
  forall k it, nth_error (qp_iterations out) k = Some it ->
    ip_mu (ip_outputs it) = p_initial_mu params * p_sigma params ^ k.
Proof.
  intros ldlt params p st st' out W RD HU HS HD HC H k it Hk.
  destruct (C12_Solve_run _ _ _ _ _ H) as (p' & st1 & mu & tr & Hp & _ & _ & HST & HR & HI & _).
  assert (p' = p) by (rewrite (rd_p _ _ RD) in Hp; congruence). subst p'.
  destruct (start_ok _ _ _ _ _ _ W RD HU HST) as [E1 _].
  destruct HST as (st0 & _ & _ & Emu). rewrite HC in Emu.
  assert (Q : forall mu st tr, ip_run ldlt params p mu st tr -> forall k mu' it st',
            nth_error tr k = Some (mu', it, st') -> mu' = mu * p_sigma params ^ k).
  { clear - HS HD. intros mu st tr HR. induction HR as [|mu st it mu' st' tr S HR IH]; intros k mu'' it'' st'' Hk.
    - destruct k; discriminate.
    - destruct k as [|k]; cbn [nth_error] in Hk.
      + assert (mu'' = mu) by congruence. subst mu''. simpl. ring.
      + apply IH in Hk. rewrite Hk. inversion S as [? ? st1 outs HI]; subst. unfold next_mu. rewrite HD, HS.
        cbn [negb]. rewrite orb_true_r. simpl. ring. }
  rewrite HI in Hk. rewrite nth_error_map in Hk.
  destruct (nth_error tr k) as [[[mu' it'] st'']|] eqn:En; [|discriminate]. cbn in Hk.
  assert (it' = it) by congruence. subst it'.
  destruct (run_logged_mu _ _ _ _ _ _ (evaluated_ready _ _ E1) ltac:(rewrite HS; discriminate) HR mu' it st'') as [L _].
  { apply nth_error_In in En. exact En. }
  rewrite L. rewrite (Q _ _ _ HR _ _ _ _ En). rewrite Emu. reflexivity.
Qed.

(** C16: one step of the schedule, for every strategy. [mu], [mu'] are the values used by two
    consecutive iterations; the first ended in state [st'] with the logged error [kkt_final it]. *)
Theorem C16_next_mu : forall ldlt params (p : QP R) mu0 st tr tr1 tr2 mu it st' mu' it' st'',
  ready p st -> ip_run ldlt params p mu0 st tr ->
  tr = tr1 ++ (mu, it, st') :: (mu', it', st'') :: tr2 ->
  (p_decrease_mu_only_on_small_error params = true -> KKT_Max (kkt_final it) > mu -> mu' = mu) /\
  ((p_decrease_mu_only_on_small_error params = false \/ KKT_Max (kkt_final it) <= mu) ->
     (p_barrier_strategy params = FIXED_DECREASE -> mu' = p_sigma params * mu) /\
     (p_barrier_strategy params <> FIXED_DECREASE -> (0 < nineq p)%nat ->
        mu' = p_sigma params *
              (Rsum (nineq p) (fun m => vget (s_block st') m * vget (z_block st') m) / INR (nineq p)))).
Proof.
  intros ldlt params p mu0 st tr tr1 tr2 mu it st' mu' it' st'' RD HR Etr.
  revert mu0 st tr RD HR Etr. induction tr1 as [|e tr1 IH]; intros mu0 st tr RD HR Etr.
  - subst tr. cbn [app] in HR.
    inversion HR as [|? ? ? mu1 ? ? S HR']; subst. inversion HR' as [|? ? ? mu2 ? ? S' _]; subst.
    inversion S as [? ? st1 outs HI]; subst. cbn [kkt_final].
    destruct (Iterate_ready _ _ _ _ _ _ _ RD HI) as [RD1 _].
    pose proof (eval_ready p st1 RD1) as RD2.
    change (ready p st2) in RD2. clearbody st2.
    set (kk := ComputeErrors st2 mu) in *. unfold next_mu.
    destruct (R_fleb (KKT_Max kk) mu) as [Hle|Hgt].
    + cbn [orb]. split; [intros _ Hg; exfalso; exact (Rlt_not_le _ _ Hg Hle)|]. intros _. split.
      * intros ->. apply Rmult_comm.
      * intros NF HM. rewrite <- (ComputeMu_R p st2 RD2 HM).
        destruct (p_barrier_strategy params); try congruence; reflexivity.
    + cbn [orb]. destruct (p_decrease_mu_only_on_small_error params); cbn [negb].
      * split; [auto|]. intros [Hf|Hf]; [discriminate|exfalso; exact (Hgt Hf)].
      * split; [discriminate|]. intros _. split.
        -- intros ->. apply Rmult_comm.
        -- intros NF HM. rewrite <- (ComputeMu_R p st2 RD2 HM).
           destruct (p_barrier_strategy params); try congruence; reflexivity.
  - subst tr. inversion HR as [|? ? ? mu1 sta ? S HR']; subst.
    inversion S as [? ? st1 outs HI]; subst.
    destruct (Iterate_ready _ _ _ _ _ _ _ RD HI) as [RD1 _].
    apply (IH _ _ _ (eval_ready p st1 RD1) HR' eq_refl).
Qed.

Lemma compl_pos : forall p st, ready p st -> interior p st -> (0 < nineq p)%nat -> 0 < ComputeMu st.
Proof.
  intros p st RD INT HM. rewrite (ComputeMu_R p st RD HM). apply Rdiv_lt_0_compat; [|apply lt_0_INR; exact HM].
  assert (P : forall m, (m < nineq p)%nat -> 0 < vget (s_block st) m * vget (z_block st) m).
  { intros m Hm. destruct (INT m Hm). apply Rmult_lt_0_compat; assumption. }
  apply Rlt_le_trans with (vget (s_block st) 0%nat * vget (z_block st) 0%nat); [apply P; exact HM|].
  apply (Rsum_pos_term (nineq p) (fun m => vget (s_block st) m * vget (z_block st) m)); [|exact HM].
  intros i Hi. apply Rlt_le. apply P. exact Hi.
Qed.

(** C16: mu stays positive when there are inequality constraints. *)
Theorem C16_mu_positive : forall ldlt params (p : QP R) st st' out,
  wf_qp p -> ready p st -> (0 < nineq p)%nat ->
  (p_initial_guess_method params = USER_PROVIDED -> interior p st) ->
  IP_Solve ldlt params st = Ok (st', out) ->
  exists st1 mu0 tr, ip_start ldlt params p st st1 mu0 /\ ip_run ldlt params p mu0 st1 tr /\
    qp_iterations out = map (fun e => snd (fst e)) tr /\ 0 < mu0 /\
    forall mu it s, In (mu, it, s) tr -> 0 < mu.
Proof.
  intros ldlt params p st st' out W RD HM HU H.
  destruct (C12_Solve_run _ _ _ _ _ H) as (p' & st1 & mu & tr & Hp & PV & _ & HS & HR & HI & _).
  assert (p' = p) by (rewrite (rd_p _ _ RD) in Hp; congruence). subst p'.
  destruct (start_ok _ _ _ _ _ _ W RD HU HS) as [E1 I1].
  destruct PV as (P1 & P2 & _ & _ & _).
  destruct (R_fltb f0 (p_initial_mu params)) as [Q1|]; [|discriminate].
  destruct (R_fltb f0 (p_sigma params)) as [Q2|]; [|discriminate]. simpl in Q1, Q2.
  assert (M0 : 0 < mu).
  { destruct HS as (st0 & _ & _ & ->). destruct (p_initialize_mu_with_complementarity params); [|exact Q1].
    apply compl_pos with p; auto. apply evaluated_ready. exact E1. }
  exists st1, mu, tr. splits; auto. clear HS HI H.
  assert (R1 := evaluated_ready _ _ E1). clear E1.
  revert R1 I1 M0. induction HR as [|mu st1 it mu' st2 tr S HR IH]; intros R1 I1 M0 mu'' it'' s'' Hin; [destruct Hin|].
  destruct Hin as [Heq|Hin]; [congruence|].
  inversion S as [? ? stx outs HI]; subst.
  destruct (C06_iteration_keeps_interior _ _ _ _ _ _ _ R1 I1 HI) as [RD1 INT1].
  pose proof (eval_ready p stx RD1) as RD2.
  refine (IH RD2 INT1 _ _ _ _ Hin).
  assert (C := compl_pos p (EvaluateKKTConditions true p stx) RD2 INT1 HM).
  unfold next_mu. destruct (_ || _); [|exact M0].
  destruct (p_barrier_strategy params); simpl; apply Rmult_lt_0_compat; auto.
Qed.

(** The complementarity s^T z / M of an iterate. *)
Definition complementarity (p : QP R) (st : ip_solver R) : R :=
  Rsum (nineq p) (fun m => vget (s_block st) m * vget (z_block st) m) / INR (nineq p).

(** C16, on the log of a Solve that returned, with FIXED_DECREASE or COMPLEMENTARITY. [sts k] is the state before
    iteration k: the initial guess for k = 0, the returned state after the last one. The first logged mu is
    initial_mu (or the complementarity of the guess, if so configured); from then on it is kept while the logged
    error exceeds it (if so configured), and otherwise multiplied by sigma or replaced by sigma * s^T z / M. *)
Theorem C16_logged_schedule : forall ldlt params (p : QP R) st st' out,
  wf_qp p -> ready p st -> (0 < nineq p)%nat ->
  (p_initial_guess_method params = USER_PROVIDED -> interior p st) ->
  p_barrier_strategy params <> PREDICTOR_CORRECTOR ->
  IP_Solve ldlt params st = Ok (st', out) ->
  let log := qp_iterations out in
  exists sts : nat -> ip_solver R,
    (exists st0, ComputeInitialGuess ldlt params p st = Ok st0 /\ sts 0%nat = EvaluateKKTConditions true p st0) /\
    sts (length log) = st' /\
    (forall k it, nth_error log k = Some it ->
       let mu := ip_mu (ip_outputs it) in
       (exists st1, Iterate ldlt p mu (p_barrier_strategy params) (sts k) = Ok (st1, ip_outputs it) /\
          sts (S k) = EvaluateKKTConditions true p st1) /\
       kkt_initial it = ComputeErrors (sts k) mu /\ kkt_final it = ComputeErrors (sts (S k)) mu) /\
    (forall it, nth_error log 0 = Some it ->
       ip_mu (ip_outputs it) = (if p_initialize_mu_with_complementarity params then complementarity p (sts 0%nat)
                                else p_initial_mu params)) /\
    (forall k it it', nth_error log k = Some it -> nth_error log (S k) = Some it' ->
       let mu := ip_mu (ip_outputs it) in
       ip_mu (ip_outputs it') =
         if andb (p_decrease_mu_only_on_small_error params) (if Rle_dec (KKT_Max (kkt_final it)) mu then false else true)
         then mu
         else match p_barrier_strategy params with
              | FIXED_DECREASE => p_sigma params * mu
              | _ => p_sigma params * complementarity p (sts (S k))
              end).
Proof.
  intros ldlt params p st st' out W RD HM HU NPC H log.
  destruct (C12_Solve_run _ _ _ _ _ H) as (p' & st1 & mu & tr & Hp & _ & _ & HST & HR & HI & HL & _).
  assert (p' = p) by (rewrite (rd_p _ _ RD) in Hp; congruence). subst p'.
  destruct (start_ok _ _ _ _ _ _ W RD HU HST) as [E1 _].
  destruct HST as (st0 & HG & E0 & Emu).
  pose proof (evaluated_ready _ _ E1) as R1.
  set (sts := fun k => nth k (st1 :: map snd tr) st1).
  assert (Q : forall mu st tr, ip_run ldlt params p mu st tr -> ready p st ->
     forall k mu' it st', nth_error tr k = Some (mu', it, st') ->
       ip_mu (ip_outputs it) = mu' /\ ready p (nth k (st :: map snd tr) st) /\
       nth (S k) (st :: map snd tr) st = st' /\ ready p st' /\
       (exists sx, Iterate ldlt p mu' (p_barrier_strategy params) (nth k (st :: map snd tr) st) = Ok (sx, ip_outputs it) /\
          st' = EvaluateKKTConditions true p sx) /\
       kkt_initial it = ComputeErrors (nth k (st :: map snd tr) st) mu' /\ kkt_final it = ComputeErrors st' mu').
  { clear - NPC. intros mu st tr HR. induction HR as [|mu st it mu' st' tr S HR IH]; intros RD k mu'' it'' st'' Hk.
    - destruct k; discriminate.
    - pose proof S as S0. inversion S as [? ? sx outs HI]; subst.
      destruct (Iterate_ready _ _ _ _ _ _ _ RD HI) as [RD1 _].
      pose proof (eval_ready p sx RD1) as RD2. change (ready p st2) in RD2.
      destruct k as [|k]; cbn [nth_error] in Hk.
      + injection Hk as <- <- <-. cbn [map snd nth ip_outputs kkt_initial kkt_final]. splits; auto.
        * destruct (Iterate_inv _ _ _ _ _ _ _ RD HI) as (_ & stb & mu2 & _ & _ & _ & _ & _ & _ & _ & _ & _ & A & _).
          apply A. exact NPC.
        * exists sx. split; [exact HI|reflexivity].
      + destruct (IH RD2 _ _ _ _ Hk) as (A & B & C & D & E & G & K).
        assert (LT : (k < length tr)%nat) by (apply nth_error_Some; congruence).
        cbn [map snd]. 
        change (nth (Datatypes.S k) (st :: st2 :: map snd tr) st) with (nth k (st2 :: map snd tr) st).
        change (nth (Datatypes.S (Datatypes.S k)) (st :: st2 :: map snd tr) st) with (nth (Datatypes.S k) (st2 :: map snd tr) st).
        rewrite !(nth_indep (st2 :: map snd tr) st st2) by (cbn [length]; rewrite map_length; lia).
        splits; auto. }
  assert (QQ := Q _ _ _ HR R1). clear Q.
  assert (LOG : forall k it, nth_error log k = Some it -> exists mu' st'', nth_error tr k = Some (mu', it, st'')).
  { intros k it Hk. unfold log in Hk. rewrite HI, nth_error_map in Hk.
    destruct (nth_error tr k) as [[[mu' it'] st'']|] eqn:En; [|discriminate]. cbn in Hk. injection Hk as ->. eauto. }
  exists sts. splits.
  - exists st0. split; [exact HG|exact E0].
  - unfold log. rewrite HI, map_length, HL. unfold sts. clear - HR.
    destruct tr as [|e tr] using rev_ind; [reflexivity|]. rewrite map_app. cbn [map]. rewrite last_last, app_length.
    cbn [length]. rewrite app_comm_cons, app_nth2 by (cbn [length]; rewrite map_length; lia).
    cbn [length]. rewrite map_length. replace (length tr + 1 - S (length tr))%nat with 0%nat by lia. reflexivity.
  - intros k it Hk. destruct (LOG k it Hk) as (mu' & st'' & En). destruct (QQ _ _ _ _ En) as (A & _ & C & _ & (sx & E & G) & I & K).
    cbn zeta. rewrite A. fold (sts k) in E, I. fold (sts (S k)) in C. rewrite C. splits; auto. exists sx. split; [exact E|exact G].
  - intros it Hk. destruct (LOG _ _ Hk) as (mu' & st'' & En). destruct (QQ _ _ _ _ En) as (A & _).
    rewrite A. assert (mu' = mu).
    { destruct tr as [|e tr']; [discriminate|]. cbn [nth_error] in En. injection En as ->.
      inversion HR; subst. reflexivity. }
    rewrite H0, Emu. unfold sts. cbn [nth]. rewrite (ComputeMu_R p st1 R1 HM). reflexivity.
  - intros k it it' Hk Hk'. cbn zeta.
    destruct (LOG _ _ Hk) as (mu1 & s1 & En). destruct (LOG _ _ Hk') as (mu2 & s2 & En').
    destruct (QQ _ _ _ _ En) as (A & _ & C & _). destruct (QQ _ _ _ _ En') as (A' & _).
    fold (sts (S k)) in C. rewrite A, A'.
    destruct (nth_error_split _ _ En) as (l1 & l2 & Et & El).
    assert (exists l3, l2 = (mu2, it', s2) :: l3) as [l3 ->].
    { rewrite Et in En'. rewrite nth_error_app2 in En' by lia. replace (S k - length l1)%nat with 1%nat in En' by lia.
      cbn [nth_error] in En'. destruct l2 as [|e l3]; [discriminate|]. injection En' as ->. eauto. }
    destruct (C16_next_mu _ _ _ _ _ _ _ _ _ _ _ _ _ _ R1 HR Et) as [N1 N2].
    rewrite C. unfold complementarity.
    destruct (Rle_dec (KKT_Max (kkt_final it)) mu1) as [LE|GT].
    + rewrite andb_false_r. destruct (N2 (or_intror LE)) as [F1 F2].
      destruct (p_barrier_strategy params); [apply F2|apply F1|]; auto; try discriminate; contradiction NPC; reflexivity.
    + rewrite andb_true_r. destruct (p_decrease_mu_only_on_small_error params).
      * apply N1; [reflexivity|]. lra.
      * destruct (N2 (or_introl eq_refl)) as [F1 F2].
        destruct (p_barrier_strategy params); [apply F2|apply F1|]; auto; try discriminate; contradiction NPC; reflexivity.
Qed.

(** ** C17 *)

(** The complementarity s^T z / M that an affine step with lengths (ap, ad) would give. *)
Definition affine_complementarity (p : QP R) (s z ds dz : list R) (ap ad : R) : R :=
  Rsum (nineq p) (fun m => (vget s m + ap * vget ds m) * (vget z m + ad * vget dz m)) / INR (nineq p).

(** C17: the probe returns the affine complementarity shifted by mu - s^T z / M, floored at 0; it is the
    affine complementarity when the mu passed in is the current one. *)
Theorem C17_mu_affine_offset : forall (p : QP R) (st : ip_solver R) (mu : R) (al : AlphaValues R),
  ready p st -> (0 < nineq p)%nat ->
  let ds := sblk (ip_dims st) (ip_delta_aff st) in
  let dz := zblk (ip_dims st) (ip_delta_aff st) in
  let target := affine_complementarity p (s_block st) (z_block st) ds dz (primal al) (dual al) in
  ComputePredictorCorrectorMuAffine st mu al = Rmax (target + (mu - ComputeMu st)) 0 /\
  (mu = ComputeMu st -> ComputePredictorCorrectorMuAffine st mu al = Rmax target 0) /\
  0 <= ComputePredictorCorrectorMuAffine st mu al.
Proof.
  intros p st mu al RD HM ds dz target.
  assert (E : ComputePredictorCorrectorMuAffine st mu al = Rmax (target + (mu - ComputeMu st)) 0).
  { unfold ComputePredictorCorrectorMuAffine. rewrite R_fmax. simpl (@f0 R R_ops). f_equal.
    cbn [fadd fmul fdiv fofnat R_ops].
    change (@fdot R R_ops) with Rdot.
    fold (s_block st). fold (z_block st). fold ds dz.
    assert (DM := dM_ni p st RD). cbn in DM. rewrite DM.
    assert (L1 : length (s_block st) = nineq p) by (unfold s_block; rewrite sblk_length by apply RD; exact DM).
    assert (L2 : length (z_block st) = nineq p) by (unfold z_block; rewrite zblk_length by apply RD; exact DM).
    assert (L3 : length ds = nineq p) by (unfold ds; rewrite sblk_length by apply RD; exact DM).
    assert (L4 : length dz = nineq p) by (unfold dz; rewrite zblk_length by apply RD; exact DM).
    rewrite !(Rdot_n (nineq p)) by assumption.
    rewrite (ComputeMu_R p st RD HM). unfold target, affine_complementarity.
    assert (HP : 0 < INR (nineq p)) by (apply lt_0_INR; exact HM).
    set (sz := Rsum (nineq p) (fun m => vget (s_block st) m * vget (z_block st) m)).
    set (sdz := Rsum (nineq p) (fun m => vget (s_block st) m * vget dz m)).
    set (zds := Rsum (nineq p) (fun m => vget (z_block st) m * vget ds m)).
    set (dsdz := Rsum (nineq p) (fun m => vget ds m * vget dz m)).
    assert (ET : Rsum (nineq p) (fun m => (vget (s_block st) m + primal al * vget ds m) * (vget (z_block st) m + dual al * vget dz m))
      = sz + dual al * sdz + primal al * zds + dual al * primal al * dsdz).
    { unfold sz, sdz, zds, dsdz. rewrite <- !Rsum_scal_l, <- !Rsum_plus. apply Rsum_ext. intros; ring. }
    rewrite ET. field. lra. }
  splits.
  - exact E.
  - intros ->. rewrite E. f_equal. ring.
  - rewrite E. apply Rmax_r.
Qed.

(** C17 finding: Solve passes sigma * s^T z / M (or initial_mu), not s^T z / M, so the probe is wrong by
    (sigma - 1) s^T z / M. Witness with one constraint and a zero affine step: the complementarity stays 1,
    the probe says 1/2. *)
Theorem C17_probe_wrong_refuted : exists (p : QP R) (st : ip_solver R) (mu : R),
  ready p st /\ nineq p = 1%nat /\ interior p st /\ mu = / 2 * ComputeMu st /\
  let al := MkAlpha 1 1 in
  affine_complementarity p (s_block st) (z_block st)
    (sblk (ip_dims st) (ip_delta_aff st)) (zblk (ip_dims st) (ip_delta_aff st)) 1 1 = 1 /\
  ComputePredictorCorrectorMuAffine st mu al = / 2.
Proof.
  set (p := MkQP (mkmat 1 1 (fun _ _ => 1)) [0] (mkmat 0 1 (fun _ _ => 0)) [] [LIC 0%Z 1 0]).
  set (st := MkIP (Some p) (MkDims 1 1 0) [1; 1; 1] [0; 0; 0] (mkmat 1 1 (fun _ _ => 1)) [0; 0; 0] [0; 0; 0]).
  assert (RD : ready p st) by (constructor; reflexivity).
  assert (CM : ComputeMu st = 1).
  { rewrite (ComputeMu_R p st RD) by (unfold nineq; simpl; lia). unfold nineq, s_block, z_block. cbn. field. }
  assert (T : affine_complementarity p (s_block st) (z_block st)
    (sblk (ip_dims st) (ip_delta_aff st)) (zblk (ip_dims st) (ip_delta_aff st)) 1 1 = 1).
  { unfold affine_complementarity. unfold nineq, s_block, z_block. cbn. field. }
  exists p, st, (/ 2 * ComputeMu st). splits; auto.
  - intros m Hm. simpl in Hm. assert (m = 0%nat) by (unfold nineq in Hm; simpl in Hm; lia). subst m. unfold s_block, z_block. cbn. lra.
  - split; [exact T|]. destruct (C17_mu_affine_offset p st (/ 2 * ComputeMu st) (MkAlpha 1 1) RD ltac:(unfold nineq; simpl; lia)) as [E _].
    rewrite E. cbn [primal dual]. rewrite T, CM. rewrite Rmax_left; lra.
Qed.

(** ** C18 *)

(** C18: without inequality constraints and with an exact factorisation, one iteration produces
    a point with zero KKT residual. *)
Theorem C18_one_iteration_exact : forall ldlt (p : QP R) mu strat (st st' : ip_solver R) out,
  wf_qp p -> ready p st -> nineq p = 0%nat ->
  ldlt_exact (nv p + neq p) ldlt ->
  Iterate ldlt p mu strat st = Ok (st', out) ->
  (forall i, (i < nv p)%nat -> kkt_dual p (x_block st') (y_block st') (z_block st') i = 0) /\
  (forall k, (k < neq p)%nat -> kkt_eq p (x_block st') k = 0).
Proof.
  intros ldlt p mu strat st st' out W RD H0 Hex H.
  destruct (Iterate_ready _ _ _ _ _ _ _ RD H) as [RD' D'].
  destruct (Iterate_inv _ _ _ _ _ _ _ RD H)
    as (Hinv & stb & mu2 & _ & EL & RDb & V & RR & HI & D & AL & _ & _ & E').
  destruct (AL H0) as (Emu & Ealpha & _).
  pose proof (upd_ready p stb mu2 RDb) as RDu.
  destruct (apply_update_blocks (SolveForUpdate mu2 p stb) (ip_alpha out) (rd_vars _ _ RDu) (rd_delta _ _ RDu))
    as (_ & Bx & _ & By & _).
  destruct (eval_r_blocks p st W RD) as (Rd & _ & Re & _).
  assert (INV : sym_right_inverse (nv p + neq p)
              (reduced_H true p (ip_dims stb) (sblk (ip_dims stb) (ip_vars stb)) (zblk (ip_dims stb) (ip_vars stb)))
              (ip_Hinv stb)) by (rewrite D, V, HI; apply Hex; [unfold reduced_H; rewrite ?mkmat_rows, (dN_nv p st RD), (dK_ne p st RD); reflexivity
              |unfold reduced_H; rewrite ?mkmat_cols, (dN_nv p st RD), (dK_ne p st RD); reflexivity|exact EL]).
  destruct (C08_update_solves_newton_system p stb mu2 W RDb
    ltac:(intros m Hm; lia) INV) as (N1 & _ & N3 & _).
  change (ip_dims (SolveForUpdate mu2 p stb)) with (ip_dims stb) in *.
  change (ip_vars (SolveForUpdate mu2 p stb)) with (ip_vars stb) in *.
  rewrite Ealpha in *. cbn [primal dual] in *.
  unfold x_block, y_block. rewrite D'. rewrite E'. rewrite D, V, RR in *.
  set (dl := ip_delta (SolveForUpdate mu2 p stb)) in *. clearbody dl. clear E'.
  split.
  - intros i Hi. specialize (N1 i Hi). rewrite (Rd i Hi) in N1.
    unfold kkt_dual in *. rewrite H0 in *. simpl (Rsum 0 _) in *.
    rewrite (Rsum_ext (nv p) _ (fun j => Gs p i j * vget (xblk (ip_dims st) (ip_vars st)) j
       + Gs p i j * vget (xblk (ip_dims st) dl) j))
      by (intros j Hj; rewrite Bx; ring).
    rewrite (Rsum_ext (neq p) _ (fun k => Ae p k i * vget (yblk (ip_dims st) (ip_vars st)) k
       + Ae p k i * vget (yblk (ip_dims st) dl) k))
      by (intros k Hk; rewrite By; ring).
    rewrite !Rsum_plus. lra.
  - intros k Hk. specialize (N3 k Hk). rewrite (Re k Hk) in N3. unfold kkt_eq in *.
    rewrite (Rsum_ext (nv p) _ (fun j => Ae p k j * vget (xblk (ip_dims st) (ip_vars st)) j
       + Ae p k j * vget (xblk (ip_dims st) dl) j))
      by (intros j Hj; rewrite Bx; ring).
    rewrite Rsum_plus. lra.
Qed.

Lemma norm2_zero : forall n f, (forall i, (i < n)%nat -> f i = 0) -> norm2 n f = 0.
Proof.
  intros n f H. unfold norm2. rewrite Rsum_0; [apply sqrt_0|]. intros i Hi. rewrite H by exact Hi. ring.
Qed.

(** C18: Solve on a problem with equality constraints only: with an exact factorisation it returns
    SATISFIED_KKT_TOL after exactly one iteration, the equality constraints hold exactly, and for
    positive semidefinite G the returned x has the least objective of all points satisfying them. *)
Theorem C18_equality_only_solve : forall ldlt params (p : QP R) (st : ip_solver R),
  wf_qp p -> ready p st -> nineq p = 0%nat -> ip_params_valid params ->
  0 < p_termination_complementarity_tol params ->
  (* the factorisation succeeds on [[G, A_e^T], [A_e, 0]] and is exact whenever it succeeds *)
  (forall H, reduced_kkt p (fun _ => 0) H -> exists Hi, ldlt H = Some Hi) ->
  ldlt_exact (nv p + neq p) ldlt ->
  exists st' out, IP_Solve ldlt params st = Ok (st', out) /\
    qp_termination_state out = SATISFIED_KKT_TOL /\ length (qp_iterations out) = 1%nat /\
    eq_feasible p (x_block st') /\
    (forall i, (i < nv p)%nat -> kkt_dual p (x_block st') (y_block st') (z_block st') i = 0) /\
    (psd p -> forall x', length x' = nv p -> eq_feasible p x' -> objective p (x_block st') <= objective p x').
Proof.
  intros ldlt params p st W RD H0 PV TOL Hsucc Hex.
  assert (Hnil : qcons p = []) by (apply length_zero_iff_nil; exact H0).
  assert (INTall : forall s, interior p s) by (intros s m Hm; lia).
  assert (Hsolve : exists st' out, IP_Solve ldlt params st = Ok (st', out)).
  { destruct (C06_only_factorization_fails ldlt params p st W RD PV) as [E|(_ & w & H & _ & RK & EL)]; auto.
    - destruct (p_initial_guess_method params) eqn:EM; [left|left|right]; split; auto; try discriminate;
        rewrite Hnil; intros c [].
    - exfalso. destruct (Hsucc H) as [Hi E]; [|congruence]. unfold reduced_kkt in *. rewrite H0 in *. exact RK. }
  destruct Hsolve as (st' & out & H).
  exists st', out. split; [exact H|].
  destruct (C12_Solve_run _ _ _ _ _ H) as (p' & st1 & mu & tr & Hp & _ & _ & HS & HR & HI & HL & _ & HN & HC).
  assert (p' = p) by (rewrite (rd_p _ _ RD) in Hp; congruence). subst p'.
  destruct (start_ok _ _ _ _ _ _ W RD ltac:(auto) HS) as [E1 I1].
  destruct tr as [|[[mu1 it1] sta] tr]; [simpl in HN; lia|].
  inversion HR as [|? ? ? mu2 ? ? S HR']; subst. inversion S as [? ? stx outs HIt]; subst.
  destruct (C18_one_iteration_exact _ _ _ _ _ _ _ W (evaluated_ready _ _ E1) H0 Hex HIt) as [Z1 Z2].
  destruct (Iterate_ready _ _ _ _ _ _ _ (evaluated_ready _ _ E1) HIt) as [RDx _].
  set (sta := EvaluateKKTConditions true p stx) in *.
  assert (EV : evaluated p sta) by (exists stx; auto).
  assert (MET : tolerances_met params (mu1, MkQPIter (ComputeErrors st1 mu1) (ComputeErrors sta mu1) outs, sta)).
  { split; cbn [fst snd kkt_final].
    - rewrite (evaluated_errors p sta mu1 W EV), KKT_Max_R. cbn [r_dual r_comp r_primal_eq r_primal_ineq].
      rewrite (norm2_zero (nv p)) by exact Z1. rewrite (norm2_zero (neq p)) by exact Z2.
      rewrite H0, !norm2_0. rewrite !(Rmax_left 0 0) by lra.
      destruct PV as (_ & _ & _ & P4 & _). exact P4.
    - rewrite (ComputeMu_R0 p sta (evaluated_ready _ _ EV) H0).
      destruct (R_fltb 0 (p_termination_complementarity_tol params)) as [_|T]; [reflexivity|]. exfalso; apply T; exact TOL. }
  destruct HC as [(_ & _ & Hall)|(HT & tr0 & e & Htr & He & Hall)].
  { exfalso. apply (Hall _ (or_introl eq_refl)). exact MET. }
  destruct tr0 as [|e0 tr0].
  2: { exfalso. cbn [app] in Htr. injection Htr as <- _. apply (Hall _ (or_introl eq_refl)). exact MET. }
  cbn [app] in Htr. injection Htr as _ ->. cbn [map snd last]; subst st2.
  splits; [exact HT| | | |].
  - rewrite HI. reflexivity.
  - exact Z2.
  - exact Z1.
  - intros PSD x' Lx' HE. 
    assert (Lx : length (x_block sta) = nv p).
    { pose proof (evaluated_ready _ _ EV) as RDs. unfold x_block. rewrite xblk_length by apply RDs. apply (dN_nv p sta RDs). }
    pose proof (C14_certificate p (x_block sta) (s_block sta) (y_block sta) (z_block sta) x' W PSD Lx Lx') as C.
    rewrite H0 in C. specialize (C ltac:(intros; lia) HE ltac:(intros m Hm; lia)). simpl (Rsum 0 _) in C.
    rewrite (Rsum_0 (nv p)) in C.
    + rewrite (Rsum_0 (neq p)) in C; [lra|]. intros k Hk. change (x_block sta) with (x_block stx). rewrite (Z2 k Hk). ring.
    + intros i Hi. change (x_block sta) with (x_block stx). change (y_block sta) with (y_block stx).
      change (z_block sta) with (z_block stx). rewrite (Z1 i Hi). ring.
Qed.
