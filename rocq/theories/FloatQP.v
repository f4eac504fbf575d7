(** C06, C12 and C15 of the interior point solver in IEEE binary64 arithmetic. *)
From Coq Require Import String List Bool Arith ZArith QArith Reals Lra Lia.
From Flocq Require Import Core BinarySingleNaN.
From Verif Require Import Scalar Outcome LinAlg Structs Constraint QPModel QPBlocks QPTrace QPReuse FloatInst FloatProps.
Import ListNotations.
Local Open Scope list_scope.
Local Open Scope nat_scope.

(** The shape of one iteration, for every arithmetic. *)
Section Shape.
  Context {F : Type} {O : Ops F}.
  Variable ldlt : mat F -> option (mat F).

  (** Storage sizes as left by Setup. *)
  Record shaped (p : QP F) (st : ip_solver F) : Prop := {
    sh_M : dM (ip_dims st) = length (qcons p);
    sh_vars : length (ip_vars st) = tsize (ip_dims st);
    sh_delta : length (ip_delta st) = tsize (ip_dims st) }.

  Lemma indexed_length : forall A (l : list A), length (indexed l) = length l.
  Proof. intros. unfold indexed. rewrite combine_length, seq_length. lia. Qed.

  Lemma vadd_len : forall u v : list F, length u = length v -> length (vadd u v) = length u.
  Proof. intros. unfold vadd. rewrite map_length, combine_length. lia. Qed.
  Lemma vscale_len : forall (v : list F) a, length (vscale v a) = length v.
  Proof. intros. apply map_length. Qed.

  Lemma update_delta_length : forall mu p st, shaped p st ->
    length (ip_delta (SolveForUpdate mu p st)) = tsize (ip_dims st).
  Proof.
    intros mu p st [SM SV SD]. unfold SolveForUpdate. cbn [ip_delta with_delta].
    apply set_z_length; [apply set_s_length; [apply set_y_length; [apply set_x_length; [exact SD|apply solve_dx_length]|apply solve_dy_length]|]|];
      rewrite map_length, indexed_length; symmetry; exact SM.
  Qed.

  Lemma apply_update_sz : forall st al,
    length (ip_vars st) = tsize (ip_dims st) -> length (ip_delta st) = tsize (ip_dims st) ->
    let d := ip_dims st in
    length (ip_vars (apply_update st al)) = tsize d /\
    xblk d (ip_vars (apply_update st al)) = vadd (xblk d (ip_vars st)) (vscale (xblk d (ip_delta st)) (primal al)) /\
    sblk d (ip_vars (apply_update st al)) = vadd (sblk d (ip_vars st)) (vscale (sblk d (ip_delta st)) (primal al)) /\
    zblk d (ip_vars (apply_update st al)) = vadd (zblk d (ip_vars st)) (vscale (zblk d (ip_delta st)) (dual al)).
  Proof.
    intros st al Lv Ld d. unfold apply_update. fold d. fold d in Lv, Ld.
    set (v := ip_vars st) in *. set (dl := ip_delta st) in *. cbv zeta.
    assert (LX : length (vadd (xblk d v) (vscale (xblk d dl) (primal al))) = dN d)
      by (rewrite vadd_len; rewrite ?vscale_len, ?xblk_length; auto).
    set (v1 := set_x d _ v). assert (L1 : length v1 = tsize d) by (apply set_x_length; assumption).
    assert (LS : length (vadd (sblk d v1) (vscale (sblk d dl) (primal al))) = dM d)
      by (rewrite vadd_len; rewrite ?vscale_len, ?sblk_length; auto).
    set (v2 := set_s d _ v1). assert (L2 : length v2 = tsize d) by (apply set_s_length; assumption).
    assert (LY : length (vadd (yblk d v2) (vscale (yblk d dl) (dual al))) = dK d)
      by (rewrite vadd_len; rewrite ?vscale_len, ?yblk_length; auto).
    set (v3 := set_y d _ v2). assert (L3 : length v3 = tsize d) by (apply set_y_length; assumption).
    assert (LZ : length (vadd (zblk d v3) (vscale (zblk d dl) (dual al))) = dM d)
      by (rewrite vadd_len; rewrite ?vscale_len, ?zblk_length; auto).
    cbn [with_vars ip_vars].
    split; [apply set_z_length; assumption|].
    rewrite x_set_z, s_set_z, z_set_z by assumption.
    unfold v3 at 1 2. rewrite x_set_y, s_set_y by assumption.
    unfold v2 at 1 2. rewrite x_set_s, s_set_s by assumption.
    unfold v1 at 1. rewrite x_set_x by assumption.
    unfold v1 at 1. rewrite s_set_x by assumption.
    unfold v3, v2, v1. rewrite z_set_y, z_set_s, z_set_x by assumption. auto.
  Qed.

  (** What one iteration does to s and z: the direction is left in the solver's storage. *)
  Theorem iteration_update : forall p mu strat st st' out,
    shaped p st -> Iterate ldlt p mu strat st = Ok (st', out) ->
    shaped p st' /\ ip_dims st' = ip_dims st /\
    (0 < length (qcons p) ->
       let d := ip_dims st in
       ComputeAlphaVec (sblk d (ip_vars st)) (sblk d (ip_delta st')) (flit lit_0_995) = Ok (primal (ip_alpha out)) /\
       ComputeAlphaVec (zblk d (ip_vars st)) (zblk d (ip_delta st')) (flit lit_0_995) = Ok (dual (ip_alpha out)) /\
       sblk d (ip_vars st') = vadd (sblk d (ip_vars st)) (vscale (sblk d (ip_delta st')) (primal (ip_alpha out))) /\
       zblk d (ip_vars st') = vadd (zblk d (ip_vars st)) (vscale (zblk d (ip_delta st')) (dual (ip_alpha out)))).
  Proof.
    intros p mu strat st st' out SH H. unfold Iterate in H.
    apply bind_ok_inv in H. destruct H as (st1 & HL & H). unfold ComputeLDLT in HL.
    apply bind_ok_inv in HL. destruct HL as (u & _ & HL).
    change (ip_dims (EvaluateKKTConditions true p st)) with (ip_dims st) in HL.
    change (ip_vars (EvaluateKKTConditions true p st)) with (ip_vars st) in HL.
    change (ip_delta (EvaluateKKTConditions true p st)) with (ip_delta st) in HL.
    destruct (ldlt _) as [Hinv|]; [|discriminate]. apply Ok_inj in HL.
    assert (SH1 : shaped p st1).
    { destruct SH. subst st1. constructor; cbn [ip_dims ip_vars ip_delta]; auto. unfold vzero. rewrite repeat_length. auto. }
    assert (D1 : ip_dims st1 = ip_dims st) by (subst st1; reflexivity).
    assert (V1 : ip_vars st1 = ip_vars st) by (subst st1; reflexivity).
    clear HL. apply bind_ok_inv in H. destruct H as ([[[st2 mu2] probe] mu_aff] & HQ & H).
    apply bind_ok_inv in H. destruct H as (al & HA & H). inj_ok H. subst st' out. cbn [ip_alpha].
    assert (G : shaped p st2 /\ ip_dims st2 = ip_dims st /\ ip_vars st2 = ip_vars st).
    { assert (U : forall m s, shaped p s -> ip_dims s = ip_dims st -> ip_vars s = ip_vars st ->
                 shaped p (SolveForUpdate m p s) /\ ip_dims (SolveForUpdate m p s) = ip_dims st /\
                 ip_vars (SolveForUpdate m p s) = ip_vars st).
      { intros m s S E1 E2. splits; [|exact E1|exact E2]. destruct S as [A B C]. constructor; [exact A|exact B|].
        apply (update_delta_length m p s). constructor; auto. }
      destruct (negb (HasInequalityConstraints (ip_dims st))).
      - inj_ok HQ. subst st2. apply U; auto.
      - destruct strat; [inj_ok HQ; subst st2; apply U; auto|inj_ok HQ; subst st2; apply U; auto|].
        apply bind_ok_inv in HQ. destruct HQ as (pr & _ & HQ). inj_ok HQ. subst st2.
        destruct (U f0 st1 SH1 D1 V1) as ([A B C] & X1 & X2).
        apply U; [constructor; [exact A|exact B|exact C]|exact X1|exact X2]. }
    destruct G as (SH2 & D2 & V2).
    destruct (apply_update_sz st2 al (sh_vars _ _ SH2) (sh_delta _ _ SH2)) as (L & _ & ES & EZ). rewrite D2 in ES, EZ, L.
    splits.
    - destruct SH2 as [A B C]. constructor; [exact A| |exact C]. change (ip_dims (apply_update st2 al)) with (ip_dims st2). rewrite D2. exact L.
    - exact D2.
    - intros HM. change (ip_delta (apply_update st2 al)) with (ip_delta st2).
      unfold HasInequalityConstraints in HA. rewrite (sh_M _ _ SH) in HA.
      destruct (Nat.ltb_spec 0 (length (qcons p))) as [_|X]; [|lia].
      unfold ComputeAlpha in HA. rewrite D2, V2 in HA. apply bind_ok_inv in HA. destruct HA as (ap & H1 & HA).
      apply bind_ok_inv in HA. destruct HA as (ad & H2 & HA). inj_ok HA. subst al. cbn [primal dual] in *.
      rewrite V2 in ES, EZ. splits; auto.
  Qed.

  (** The slacks and multipliers written by the built-in initial guesses. *)
  Lemma guess_blocks : forall params p st st', shaped p st ->
    p_initial_guess_method params <> USER_PROVIDED -> ComputeInitialGuess ldlt params p st = Ok st' ->
    shaped p st' /\ ip_dims st' = ip_dims st /\ exists x,
      s_block st' = map (fun c : lic F => fmax (flit lit_1em9) (fadd (fmul (la c) (vget x (cidx c))) (lb c))) (qcons p) /\
      z_block st' = map (fun s => fdiv f1 s) (s_block st') /\ x_block st' = x.
  Proof.
    intros params p st st' [SM SV SD] NU H. unfold ComputeInitialGuess in H. set (d := ip_dims st) in *.
    set (st0 := with_vars st (set_y d (vzero (dK d)) (set_x d (vzero (dN d)) (ip_vars st)))) in *.
    assert (VZ : forall n, length (vzero n) = n) by (intro; unfold vzero; apply repeat_length).
    assert (L0 : length (ip_vars st0) = tsize d).
    { apply set_y_length; [apply set_x_length; [exact SV|apply VZ]|apply VZ]. }
    assert (G : exists st1 x, length (ip_vars st1) = tsize d /\ length (ip_delta st1) = tsize d /\ ip_dims st1 = d /\
              ofold clamp_one (qcons p) (xblk d (ip_vars st1)) = Ok x /\
              st' = with_vars st1 (set_z d (map (fun s => fdiv f1 s)
                 (map (fun c => fmax (flit lit_1em9) (fadd (fmul (la c) (vget x (cidx c))) (lb c))) (qcons p)))
                (set_s d (map (fun c => fmax (flit lit_1em9) (fadd (fmul (la c) (vget x (cidx c))) (lb c))) (qcons p))
                  (set_x d x (ip_vars st1))))).
    { destruct (p_initial_guess_method params); [| |congruence].
      - cbn [bind] in H. apply bind_ok_inv in H. destruct H as (x & HX & H). apply Ok_inj in H.
        exists st0, x. splits; auto.
      - apply bind_ok_inv in H. destruct H as (st1 & H1 & H). apply bind_ok_inv in H. destruct H as (x & HX & H). apply Ok_inj in H.
        exists st1, x. apply bind_ok_inv in H1. destruct H1 as (sta & HA & H1). apply Ok_inj in H1.
        unfold ComputeLDLT in HA. apply bind_ok_inv in HA. destruct HA as (u & _ & HA). destruct (ldlt _) as [Hinv|]; [|discriminate].
        apply Ok_inj in HA.
        assert (Da : ip_dims sta = d) by (subst sta; reflexivity).
        assert (La : length (ip_vars sta) = tsize d) by (subst sta; exact L0).
        assert (Lda : length (ip_delta sta) = tsize d) by (subst sta; cbn [ip_delta]; rewrite VZ; exact SD).
        clear HA.
        set (stb := SolveForUpdateNoInequalities (EvaluateKKTConditions false p sta)) in *.
        assert (Db : ip_dims stb = d) by exact Da.
        assert (Vb : ip_vars stb = ip_vars sta) by reflexivity.
        assert (Ldb : length (ip_delta stb) = tsize d).
        { unfold stb, SolveForUpdateNoInequalities.
          change (ip_dims (EvaluateKKTConditions false p sta)) with (ip_dims sta).
          change (ip_delta (EvaluateKKTConditions false p sta)) with (ip_delta sta). rewrite Da. cbn [ip_delta with_delta].
          apply set_y_length; [apply set_x_length; [exact Lda|apply solve_dx_length]|apply solve_dy_length]. }
        clearbody stb. subst st1. splits; auto.
        apply set_y_length; [apply set_x_length; [rewrite Vb; exact La|apply xblk_length; exact Ldb]|apply yblk_length; exact Ldb]. }
    destruct G as (st1 & x & L1 & Ld1 & D1 & HX & ->).
    assert (Lx : length x = dN d) by (rewrite (ofold_clamp_length _ _ _ HX); apply xblk_length; exact L1).
    set (sv := map (fun c => fmax _ _) (qcons p)). assert (Ls : length sv = dM d) by (unfold sv; rewrite map_length; symmetry; exact SM).
    assert (Lz : length (map (fun s => fdiv f1 s) sv) = dM d) by (rewrite map_length; exact Ls).
    assert (Lv1 : length (set_x d x (ip_vars st1)) = tsize d) by (apply set_x_length; auto).
    assert (Lv2 : length (set_s d sv (set_x d x (ip_vars st1))) = tsize d) by (apply set_s_length; auto).
    assert (ES : s_block (with_vars st1 (set_z d (map (fun s => fdiv f1 s) sv) (set_s d sv (set_x d x (ip_vars st1))))) = sv).
    { unfold s_block. cbn [ip_dims ip_vars with_vars]. rewrite D1. rewrite s_set_z, s_set_s; auto. }
    splits.
    - constructor; cbn [ip_dims ip_vars ip_delta with_vars]; rewrite ?D1; auto. apply set_z_length; auto.
    - exact D1.
    - exists x. rewrite ES. splits; auto; unfold z_block, x_block; cbn [ip_dims ip_vars with_vars]; rewrite D1.
      + rewrite z_set_z; auto.
      + rewrite x_set_z, x_set_s, x_set_x; auto.
  Qed.
End Shape.

Section Float.
  Variable red : eigen_red.
  Let O : Ops double := D_ops red.
  Local Existing Instance O.
  Variable ldlt : mat double -> option (mat double).

  Definition dpos (v : list double) : Prop := forall m, m < length v -> Bltb f0 (nth m v f0) = true.

  (** The direction computed by an iteration that starts in [st] and ends in [st'] stays away from
      underflow relative to the slacks and multipliers of [st] (the proviso of C07). *)
  Definition tame_direction (st st' : ip_solver double) : Prop :=
    let d := ip_dims st in
    forall m, m < dM d ->
      tame (nth m (sblk d (ip_vars st)) f0) (nth m (sblk d (ip_delta st')) f0) /\
      tame (nth m (zblk d (ip_vars st)) f0) (nth m (zblk d (ip_delta st')) f0).

  Lemma nth_step : forall (v dv : list double) a m, length v = length dv -> m < length v ->
    nth m (vadd v (vscale dv a)) f0 = fadd (nth m v f0) (fmul (nth m dv f0) a).
  Proof.
    intros v dv a m HL Hm. unfold vadd, vscale.
    set (f := fun q : double * double => fadd (fst q) (snd q)). set (g := fun x : double => fmul x a).
    rewrite (nth_indep _ f0 (f (f0, g f0))) by (rewrite map_length, combine_length, map_length; lia).
    rewrite map_nth, combine_nth by (rewrite map_length; exact HL). rewrite map_nth. reflexivity.
  Qed.

  (** C06 in binary64, one iteration: for every linear solver, barrier strategy and mu, if the direction
      is tame then the slacks and multipliers computed by the iteration are strictly positive, and both
      step lengths are in (0,1]. *)
  Theorem C06_binary64_iteration : forall p mu strat st st' out,
    shaped p st -> Iterate ldlt p mu strat st = Ok (st', out) -> tame_direction st st' ->
    dpos (s_block st') /\ dpos (z_block st') /\
    (0 < length (qcons p) -> (0 < B2R (primal (ip_alpha out)) <= 1)%R /\ (0 < B2R (dual (ip_alpha out)) <= 1)%R).
  Proof.
    intros p mu strat st st' out SH HI HT.
    destruct (iteration_update ldlt p mu strat st st' out SH HI) as (SH' & D' & U).
    unfold dpos, s_block, z_block. rewrite D'. set (d := ip_dims st) in *.
    pose proof (sh_M _ _ SH) as SM. fold d in SM. pose proof (sh_vars _ _ SH) as LV. fold d in LV.
    pose proof (sh_vars _ _ SH') as LV'. pose proof (sh_delta _ _ SH') as LD'. rewrite D' in LV', LD'.
    assert (G : 0 < dM d ->
       (forall m, m < dM d -> Bltb f0 (nth m (sblk d (ip_vars st')) f0) = true) /\
       (forall m, m < dM d -> Bltb f0 (nth m (zblk d (ip_vars st')) f0) = true) /\
       (0 < B2R (primal (ip_alpha out)) <= 1)%R /\ (0 < B2R (dual (ip_alpha out)) <= 1)%R).
    { intro HM. destruct (U ltac:(lia)) as (A1 & A2 & ES & EZ). fold d in A1, A2, ES, EZ.
      assert (Ls : length (sblk d (ip_vars st)) = length (sblk d (ip_delta st'))) by (rewrite !sblk_length; auto).
      assert (Lz : length (zblk d (ip_vars st)) = length (zblk d (ip_delta st'))) by (rewrite !zblk_length; auto).
      destruct (C07_binary64_step_length red _ _ Ls) as (a1 & B1 & F1 & C1 & K1).
      { intros i Hi. rewrite sblk_length in Hi by exact LV. apply (HT i Hi). }
      destruct (C07_binary64_step_length red _ _ Lz) as (a2 & B2 & F2 & C2 & K2).
      { intros i Hi. rewrite zblk_length in Hi by exact LV. apply (HT i Hi). }
      fold O in B1, B2, K1, K2. rewrite A1 in B1. rewrite A2 in B2. apply Ok_inj in B1. apply Ok_inj in B2. subst a1 a2.
      splits; try apply C1; try apply C2.
      - intros m Hm. rewrite ES, nth_step by (rewrite ?sblk_length; auto). apply K1. rewrite sblk_length; auto.
      - intros m Hm. rewrite EZ, nth_step by (rewrite ?zblk_length; auto). apply K2. rewrite zblk_length; auto. }
    rewrite sblk_length, zblk_length by exact LV'.
    splits; intros; try (apply G; lia).
  Qed.

  Lemma eval_shaped : forall p st, shaped p st -> shaped p (EvaluateKKTConditions true p st).
  Proof. intros p st [A B C]. constructor; assumption. Qed.

  (** C06 in binary64, whole solves: along the run of every Solve, as long as the directions computed so
      far were tame, all slacks and multipliers reached are strictly positive. *)
  Theorem C06_binary64_run : forall params p mu st tr, ip_run ldlt params p mu st tr -> shaped p st ->
    forall k, k < length tr ->
    (forall j, j <= k -> exists sa sb, nth_error (st :: map snd tr) j = Some sa /\
                          nth_error (map snd tr) j = Some sb /\ tame_direction sa sb) ->
    exists e, nth_error tr k = Some e /\ dpos (s_block (snd e)) /\ dpos (z_block (snd e)).
  Proof.
    intros params p mu st tr HR. induction HR as [mu st|mu st it mu' st' tr HS HR IH]; intros SH k Hk HT; [cbn in Hk; lia|].
    inversion HS as [mu0 st0 st1 outs HI]; subst.
    destruct (iteration_update ldlt p mu _ st st1 outs SH HI) as (SH1 & D1 & _).
    destruct k as [|k].
    - destruct (HT 0 ltac:(lia)) as (sa & sb & A & B & T). cbn in A, B. injection A as <-. injection B as <-.
      destruct (C06_binary64_iteration p mu _ st st1 outs SH HI T) as (P1 & P2 & _).
      eexists. split; [reflexivity|]. cbn [snd]. split; [exact P1|exact P2].
    - cbn [length] in Hk. destruct (IH (eval_shaped _ _ SH1) k ltac:(lia)) as (e & E & P).
      + intros j Hj. destruct (HT (S j) ltac:(lia)) as (sa & sb & A & B & T). exists sa, sb. cbn [map snd nth_error] in A, B.
        split; [exact A|]. split; [exact B|exact T].
      + exists e. split; [exact E|exact P].
  Qed.

  Lemma lit_1em9_pos : is_finite (flit lit_1em9) = true /\ (bpow radix2 (-30) <= B2R (flit lit_1em9))%R.
  Proof.
    cbn [flit O D_ops lit_1em9 Qnum Qden].
    destruct (dofZ_exact 1 ltac:(reflexivity)) as [F1 E1]. destruct (dofZ_exact 1000000000 ltac:(reflexivity)) as [F2 E2].
    pose proof (ddiv_approx _ _ F1 F2 ltac:(rewrite E2; lra)) as A. rewrite E1, E2 in A.
    assert (B1 : (bpow radix2 (-30) <= rnd (1 / 1000000000))%R).
    { rewrite <- (rnd_fmt (bpow radix2 (-30))) by (apply fmt_bpow; lia). apply rnd_mono. cbn. lra. }
    assert (B2 : (rnd (1 / 1000000000) <= 1)%R).
    { assert (R1 : rnd 1 = 1%R) by (rewrite <- d1_B2R; apply rnd_B2R). rewrite <- R1 at 2. apply rnd_mono. lra. }
    pose proof (bpow_gt_0 radix2 (-30)). pose proof big_gt_1.
    apply approximates_R in A; [|rewrite Rabs_pos_eq; lra]. destruct A as [A1 A2]. rewrite A2. auto.
  Qed.

  (** The reciprocal of a finite datum >= 1e-9 is a finite positive datum. *)
  Lemma recip_pos : forall s : double, is_finite s = true -> (bpow radix2 (-30) <= B2R s)%R ->
    Bltb f0 (fdiv f1 s) = true /\ is_finite (fdiv f1 s) = true.
  Proof.
    intros s Fs Hs. cbn [f0 f1 fdiv O D_ops]. pose proof (bpow_gt_0 radix2 (-30)) as P30.
    pose proof (B2R_lt_big s) as BS. rewrite Rabs_pos_eq in BS by lra.
    pose proof (ddiv_approx (dofZ 1) s d1_finite Fs ltac:(lra)) as A. rewrite d1_B2R in A.
    assert (H1 : (bpow radix2 (-1024) <= 1 / B2R s)%R).
    { unfold Rdiv. rewrite Rmult_1_l. change (-1024)%Z with (- emax)%Z. rewrite bpow_opp. fold big.
      apply Rinv_le; lra. }
    assert (H2 : (1 / B2R s <= bpow radix2 30)%R).
    { unfold Rdiv. rewrite Rmult_1_l. change 30%Z with (- (-30))%Z. rewrite bpow_opp. apply Rinv_le; lra. }
    assert (R1 : (bpow radix2 (-1024) <= rnd (1 / B2R s))%R).
    { rewrite <- (rnd_fmt (bpow radix2 (-1024))) by (apply fmt_bpow; lia). apply rnd_mono. exact H1. }
    assert (R2 : (rnd (1 / B2R s) <= bpow radix2 30)%R).
    { rewrite <- (rnd_fmt (bpow radix2 30)) by (apply fmt_bpow; lia). apply rnd_mono. exact H2. }
    assert (bpow radix2 30 < big)%R by (apply bpow_lt; reflexivity).
    pose proof (bpow_gt_0 radix2 (-1024)).
    apply approximates_R in A; [|rewrite Rabs_pos_eq; lra]. destruct A as [A1 A2]. split; [|exact A1].
    rewrite Bltb_correct by auto. apply Rlt_bool_true. rewrite A2. cbn [B2R]. lra.
  Qed.

  (** C15 in binary64: whatever the problem data (NaN included) and the linear solver, the built-in
      guesses write slacks that are numbers >= 1e-9, and multipliers 1/s that are strictly positive
      numbers whenever the slack is finite. *)
  Theorem C15_binary64_initial_guess : forall params p st st', shaped p st ->
    p_initial_guess_method params <> USER_PROVIDED -> ComputeInitialGuess ldlt params p st = Ok st' ->
    dpos (s_block st') /\
    forall m, m < length (qcons p) ->
      Bleb (flit lit_1em9) (nth m (s_block st') f0) = true /\
      nth m (z_block st') f0 = fdiv f1 (nth m (s_block st') f0) /\
      (is_finite (nth m (s_block st') f0) = true -> Bltb f0 (nth m (z_block st') f0) = true).
  Proof.
    intros params p st st' SH NU H. destruct (guess_blocks ldlt params p st st' SH NU H) as (_ & _ & x & ES & EZ & _).
    destruct lit_1em9_pos as [FL PL]. pose proof (bpow_gt_0 radix2 (-30)) as P30.
    assert (NL : is_nan (flit lit_1em9) = false) by (apply finite_not_nan; exact FL).
    assert (G : forall s, In s (s_block st') -> Bleb (flit lit_1em9) s = true /\ is_nan s = false /\ (bpow radix2 (-30) <= ev s)%R).
    { intros s Hs. rewrite ES in Hs. apply in_map_iff in Hs. destruct Hs as (c & <- & _).
      match goal with |- context [fmax ?a ?b] => destruct (fmax_d red a b NL) as (N & A & _) end.
      rewrite (ev_finite _ FL) in A. fold O in A, N. split; [|split; [exact N|lra]].
      rewrite Bleb_ev by auto. rewrite (ev_finite _ FL). apply Rle_bool_true. exact A. }
    assert (LS : length (s_block st') = length (qcons p)) by (rewrite ES; apply map_length).
    split.
    - intros m Hm. destruct (G _ (nth_In _ f0 Hm)) as (_ & N & A). rewrite Bltb_ev by auto. apply Rlt_bool_true.
      change (ev f0) with 0%R. lra.
    - intros m Hm. rewrite <- LS in Hm. destruct (G _ (nth_In _ f0 Hm)) as (B & N & A). split; [exact B|].
      assert (E : nth m (z_block st') f0 = fdiv f1 (nth m (s_block st') f0)).
      { rewrite EZ. set (g := fun s : double => fdiv f1 s). rewrite (nth_indep _ f0 (g f0)) by (rewrite map_length; exact Hm).
        rewrite map_nth. reflexivity. }
      split; [exact E|]. intro Fs. rewrite E. apply recip_pos; [exact Fs|]. rewrite <- (ev_finite _ Fs). exact A.
  Qed.
End Float.
