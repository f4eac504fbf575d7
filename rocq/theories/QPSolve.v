(** Theorems about QPInteriorPointSolver::Solve over the reals: C06, C11 (KKT part), C12, C14, C16, C17, C18. *)
From Coq Require Import String List Bool Arith ZArith Reals Lra Lia.
From Verif Require Import Scalar Outcome LinAlg Structs Constraint QPModel QPBlocks RInst Spec
  Props_Constraint QPAlgebra QPNewton QPAlpha QPStep QPTrace QPInit.
Import ListNotations.
Local Open Scope list_scope.
Local Open Scope R_scope.

(** A state whose residual vector belongs to its variables. *)
Definition evaluated (p : QP R) (st : ip_solver R) : Prop :=
  exists st0, ready p st0 /\ st = EvaluateKKTConditions true p st0.

Lemma evaluated_ready : forall p st, evaluated p st -> ready p st.
Proof. intros p st (st0 & R0 & ->). apply eval_ready. exact R0. Qed.

Lemma evaluated_errors : forall p st mu, wf_qp p -> evaluated p st ->
  ComputeErrors st mu =
    MkKKT (norm2 (nv p) (kkt_dual p (x_block st) (y_block st) (z_block st)))
          (norm2 (nineq p) (fun m => vget (s_block st) m * vget (z_block st) m - mu))
          (norm2 (neq p) (kkt_eq p (x_block st)))
          (norm2 (nineq p) (kkt_ineq p (x_block st) (s_block st))).
Proof. intros p st mu W (st0 & R0 & ->). apply (C09_reported_errors p st0 mu W R0). Qed.

(** Invariant along a run: sizes, freshness of the residual, positivity; and the step lengths. *)
Lemma run_invariant : forall ldlt params p mu st tr, wf_qp p ->
  ready p st -> interior p st -> ip_run ldlt params p mu st tr ->
  forall mu' it st', In (mu', it, st') tr ->
    evaluated p st' /\ interior p st' /\
    kkt_final it = ComputeErrors st' mu' /\
    0 < primal (ip_alpha (ip_outputs it)) <= 1 /\ 0 < dual (ip_alpha (ip_outputs it)) <= 1.
Proof.
  intros ldlt params p mu st tr W RD INT HR.
  induction HR as [mu st|mu st it mu' st' tr S HR IH]; intros mu'' it'' st'' Hin; [destruct Hin|].
  inversion S as [? ? st1 outs HI]; subst.
  destruct (C06_iteration_keeps_interior _ _ _ _ _ _ _ RD INT HI) as [RD1 INT1].
  assert (E : evaluated p (EvaluateKKTConditions true p st1)) by (exists st1; auto).
  assert (INT2 : interior p (EvaluateKKTConditions true p st1)) by exact INT1.
  destruct Hin as [Heq|Hin].
  - apply pair_inj in Heq. destruct Heq as [Heq <-]. apply pair_inj in Heq. destruct Heq as [<- <-].
    cbn [kkt_final ip_outputs].
    destruct (Iterate_alpha _ _ _ _ _ _ _ RD INT HI) as [[? ?] [? ?]]. splits; auto.
  - apply (IH (evaluated_ready _ _ E) INT2 _ _ _ Hin).
Qed.

(** The starting state of the loop. *)
Lemma start_ok : forall ldlt params p st st1 mu, wf_qp p -> ready p st ->
  (p_initial_guess_method params = USER_PROVIDED -> interior p st) ->
  ip_start ldlt params p st st1 mu ->
  evaluated p st1 /\ interior p st1.
Proof.
  intros ldlt params p st st1 mu W RD HU (st0 & H0 & -> & _).
  assert (A : ready p st0 /\ interior p st0).
  { destruct (p_initial_guess_method params) eqn:EM.
    1,2: assert (NU : p_initial_guess_method params <> USER_PROVIDED) by congruence;
      split; [apply (C15_initial_guess ldlt params p st st0 W RD NU H0)
             |apply (init_interior ldlt params p st st0 W RD NU H0)].
    unfold ComputeInitialGuess in H0. rewrite EM in H0. apply Ok_inj in H0. subst st0. auto. }
  destruct A as [A1 A2]. split; [exists st0; auto|exact A2].
Qed.

(** C06: all slacks and inequality multipliers are positive after every iteration and on return;
    logged step lengths are in (0,1]. Holds for every (even wrong) factorisation. *)
Theorem C06_Solve_interior : forall ldlt params (p : QP R) st st' out,
  wf_qp p -> ready p st ->
  (p_initial_guess_method params = USER_PROVIDED -> interior p st) ->
  IP_Solve ldlt params st = Ok (st', out) ->
  (forall m, (m < nineq p)%nat -> 0 < vget (s_block st') m /\ 0 < vget (z_block st') m) /\
  (forall it, In it (qp_iterations out) ->
     0 < primal (ip_alpha (ip_outputs it)) <= 1 /\ 0 < dual (ip_alpha (ip_outputs it)) <= 1) /\
  exists st1 mu tr, ip_start ldlt params p st st1 mu /\ ip_run ldlt params p mu st1 tr /\
    st' = last (map snd tr) st1 /\ interior p st1 /\ forall e, In e tr -> interior p (snd e).
Proof.
  intros ldlt params p st st' out W RD HU H.
  destruct (C12_Solve_run _ _ _ _ _ H) as (p' & st1 & mu & tr & Hp & _ & _ & HS & HR & HI & HL & _ & HN & _).
  assert (p' = p) by (rewrite (rd_p _ _ RD) in Hp; congruence). subst p'.
  destruct (start_ok _ _ _ _ _ _ W RD HU HS) as [E1 I1].
  pose proof (run_invariant _ _ _ _ _ _ W (evaluated_ready _ _ E1) I1 HR) as INV.
  splits.
  - assert (Hlast : st' = st1 \/ In st' (map snd tr)).
    { rewrite HL. destruct (map snd tr) as [|a l] eqn:E; [left; reflexivity|right].
      rewrite (app_removelast_last (l := a :: l) st1) at 2 by discriminate.
      apply in_or_app. right. left. reflexivity. }
    destruct Hlast as [->|Hin]; [exact I1|].
    apply in_map_iff in Hin. destruct Hin as ([[mu' it] st''] & <- & Hin). apply (INV _ _ _ Hin).
  - intros it Hin. rewrite HI in Hin. apply in_map_iff in Hin.
    destruct Hin as ([[mu' it'] st''] & <- & Hin). apply (INV _ _ _ Hin).
  - exists st1, mu, tr. splits; auto. intros [[mu' it] st''] Hin. apply (INV _ _ _ Hin).
Qed.

(** ** Exceptions: only a failed factorisation can stop a well posed Solve. *)

(** The factorisation failed on a reduced matrix with non-negative weights. *)
Definition bad_factorization (ldlt : mat R -> option (mat R)) (p : QP R) : Prop :=
  exists w H, (forall m, (m < nineq p)%nat -> 0 <= w m) /\ reduced_kkt p w H /\ ldlt H = None.

Lemma Iterate_outcome : forall ldlt (p : QP R) mu strat st,
  wf_qp p -> ready p st -> interior p st ->
  (exists r, Iterate ldlt p mu strat st = Ok r) \/
  Iterate ldlt p mu strat st = Throw FailedFactorization /\ bad_factorization ldlt p.
Proof.
  intros ldlt p mu strat st W RD INT. unfold Iterate.
  assert (DM : dM (ip_dims st) = nineq p) by apply (dM_ni p st RD).
  pose proof (eval_ready p st RD) as RDe.
  unfold ComputeLDLT.
  change (ip_dims (EvaluateKKTConditions true p st)) with (ip_dims st).
  change (ip_vars (EvaluateKKTConditions true p st)) with (ip_vars st).
  assert (Hpos : forallb (fun v => fgtb v f0) (sblk (ip_dims st) (ip_vars st)) = true).
  { apply forallb_forall. apply (vget_forall _ (fun x => fgtb x f0 = true)).
    intros i Hi. rewrite sblk_length in Hi by apply RD. rewrite DM in Hi.
    destruct (R_fgtb (vget (sblk (ip_dims st) (ip_vars st)) i) f0) as [_|T]; [reflexivity|].
    exfalso. apply T. apply (INT i Hi). }
  rewrite Hpos. cbn [negb orb f_assert bind].
  match goal with |- context [ldlt ?H] => destruct (ldlt H) as [Hinv|] eqn:EL end.
  2: { right. split; [reflexivity|]. eexists. eexists. split; [|split; [apply C08_reduced_matrix; [exact W| |]|exact EL]].
       - intros m Hm. destruct (INT m Hm) as [I1 I2]. apply Rlt_le, Rdiv_lt_0_compat; assumption.
       - apply (dN_nv p st RD).
       - apply (dK_ne p st RD). }
  cbn [bind]. left.
  set (st1 := MkIP _ _ _ _ _ _ _).
  assert (RD1 : ready p st1).
  { unfold st1. destruct RDe. constructor; cbn [ip_p ip_dims ip_vars ip_r ip_delta ip_delta_aff]; auto;
      rewrite ?vzero_length; auto. }
  assert (V1 : ip_vars st1 = ip_vars st) by reflexivity.
  assert (AOK : forall s tau, ready p s -> ip_vars s = ip_vars st -> ip_dims s = ip_dims st -> 0 < tau <= 1 ->
             exists al, ComputeAlpha s tau = Ok al).
  { intros s tau RDs Vs Ds Ht. unfold ComputeAlpha. rewrite Ds, Vs.
    assert (L1 := rd_vars _ _ RD). assert (L2 := rd_delta _ _ RDs). rewrite Ds in L2.
    assert (Q : forall u v : list R, length u = length v -> exists a, ComputeAlphaVec u v tau = Ok a).
    { intros u v Huv. unfold ComputeAlphaVec. rewrite Huv, Nat.eqb_refl. cbn [f_assert bind].
      destruct (R_fgtb tau f0) as [_|T]; [|simpl in T; lra].
      destruct (R_fleb tau f1) as [_|T]; [|simpl in T; lra]. cbn [f_assert bind]. eauto. }
    destruct (Q (sblk (ip_dims st) (ip_vars st)) (sblk (ip_dims st) (ip_delta s))) as [a ->].
    { rewrite !sblk_length; auto. }
    destruct (Q (zblk (ip_dims st) (ip_vars st)) (zblk (ip_dims st) (ip_delta s))) as [b ->].
    { rewrite !zblk_length; auto. }
    cbn [bind]. eauto. }
  assert (Hone : 0 < f1 <= 1) by (simpl; lra).
  unfold HasInequalityConstraints. destruct (0 <? dM (ip_dims st))%nat; cbn [negb].
  - destruct strat.
    1,2: cbn [bind];
      destruct (AOK (SolveForUpdate mu p st1) (flit lit_0_995) (upd_ready p st1 mu RD1) eq_refl eq_refl lit_tau') as [al ->];
      cbn [bind]; eauto.
    destruct (AOK (SolveForUpdate f0 p st1) f1 (upd_ready p st1 f0 RD1) eq_refl eq_refl Hone) as [pr ->].
    cbn [bind].
    set (stb := with_aff _ _).
    assert (RDb : ready p stb).
    { pose proof (upd_ready p st1 f0 RD1) as RDa. destruct RDa. constructor; auto. }
    match goal with |- context [SolveForUpdate ?m p stb] =>
      destruct (AOK (SolveForUpdate m p stb) (flit lit_0_995) (upd_ready p stb m RDb) eq_refl eq_refl lit_tau') as [al ->]
    end.
    cbn [bind]. eauto.
  - cbn [bind]. eauto.
Qed.

Lemma loop_outcome : forall ldlt params (p : QP R) n mu its st,
  wf_qp p -> ready p st -> interior p st ->
  (exists r, ip_loop ldlt n params p mu its st = Ok r) \/
  ip_loop ldlt n params p mu its st = Throw FailedFactorization /\ bad_factorization ldlt p.
Proof.
  intros ldlt params p n. induction n as [|n IH]; intros mu its st W RD INT; cbn [ip_loop]; [eauto|].
  destruct (Iterate_outcome ldlt p mu (p_barrier_strategy params) st W RD INT) as [[[st1 outs] E]|[E BF]];
    rewrite E; cbn [bind]; [|right; split; [reflexivity|exact BF]].
  destruct (C06_iteration_keeps_interior _ _ _ _ _ _ _ RD INT E) as [RD1 INT1].
  destruct (_ && _); [eauto|]. apply IH; [exact W|apply eval_ready; exact RD1|exact INT1].
Qed.

(** C06: with valid parameters, a well formed problem whose constraints have a <> 0 and either a built-in
    guess or user provided positive slacks and multipliers, Solve either returns or reports a failed
    factorisation, the latter only if the factorisation did fail on a reduced matrix: no assertion ("Some slack
    variables s <= 0" in particular) fires and nothing is undefined. *)
Theorem C06_only_factorization_fails : forall ldlt params (p : QP R) st,
  wf_qp p -> ready p st -> ip_params_valid params ->
  (p_initial_guess_method params <> USER_PROVIDED /\ (forall c, In c (qcons p) -> la c <> 0) \/
   p_initial_guess_method params = USER_PROVIDED /\ interior p st) ->
  (exists st' out, IP_Solve ldlt params st = Ok (st', out)) \/
  IP_Solve ldlt params st = Throw FailedFactorization /\ bad_factorization ldlt p.
Proof.
  intros ldlt params p st W RD PV HM. unfold IP_Solve. rewrite (rd_p _ _ RD).
  destruct (IP_CheckParams_spec params) as [A _]. rewrite (A PV). cbn [bind].
  assert (Hlen : (dN (ip_dims st) + dM (ip_dims st) + dK (ip_dims st) <=? length (ip_vars st))%nat = true).
  { apply Nat.leb_le. rewrite (rd_vars _ _ RD). unfold tsize. lia. }
  rewrite Hlen. cbn [ub_unless bind].
  assert (G : (exists st0, ComputeInitialGuess ldlt params p st = Ok st0 /\ ready p st0 /\ interior p st0) \/
              ComputeInitialGuess ldlt params p st = Throw FailedFactorization /\ bad_factorization ldlt p).
  { destruct (C15_guess_outcomes ldlt params p st W RD) as (B1 & B2 & B3).
    destruct HM as [[EM Ha]|[EM INT]]; [|left; exists st; splits; auto].
    assert (K : forall st0, ComputeInitialGuess ldlt params p st = Ok st0 ->
       exists st0, ComputeInitialGuess ldlt params p st = Ok st0 /\ ready p st0 /\ interior p st0).
    { intros st0 E0. exists st0. splits; auto.
      - apply (C15_initial_guess ldlt params p st st0 W RD); assumption.
      - apply (init_interior ldlt params p st st0 W RD); assumption. }
    destruct (p_initial_guess_method params) eqn:EM'; [| |congruence].
    - destruct (B2 eq_refl) as [C _]. destruct (C Ha) as [st0 E0]. left. eapply K. exact E0.
    - destruct (B3 eq_refl Ha) as [[st0 E0]|(E & H & R1 & R2)]; [left; eapply K; exact E0|]. right. split; [exact E|].
      exists (fun _ => 0), H. splits; auto. intros; lra. }
  destruct G as [(st0 & -> & RD0 & INT0)|[-> BF]]; cbn [bind]; [|auto].
  assert (Hnn : forallb (fun c => (0 <=? lvar c)%Z) (qcons p) = true).
  { apply forallb_forall. intros c Hc. apply Z.leb_le. apply (wf_idx p W c Hc). }
  rewrite Hnn. cbn [ub_unless bind].
  destruct (loop_outcome ldlt params p (Z.to_nat (p_max_iterations params))
    (if p_initialize_mu_with_complementarity params
     then ComputeMu (EvaluateKKTConditions true p st0) else p_initial_mu params) []
    (EvaluateKKTConditions true p st0) W (eval_ready p st0 RD0) INT0) as [[[st' out] E]|E]; rewrite ?E; eauto.
Qed.

(** ** C12 over the reals *)

Lemma KKT_Max_R : forall k : KKTError R,
  KKT_Max k = Rmax (Rmax (Rmax (r_dual k) (r_comp k)) (r_primal_eq k)) (r_primal_ineq k).
Proof. intros [a b c e]. unfold KKT_Max, fmax_list. simpl fold_left. rewrite !R_fmax. reflexivity. Qed.

Lemma Rmax4_lt : forall a b c e t, Rmax (Rmax (Rmax a b) c) e < t -> a < t /\ b < t /\ c < t /\ e < t.
Proof.
  intros a b c e t H.
  pose proof (Rmax_l a b). pose proof (Rmax_r a b).
  pose proof (Rmax_l (Rmax a b) c). pose proof (Rmax_r (Rmax a b) c).
  pose proof (Rmax_l (Rmax (Rmax a b) c) e). pose proof (Rmax_r (Rmax (Rmax a b) c) e). lra.
Qed.

Lemma ComputeMu_R : forall p st, ready p st -> (0 < nineq p)%nat ->
  ComputeMu st = Rsum (nineq p) (fun m => vget (s_block st) m * vget (z_block st) m) / INR (nineq p).
Proof.
  intros p st RD HM. unfold ComputeMu, HasInequalityConstraints.
  rewrite (dM_ni p st RD). apply Nat.ltb_lt in HM. rewrite HM.
  change (@fdot R R_ops) with Rdot.
  rewrite (Rdot_n (nineq p)); [reflexivity| |].
  - rewrite sblk_length by apply RD. apply (dM_ni p st RD).
  - rewrite zblk_length by apply RD. apply (dM_ni p st RD).
Qed.

Lemma ComputeMu_R0 : forall p st, ready p st -> nineq p = 0%nat -> ComputeMu st = 0.
Proof.
  intros p st RD HM. unfold ComputeMu, HasInequalityConstraints. rewrite (dM_ni p st RD), HM. reflexivity.
Qed.

(** C12: on SATISFIED_KKT_TOL the returned variables satisfy the first order conditions to the
    requested tolerance. [mu] is the barrier parameter of the last iteration. *)
Theorem C12_satisfied_means_satisfied : forall ldlt params (p : QP R) st st' out,
  wf_qp p -> ready p st ->
  (p_initial_guess_method params = USER_PROVIDED -> interior p st) ->
  IP_Solve ldlt params st = Ok (st', out) ->
  qp_termination_state out = SATISFIED_KKT_TOL ->
  let x := x_block st' in let s := s_block st' in let y := y_block st' in let z := z_block st' in
  let tol := p_termination_kkt_tol params in
  exists mu,
    norm2 (nv p) (kkt_dual p x y z) < tol /\
    norm2 (nineq p) (fun m => vget s m * vget z m - mu) < tol /\
    norm2 (neq p) (kkt_eq p x) < tol /\
    norm2 (nineq p) (kkt_ineq p x s) < tol /\
    ((0 < nineq p)%nat ->
      Rsum (nineq p) (fun m => vget s m * vget z m) / INR (nineq p) < p_termination_complementarity_tol params) /\
    (* and this is what was logged last *)
    exists it its, qp_iterations out = its ++ [it] /\
      kkt_final it = MkKKT (norm2 (nv p) (kkt_dual p x y z))
                           (norm2 (nineq p) (fun m => vget s m * vget z m - mu))
                           (norm2 (neq p) (kkt_eq p x)) (norm2 (nineq p) (kkt_ineq p x s)).
Proof.
  intros ldlt params p st st' out W RD HU H HT x s y z tol.
  destruct (C12_Solve_run _ _ _ _ _ H) as (p' & st1 & mu0 & tr & Hp & _ & _ & HS & HR & HI & HL & _ & HN & HC).
  assert (p' = p) by (rewrite (rd_p _ _ RD) in Hp; congruence). subst p'.
  destruct (start_ok _ _ _ _ _ _ W RD HU HS) as [E1 I1].
  pose proof (run_invariant _ _ _ _ _ _ W (evaluated_ready _ _ E1) I1 HR) as INV.
  destruct HC as [(T & _)|(_ & tr0 & [[mu it] ste] & Htr & [M1 M2] & _)]; [congruence|].
  assert (Est : st' = ste).
  { rewrite HL, Htr, map_app. apply last_last. }
  subst ste. cbn [fst snd] in M1, M2.
  destruct (INV mu it st') as (Ev & Int & Ek & _).
  { rewrite Htr. apply in_or_app. right. left. reflexivity. }
  rewrite Ek in M1. rewrite (evaluated_errors p st' mu W Ev) in M1, Ek.
  destruct (R_fltb (KKT_Max (MkKKT (norm2 (nv p) (kkt_dual p (x_block st') (y_block st') (z_block st')))
          (norm2 (nineq p) (fun m => vget (s_block st') m * vget (z_block st') m - mu))
          (norm2 (neq p) (kkt_eq p (x_block st')))
          (norm2 (nineq p) (kkt_ineq p (x_block st') (s_block st'))))) (p_termination_kkt_tol params)) as [L|]; [|discriminate].
  destruct (R_fltb (ComputeMu st') (p_termination_complementarity_tol params)) as [L2|]; [|discriminate].
  rewrite KKT_Max_R in L. apply Rmax4_lt in L. cbn [r_dual r_comp r_primal_eq r_primal_ineq] in L.
  destruct L as (La & Lb & Lc & Ld).
  exists mu. splits; auto.
  - intro HM. pose proof (ComputeMu_R p st' (evaluated_ready _ _ Ev) HM) as EM. rewrite EM in L2. exact L2.
  - exists it, (map (fun e => snd (fst e)) tr0). split; [|exact Ek].
    rewrite HI, Htr, map_app. reflexivity.
Qed.

(** ** C14: certificate of near optimality *)

Lemma Gs_sym : forall p i j, Gs p i j = Gs p j i.
Proof.
  intros p i j. unfold Gs. destruct (Nat.leb_spec j i); destruct (Nat.leb_spec i j); try lia; try reflexivity.
  replace i with j by lia. reflexivity.
Qed.

Lemma qform_convex : forall p x x', psd p -> length x = nv p -> length x' = nv p ->
  / 2 * qform p x' >= / 2 * qform p x
    + Rsum (nv p) (fun i => Rsum (nv p) (fun j => Gs p i j * vget x j) * (vget x' i - vget x i)).
Proof.
  intros p x x' PSD Lx Lx'.
  pose (dv := mkvec (nv p) (fun i => vget x' i - vget x i)).
  pose proof (PSD dv) as Q.
  assert (E : qform p dv = qform p x' - qform p x
      - 2 * Rsum (nv p) (fun i => Rsum (nv p) (fun j => Gs p i j * vget x j) * (vget x' i - vget x i))).
  { assert (Sy : Rsum (nv p) (fun i => Rsum (nv p) (fun j => vget x' i * Gs p i j * vget x j))
               = Rsum (nv p) (fun i => Rsum (nv p) (fun j => vget x i * Gs p i j * vget x' j))).
    { rewrite Rsum_swap. apply Rsum_ext. intros i Hi. apply Rsum_ext. intros j Hj. rewrite (Gs_sym p j i). ring. }
    assert (E1 : qform p dv = qform p x' + qform p x
       - Rsum (nv p) (fun i => Rsum (nv p) (fun j => vget x' i * Gs p i j * vget x j))
       - Rsum (nv p) (fun i => Rsum (nv p) (fun j => vget x i * Gs p i j * vget x' j))).
    { unfold qform. rewrite <- !Rsum_plus, <- !Rsum_minus. apply Rsum_ext. intros i Hi.
      rewrite <- !Rsum_plus, <- !Rsum_minus. apply Rsum_ext. intros j Hj.
      unfold dv. rewrite !(vget_mkvec R R_ops) by assumption. ring. }
    assert (E2 : Rsum (nv p) (fun i => Rsum (nv p) (fun j => Gs p i j * vget x j) * (vget x' i - vget x i))
       = Rsum (nv p) (fun i => Rsum (nv p) (fun j => vget x' i * Gs p i j * vget x j)) - qform p x).
    { unfold qform. rewrite <- Rsum_minus. apply Rsum_ext. intros i Hi.
      rewrite <- Rsum_scal_r. rewrite <- Rsum_minus. apply Rsum_ext. intros j Hj. ring. }
    rewrite E1, E2, <- Sy. ring. }
  lra.
Qed.

(** The gradient inner product of a per-constraint scatter. *)
Lemma scatter_dot : forall p (f : nat -> R) (w : nat -> R), wf_qp p ->
  Rsum (nv p) (fun i => Rsum (nineq p) (fun m => if (cv p m =? i)%nat then f m else 0) * w i)
  = Rsum (nineq p) (fun m => f m * w (cv p m)).
Proof.
  intros p f w W.
  rewrite (Rsum_ext (nv p) _ (fun i => Rsum (nineq p) (fun m => (if (cv p m =? i)%nat then f m else 0) * w i)))
    by (intros; rewrite Rsum_scal_r; reflexivity).
  rewrite Rsum_swap. apply Rsum_ext. intros m Hm.
  rewrite (Rsum_ext (nv p) _ (fun i => if (i =? cv p m)%nat then f m * w i else 0)).
  - apply (Rsum_delta (nv p) (cv p m) (fun i => f m * w i)). apply cv_lt; assumption.
  - intros i Hi. rewrite (Nat.eqb_sym i). destruct (cv p m =? i)%nat; ring.
Qed.

(** Exact suboptimality certificate for any primal-dual point with z >= 0 (no tolerance involved). *)
Theorem C14_certificate : forall (p : QP R) (x s y z x' : list R),
  wf_qp p -> psd p -> length x = nv p -> length x' = nv p ->
  (forall m, (m < nineq p)%nat -> 0 <= vget z m) ->
  eq_feasible p x' -> ineq_feasible p x' ->
  objective p x - objective p x' <=
    Rsum (nv p) (fun i => kkt_dual p x y z i * (vget x i - vget x' i))
    + Rsum (neq p) (fun k => vget y k * kkt_eq p x k)
    + Rsum (nineq p) (fun m => vget z m * kkt_ineq p x s m)
    + Rsum (nineq p) (fun m => vget s m * vget z m).
Proof.
  intros p x s y z x' W PSD Lx Lx' Hz HE HI.
  pose proof (qform_convex p x x' PSD Lx Lx') as CV.
  set (dd := fun i => vget x' i - vget x i).
  (* objective difference bounded by the gradient *)
  assert (G : objective p x' >= objective p x
     + Rsum (nv p) (fun i => (Rsum (nv p) (fun j => Gs p i j * vget x j) + vget (qc p) i) * dd i)).
  { unfold objective.
    assert (E : Rsum (nv p) (fun i => (Rsum (nv p) (fun j => Gs p i j * vget x j) + vget (qc p) i) * dd i)
      = Rsum (nv p) (fun i => Rsum (nv p) (fun j => Gs p i j * vget x j) * (vget x' i - vget x i))
        + (Rsum (nv p) (fun i => vget (qc p) i * vget x' i) - Rsum (nv p) (fun i => vget (qc p) i * vget x i))).
    { rewrite <- Rsum_minus, <- Rsum_plus. apply Rsum_ext. intros. unfold dd. ring. }
    rewrite E. lra. }
  assert (E : Rsum (nv p) (fun i => (Rsum (nv p) (fun j => Gs p i j * vget x j) + vget (qc p) i) * dd i)
    = Rsum (nv p) (fun i => kkt_dual p x y z i * dd i)
      + Rsum (neq p) (fun k => vget y k * Rsum (nv p) (fun i => Ae p k i * dd i))
      + Rsum (nineq p) (fun m => ca p m * vget z m * dd (cv p m))).
  { rewrite <- (scatter_dot p (fun m => ca p m * vget z m) dd W).
    assert (S1 : Rsum (neq p) (fun k => vget y k * Rsum (nv p) (fun i => Ae p k i * dd i))
       = Rsum (nv p) (fun i => Rsum (neq p) (fun k => Ae p k i * vget y k) * dd i)).
    { rewrite (Rsum_ext (neq p) _ (fun k => Rsum (nv p) (fun i => vget y k * (Ae p k i * dd i))))
        by (intros; rewrite Rsum_scal_l; reflexivity).
      rewrite Rsum_swap. apply Rsum_ext. intros i Hi. rewrite <- Rsum_scal_r. apply Rsum_ext. intros; ring. }
    rewrite S1, <- !Rsum_plus. apply Rsum_ext. intros i Hi. unfold kkt_dual. ring. }
  assert (EE : Rsum (neq p) (fun k => vget y k * Rsum (nv p) (fun i => Ae p k i * dd i))
     = - Rsum (neq p) (fun k => vget y k * kkt_eq p x k)).
  { rewrite <- Rsum_opp. apply Rsum_ext. intros k Hk. specialize (HE k Hk). unfold kkt_eq in *.
    replace (Rsum (nv p) (fun i => Ae p k i * dd i))
      with (Rsum (nv p) (fun j => Ae p k j * vget x' j) - Rsum (nv p) (fun j => Ae p k j * vget x j))
      by (rewrite <- Rsum_minus; apply Rsum_ext; intros; unfold dd; ring).
    replace (Rsum (nv p) (fun j => Ae p k j * vget x' j)) with (- vget (qb p) k) by lra. ring. }
  assert (EI : Rsum (nineq p) (fun m => ca p m * vget z m * dd (cv p m))
     >= - Rsum (nineq p) (fun m => vget z m * kkt_ineq p x s m) - Rsum (nineq p) (fun m => vget s m * vget z m)).
  { apply Rle_ge.
    replace (- Rsum (nineq p) (fun m => vget z m * kkt_ineq p x s m) - Rsum (nineq p) (fun m => vget s m * vget z m))
      with (Rsum (nineq p) (fun m => - (vget z m * kkt_ineq p x s m) - vget s m * vget z m))
      by (rewrite Rsum_minus, Rsum_opp; reflexivity).
    apply Rsum_le. intros m Hm. specialize (HI m Hm). specialize (Hz m Hm). unfold kkt_ineq, dd.
    assert (0 <= vget z m * (ca p m * vget x' (cv p m) + cb p m)) by (apply Rmult_le_pos; lra). lra. }
  assert (ED : Rsum (nv p) (fun i => kkt_dual p x y z i * dd i)
     = - Rsum (nv p) (fun i => kkt_dual p x y z i * (vget x i - vget x' i))).
  { rewrite <- Rsum_opp. apply Rsum_ext. intros. unfold dd. ring. }
  lra.
Qed.

Lemma CS_bound : forall n f g t, norm2 n f <= t -> Rsum n (fun i => f i * g i) <= t * norm2 n g.
Proof.
  intros n f g t H. eapply Rle_trans; [apply Rle_abs|]. eapply Rle_trans; [apply Rsum_CS|].
  apply Rmult_le_compat_r; [apply sqrt_pos|exact H].
Qed.

(** C14: near optimality of a Solve that reports SATISFIED_KKT_TOL. *)
Theorem C14_satisfied_is_near_optimal : forall ldlt params (p : QP R) st st' out,
  wf_qp p -> psd p -> ready p st ->
  (p_initial_guess_method params = USER_PROVIDED -> interior p st) ->
  IP_Solve ldlt params st = Ok (st', out) ->
  qp_termination_state out = SATISFIED_KKT_TOL ->
  let x := x_block st' in let y := y_block st' in let z := z_block st' in
  let tol := p_termination_kkt_tol params in
  (forall x', length x' = nv p -> eq_feasible p x' -> ineq_feasible p x' ->
     objective p x - objective p x' <=
       tol * (norm2 (nv p) (fun i => vget x i - vget x' i)
              + norm2 (neq p) (fun k => vget y k) + norm2 (nineq p) (fun m => vget z m))
       + INR (nineq p) * p_termination_complementarity_tol params) /\
  (forall k, (k < neq p)%nat -> Rabs (kkt_eq p x k) < tol) /\
  (forall m, (m < nineq p)%nat -> ca p m * vget x (cv p m) + cb p m > - tol).
Proof.
  intros ldlt params p st st' out W PSD RD HU H HT x y z tol.
  destruct (C12_satisfied_means_satisfied ldlt params p st st' out W RD HU H HT)
    as (mu & B1 & B2 & B3 & B4 & B5 & _).
  destruct (C06_Solve_interior ldlt params p st st' out W RD HU H) as (Int & _ & _).
  fold x y z tol in B1, B2, B3, B4.
  assert (Lx : length x = nv p).
  { destruct (C12_Solve_run _ _ _ _ _ H) as (p' & st1 & mu0 & tr & Hp & _ & _ & HS & HR & HI & HL & _ & HN & HC).
    assert (p' = p) by (rewrite (rd_p _ _ RD) in Hp; congruence). subst p'.
    destruct (start_ok _ _ _ _ _ _ W RD HU HS) as [E1 I1].
    pose proof (run_invariant _ _ _ _ _ _ W (evaluated_ready _ _ E1) I1 HR) as INV.
    destruct HC as [(T & _)|(_ & tr0 & [[mu' it] ste] & Htr & _ & _)]; [congruence|].
    assert (Est : st' = ste) by (rewrite HL, Htr, map_app; apply last_last). subst ste.
    destruct (INV mu' it st') as (Ev & _).
    { rewrite Htr. apply in_or_app. right. left. reflexivity. }
    pose proof (evaluated_ready _ _ Ev) as RD'. unfold x, x_block. rewrite xblk_length by apply RD'.
    apply (dN_nv p st' RD'). }
  assert (AbsN : forall n f k, (k < n)%nat -> Rabs (f k) <= norm2 n f).
  { intros n f k Hk. unfold norm2. rewrite <- sqrt_Rsqr_abs. apply sqrt_le_1_alt. unfold Rsqr.
    apply (Rsum_pos_term n (fun i => f i * f i)); [|exact Hk]. intros. apply sq_nonneg. }
  splits.
  - intros x' Lx' HE HI'.
    eapply Rle_trans.
    { apply (C14_certificate p x (s_block st') y z x'); auto. intros m Hm. apply Rlt_le. apply (Int m Hm). }
    assert (I1 : Rsum (nv p) (fun i => kkt_dual p x y z i * (vget x i - vget x' i))
                 <= tol * norm2 (nv p) (fun i => vget x i - vget x' i)) by (apply CS_bound; lra).
    assert (I2 : Rsum (neq p) (fun k => vget y k * kkt_eq p x k) <= tol * norm2 (neq p) (fun k => vget y k)).
    { rewrite (Rsum_ext _ _ (fun k => kkt_eq p x k * vget y k)) by (intros; ring). apply CS_bound. lra. }
    assert (I3 : Rsum (nineq p) (fun m => vget z m * kkt_ineq p x (s_block st') m) <= tol * norm2 (nineq p) (fun m => vget z m)).
    { rewrite (Rsum_ext _ _ (fun m => kkt_ineq p x (s_block st') m * vget z m)) by (intros; ring). apply CS_bound. lra. }
    assert (I4 : Rsum (nineq p) (fun m => vget (s_block st') m * vget z m)
                 <= INR (nineq p) * p_termination_complementarity_tol params).
    { destruct (Nat.eq_dec (nineq p) 0) as [E0|E0].
      - rewrite E0. simpl. lra.
      - specialize (B5 ltac:(lia)). fold z in B5.
        assert (HP : 0 < INR (nineq p)) by (apply lt_0_INR; lia).
        assert (E : Rsum (nineq p) (fun m => vget (s_block st') m * vget z m)
          = INR (nineq p) * (Rsum (nineq p) (fun m => vget (s_block st') m * vget z m) / INR (nineq p)))
          by (field; lra).
        rewrite E. apply Rmult_le_compat_l; lra. }
    lra.
  - intros k Hk. eapply Rle_lt_trans; [apply (AbsN (neq p)); exact Hk|exact B3].
  - intros m Hm. pose proof (AbsN (nineq p) (kkt_ineq p x (s_block st')) m Hm) as A.
    destruct (Int m Hm) as [Hs _].
    pose proof (Rle_abs (- kkt_ineq p x (s_block st') m)) as A2. rewrite Rabs_Ropp in A2.
    unfold kkt_ineq in *. lra.
Qed.
