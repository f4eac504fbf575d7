(** C10 (only the lower triangle of G matters) and C50 (no dependence on left-over storage),
    for every arithmetic. *)
From Coq Require Import String List Bool Arith ZArith Lia.
From Verif Require Import Scalar Outcome LinAlg Structs Constraint QPModel QPBlocks NullSpace.
Import ListNotations.
Local Open Scope outcome_scope.
Local Open Scope list_scope.
Local Open Scope nat_scope.

Section Frame.
  Context {F : Type} {O : Ops F}.
  Variable ldlt : mat F -> option (mat F).

  (** What a caller observes of an interior point solve: the exception (or undefined behaviour), or
      variables() and the outputs. [uv] is an optional call of SetVariables between the constructor
      and Solve. *)
  Definition solve_session (g : garbage F) (uv : option (list F)) (params : IPParams F) (p : QP F)
    : outcome (list F * QPInteriorPointSolverOutputs F) :=
    do st <- Setup g (Some p) ;
    do '(st', out) <- IP_Solve ldlt params (match uv with Some v => SetVariables st v | None => st end) ;
    Ok (ip_vars st', out).

  (** [G] and [G'] have the same size and the same entries on and below the diagonal. *)
  Definition same_lower (G G' : mat F) : Prop :=
    mrows G = mrows G' /\ mcols G = mcols G' /\
    forall i j, j <= i -> i < mrows G -> mget G i j = mget G' i j.

  Definition replace_G (p : QP F) (G' : mat F) : QP F := MkQP G' (qc p) (qA p) (qb p) (qcons p).

  Lemma same_lower_sget : forall G G' i j, same_lower G G' -> i < mrows G -> j < mrows G ->
    sget G i j = sget G' i j.
  Proof.
    intros G G' i j (_ & _ & H) Hi Hj. unfold sget.
    destruct (Nat.leb_spec j i); apply H; lia.
  Qed.

  Lemma same_lower_srow : forall G G' i, same_lower G G' -> i < mrows G -> srow G i = srow G' i.
  Proof.
    intros G G' i H Hi. unfold srow. destruct (H) as (E & _ & _). rewrite <- E.
    apply mkvec_ext. intros j Hj. apply same_lower_sget; auto.
  Qed.

  Section C10.
    Variables (p : QP F) (G' : mat F).
    Hypothesis SL : same_lower (qG p) G'.
    Let p' := replace_G p G'.

    Definition set_p (q : QP F) (st : ip_solver F) : ip_solver F :=
      MkIP (Some q) (ip_dims st) (ip_vars st) (ip_r st) (ip_Hinv st) (ip_delta st) (ip_delta_aff st).

    Lemma eval_set_p : forall b st, dN (ip_dims st) = mrows (qG p) ->
      EvaluateKKTConditions b p' (set_p p' st) = set_p p' (EvaluateKKTConditions b p st).
    Proof.
      intros b st HN. unfold EvaluateKKTConditions.
      cbn [ip_dims set_p ip_vars ip_r].
      assert (E : mkvec (dN (ip_dims st)) (fun i => fadd (fdot (srow (qG p') i) (xblk (ip_dims st) (ip_vars st))) (vget (qc p') i))
                = mkvec (dN (ip_dims st)) (fun i => fadd (fdot (srow (qG p) i) (xblk (ip_dims st) (ip_vars st))) (vget (qc p) i))).
      { apply mkvec_ext. intros i Hi. unfold p', replace_G; cbn [qG qc].
        rewrite (same_lower_srow (qG p) G') by (auto; lia). reflexivity. }
      rewrite E. destruct b; reflexivity.
    Qed.

    Lemma reduced_set_p : forall b d s z, dN d = mrows (qG p) ->
      reduced_H b p' d s z = reduced_H b p d s z.
    Proof.
      intros b d s z HN. unfold reduced_H.
      assert (E : mkvec (dN d) (fun i => mget (qG p') i i) = mkvec (dN d) (fun i => mget (qG p) i i)).
      { apply mkvec_ext. intros i Hi. symmetry. apply SL; lia. }
      rewrite E. apply mkmat_ext. intros i j Hi Hj.
      destruct (Nat.ltb_spec i (dN d)); [|reflexivity].
      destruct (Nat.ltb_spec j i); [|reflexivity].
      symmetry. apply SL; lia.
    Qed.

    Definition lift (o : outcome (ip_solver F)) : outcome (ip_solver F) :=
      do st <- o ; Ok (set_p p' st).
    Definition lift2 {A} (o : outcome (ip_solver F * A)) : outcome (ip_solver F * A) :=
      do '(st, a) <- o ; Ok (set_p p' st, a).

    Lemma ldlt_set_p : forall b st, dN (ip_dims st) = mrows (qG p) ->
      ComputeLDLT ldlt b p' (set_p p' st) = lift (ComputeLDLT ldlt b p st).
    Proof.
      intros b st HN. unfold ComputeLDLT, lift. cbn [ip_dims set_p ip_vars ip_r ip_delta ip_delta_aff ip_p].
      rewrite reduced_set_p by exact HN.
      destruct (f_assert _ _) as [u|e|w]; cbn [bind]; auto.
      destruct (ldlt _); reflexivity.
    Qed.

    Lemma eval_dims : forall b q st, ip_dims (EvaluateKKTConditions b q st) = ip_dims st.
    Proof. intros [|] q st; reflexivity. Qed.

    Lemma ldlt_dims : forall b q st st', ComputeLDLT ldlt b q st = Ok st' -> ip_dims st' = ip_dims st.
    Proof.
      intros b q st st' H. unfold ComputeLDLT in H. inv_bind H. destruct (ldlt _); [|discriminate].
      apply Ok_inj in H. subst st'. reflexivity.
    Qed.

    Lemma iterate_set_p : forall mu strat st, dN (ip_dims st) = mrows (qG p) ->
      Iterate ldlt p' mu strat (set_p p' st) = lift2 (Iterate ldlt p mu strat st).
    Proof.
      intros mu strat st HN. unfold Iterate, lift2. rewrite eval_set_p by exact HN.
      rewrite ldlt_set_p by exact HN. unfold lift. cbn [ip_dims set_p].
      destruct (ComputeLDLT ldlt true p (EvaluateKKTConditions true p st)) as [st1|e|w] eqn:E1; cbn [bind]; auto.
      destruct (negb (HasInequalityConstraints (ip_dims st))); cbn [bind].
      - destruct (if HasInequalityConstraints (ip_dims st)
                  then ComputeAlpha (SolveForUpdate f0 p st1) (flit lit_0_995) else Ok default_alpha) as [al|e|w] eqn:EA.
        + change (ComputeAlpha (SolveForUpdate f0 p' (set_p p' st1)) (flit lit_0_995))
            with (ComputeAlpha (SolveForUpdate f0 p st1) (flit lit_0_995)).
          rewrite EA. reflexivity.
        + change (ComputeAlpha (SolveForUpdate f0 p' (set_p p' st1)) (flit lit_0_995))
            with (ComputeAlpha (SolveForUpdate f0 p st1) (flit lit_0_995)).
          rewrite EA. reflexivity.
        + change (ComputeAlpha (SolveForUpdate f0 p' (set_p p' st1)) (flit lit_0_995))
            with (ComputeAlpha (SolveForUpdate f0 p st1) (flit lit_0_995)).
          rewrite EA. reflexivity.
      - assert (Q : forall s1 m2 pr ma,
          (do al <- (if HasInequalityConstraints (ip_dims st) then ComputeAlpha (set_p p' s1) (flit lit_0_995) else Ok default_alpha) ;
           Ok (apply_update (set_p p' s1) al, MkIPOut m2 al pr ma)) =
          (do '(s, a) <- (do al <- (if HasInequalityConstraints (ip_dims st) then ComputeAlpha s1 (flit lit_0_995) else Ok default_alpha) ;
             Ok (apply_update s1 al, MkIPOut m2 al pr ma)) ; Ok (set_p p' s, a))).
        { intros s1 m2 pr ma. change (ComputeAlpha (set_p p' s1) (flit lit_0_995)) with (ComputeAlpha s1 (flit lit_0_995)).
          destruct (if HasInequalityConstraints (ip_dims st) then _ else _); reflexivity. }
        destruct strat; cbn [bind].
        + apply (Q (SolveForUpdate mu p st1)).
        + apply (Q (SolveForUpdate mu p st1)).
        + change (ComputeAlpha (SolveForUpdate f0 p' (set_p p' st1)) f1) with (ComputeAlpha (SolveForUpdate f0 p st1) f1).
          destruct (ComputeAlpha (SolveForUpdate f0 p st1) f1) as [pb|e|w]; cbn [bind]; auto.
          match goal with |- context [SolveForUpdate ?m p (with_aff ?a ?b)] =>
            apply (Q (SolveForUpdate m p (with_aff a b)))
          end.
    Qed.

    Lemma iterate_dims : forall q mu strat st st' out,
      Iterate ldlt q mu strat st = Ok (st', out) -> ip_dims st' = ip_dims st.
    Proof.
      intros q mu strat st st' out H. unfold Iterate in H. inv_bind H. apply ldlt_dims in Hm.
      rewrite eval_dims in Hm. inv_bind H. destruct a0 as [[[st2 mu2] pb] ma]. inv_bind H. inj_ok H. subst st'.
      change (ip_dims (apply_update st2 a0)) with (ip_dims st2).
      destruct (negb _); [inj_ok Hm0; subst; exact Hm|].
      destruct strat; [inj_ok Hm0; subst; exact Hm|inj_ok Hm0; subst; exact Hm|].
      inv_bind Hm0. inj_ok Hm0. subst. exact Hm.
    Qed.

    Lemma loop_set_p : forall n params mu its st, dN (ip_dims st) = mrows (qG p) ->
      ip_loop ldlt n params p' mu its (set_p p' st) = lift2 (ip_loop ldlt n params p mu its st).
    Proof.
      induction n as [|n IH]; intros params mu its st HN; [reflexivity|].
      cbn [ip_loop]. rewrite iterate_set_p by exact HN. unfold lift2 at 1.
      destruct (Iterate ldlt p mu (p_barrier_strategy params) st) as [[st1 outs]|e|w] eqn:EI; cbn [bind]; auto.
      assert (HN1 : dN (ip_dims st1) = mrows (qG p)) by (rewrite (iterate_dims _ _ _ _ _ _ EI); exact HN).
      rewrite eval_set_p by exact HN1.
      set (st2 := EvaluateKKTConditions true p st1).
      assert (HN2 : dN (ip_dims st2) = mrows (qG p)) by exact HN1. clearbody st2.
      change (ComputeErrors (set_p p' st2) mu) with (ComputeErrors st2 mu).
      change (ComputeErrors (set_p p' st) mu) with (ComputeErrors st mu).
      change (ComputeMu (set_p p' st2)) with (ComputeMu st2).
      change (ComputeLagrangeMultiplierSummary (set_p p' st2)) with (ComputeLagrangeMultiplierSummary st2).
      change (next_mu params (set_p p' st2)) with (next_mu params st2).
      destruct (_ && _); [reflexivity|]. apply IH. exact HN2.
    Qed.

    Lemma guess_set_p : forall params st, dN (ip_dims st) = mrows (qG p) ->
      ComputeInitialGuess ldlt params p' (set_p p' st) = lift (ComputeInitialGuess ldlt params p st).
    Proof.
      intros params st HN. unfold ComputeInitialGuess.
      cbn [ip_dims set_p ip_vars].
      set (st0 := with_vars st (set_y (ip_dims st) (vzero (dK (ip_dims st)))
         (set_x (ip_dims st) (vzero (dN (ip_dims st))) (ip_vars st)))).
      change (with_vars (set_p p' st) (set_y (ip_dims st) (vzero (dK (ip_dims st)))
         (set_x (ip_dims st) (vzero (dN (ip_dims st))) (ip_vars st)))) with (set_p p' st0).
      change (qcons p') with (qcons p).
      assert (HN0 : dN (ip_dims st0) = mrows (qG p)) by exact HN.
      clearbody st0.
      assert (Q : forall o : outcome (ip_solver F),
        bind (lift o) (fun st1 =>
          do x <- ofold clamp_one (qcons p) (xblk (ip_dims st) (ip_vars st1)) ;
          let svals := map (fun c : lic F => fmax (flit lit_1em9) (fadd (fmul (la c) (vget x (cidx c))) (lb c))) (qcons p) in
          let zvals := map (fun s => fdiv f1 s) svals in
          Ok (with_vars st1 (set_z (ip_dims st) zvals (set_s (ip_dims st) svals (set_x (ip_dims st) x (ip_vars st1))))))
        = lift (bind o (fun st1 =>
          do x <- ofold clamp_one (qcons p) (xblk (ip_dims st) (ip_vars st1)) ;
          let svals := map (fun c : lic F => fmax (flit lit_1em9) (fadd (fmul (la c) (vget x (cidx c))) (lb c))) (qcons p) in
          let zvals := map (fun s => fdiv f1 s) svals in
          Ok (with_vars st1 (set_z (ip_dims st) zvals (set_s (ip_dims st) svals (set_x (ip_dims st) x (ip_vars st1)))))))).
      { intros [s|e|w]; cbn [bind lift]; auto. cbn [ip_vars set_p].
        destruct (ofold clamp_one (qcons p) (xblk (ip_dims st) (ip_vars s))); reflexivity. }
      destruct (p_initial_guess_method params).
      - apply (Q (Ok st0)).
      - rewrite <- Q. f_equal. rewrite ldlt_set_p by exact HN0. unfold lift.
        destruct (ComputeLDLT ldlt false p st0) as [sta|e|w] eqn:EL; cbn [bind]; auto.
        rewrite eval_set_p; [reflexivity|]. rewrite (ldlt_dims _ _ _ _ EL). exact HN0.
      - reflexivity.
    Qed.

    Lemma guess_dims : forall params q st st',
      ComputeInitialGuess ldlt params q st = Ok st' -> ip_dims st' = ip_dims st.
    Proof.
      intros params q st st' EG. unfold ComputeInitialGuess in EG.
      destruct (p_initial_guess_method params).
      - inv_bind EG. apply Ok_inj in Hm. inv_bind EG. apply Ok_inj in EG. subst. reflexivity.
      - inv_bind EG. inv_bind Hm. apply Ok_inj in Hm. inv_bind EG. apply Ok_inj in EG. subst.
        cbn [ip_dims with_vars SolveForUpdateNoInequalities with_delta].
        rewrite eval_dims, (ldlt_dims _ _ _ _ Hm0). reflexivity.
      - apply Ok_inj in EG. congruence.
    Qed.

    (** C10: the strictly upper triangle of G influences nothing a caller of Setup / SetVariables /
        Solve can observe. *)
    Theorem C10_upper_triangle_ignored : forall g uv params,
      solve_session g uv params (replace_G p G') = solve_session g uv params p.
    Proof.
      intros g uv params. unfold solve_session, Setup. fold p'.
      pose proof SL as SL'. destruct SL' as (E1 & E2 & _).
      change (qG p') with G'. rewrite <- E1, <- E2.
      change (qc p') with (qc p). change (qA p') with (qA p). change (qb p') with (qb p). change (qcons p') with (qcons p).
      repeat (match goal with |- bind (bind (bind ?a _) _) _ = _ => destruct a; cbn [bind]; auto end).
      repeat (match goal with |- bind (bind ?a _) _ = _ => destruct a; cbn [bind]; auto end).
      all: match goal with |- context [MkIP (Some p) ?d ?v ?r ?h ?dl ?af] =>
        set (st := MkIP (Some p) d v r h dl af) end.
      all: assert (HN : forall v, dN (ip_dims (match v with Some w => SetVariables st w | None => st end)) = mrows (qG p))
        by (intros [w|]; reflexivity).
      all: match goal with |- context [MkIP (Some p') ?d ?v ?r ?h ?dl ?af] =>
        change (MkIP (Some p') d v r h dl af) with (set_p p' st) end.
      all: replace (match uv with Some v => SetVariables (set_p p' st) v | None => set_p p' st end)
        with (set_p p' (match uv with Some v => SetVariables st v | None => st end)) by (destruct uv; reflexivity).
      all: specialize (HN uv).
      all: assert (HP : ip_p (match uv with Some w => SetVariables st w | None => st end) = Some p) by (destruct uv; reflexivity).
      all: set (su := match uv with Some w => SetVariables st w | None => st end) in *; clearbody su.
      all: unfold IP_Solve; rewrite HP; cbn [ip_p set_p ip_dims ip_vars].
      all: destruct (IP_CheckParams params); cbn [bind]; auto.
      all: destruct (ub_unless _ _); cbn [bind]; auto.
      all: rewrite guess_set_p by exact HN; unfold lift.
      all: destruct (ComputeInitialGuess ldlt params p su) as [sg|e|w] eqn:EG; cbn [bind]; auto.
      all: change (qcons p') with (qcons p).
      all: destruct (ub_unless _ _); cbn [bind]; auto.
      all: assert (HNg : dN (ip_dims sg) = mrows (qG p)).
      all: cycle 1.
      all: try (rewrite eval_set_p by exact HNg;
        change (ComputeMu (set_p p' (EvaluateKKTConditions true p sg))) with (ComputeMu (EvaluateKKTConditions true p sg));
        rewrite loop_set_p by exact HNg; unfold lift2;
        match goal with |- context [ip_loop ?a ?b ?c ?d ?e ?f ?g] => destruct (ip_loop a b c d e f g) as [[s o]|e'|w'] end;
        cbn [bind]; reflexivity).
      all: rewrite (guess_dims _ _ _ _ EG); exact HN.
    Qed.
  End C10.

  (** C10 for the null space solver. *)
  Theorem C10_null_space_upper_triangle_ignored : forall qr llt (p : QP F) G' x_old,
    same_lower (qG p) G' ->
    NS_Solve qr llt (replace_G p G') x_old = NS_Solve qr llt p x_old.
  Proof.
    intros qr llt p G' x_old SL. unfold NS_Solve. cbn [replace_G qA qb qG qc].
    destruct (SL) as (E1 & E2 & _).
    destruct (f_assert _ _); cbn [bind]; auto. destruct (f_assert _ _); cbn [bind]; auto.
    rewrite <- E1, <- E2.
    destruct (Nat.eqb_spec (mrows (qG p)) (mcols (qA p))) as [EN|]; [|reflexivity].
    destruct (Nat.eqb_spec (mcols (qG p)) (mcols (qA p))); [|reflexivity].
    destruct (List.length (qc p) =? mcols (qA p)); cbn [andb ub_unless bind]; [|reflexivity].
    destruct (ub_unless _ _); cbn [bind]; auto. destruct (ub_unless _ _); cbn [bind]; auto.
    assert (EG : ns_Gred (qr (qA p)) (mcols (qA p)) G' = ns_Gred (qr (qA p)) (mcols (qA p)) (qG p)).
    { unfold ns_Gred. apply mkmat_ext. intros a' b' _ _. f_equal. apply mkvec_ext. intros j Hj. f_equal.
      apply mkvec_ext. intros i Hi. symmetry. apply same_lower_sget; [exact SL|lia|lia]. }
    rewrite EG. destruct (llt _); [|reflexivity]. do 2 f_equal. apply mkvec_ext. intros i Hi. f_equal. f_equal. f_equal.
    apply mkvec_ext. intros a' _. f_equal. f_equal. f_equal. unfold smvmul. rewrite <- E1. apply mkvec_ext.
    intros k Hk. f_equal. symmetry. apply same_lower_srow; assumption.
  Qed.
End Frame.
