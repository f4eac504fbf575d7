(** C50: results do not depend on uninitialised or left-over storage; every arithmetic. *)
From Coq Require Import String List Bool Arith ZArith Lia.
From Verif Require Import Scalar Outcome LinAlg Structs Constraint QPModel QPBlocks NullSpace QPFrame
  Residual Nonlinear.
Import ListNotations.
Local Open Scope outcome_scope.
Local Open Scope list_scope.
Local Open Scope nat_scope.

Lemma block_ext : forall A (d : dims) (v w : list A), length v = tsize d -> length w = tsize d ->
  xblk d v = xblk d w -> sblk d v = sblk d w -> yblk d v = yblk d w -> zblk d v = zblk d w -> v = w.
Proof.
  intros A d v w Hv Hw Ex Es Ey Ez.
  destruct (C05_blocks_tile d v Hv) as [E1 _]. destruct (C05_blocks_tile d w Hw) as [E2 _].
  rewrite E1, E2, Ex, Es, Ey, Ez. reflexivity.
Qed.

Lemma set_y_nil : forall A (d : dims) (v : list A), set_y d [] v = v.
Proof.
  intros. unfold set_y, vset_seg. cbn [length app]. rewrite Nat.add_0_r. apply firstn_skipn.
Qed.

Lemma fold_vupd_length : forall A B (L : list B) (ix : B -> nat) (u : B -> A -> A) v0,
  length (fold_left (fun acc a => vupd (ix a) (u a) acc) L v0) = length v0.
Proof.
  intros A B L ix u. induction L as [|a L IH]; intros v0; simpl; [reflexivity|].
  rewrite IH. apply vupd_length.
Qed.

Ltac blk2 := repeat progress (rewrite ?x_set_x, ?x_set_s, ?x_set_y, ?x_set_z,
                    ?s_set_x, ?s_set_s, ?s_set_y, ?s_set_z,
                    ?y_set_x, ?y_set_s, ?y_set_y, ?y_set_z,
                    ?z_set_x, ?z_set_s, ?z_set_y, ?z_set_z by
  (repeat first [ assumption | apply set_x_length | apply set_s_length | apply set_y_length | apply set_z_length
                | rewrite mkvec_length | rewrite map_length | rewrite indexed_length
                | rewrite repeat_length | reflexivity ])).

Section Reuse.
  Context {F : Type} {O : Ops F}.
  Variable ldlt : mat F -> option (mat F).

  (** Same problem, sizes and variables; the remaining storage may hold anything. *)
  Record same_vars (p : QP F) (st st' : ip_solver F) : Prop := {
    sv_M : dM (ip_dims st) = length (qcons p);
    sv_p : ip_p st = ip_p st';
    sv_d : ip_dims st = ip_dims st';
    sv_v : ip_vars st = ip_vars st';
    sv_r : length (ip_r st) = tsize (ip_dims st);
    sv_r' : length (ip_r st') = tsize (ip_dims st);
    sv_dl : length (ip_delta st) = length (ip_delta st');
    sv_af : length (ip_delta_aff st) = length (ip_delta_aff st') }.

  Lemma eval_true_r : forall p st st', same_vars p st st' ->
    ip_r (EvaluateKKTConditions true p st) = ip_r (EvaluateKKTConditions true p st').
  Proof.
    intros p st st' [HM _ HD HV HR HR' _ _].
    unfold EvaluateKKTConditions. rewrite <- HD, <- HV. cbn [ip_r with_r].
    set (d := ip_dims st) in *. set (v := ip_vars st).
    set (rd1 := if 0 <? dK d then _ else _).
    set (ye := mkvec (dK d) (fun k => fadd (fdot (mrow (qA p) k) (xblk d v)) (vget (qb p) k))).
    set (rd2 := fold_left _ (indexed (qcons p)) rd1).
    set (rcp := map _ (indexed (qcons p))). set (rpi := map _ (indexed (qcons p))).
    assert (E : forall r : list F, (if 0 <? dK d then set_y d ye r else r) = set_y d ye r).
    { intro r. destruct (Nat.ltb_spec 0 (dK d)); [reflexivity|].
      assert (Ey : ye = []) by (apply length_zero_iff_nil; unfold ye; rewrite mkvec_length; lia).
      rewrite Ey, set_y_nil. reflexivity. }
    rewrite !E.
    assert (L1 : length rd1 = dN d) by (unfold rd1; destruct (0 <? dK d); apply mkvec_length).
    assert (L2 : length rd2 = dN d).
    { unfold rd2. rewrite (fold_vupd_length _ _ (indexed (qcons p)) (fun ic => cidx (snd ic))
         (fun ic v0 => fsub v0 (fmul (la (snd ic)) (vget (zblk d v) (fst ic))))). exact L1. }
    assert (L3 : length rpi = dM d) by (unfold rpi; rewrite map_length, indexed_length; auto).
    assert (L4 : length rcp = dM d) by (unfold rcp; rewrite map_length, indexed_length; auto).
    assert (L5 : length ye = dK d) by apply mkvec_length.
    clearbody rd1 rd2 rpi rcp ye.
    apply block_ext with d; blk2; auto;
      repeat first [ assumption | apply set_x_length | apply set_s_length | apply set_y_length | apply set_z_length ].
  Qed.

  Lemma eval_pres : forall b p st,
    ip_p (EvaluateKKTConditions b p st) = ip_p st /\ ip_dims (EvaluateKKTConditions b p st) = ip_dims st /\
    ip_vars (EvaluateKKTConditions b p st) = ip_vars st /\ ip_Hinv (EvaluateKKTConditions b p st) = ip_Hinv st /\
    ip_delta (EvaluateKKTConditions b p st) = ip_delta st /\
    ip_delta_aff (EvaluateKKTConditions b p st) = ip_delta_aff st.
  Proof. intros [|] p st; repeat split. Qed.

  Lemma iterate_same_vars : forall p mu strat st st', same_vars p st st' ->
    Iterate ldlt p mu strat st = Iterate ldlt p mu strat st'.
  Proof.
    intros p mu strat st st' SV. unfold Iterate. rewrite <- (sv_d _ _ _ SV).
    assert (E : ComputeLDLT ldlt true p (EvaluateKKTConditions true p st)
              = ComputeLDLT ldlt true p (EvaluateKKTConditions true p st')).
    { pose proof (eval_true_r p st st' SV) as ER. destruct SV as [HM HP HD HV _ _ HDL HAF].
      unfold ComputeLDLT.
      destruct (eval_pres true p st) as (P1 & P2 & P3 & _ & P4 & P5).
      destruct (eval_pres true p st') as (Q1 & Q2 & Q3 & _ & Q4 & Q5).
      rewrite P1, P2, P3, P4, P5, Q1, Q2, Q3, Q4, Q5, ER, <- HP, <- HD, <- HV, <- HDL, <- HAF. reflexivity. }
    rewrite E. reflexivity.
  Qed.

  Lemma loop_same_vars : forall n params p mu its st st', same_vars p st st' -> ip_r st = ip_r st' ->
    (do '(s, o) <- ip_loop ldlt n params p mu its st ; Ok (ip_vars s, o)) =
    (do '(s, o) <- ip_loop ldlt n params p mu its st' ; Ok (ip_vars s, o)).
  Proof.
    intros [|n] params p mu its st st' SV ER; cbn [ip_loop bind].
    - unfold ComputeLagrangeMultiplierSummary. rewrite (sv_v _ _ _ SV), (sv_d _ _ _ SV). reflexivity.
    - rewrite (iterate_same_vars _ _ _ _ _ SV). unfold ComputeErrors. rewrite ER, (sv_d _ _ _ SV). reflexivity.
  Qed.

  (** Variables that agree completely, or are of full size and agree in the x and y blocks. *)
  Definition vsim (d : dims) (v v' : list F) : Prop :=
    v = v' \/ (length v = tsize d /\ length v' = tsize d /\ xblk d v = xblk d v' /\ yblk d v = yblk d v').

  Lemma vsim_x : forall d v v', vsim d v v' -> xblk d v = xblk d v'.
  Proof. intros d v v' [->|(_ & _ & E & _)]; auto. Qed.
  Lemma vsim_y : forall d v v', vsim d v v' -> yblk d v = yblk d v'.
  Proof. intros d v v' [->|(_ & _ & _ & E)]; auto. Qed.
  Lemma vsim_set_xy : forall d v v' x y,
    v = v' \/ (length v = tsize d /\ length v' = tsize d /\ length x = dN d /\ length y = dK d) ->
    vsim d (set_y d y (set_x d x v)) (set_y d y (set_x d x v')).
  Proof.
    intros d v v' x y [->|(H1 & H2 & H3 & H4)]; [left; reflexivity|right]. splits; blk2; auto.
    all: repeat first [ assumption | apply set_x_length | apply set_y_length ].
  Qed.

  Lemma solve_dx_length : forall H d r1 r2, length (solve_dx H d r1 r2) = dN d.
  Proof. intros. unfold solve_dx. destruct (0 <? dK d); apply mkvec_length. Qed.
  Lemma solve_dy_length : forall H d r1 r2, length (solve_dy H d r1 r2) = dK d.
  Proof. intros. unfold solve_dy. apply mkvec_length. Qed.

  Lemma eval_false_xy : forall p st, length (ip_r st) = tsize (ip_dims st) ->
    let d := ip_dims st in
    let r := ip_r (EvaluateKKTConditions false p st) in
    length r = tsize d /\
    xblk d r = (let rd0 := mkvec (dN d) (fun i => fadd (fdot (srow (qG p) i) (xblk d (ip_vars st))) (vget (qc p) i)) in
                if 0 <? dK d then mkvec (dN d) (fun i => fsub (vget rd0 i) (fdot (mcol (qA p) i) (yblk d (ip_vars st)))) else rd0) /\
    yblk d r = mkvec (dK d) (fun k => fadd (fdot (mrow (qA p) k) (xblk d (ip_vars st))) (vget (qb p) k)).
  Proof.
    intros p st HR d r. unfold r, EvaluateKKTConditions. cbn [ip_r with_r]. fold d.
    set (rd1 := if 0 <? dK d then _ else _).
    set (ye := mkvec (dK d) (fun k => fadd (fdot (mrow (qA p) k) (xblk d (ip_vars st))) (vget (qb p) k))).
    assert (E : forall r : list F, (if 0 <? dK d then set_y d ye r else r) = set_y d ye r).
    { intro r0. destruct (Nat.ltb_spec 0 (dK d)); [reflexivity|].
      assert (Ey : ye = []) by (apply length_zero_iff_nil; unfold ye; rewrite mkvec_length; lia).
      rewrite Ey, set_y_nil. reflexivity. }
    rewrite !E.
    assert (L1 : length rd1 = dN d) by (unfold rd1; destruct (0 <? dK d); apply mkvec_length).
    assert (L5 : length ye = dK d) by apply mkvec_length.
    fold d in HR. splits; blk2; auto.
    all: repeat first [ assumption | apply set_x_length | apply set_y_length ].
  Qed.

  Lemma ofold_clamp_length : forall cs x x', ofold clamp_one cs x = Ok x' -> length x' = length x.
  Proof.
    induction cs as [|c cs IH]; intros x x' H; simpl in H; [apply Ok_inj in H; congruence|].
    inv_bind H. rewrite (IH _ _ H). unfold clamp_one in Hm. inv_bind Hm. inv_bind Hm.
    apply Ok_inj in Hm. subst a. apply vupd_length.
  Qed.

  (** The two built-in guesses, on states with arbitrary storage. *)
  Lemma guess_same_vars : forall params p st st',
    dM (ip_dims st) = length (qcons p) -> ip_p st = ip_p st' -> ip_dims st = ip_dims st' ->
    length (ip_r st) = tsize (ip_dims st) -> length (ip_r st') = tsize (ip_dims st) ->
    length (ip_delta st) = tsize (ip_dims st) -> length (ip_delta st') = tsize (ip_dims st) ->
    length (ip_delta_aff st) = length (ip_delta_aff st') ->
    ip_vars st = ip_vars st' \/
      (p_initial_guess_method params <> USER_PROVIDED /\
       length (ip_vars st) = tsize (ip_dims st) /\ length (ip_vars st') = tsize (ip_dims st)) ->
    match ComputeInitialGuess ldlt params p st, ComputeInitialGuess ldlt params p st' with
    | Ok s, Ok s' => same_vars p s s'
    | Throw e, Throw e' => e = e'
    | UB w, UB w' => w = w'
    | _, _ => False
    end.
  Proof.
    intros params p st st' HM HP HD HR HR' HDL HDL' HAF HV.
    assert (FIN : forall sa sa',
      dM (ip_dims sa) = length (qcons p) -> ip_p sa = ip_p sa' -> ip_dims sa = ip_dims sa' ->
      length (ip_r sa) = tsize (ip_dims sa) -> length (ip_r sa') = tsize (ip_dims sa) ->
      length (ip_delta sa) = length (ip_delta sa') -> length (ip_delta_aff sa) = length (ip_delta_aff sa') ->
      vsim (ip_dims sa) (ip_vars sa) (ip_vars sa') ->
      match (do x <- ofold clamp_one (qcons p) (xblk (ip_dims sa) (ip_vars sa)) ;
             let svals := map (fun c : lic F => fmax (flit lit_1em9) (fadd (fmul (la c) (vget x (cidx c))) (lb c))) (qcons p) in
             let zvals := map (fun s => fdiv f1 s) svals in
             Ok (with_vars sa (set_z (ip_dims sa) zvals (set_s (ip_dims sa) svals (set_x (ip_dims sa) x (ip_vars sa)))))),
            (do x <- ofold clamp_one (qcons p) (xblk (ip_dims sa) (ip_vars sa')) ;
             let svals := map (fun c : lic F => fmax (flit lit_1em9) (fadd (fmul (la c) (vget x (cidx c))) (lb c))) (qcons p) in
             let zvals := map (fun s => fdiv f1 s) svals in
             Ok (with_vars sa' (set_z (ip_dims sa) zvals (set_s (ip_dims sa) svals (set_x (ip_dims sa) x (ip_vars sa')))))) with
      | Ok s, Ok s' => same_vars p s s'
      | Throw e, Throw e' => e = e'
      | UB w, UB w' => w = w'
      | _, _ => False
      end).
    { intros sa sa' K1 K2 K3 K4 K5 K6 K7 K8. rewrite <- (vsim_x _ _ _ K8).
      destruct (ofold clamp_one (qcons p) (xblk (ip_dims sa) (ip_vars sa))) as [x|e|w] eqn:EX; cbn [bind]; auto.
      cbn zeta. constructor; cbn [ip_dims ip_p ip_vars ip_r ip_delta ip_delta_aff with_vars]; auto.
      destruct K8 as [->|(V1 & V2 & V3 & V4)]; [reflexivity|].
      apply ofold_clamp_length in EX. rewrite xblk_length in EX by exact V1.
      set (sv := map _ (qcons p)). set (zv := map _ sv).
      assert (L1 : length sv = dM (ip_dims sa)) by (unfold sv; rewrite map_length; auto).
      assert (L2 : length zv = dM (ip_dims sa)) by (unfold zv; rewrite map_length; auto).
      clearbody sv zv.
      apply block_ext with (ip_dims sa); blk2; auto;
        repeat first [ assumption | apply set_x_length | apply set_s_length | apply set_z_length ]. }
    unfold ComputeInitialGuess. rewrite <- HD. set (d := ip_dims st) in *.
    set (v0 := set_y d (vzero (dK d)) (set_x d (vzero (dN d)) (ip_vars st))).
    set (v0' := set_y d (vzero (dK d)) (set_x d (vzero (dN d)) (ip_vars st'))).
    assert (VS : p_initial_guess_method params <> USER_PROVIDED -> vsim d v0 v0').
    { intros _. apply vsim_set_xy. destruct HV as [->|(_ & V1 & V2)]; [left; reflexivity|right].
      splits; auto; unfold vzero; apply repeat_length. }
    assert (LV : ip_vars st = ip_vars st' \/ (length v0 = tsize d /\ length v0' = tsize d)).
    { destruct HV as [E|(_ & V1 & V2)]; [left; exact E|right].
      unfold v0, v0', vzero. split; apply set_y_length; try apply set_x_length; auto using repeat_length. }
    destruct (p_initial_guess_method params) eqn:EM.
    - specialize (VS ltac:(discriminate)). cbn [bind].
      apply (FIN (with_vars st v0) (with_vars st' v0')); auto. cbn [ip_delta with_vars]. congruence.
    - specialize (VS ltac:(discriminate)).
      unfold ComputeLDLT. cbn [negb orb f_assert bind].
      change (ip_dims (with_vars st v0)) with d. change (ip_dims (with_vars st' v0')) with (ip_dims st').
      rewrite <- HD. fold d.
      change (reduced_H false p d (sblk d (ip_vars (with_vars st' v0'))) (zblk d (ip_vars (with_vars st' v0'))))
        with (reduced_H false p d (sblk d (ip_vars (with_vars st v0))) (zblk d (ip_vars (with_vars st v0)))).
      destruct (ldlt _) as [Hi|]; cbn [bind]; [|reflexivity].
      cbn [with_vars ip_p ip_vars ip_r ip_delta ip_delta_aff].
      match goal with |- context [EvaluateKKTConditions false p (MkIP (ip_p st) d v0 (ip_r st) Hi ?a ?b)] =>
        set (sb := MkIP (ip_p st) d v0 (ip_r st) Hi a b) end.
      match goal with |- context [EvaluateKKTConditions false p (MkIP (ip_p st') d v0' (ip_r st') Hi ?a ?b)] =>
        set (sb' := MkIP (ip_p st') d v0' (ip_r st') Hi a b) end.
      destruct (eval_false_xy p sb HR) as (R1 & R2 & R3).
      destruct (eval_false_xy p sb' HR') as (R1' & R2' & R3').
      destruct (eval_pres false p sb) as (P1 & P2 & P3 & P4 & P5 & P6).
      destruct (eval_pres false p sb') as (Q1 & Q2 & Q3 & Q4 & Q5 & Q6).
      change (ip_dims sb) with d in *. change (ip_dims sb') with d in *.
      change (ip_vars sb) with v0 in *. change (ip_vars sb') with v0' in *.
      rewrite <- (vsim_x _ _ _ VS) in R2', R3'. rewrite <- (vsim_y _ _ _ VS) in R2'.
      rewrite <- R2 in R2'. rewrite <- R3 in R3'.
      set (se := EvaluateKKTConditions false p sb) in *. set (se' := EvaluateKKTConditions false p sb') in *.
      clearbody se se'. unfold SolveForUpdateNoInequalities.
      rewrite P2, Q2, P4, Q4, R2', R3'.
      change (ip_Hinv sb) with Hi. change (ip_Hinv sb') with Hi.
      set (nx := solve_dx Hi d (xblk d (ip_r se)) (yblk d (ip_r se))).
      set (ny := solve_dy Hi d (xblk d (ip_r se)) (yblk d (ip_r se))).
      assert (LX : length nx = dN d) by apply solve_dx_length.
      assert (LY : length ny = dK d) by apply solve_dy_length.
      assert (LD : length (ip_delta se) = tsize d).
      { rewrite P5. unfold sb. cbn [ip_delta]. unfold vzero. rewrite repeat_length. exact HDL. }
      assert (LD' : length (ip_delta se') = tsize d).
      { rewrite Q5. unfold sb'. cbn [ip_delta]. unfold vzero. rewrite repeat_length. exact HDL'. }
      clearbody nx ny.
      cbn [with_delta ip_delta ip_vars with_vars].
      assert (B1 : xblk d (set_y d ny (set_x d nx (ip_delta se))) = nx) by (blk2; reflexivity).
      assert (B2 : yblk d (set_y d ny (set_x d nx (ip_delta se))) = ny) by (blk2; reflexivity).
      assert (B1' : xblk d (set_y d ny (set_x d nx (ip_delta se'))) = nx) by (blk2; reflexivity).
      assert (B2' : yblk d (set_y d ny (set_x d nx (ip_delta se'))) = ny) by (blk2; reflexivity).
      rewrite B1, B2, B1', B2'. rewrite P3, Q3.
      set (fa := with_vars (with_delta se (set_y d ny (set_x d nx (ip_delta se)))) (set_y d ny (set_x d nx v0))).
      set (fa' := with_vars (with_delta se' (set_y d ny (set_x d nx (ip_delta se')))) (set_y d ny (set_x d nx v0'))).
      assert (DF : ip_dims fa = d) by exact P2.
      assert (DF' : ip_dims fa' = d) by exact Q2.
      specialize (FIN fa fa'). rewrite DF, DF' in FIN.
      apply FIN; auto.
      + change (ip_p fa) with (ip_p se). change (ip_p fa') with (ip_p se'). rewrite P1, Q1. exact HP.
      + change (ip_delta fa) with (set_y d ny (set_x d nx (ip_delta se))).
        change (ip_delta fa') with (set_y d ny (set_x d nx (ip_delta se'))).
        rewrite !set_y_length; auto; apply set_x_length; auto.
      + change (ip_delta_aff fa) with (ip_delta_aff se). change (ip_delta_aff fa') with (ip_delta_aff se').
        rewrite P6, Q6. unfold sb, sb', vzero. cbn [ip_delta_aff]. rewrite !repeat_length. exact HAF.
      + change (ip_vars fa) with (set_y d ny (set_x d nx v0)). change (ip_vars fa') with (set_y d ny (set_x d nx v0')).
        apply vsim_set_xy. destruct LV as [E|[E1 E2]]; [left; unfold v0, v0'; rewrite E; reflexivity|right].
        splits; auto.
    - destruct HV as [HV|(HV & _)]; [|congruence].
      constructor; auto; fold d; congruence.
  Qed.

  Lemma Setup_shape : forall p : QP F,
    (exists w, forall g, Setup g (Some p) = Throw w) \/
    (forall g, let d := MkDims (mrows (qG p)) (length (qcons p)) (mrows (qA p)) in
       Setup g (Some p) = Ok (MkIP (Some p) d (mkvec (tsize d) (g_vars g)) (mkvec (tsize d) (g_r g)) (g_Hinv g)
                                (mkvec (tsize d) (g_delta g)) (mkvec (tsize d) (g_aff g)))).
  Proof.
    intro p. unfold Setup. unfold f_assert.
    repeat match goal with
    | |- context [if ?b then _ else _] => destruct b; cbn [bind]
    end; first [right; intro g; reflexivity | left; eexists; intro g; reflexivity].
  Qed.

  (** C50: what the storage held before (left over from an earlier problem, or uninitialised) has no
      influence on the result of Setup followed by Solve, unless the USER_PROVIDED guess is selected
      without calling SetVariables. *)
  Theorem C50_storage_irrelevant : forall g1 g2 uv params p,
    uv <> None \/ p_initial_guess_method params <> USER_PROVIDED ->
    solve_session ldlt g1 uv params p = solve_session ldlt g2 uv params p.
  Proof.
    intros g1 g2 uv params p HU. unfold solve_session.
    destruct (Setup_shape p) as [[w E]|E]; [rewrite !E; reflexivity|].
    cbn zeta in E. rewrite !E. clear E. cbn [bind].
    set (d := MkDims (mrows (qG p)) (length (qcons p)) (mrows (qA p))).
    set (s1 := match uv with Some v => _ | None => _ end).
    set (s2 := match uv with Some v => SetVariables (MkIP _ _ _ (mkvec _ (g_r g2)) _ _ _) v | None => _ end).
    assert (D1 : ip_dims s1 = d) by (unfold s1; destruct uv; reflexivity).
    assert (D2 : ip_dims s2 = d) by (unfold s2; destruct uv; reflexivity).
    assert (P1 : ip_p s1 = Some p) by (unfold s1; destruct uv; reflexivity).
    assert (P2 : ip_p s2 = Some p) by (unfold s2; destruct uv; reflexivity).
    pose proof (guess_same_vars params p s1 s2) as G.
    rewrite D1, D2, P1, P2 in G. cbn [dM d] in G.
    specialize (G eq_refl eq_refl eq_refl).
    specialize (G ltac:(unfold s1; destruct uv; cbn [SetVariables with_vars ip_r]; apply mkvec_length)).
    specialize (G ltac:(unfold s2; destruct uv; cbn [SetVariables with_vars ip_r]; apply mkvec_length)).
    specialize (G ltac:(unfold s1; destruct uv; cbn [SetVariables with_vars ip_delta]; apply mkvec_length)).
    specialize (G ltac:(unfold s2; destruct uv; cbn [SetVariables with_vars ip_delta]; apply mkvec_length)).
    specialize (G ltac:(unfold s1, s2; destruct uv; cbn [SetVariables with_vars ip_delta_aff]; rewrite !mkvec_length; reflexivity)).
    assert (HV : ip_vars s1 = ip_vars s2 \/ (p_initial_guess_method params <> USER_PROVIDED /\
       length (ip_vars s1) = tsize d /\ length (ip_vars s2) = tsize d)).
    { unfold s1, s2; destruct uv as [v|]; cbn [SetVariables with_vars ip_vars]; [left; reflexivity|right].
      destruct HU as [HU|HU]; [congruence|]. rewrite !mkvec_length. auto. }
    assert (LV : length (ip_vars s1) = length (ip_vars s2)) by
      (destruct HV as [->|(_ & -> & ->)]; reflexivity).
    specialize (G HV). clearbody s1 s2. unfold IP_Solve; rewrite P1, P2, D1, D2, LV.
    destruct (IP_CheckParams params); cbn [bind]; auto.
    destruct (ub_unless _ _); cbn [bind]; auto.
    destruct (ComputeInitialGuess ldlt params p s1) as [t1|e|w];
      destruct (ComputeInitialGuess ldlt params p s2) as [t2|e'|w']; cbn [bind];
        try contradiction; try (subst; reflexivity).
    destruct (ub_unless _ _); cbn [bind]; auto.
    pose proof (eval_true_r p t1 t2 G) as ER.
    destruct (eval_pres true p t1) as (A1 & A2 & A3 & _ & A4 & A5).
    destruct (eval_pres true p t2) as (B1 & B2 & B3 & _ & B4 & B5).
    replace (ComputeMu (EvaluateKKTConditions true p t2)) with (ComputeMu (EvaluateKKTConditions true p t1))
      by (unfold ComputeMu; rewrite A2, A3, B2, B3, (sv_d _ _ _ G), (sv_v _ _ _ G); reflexivity).
    apply loop_same_vars; [|exact ER].
    assert (LR : length (ip_r (EvaluateKKTConditions true p t1)) = tsize (ip_dims t1)).
    { clear - G. destruct G as [HM _ _ _ HR _ _ _]. unfold EvaluateKKTConditions. cbn [ip_r with_r].
      apply set_s_length; [apply set_z_length; [apply set_x_length|]|].
      - destruct (0 <? dK (ip_dims t1)); [apply set_y_length; [exact HR|apply mkvec_length]|exact HR].
      - rewrite (fold_vupd_length _ _ (indexed (qcons p)) (fun ic => cidx (snd ic))
         (fun ic v0 => fsub v0 (fmul (la (snd ic)) (vget (zblk (ip_dims t1) (ip_vars t1)) (fst ic))))).
        destruct (0 <? dK (ip_dims t1)); apply mkvec_length.
      - rewrite map_length, indexed_length. auto.
      - rewrite map_length, indexed_length. auto. }
    constructor; rewrite ?A1, ?A2, ?A3, ?A4, ?A5, ?B1, ?B2, ?B3, ?B4, ?B5; try apply G; try exact LR.
    rewrite <- ER. exact LR.
  Qed.

  Lemma loop_dims : forall n params p mu its st st' o,
    ip_loop ldlt n params p mu its st = Ok (st', o) -> ip_dims st' = ip_dims st.
  Proof.
    induction n as [|n IH]; intros params p mu its st st' o H; cbn [ip_loop] in H.
    - inj_ok H. congruence.
    - inv_bind H. destruct a as [st1 outs]. apply iterate_dims in Hm.
      destruct (_ && _).
      + inj_ok H. subst st'. rewrite eval_dims. exact Hm.
      + apply IH in H. rewrite H, eval_dims. exact Hm.
  Qed.

  Lemma solve_dims : forall params st st' o,
    IP_Solve ldlt params st = Ok (st', o) -> ip_dims st' = ip_dims st.
  Proof.
    intros params st st' o H. unfold IP_Solve in H. destruct (ip_p st) as [p|]; [|discriminate].
    inv_bind H. inv_bind H. inv_bind H. inv_bind H. apply loop_dims in H. rewrite H, eval_dims.
    apply (guess_dims _ _ _ _ _ Hm1).
  Qed.

  Lemma step_direction_storage : forall qr llt g1 g2 pa pr qp,
    ComputeStepDirection ldlt qr llt g1 pa pr qp = ComputeStepDirection ldlt qr llt g2 pa pr qp.
  Proof.
    intros qr llt g1 g2 pa pr qp. unfold ComputeStepDirection.
    destruct (use_null_space pr); [reflexivity|].
    assert (NU : p_initial_guess_method (inner_qp_params pa pr) <> USER_PROVIDED).
    { unfold inner_qp_params. cbn. destruct (pr_eq pr); discriminate. }
    pose proof (C50_storage_irrelevant g1 g2 None (inner_qp_params pa pr) qp (or_intror NU)) as H.
    unfold solve_session in H.
    destruct (Setup_shape qp) as [[w E]|E]; [rewrite !E; reflexivity|].
    cbn zeta in E. rewrite !E in *. cbn [bind] in *.
    match type of H with bind (IP_Solve ?a ?b ?s1) _ = bind (IP_Solve _ _ ?s2) _ =>
      pose proof (solve_dims b s1) as D1; pose proof (solve_dims b s2) as D2;
      destruct (IP_Solve a b s1) as [[t1 o1]|e1|w1]; destruct (IP_Solve a b s2) as [[t2 o2]|e2|w2] end;
      cbn [bind] in *; try discriminate.
    - apply Ok_inj in H. apply pair_inj in H. destruct H as [HV ->]. unfold x_block.
      rewrite (D1 _ _ eq_refl), (D2 _ _ eq_refl), HV. reflexivity.
    - injection H as ->. reflexivity.
    - injection H as ->. reflexivity.
  Qed.

  (** C50 for the nonlinear optimizer: Solve is a function of the parameters, the problem, the initial
      values and the user callbacks; whatever the inner solver's storage contained in any iteration. *)
  Theorem C50_nonlinear_storage_irrelevant :
    forall qr llt eigs retract (S : Type) (cb : option (S -> NLSIteration F -> S * bool)) pa pr g1 g2 vars cs,
    NLS_Solve ldlt qr llt eigs retract cb pa pr g1 vars cs = NLS_Solve ldlt qr llt eigs retract cb pa pr g2 vars cs.
  Proof.
    intros qr llt eigs retract S cb pa pr g1 g2 vars cs. unfold NLS_Solve.
    destruct (NLS_CheckParams pa); cbn [bind]; auto.
    match goal with |- nls_loop _ _ _ _ _ _ ?n _ _ _ ?i ?l ?s _ = _ => generalize n as k, i as iter, l as log, s as st end.
    intros k. revert cs. induction k as [|k IH]; intros cs iter log st; [reflexivity|].
    cbn [nls_loop].
    assert (E : nls_iterate ldlt qr llt eigs retract pa pr (g1 iter) (Z.of_nat iter) st
              = nls_iterate ldlt qr llt eigs retract pa pr (g2 iter) (Z.of_nat iter) st).
    { unfold nls_iterate. destruct (LinearizeAndFillQP _ _ _) as [[e q]|e|w]; cbn [bind]; auto.
      rewrite (step_direction_storage qr llt (g1 iter) (g2 iter)). reflexivity. }
    rewrite E. destruct (nls_iterate ldlt qr llt eigs retract pa pr (g2 iter) (Z.of_nat iter) st) as [[|st' info ex]|e|w];
      cbn [bind]; auto.
    destruct (call_cb cb cs info) as [cs' pr']. destruct ex; [reflexivity|]. destruct pr'; [apply IH|reflexivity].
  Qed.
End Reuse.
