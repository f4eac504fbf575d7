(** C81: the polynomial line search never gives up on a descent direction, and its steps shrink geometrically (exact
    arithmetic). *)
From Coq Require Import String List Bool Arith ZArith QArith Reals Lra Lia Psatz.
From Verif Require Import Scalar Outcome LinAlg Structs Constraint QPModel NullSpace Residual Nonlinear RInst
  Props_Constraint Spec QPStep ResProps LinProps MeritProps LSProps LSSuccess InterpProps.
Import ListNotations.
Local Open Scope outcome_scope.
Local Open Scope string_scope.
Local Open Scope list_scope.
Local Open Scope R_scope.

(** A point X with 3 a X^2 + 2 b X - d > 0 lies to the right of the returned root (a < 0). *)
Lemma root_below : forall a b d X, a < 0 -> 0 < 3 * a * X ^ 2 + 2 * b * X - d ->
  exists m, CubicApproxMinimum (- d) (a, b) = Some m /\ forall Y, 0 <= 3 * a * Y ^ 2 + 2 * b * Y - d -> m <= Y.
Proof.
  intros a b d X HA HX.
  assert (SQ : forall Y, (3 * a * Y + b) * (3 * a * Y + b) = 3 * a * (3 * a * Y ^ 2 + 2 * b * Y - d) + (b * b - 3 * a * - d)) by (intro Y; ring).
  assert (D : 0 < b * b - 3 * a * - d).
  { pose proof (SQ X) as E. pose proof (Rle_0_sqr (3 * a * X + b)) as Q. unfold Rsqr in Q. nra. }
  unfold CubicApproxMinimum. cbn [fsub fmul fneg fdiv fadd fsqrt R_ops f0]. rewrite R_3, R_m1em12.
  destruct (R_feqb a 0) as [Z|_]; [lra|]. cbn [orb].
  destruct (R_fltb (b * b - 3 * a * - d) (-1 / 1000000000000)) as [L|_]; [lra|].
  eexists. split; [reflexivity|]. intros Y HY. rewrite R_fmax, Rmax_left by lra.
  set (disc := b * b - 3 * a * - d) in *. pose proof (sqrt_pos disc) as S0. pose proof (sqrt_sqrt disc ltac:(lra)) as S2.
  set (s := sqrt disc) in *. clearbody s.
  assert (LE : 3 * a * Y + b <= s).
  { destruct (Rle_lt_dec (3 * a * Y + b) s) as [|G]; [assumption|exfalso]. pose proof (SQ Y) as E.
    assert (3 * a * (3 * a * Y ^ 2 + 2 * b * Y - d) <= 0) by nra. nra. }
  apply (Rmult_le_reg_r (- (3 * a))); [lra|].
  replace ((- b + s) / (3 * a) * - (3 * a)) with (b - s) by (field; lra). lra.
Qed.

(** One cubic step. [Ap], [As]: curvature of the parabolas through both failed steps. *)
Lemma cubic_step : forall phi0 d P phiP S phiS c1,
  0 < d -> 0 <= c1 < 1 / 4 -> 0 < S -> 2 * (1 - c1) * S <= P ->
  phiP > phi0 + - d * P * c1 -> phiS > phi0 + - d * S * c1 ->
  (phiP - phi0 + d * P) * S <= (1 - c1) * d * P ^ 2 ->
  exists a b m, CubicApproxCoeffs phi0 (- d) P phiP S phiS = Ok (a, b) /\ CubicApproxMinimum (- d) (a, b) = Some m /\
    0 < m /\ 2 * (1 - c1) * m <= S /\ (phiS - phi0 + d * S) * m <= (1 - c1) * d * S ^ 2.
Proof.
  intros phi0 d P phiP S phiS c1 HD HC HS HP FP FS J.
  assert (PS : 0 < S < P) by nra.
  destruct (proj1 (C29_cubic_interpolates phi0 (- d) P phiP S phiS) PS) as (a & b & E & _ & _ & IP & IS).
  destruct (C30_cubic_backtracks phi0 (- d) P phiP S phiS c1 a b PS ltac:(lra) ltac:(lra) FP FS E) as [POS _].
  unfold cubic in IP, IS.
  set (Ap := a * P + b). set (As := a * S + b).
  assert (EP : phiP - phi0 + d * P = Ap * P ^ 2) by (unfold Ap; rewrite <- IP; ring).
  assert (ES : phiS - phi0 + d * S = As * S ^ 2) by (unfold As; rewrite <- IS; ring).
  set (w := (1 - c1) * d) in *.
  assert (WP : 0 < w) by (unfold w; apply Rmult_lt_0_compat; lra).
  assert (P2 : 0 < P ^ 2) by (apply pow_lt; lra). assert (S2 : 0 < S ^ 2) by (apply pow_lt; lra).
  assert (GP : w < Ap * P).
  { apply (Rmult_lt_reg_r P); [lra|]. replace (Ap * P * P) with (Ap * P ^ 2) by ring. rewrite <- EP. unfold w. nra. }
  assert (GS : w < As * S).
  { apply (Rmult_lt_reg_r S); [lra|]. replace (As * S * S) with (As * S ^ 2) by ring. rewrite <- ES. unfold w. nra. }
  assert (JJ : Ap * S <= w).
  { apply (Rmult_le_reg_r (P ^ 2)); [exact P2|]. replace (Ap * S * P ^ 2) with ((phiP - phi0 + d * P) * S) by (rewrite EP; ring). exact J. }
  assert (AA : Ap < As) by (apply (Rmult_lt_reg_r S); lra).
  assert (NA : a < 0).
  { assert (As - Ap = - a * (P - S)) by (unfold As, Ap; ring). nra. }
  assert (AS0 : 0 < As) by nra.
  set (q := fun Y => 3 * a * Y ^ 2 + 2 * b * Y - d).
  assert (QE : forall Y, q Y = 2 * As * Y - d - - a * Y * (2 * S - 3 * Y) + 2 * (- a * Y * (2 * S - 3 * Y))).
  { intro Y. unfold q, As. ring. }
  (* the first bound *)
  set (X1 := S / (2 * (1 - c1))).
  assert (X1E : 2 * (1 - c1) * X1 = S) by (unfold X1; field; lra).
  assert (X1P : 0 < X1) by (unfold X1; apply Rdiv_lt_0_compat; lra).
  assert (X1B : 3 * X1 <= 2 * S) by nra.
  assert (Q1 : 0 < q X1).
  { rewrite QE. assert (d < 2 * As * X1).
    { apply (Rmult_lt_reg_l (1 - c1)); [lra|]. replace ((1 - c1) * (2 * As * X1)) with (As * (2 * (1 - c1) * X1)) by ring. rewrite X1E. exact GS. }
    assert (0 <= - a * X1 * (2 * S - 3 * X1)) by (apply Rmult_le_pos; [apply Rmult_le_pos; lra|lra]). lra. }
  (* the second bound *)
  set (X2 := w / As).
  assert (X2E : As * X2 = w) by (unfold X2; field; lra).
  assert (X2P : 0 < X2) by (unfold X2; apply Rdiv_lt_0_compat; lra).
  assert (X2S : X2 < S) by (apply (Rmult_lt_reg_l As); lra).
  assert (Q2 : 0 <= q X2).
  { rewrite QE. replace (2 * As * X2) with (2 * w) by (rewrite <- X2E; ring).
    destruct (Rle_lt_dec (3 * X2) (2 * S)) as [L|L].
    { assert (0 <= - a * X2 * (2 * S - 3 * X2)) by (apply Rmult_le_pos; [apply Rmult_le_pos; lra|lra]). unfold w in *. nra. }
    set (bad := - a * X2 * (3 * X2 - 2 * S)).
    assert (B1 : bad * P * (P - S) <= w * S * (P - S)).
    { replace (bad * P * (P - S)) with ((- a * (P - S)) * X2 * P * (3 * X2 - 2 * S)) by (unfold bad; ring).
      replace (- a * (P - S)) with (As - Ap) by (unfold As, Ap; ring).
      replace ((As - Ap) * X2 * P) with (w * P - Ap * P * X2) by (rewrite <- X2E; ring).
      apply Rle_trans with (w * (P - X2) * (3 * X2 - 2 * S)).
      - apply Rmult_le_compat_r; [lra|]. nra.
      - assert (F : w * S * (P - S) - w * (P - X2) * (3 * X2 - 2 * S) = w * ((S - X2) * (3 * P - 3 * X2 - S))) by ring.
        assert (0 <= w * ((S - X2) * (3 * P - 3 * X2 - S))).
        { apply Rmult_le_pos; [lra|]. apply Rmult_le_pos; [lra|]. nra. }
        lra. }
    assert (B2 : bad * P <= w * S) by (apply (Rmult_le_reg_r (P - S)); lra).
    assert (B3 : bad <= d / 2).
    { apply (Rmult_le_reg_r P); [lra|]. apply Rle_trans with (w * S); [exact B2|]. unfold w. nra. }
    replace (- a * X2 * (2 * S - 3 * X2)) with (- bad) by (unfold bad; ring). unfold w. nra. }
  destruct (root_below a b d X1 NA Q1) as (m & EM & BM).
  exists a, b, m. splits; [exact E|exact EM|apply POS; exact EM| |].
  - specialize (BM X1 (Rlt_le _ _ Q1)). nra.
  - specialize (BM X2 Q2). rewrite ES. assert (As * m <= w) by (rewrite <- X2E; apply Rmult_le_compat_l; lra).
    replace (As * S ^ 2 * m) with (As * m * S ^ 2) by ring. apply Rmult_le_compat_r; lra.
Qed.

Lemma quadratic_step : forall phi0 d P phiP c1,
  0 < d -> 0 <= c1 < 1 / 4 -> 0 < P -> phiP > phi0 + - d * P * c1 ->
  exists m, QuadraticApproxMinimum phi0 (- d) P phiP = Some m /\
    0 < m /\ 2 * (1 - c1) * m <= P /\ (phiP - phi0 + d * P) * m <= (1 - c1) * d * P ^ 2.
Proof.
  intros phi0 d P phiP c1 HD HC HP FP.
  destruct (C30_quadratic_backtracks phi0 (- d) P phiP c1 HP ltac:(lra) ltac:(lra) FP) as (m & E & [M0 M1] & _).
  exists m. splits; [exact E|exact M0| |].
  - apply Rlt_le. apply (Rmult_lt_compat_l (2 * (1 - c1))) in M1; [|lra]. replace (2 * (1 - c1) * (P / (2 * (1 - c1)))) with P in M1 by (field; lra). exact M1.
  - unfold QuadraticApproxMinimum in E. cbn [fsub fmul fneg fdiv R_ops f0] in E. rewrite R_2 in E.
    destruct (R_fgtb (- d) 0) as [X|_]; [lra|]. cbn [orb] in E.
    destruct (R_fleb (phiP - - d * P - phi0) 0) as [X|N]; [discriminate|]. injection E as <-.
    replace ((phiP - phi0 + d * P) * (- - d * P * P / (2 * (phiP - - d * P - phi0)))) with (d / 2 * P ^ 2) by (field; lra).
    apply Rmult_le_compat_r; [apply pow_le; lra|]. nra.
Qed.

(** ** Specification *)

(** Every step is at most 1 / (2 (1 - c1)) times the one before it (0.50005 for the solver's c1 = 1e-4). *)
Definition halves (c1 : R) (steps : list (LineSearchStep R)) : Prop :=
  forall l1 p s l2, steps = l1 ++ p :: s :: l2 -> 0 < step_alpha s <= step_alpha p / (2 * (1 - c1)).

(** ** The loop *)
Section Loop.
  Variable retract : option (list R -> list R -> R -> list R).
  Variable i : ls_input (F := R).
  Hypothesis HST : li_strategy i = POLYNOMIAL_APPROXIMATION.
  Hypothesis HC1 : 0 <= li_c1 i < 1 / 4.
  Hypothesis HSL : slope i < 0.

  Definition good_pair (p : LineSearchStep R) (a : R) : Prop :=
    0 < a /\ 2 * (1 - li_c1 i) * a <= step_alpha p /\
    (merit i (step_errors p) - merit i (li_pre i) + - slope i * step_alpha p) * a <= (1 - li_c1 i) * - slope i * step_alpha p ^ 2.

  Definition poly_inv (steps : list (LineSearchStep R)) : Prop :=
    Forall (rejected i) steps /\ (forall s l, steps = s :: l -> step_alpha s = 1) /\
    forall l1 p s l2, steps = l1 ++ p :: s :: l2 -> good_pair p (step_alpha s).

  Lemma rejected_real : forall s, rejected i s -> merit i (step_errors s) > merit i (li_pre i) + slope i * step_alpha s * li_c1 i.
  Proof.
    intros s [_ H]. unfold armijo in H.
    match type of H with fleb ?a ?b = false => destruct (R_fleb a b) as [X|X]; [discriminate|] end.
    cbn [fadd fmul R_ops] in X. lra.
  Qed.

  Lemma inv_positive : forall steps, poly_inv steps -> forall l1 s l2, steps = l1 ++ s :: l2 -> 0 < step_alpha s.
  Proof.
    intros steps (_ & H1 & H2) l1 s l2 E. destruct l1 as [|x l1 _] using rev_ind.
    - rewrite (H1 s l2 E). lra.
    - rewrite <- app_assoc in E. apply (H2 l1 x s l2 E).
  Qed.

  Lemma poly_next : forall init p, poly_inv (init ++ [p]) ->
    exists a, next_alpha (li_strategy i) (li_tau i) (length (init ++ [p])) (step_alpha p) (init ++ [p]) (li_pre i) (li_dd i) (li_penalty i) = Ok (Some a) /\
      good_pair p a.
  Proof.
    intros init p HI. pose proof HI as (HR & H1 & H2).
    assert (PP : 0 < step_alpha p) by (apply (inv_positive _ HI init p []); reflexivity).
    assert (RP : rejected i p) by (rewrite Forall_forall in HR; apply HR; apply in_or_app; right; left; reflexivity).
    unfold next_alpha. rewrite HST.
    replace (length (init ++ [p]) =? 0)%nat with false by (rewrite app_length; cbn [length]; symmetry; apply Nat.eqb_neq; lia).
    assert (FIN : forall a, good_pair p a -> negb (ffinite a) || fleb a f0 || fgeb a (step_alpha p) = false).
    { intros a (A1 & A2 & _). cbn [ffinite R_ops negb orb].
      destruct (R_fleb a f0) as [X|_]; [cbn [f0 R_ops] in X; lra|]. cbn [orb].
      destruct (R_fgeb a (step_alpha p)) as [X|_]; [nra|reflexivity]. }
    assert (N : exists a, ComputeAlphaPolynomialApproximation (length (init ++ [p])) (init ++ [p]) (li_pre i) (li_dd i) (li_penalty i) = Ok (Some a) /\ good_pair p a).
    { unfold ComputeAlphaPolynomialApproximation. cbv zeta.
      replace (1 <=? length (init ++ [p]))%nat with true by (rewrite app_length; cbn [length]; symmetry; apply Nat.leb_le; lia).
      cbn [f_assert bind]. change (Errors_Total (li_pre i) (li_penalty i)) with (merit i (li_pre i)).
      change (DD_Total (li_dd i) (li_penalty i)) with (slope i).
      assert (LAST : nth (length (init ++ [p]) - 1) (init ++ [p]) (MkStep f0 (MkErrors f0 f0)) = p).
      { rewrite app_length. cbn [length]. rewrite app_nth2 by lia. replace (length init + 1 - 1 - length init)%nat with 0%nat by lia. reflexivity. }
      rewrite LAST. change (Errors_Total (step_errors p) (li_penalty i)) with (merit i (step_errors p)).
      replace (slope i) with (- - slope i) by ring.
      destruct init as [|x init _] using rev_ind.
      - cbn [app length Nat.eqb f_assert bind].
        destruct (quadratic_step (merit i (li_pre i)) (- slope i) (step_alpha p) (merit i (step_errors p)) (li_c1 i)) as (m & E & G); [lra|exact HC1|exact PP| |].
        { pose proof (rejected_real _ RP). lra. }
        exists m. rewrite E. split; [reflexivity|exact G].
      - assert (GP : good_pair x (step_alpha p)) by (apply (H2 init x p []); rewrite <- app_assoc; reflexivity).
        assert (RX : rejected i x) by (rewrite Forall_forall in HR; apply HR; apply in_or_app; left; apply in_or_app; right; left; reflexivity).
        replace (length ((init ++ [x]) ++ [p]) =? 1)%nat with false by (rewrite !app_length; cbn [length]; symmetry; apply Nat.eqb_neq; lia).
        replace (2 <=? length ((init ++ [x]) ++ [p]))%nat with true by (rewrite !app_length; cbn [length]; symmetry; apply Nat.leb_le; lia).
        cbn [f_assert bind].
        assert (SEC : nth (length ((init ++ [x]) ++ [p]) - 2) ((init ++ [x]) ++ [p]) (MkStep f0 (MkErrors f0 f0)) = x).
        { rewrite !app_length. cbn [length]. rewrite <- app_assoc, app_nth2 by lia. replace (length init + 1 + 1 - 2 - length init)%nat with 0%nat by lia. reflexivity. }
        rewrite SEC. change (Errors_Total (step_errors x) (li_penalty i)) with (merit i (step_errors x)).
        destruct GP as (_ & G1 & G2).
        destruct (cubic_step (merit i (li_pre i)) (- slope i) (step_alpha x) (merit i (step_errors x)) (step_alpha p) (merit i (step_errors p)) (li_c1 i))
          as (a & b & m & E1 & E2 & G); [lra|exact HC1|exact PP|exact G1| | |exact G2|].
        { pose proof (rejected_real _ RX). lra. }
        { pose proof (rejected_real _ RP). lra. }
        rewrite E1. cbn [bind]. exists m. rewrite E2. split; [reflexivity|exact G]. }
    destruct N as (a & E & G). exists a. rewrite E. cbn [bind]. rewrite (FIN a G). split; [reflexivity|exact G].
  Qed.

  Lemma inv_snoc : forall steps p s, poly_inv (steps ++ [p]) -> good_pair p (step_alpha s) ->
    (forall l1 x y l2, (steps ++ [p]) ++ [s] = l1 ++ x :: y :: l2 -> good_pair x (step_alpha y)) /\
    (forall x l, (steps ++ [p]) ++ [s] = x :: l -> step_alpha x = 1).
  Proof.
    intros steps p s (HR & H1 & H2) G. split.
    - intros l1 x y l2 E. destruct l2 as [|z l2 _] using rev_ind.
      + change (l1 ++ [x; y]) with (l1 ++ [x] ++ [y]) in E. rewrite app_assoc in E. apply app_inj_tail in E. destruct E as [E <-].
        apply app_inj_tail in E. destruct E as [_ <-]. exact G.
      + change (l1 ++ x :: y :: l2 ++ [z]) with (l1 ++ (x :: y :: l2) ++ [z]) in E. rewrite app_assoc in E. apply app_inj_tail in E. destruct E as [E _].
        apply (H2 l1 x y l2 E).
    - intros x l E. destruct steps as [|y steps]; cbn [app] in E; injection E as <- _; eapply H1; reflexivity.
  Qed.

  Lemma halves_good : forall steps, (forall l1 p s l2, steps = l1 ++ p :: s :: l2 -> good_pair p (step_alpha s)) -> halves (li_c1 i) steps.
  Proof.
    intros steps H l1 p s l2 E. destruct (H l1 p s l2 E) as (A & B & _). split; [exact A|].
    apply (Rmult_le_reg_l (2 * (1 - li_c1 i))); [lra|]. replace (2 * (1 - li_c1 i) * (step_alpha p / (2 * (1 - li_c1 i)))) with (step_alpha p) by (field; lra). exact B.
  Qed.

  (** From a state in which all steps were rejected. *)
  Lemma loop_poly : forall n alpha steps cand,
    poly_inv steps -> (steps = [] /\ alpha = 1 \/ exists init p, steps = init ++ [p] /\ step_alpha p = alpha) ->
    ((forall t, exists e, errors_at retract i t = Ok e) -> exists r, loop retract i n (length steps) alpha steps cand = Ok r) /\
    forall res out cand', loop retract i n (length steps) alpha steps cand = Ok (res, out, cand') ->
      res <> FAILURE_INVALID_ALPHA /\ halves (li_c1 i) out.
  Proof.
    induction n as [|n IH]; intros alpha steps cand HI HA; unfold loop; cbn [ls_loop].
    - split; [eexists; reflexivity|]. intros res out cand' H. apply Ok_inj in H. apply pair_inj in H. destruct H as [H _].
      apply pair_inj in H. destruct H as [<- <-]. split; [discriminate|]. apply halves_good. apply HI.
    - assert (NA : exists a, next_alpha (li_strategy i) (li_tau i) (length steps) alpha steps (li_pre i) (li_dd i) (li_penalty i) = Ok (Some a) /\
        forall es, (forall l1 x y l2, steps ++ [MkStep a es] = l1 ++ x :: y :: l2 -> good_pair x (step_alpha y)) /\
          (forall x l, steps ++ [MkStep a es] = x :: l -> step_alpha x = 1)).
      { destruct HA as [[-> ->]|(init & p & -> & <-)].
        - exists 1. split; [reflexivity|]. intro es. split.
          + intros l1 x y l2 E. destruct l1 as [|z [|z' l1]]; discriminate.
          + intros x l E. injection E as <- _. reflexivity.
        - destruct (poly_next init p HI) as (a & E & G). exists a. split; [exact E|]. intro es. apply inv_snoc; [exact HI|exact G]. }
      destruct NA as (a & -> & GA). cbn [bind]. split.
      + intro TOT. destruct (TOT a) as [e E]. unfold errors_at, point_at in E. apply bind_ok_inv in E. destruct E as (c & E1 & E2).
        rewrite E1. cbn [bind]. rewrite E2. cbn [bind]. rewrite R_valid.
        destruct (fltb (DD_LInfinity (li_dd i)) (li_tol i)); [eexists; reflexivity|].
        destruct (fgtb (DD_Total (li_dd i) (li_penalty i)) f0); [eexists; reflexivity|].
        match goal with |- context [if ?b then Ok _ else _] => destruct b eqn:EB end; [eexists; reflexivity|].
        replace (Datatypes.S (length steps)) with (length (steps ++ [MkStep a e])) by (rewrite app_length; cbn [length]; lia).
        apply IH; [|right; exists steps, (MkStep a e); split; reflexivity|exact TOT].
        split; [|split; apply (GA e)]. apply Forall_app. split; [apply HI|]. constructor; [|constructor]. split; [reflexivity|exact EB].
      + intros res out cand' H. inv_bind H. inv_bind H. rename a1 into es.
        destruct (GA es) as [GA1 GA2]. rewrite R_valid in H.
        assert (FINISH : forall r, r <> FAILURE_INVALID_ALPHA -> Ok (r, steps ++ [MkStep a es], a0) = Ok (res, out, cand') ->
          res <> FAILURE_INVALID_ALPHA /\ halves (li_c1 i) out).
        { intros r NR E. apply Ok_inj in E. apply pair_inj in E. destruct E as [E _]. apply pair_inj in E. destruct E as [<- <-].
          split; [exact NR|apply halves_good; exact GA1]. }
        destruct (fltb (DD_LInfinity (li_dd i)) (li_tol i)); [eapply FINISH; [|exact H]; discriminate|].
        destruct (fgtb (DD_Total (li_dd i) (li_penalty i)) f0); [eapply FINISH; [|exact H]; discriminate|].
        match type of H with (if ?b then Ok _ else _) = _ => destruct b eqn:EB end; [eapply FINISH; [|exact H]; discriminate|].
        replace (Datatypes.S (length steps)) with (length (steps ++ [MkStep a es])) in H by (rewrite app_length; cbn [length]; lia).
        eapply IH; [| |exact H].
        * split; [|split; assumption]. apply Forall_app. split; [apply HI|]. constructor; [|constructor]. split; [reflexivity|exact EB].
        * right. exists steps, (MkStep a es). split; reflexivity.
  Qed.
End Loop.

Lemma poly_inv_nil : forall i, poly_inv i [].
Proof. intro i. split; [constructor|]. split; [intros s l E; discriminate E|]. intros l1 p s l2 E. destruct l1; discriminate E. Qed.

(** ** C81 *)

Lemma run_total_invariant : forall retract (i : ls_input (F := R)), 0 < li_penalty i ->
  run_line_search retract i = loop retract i (Z.to_nat (li_max i + 1)) 0 1 [] (li_vars i).
Proof.
  intros retract i HP. unfold run_line_search, SelectStepSize. cbv zeta.
  destruct (R_fgtb (li_penalty i) f0) as [_|B]; [|exfalso; apply B; exact HP]. rewrite R_valid. reflexivity.
Qed.

(** C81: with the polynomial strategy and a negative slope, the line search never returns FAILURE_INVALID_ALPHA, and
    every step is positive and at most 1 / (2 (1 - c1)) times the previous one; if the errors can be evaluated at every
    step size, no assertion fails either. *)
Theorem C81_polynomial_never_gives_up : forall retract (i : ls_input (F := R)),
  li_strategy i = POLYNOMIAL_APPROXIMATION -> 0 <= li_c1 i < 1 / 4 ->
  d_f (li_dd i) + li_penalty i * d_equality (li_dd i) < 0 ->
  (0 < li_penalty i -> (forall t, exists e, errors_at retract i t = Ok e) -> exists r, run_line_search retract i = Ok r) /\
  forall res steps cand, run_line_search retract i = Ok (res, steps, cand) ->
    res <> FAILURE_INVALID_ALPHA /\ halves (li_c1 i) steps.
Proof.
  intros retract i HS HC HD. split.
  - intros HP TOT. rewrite run_total_invariant by exact HP.
    apply (loop_poly retract i HS HC HD (Z.to_nat (li_max i + 1)) 1 [] (li_vars i)); [apply poly_inv_nil|left; auto|exact TOT].
  - intros res steps cand H. unfold run_line_search, SelectStepSize in H. inv_bind H. inv_bind H.
    exact (proj2 (loop_poly retract i HS HC HD (Z.to_nat (li_max i + 1)) 1 [] (li_vars i) (poly_inv_nil i) (or_introl (conj eq_refl eq_refl))) _ _ _ H).
Qed.

(** C81: the polynomial line search returns FAILURE_INVALID_ALPHA only if the merit function has slope exactly 0. *)
Theorem C81_invalid_alpha_only_if_flat : forall retract (i : ls_input (F := R)), (0 <= li_max i)%Z -> 0 <= li_c1 i < 1 / 4 ->
  forall steps cand, run_line_search retract i = Ok (FAILURE_INVALID_ALPHA, steps, cand) ->
    d_f (li_dd i) + li_penalty i * d_equality (li_dd i) = 0.
Proof.
  intros retract i HM HC steps cand H.
  destruct (C28_line_search_log retract i HM _ _ _ H) as (_ & _ & _ & _ & init & last & _ & _ & _ & _ & _ & AS & ST & _).
  unfold ascending in AS. destruct (R_fgtb (slope i) f0) as [|NA]; [discriminate|].
  assert (LE : slope i <= 0) by (cbn [f0 R_ops] in NA; lra).
  change (slope i = 0).
  destruct (Rle_lt_or_eq_dec _ _ LE) as [L|E]; [exfalso|exact E].
  destruct (proj2 (C81_polynomial_never_gives_up retract i ST HC L) _ _ _ H) as [X _]. apply X. reflexivity.
Qed.

(** Both strategies shrink the step by a fixed factor. *)
Lemma chain_shrinks : forall retract (i : ls_input (F := R)), 0 < li_tau i < 1 -> 0 <= li_c1 i < 1 / 4 -> slope i < 0 -> (0 <= li_max i)%Z ->
  forall res steps cand, run_line_search retract i = Ok (res, steps, cand) ->
  forall l1 s l2, steps = l1 ++ s :: l2 -> 0 < step_alpha s <= Rmax (li_tau i) (2 / 3) ^ length l1.
Proof.
  intros retract i HT HC HD HM res steps cand H.
  destruct (C28_line_search_log retract i HM _ _ _ H) as (_ & CH & _).
  set (th := Rmax (li_tau i) (2 / 3)).
  assert (T1 : li_tau i <= th) by apply Rmax_l. assert (T2 : 2 / 3 <= th) by apply Rmax_r.
  assert (PAIR : forall l1 p s l2, steps = l1 ++ p :: s :: l2 -> 0 < step_alpha p -> 0 < step_alpha s <= th * step_alpha p).
  { intros l1 p s l2 E PP. destruct (li_strategy i) eqn:ST.
    - assert (C2 : chain i (l1 ++ [p] ++ [s])).
      { revert CH. rewrite E. clear. induction l2 as [|x l2 IH] using rev_ind; intro CH; [exact CH|].
        apply IH. eapply chain_prefix. rewrite <- app_assoc. cbn [app]. exact CH. }
      inversion C2 as [X|x EX X|l p' s' CC SF X]; [destruct l1; discriminate|destruct l1 as [|? [|? ?]]; discriminate|].
      change (l ++ [p'] ++ [s'] = l1 ++ [p] ++ [s]) in X. rewrite !app_assoc in X. apply app_inj_tail in X. destruct X as [X ->]. apply app_inj_tail in X. destruct X as [_ ->].
      unfold step_follows in SF. rewrite ST in SF. rewrite SF. cbn [fmul R_ops]. split; [apply Rmult_lt_0_compat; lra|]. rewrite Rmult_comm. apply Rmult_le_compat_r; lra.
    - destruct (proj2 (C81_polynomial_never_gives_up retract i ST HC HD) _ _ _ H) as [_ HV]. destruct (HV l1 p s l2 E) as [A B]. split; [exact A|].
      eapply Rle_trans; [exact B|]. unfold Rdiv. rewrite Rmult_comm. apply Rmult_le_compat_r; [lra|]. apply Rle_trans with (2 / 3); [|exact T2].
      apply (Rmult_le_reg_l (2 * (1 - li_c1 i))); [lra|]. rewrite Rinv_r by lra. lra. }
  intro l1. induction l1 as [|p l1 IH] using rev_ind; intros s l2 E.
  - cbn [length pow]. assert (step_alpha s = 1); [|lra]. revert CH. rewrite E. clear. cbn [app].
    induction l2 as [|x l2 IH] using rev_ind; intro CH.
    + inversion CH as [X|x EX X|l p' s' CC SF X]; [exact EX|]. destruct l as [|? [|? ?]]; discriminate.
    + apply IH. change (s :: l2 ++ [x]) with ((s :: l2) ++ [x]) in CH. eapply chain_prefix. exact CH.
  - rewrite <- app_assoc in E. cbn [app] in E. destruct (IH p (s :: l2) E) as [P1 P2]. destruct (PAIR l1 p s l2 E P1) as [S1 S2].
    split; [exact S1|]. rewrite app_length. cbn [length]. rewrite Nat.add_comm. cbn [Nat.add pow].
    eapply Rle_trans; [exact S2|]. apply Rmult_le_compat_l; lra.
Qed.

(** C81: whichever strategy is chosen, for any merit curve phi along the search direction whose right derivative at 0 is
    the logged slope, and any negative slope, there is a number of iterations [n] such that the line search with at least
    [n] iterations ends in SUCCESS after at most [n + 1] evaluations (or in FIRST_ORDER_SATISFIED, if the derivatives are
    below the tolerance). *)
Theorem C81_line_search_succeeds : forall retract (i : ls_input (F := R)) (phi : R -> Errors R),
  0 < li_tau i < 1 -> 0 <= li_c1 i < 1 / 4 -> 0 < li_penalty i ->
  (forall t, bind (RetractCandidateVars retract (li_vars i) (li_dx i) t) (EvaluateNonlinearErrors (li_pr i)) = Ok (phi t)) ->
  phi 0 = li_pre i ->
  right_derivative (fun t => err_f (phi t) + li_penalty i * err_equality (phi t)) (d_f (li_dd i) + li_penalty i * d_equality (li_dd i)) ->
  d_f (li_dd i) + li_penalty i * d_equality (li_dd i) < 0 ->
  exists n : Z, (0 <= n)%Z /\ forall m, (n <= m)%Z ->
    exists res steps cand, run_line_search retract (with_max m i) = Ok (res, steps, cand) /\
      (res = SS_SUCCESS \/ res = FIRST_ORDER_SATISFIED) /\ (length steps <= Z.to_nat n + 1)%nat.
Proof.
  intros retract i phi HT HC HPen HP H0 HD HN.
  destruct (armijo_interval _ _ (li_c1 i) HD HN ltac:(lra)) as (delta & Hd & HI).
  set (th := Rmax (li_tau i) (2 / 3)).
  assert (TH : 0 < th < 1) by (unfold th; split; [apply Rlt_le_trans with (2 / 3); [lra|apply Rmax_r]|apply Rmax_lub_lt; lra]).
  destruct (pow_lt_1_zero th ltac:(rewrite Rabs_pos_eq; lra) delta Hd) as (k & Hk).
  specialize (Hk k ltac:(lia)). rewrite Rabs_pos_eq in Hk by (apply pow_le; lra).
  exists (Z.of_nat k). split; [lia|]. intros m Hm.
  assert (TOT : exists r, run_line_search retract (with_max m i) = Ok r).
  { destruct (li_strategy i) eqn:ST.
    - unfold run_line_search, SelectStepSize. cbn [with_max li_max li_tol li_pr li_vars li_dx li_pre li_dd li_penalty li_c1 li_strategy li_tau].
      destruct (R_fgtb (li_penalty i) f0) as [_|B]; [|exfalso; apply B; exact HPen].
      rewrite R_valid. cbn [f_assert negb bind]. apply (loop_total retract i phi HP ST).
    - apply (C81_polynomial_never_gives_up retract (with_max m i) ST HC HN); [exact HPen|]. intro t. exists (phi t). exact (HP t). }
  destruct TOT as [[[res steps] cand] E]. exists res, steps, cand. split; [exact E|].
  destruct (C28_line_search_log retract (with_max m i) ltac:(cbn [with_max li_max]; lia) _ _ _ E)
    as (LG & CH & L1 & L2 & init & last & Es & PT & REJ & RES).
  pose proof (chain_shrinks retract (with_max m i) HT HC HN ltac:(cbn [with_max li_max]; lia) _ _ _ E) as AL. cbn [with_max li_tau] in AL. fold th in AL.
  assert (PASS : forall l1 s l2, steps = l1 ++ s :: l2 -> length l1 = k -> armijo (with_max m i) s = true).
  { intros l1 s l2 Eq Ek. pose proof (AL _ _ _ Eq) as A. rewrite Ek in A.
    assert (Hin : In s steps) by (rewrite Eq; apply in_or_app; right; left; reflexivity).
    unfold logged in LG. rewrite Forall_forall in LG. specialize (LG s Hin).
    assert (ES : Ok (phi (step_alpha s)) = Ok (step_errors s)) by (rewrite <- LG; rewrite <- (HP (step_alpha s)); reflexivity).
    injection ES as ES. unfold armijo. cbn [with_max li_pre li_dd li_penalty li_c1]. rewrite <- ES, <- H0.
    match goal with |- fleb ?a ?b = true => destruct (R_fleb a b) as [_|B]; [reflexivity|exfalso; apply B] end.
    apply HI. lra. }
  assert (SHORT : (length init <= k)%nat).
  { destruct (Nat.le_gt_cases (length init) k) as [|G]; [assumption|exfalso].
    destruct (nth_error init k) as [s|] eqn:EN; [|apply nth_error_None in EN; lia].
    apply nth_error_split in EN. destruct EN as (l1 & l2 & Ei & Ek).
    assert (Eq : steps = l1 ++ s :: (l2 ++ [last])) by (rewrite Es, Ei, <- app_assoc; reflexivity).
    pose proof (PASS _ _ _ Eq Ek) as P. rewrite Ei in REJ. apply Forall_app in REJ. destruct REJ as [_ REJ].
    inversion REJ as [|? ? RJ _]; subst. destruct RJ as [_ RJ]. congruence. }
  split; [|rewrite Es, app_length; cbn [length]; lia].
  destruct res; auto; exfalso.
  - destruct RES as ((_ & RJ) & _ & _ & LE). cbn [with_max li_max] in LE.
    rewrite Es, app_length in LE. cbn [length] in LE.
    rewrite (PASS init last [] Es) in RJ by lia. discriminate.
  - destruct RES as (_ & _ & _ & AS). unfold ascending in AS. destruct (R_fgtb (slope (with_max m i)) f0) as [B|]; [|discriminate].
    change (slope (with_max m i)) with (d_f (li_dd i) + li_penalty i * d_equality (li_dd i)) in B. cbn [f0 R_ops] in B. lra.
  - discriminate.
  - destruct RES as (_ & _ & _ & SG & _).
    apply (proj1 (proj2 (C81_polynomial_never_gives_up retract (with_max m i) SG HC HN) _ _ _ E)). reflexivity.
Qed.
