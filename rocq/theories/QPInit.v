(** C15: initial guesses of the interior point solver, over the reals. *)
From Coq Require Import String List Bool Arith ZArith Reals Lra Lia.
From Verif Require Import Scalar Outcome LinAlg Structs Constraint QPModel QPBlocks RInst Spec
  Props_Constraint QPAlgebra QPNewton QPAlpha QPStep QPTrace.
Import ListNotations.
Local Open Scope list_scope.
Local Open Scope R_scope.

(** ** After Setup the state is [ready]. *)
Lemma setup_ready : forall (g : garbage R) (p : QP R) st,
  Setup g (Some p) = Ok st -> (forall c, In c (qcons p) -> (0 <= lvar c)%Z) ->
  wf_qp p /\ ready p st.
Proof.
  intros g p st H Hnn.
  destruct (C04_Setup_accepts_iff_consistent g (Some p)) as (A & _ & _).
  destruct (A st H) as (p' & Hp & (C1 & C2 & C3 & C4 & C5) & E1 & E2 & E3).
  inversion Hp; subst p'. clear A Hp.
  assert (W : wf_qp p).
  { constructor; unfold nv, neq; try congruence.
    - intro Hk. destruct C4; [lia|]. congruence.
    - intros c Hc. specialize (Hnn c Hc). specialize (C5 c Hc). lia. }
  split; [exact W|].
  assert (D : ip_dims st = MkDims (nv p) (nineq p) (neq p)).
  { rewrite E2. unfold nv, nineq, neq. rewrite <- C2, <- C3. reflexivity. }
  unfold Setup in H.
  repeat (inv_bind H). apply Ok_inj in H. subst st. cbn in D.
  constructor; cbn [ip_p ip_dims ip_vars ip_r ip_delta ip_delta_aff]; auto;
    rewrite mkvec_length; reflexivity.
Qed.

Lemma vget_map_R : forall A (f : A -> R) l i d0, (i < length l)%nat -> vget (map f l) i = f (nth i l d0).
Proof.
  intros A f l i d0 Hi. unfold vget. rewrite nth_indep with (d' := f d0) by (rewrite map_length; exact Hi).
  apply map_nth.
Qed.

(** ** Clamping *)
Definition feas (c : lic R) (x : list R) : Prop := la c * vget x (cidx c) + lb c >= 0.

Lemma clamp_between : forall c x y w, ClampX c x = Ok y -> la c * w + lb c >= 0 ->
  la c <> 0 /\ la c * y + lb c >= 0 /\ (x <= y <= w \/ w <= y <= x).
Proof.
  intros c x y w H Hw.
  destruct (C02_ClampX_projection c x) as [A B].
  destruct (Req_dec (la c) 0) as [E|E].
  { destruct (A E) as [w' E']. rewrite E' in H. discriminate. }
  destruct (B E) as (y' & Ey & Fy & Near & Fix & _). rewrite Ey in H. inversion H; subst y'. clear H A B.
  apply IsFeasible_R in Fy. split; [exact E|]. split; [exact Fy|].
  assert (Hn := Near w (proj2 (IsFeasible_R c w) Hw)).
  destruct (Rle_dec 0 (la c * x + lb c)) as [Hx|Hx].
  - rewrite (Fix (proj2 (IsFeasible_R c x) ltac:(lra))). destruct (Rle_dec x w); lra.
  - (* x is infeasible, so y and w lie on the same side of x *)
    destruct (Rlt_dec 0 (la c)) as [Ha|Ha].
    + assert (x < y) by (apply Rmult_lt_reg_l with (la c); lra).
      assert (x < w) by (apply Rmult_lt_reg_l with (la c); lra).
      rewrite !Rabs_pos_eq in Hn by lra. lra.
    + assert (y < x) by (apply Rmult_lt_reg_l with (- la c); lra).
      assert (w < x) by (apply Rmult_lt_reg_l with (- la c); lra).
      rewrite !Rabs_left in Hn by lra. lra.
Qed.

Lemma clamp_one_inv : forall x c x', clamp_one x c = Ok x' -> (cidx c < length x)%nat ->
  (0 <= lvar c)%Z /\ la c <> 0 /\ length x' = length x /\
  (forall j, j <> cidx c -> vget x' j = vget x j) /\
  ClampX c (vget x (cidx c)) = Ok (vget x' (cidx c)).
Proof.
  intros x c x' H Hi. unfold clamp_one in H. inv_bind H. inv_bind H. apply Ok_inj in H. subst x'.
  apply ub_unless_ok_inv in Hm. apply Z.leb_le in Hm.
  split; [exact Hm|]. split.
  - destruct (C02_ClampX_projection c (vget x (cidx c))) as [A _]. intro E. destruct (A E) as [w E']. congruence.
  - rewrite vupd_length. splits; auto.
    + intros j Hj. rewrite (vget_vupd R R_ops) by exact Hi. destruct (Nat.eqb_spec j (cidx c)); [contradiction|reflexivity].
    + rewrite (vget_vupd R R_ops) by exact Hi. rewrite Nat.eqb_refl. exact Hm0.
Qed.

Lemma clamp_fold : forall cs x x', ofold clamp_one cs x = Ok x' ->
  (forall c, In c cs -> (cidx c < length x)%nat) ->
  length x' = length x /\
  (forall c, In c cs -> (0 <= lvar c)%Z /\ la c <> 0) /\
  (forall j, (forall c, In c cs -> cidx c <> j) -> vget x' j = vget x j) /\
  (forall xs, (forall c, In c cs -> feas c xs) ->
     (forall c, In c cs -> feas c x') /\
     (forall j, vget x j <= vget x' j <= vget xs j \/ vget xs j <= vget x' j <= vget x j \/ vget x' j = vget x j)).
Proof.
  intros cs x x' H Hidx.
  pose (P := fun (done : list (lic R)) (a : list R) =>
    length a = length x /\
    (forall c, In c done -> (0 <= lvar c)%Z /\ la c <> 0) /\
    (forall j, (forall c, In c done -> cidx c <> j) -> vget a j = vget x j) /\
    (forall xs, (forall c, In c cs -> feas c xs) ->
       (forall c, In c done -> feas c a) /\
       (forall j, vget x j <= vget a j <= vget xs j \/ vget xs j <= vget a j <= vget x j \/ vget a j = vget x j))).
  apply (ofold_invariant _ _ clamp_one P cs x x' H).
  - unfold P. splits; auto; intros; try contradiction. split; [intros; contradiction|auto].
  - intros done c a a1 [rest Hcs] (L & A1 & A2 & A3) Hstep.
    assert (Hin : In c cs) by (rewrite Hcs; apply in_or_app; right; left; reflexivity).
    destruct (clamp_one_inv _ _ _ Hstep) as (Hn & Ha & L1 & Hoth & Hcl).
    { rewrite L. apply Hidx. exact Hin. }
    unfold P. splits.
    + congruence.
    + intros c' Hc'. apply in_app_or in Hc'. destruct Hc' as [Hc'|[<-|[]]]; auto.
    + intros j Hj. rewrite Hoth.
      * apply A2. intros c' Hc'. apply Hj. apply in_or_app. left; exact Hc'.
      * intro E. apply (Hj c); auto. apply in_or_app. right; left; reflexivity.
    + intros xs Hxs. destruct (A3 xs Hxs) as [B1 B2].
      destruct (clamp_between c _ _ (vget xs (cidx c)) Hcl (Hxs c Hin)) as (_ & Hf & Bt).
      split.
      * intros c' Hc'. apply in_app_or in Hc'. destruct Hc' as [Hc'|[<-|[]]]; [|exact Hf].
        unfold feas. destruct (Nat.eq_dec (cidx c') (cidx c)) as [E|E].
        -- specialize (B1 c' Hc'). unfold feas in B1.
           assert (Hf' : la c' * vget xs (cidx c') + lb c' >= 0).
           { apply (Hxs c'). rewrite Hcs. apply in_or_app. left; exact Hc'. }
           rewrite E in *. set (v := vget a (cidx c)) in *. set (w := vget xs (cidx c)) in *.
           set (y := vget a1 (cidx c)) in *.
           destruct (Rle_dec 0 (la c')) as [Hs|Hs].
           ++ destruct Bt as [Bt|Bt].
              ** assert (la c' * v <= la c' * y) by (apply Rmult_le_compat_l; lra). lra.
              ** assert (la c' * w <= la c' * y) by (apply Rmult_le_compat_l; lra). lra.
           ++ destruct Bt as [Bt|Bt].
              ** assert (- la c' * y <= - la c' * w) by (apply Rmult_le_compat_l; lra). lra.
              ** assert (- la c' * y <= - la c' * v) by (apply Rmult_le_compat_l; lra). lra.
        -- rewrite Hoth by exact E. apply (B1 c' Hc').
      * intros j. destruct (Nat.eq_dec j (cidx c)) as [->|E]; [|rewrite Hoth by exact E; apply B2].
        specialize (B2 (cidx c)). lra.
Qed.

Lemma clamp_fold_ok : forall cs x,
  (forall c, In c cs -> (0 <= lvar c)%Z /\ la c <> 0) -> exists x', ofold clamp_one cs x = Ok x'.
Proof.
  induction cs as [|c cs IH]; intros x H; simpl; [eauto|].
  destruct (H c (or_introl eq_refl)) as [Hn Ha].
  unfold clamp_one at 1. apply Z.leb_le in Hn. rewrite Hn. cbn [ub_unless bind].
  destruct (C02_ClampX_projection c (vget x (cidx c))) as [_ B]. destruct (B Ha) as (y & -> & _).
  cbn [bind]. apply IH. intros; apply H; right; assumption.
Qed.

(** ** ComputeInitialGuess *)

Lemma lit_eps9 : 0 < flit lit_1em9.
Proof. rewrite R_1em9. lra. Qed.

Section Init.
  Variables (ldlt : mat R -> option (mat R)) (params : IPParams R) (p : QP R) (st st' : ip_solver R).
  Hypothesis W : wf_qp p.
  Hypothesis RD : ready p st.
  Hypothesis H : ComputeInitialGuess ldlt params p st = Ok st'.
  Hypothesis NU : p_initial_guess_method params <> USER_PROVIDED.

  (** x before clamping *)
  Lemma init_inv : exists st1 x,
    ready p st1 /\ ip_dims st1 = ip_dims st /\
    (p_initial_guess_method params = NAIVE -> (forall i, vget (x_block st1) i = 0) /\ (forall k, vget (y_block st1) k = 0)) /\
    ofold clamp_one (qcons p) (x_block st1) = Ok x /\ length x = nv p /\
    ready p st' /\ ip_dims st' = ip_dims st /\
    x_block st' = x /\ y_block st' = y_block st1 /\
    s_block st' = map (fun c => fmax (flit lit_1em9) (fadd (fmul (la c) (vget x (cidx c))) (lb c))) (qcons p) /\
    z_block st' = map (fun s => fdiv f1 s) (s_block st').
  Proof.
    assert (DN : dN (ip_dims st) = nv p) by apply (dN_nv p st RD).
    assert (DM : dM (ip_dims st) = nineq p) by apply (dM_ni p st RD).
    assert (DK : dK (ip_dims st) = neq p) by apply (dK_ne p st RD).
    set (d := ip_dims st) in *.
    set (st0 := with_vars st (set_y d (vzero (dK d)) (set_x d (vzero (dN d)) (ip_vars st)))).
    pose proof (rd_vars _ _ RD) as Lv. fold d in Lv.
    assert (L0 : length (set_x d (vzero (dN d)) (ip_vars st)) = tsize d) by (apply set_x_length; auto using vzero_length).
    assert (L1 : length (ip_vars st0) = tsize d) by (apply set_y_length; auto using vzero_length).
    assert (RD0 : ready p st0).
    { destruct RD. constructor; auto. }
    assert (X0 : x_block st0 = vzero (dN d)).
    { unfold x_block, st0. cbn [ip_dims with_vars ip_vars]. fold d.
      rewrite x_set_y, x_set_x; auto using vzero_length. }
    assert (Y0 : y_block st0 = vzero (dK d)).
    { unfold y_block, st0. cbn [ip_dims with_vars ip_vars]. fold d.
      rewrite y_set_y; auto using vzero_length. }
    assert (Hst1 : exists st1 x, ready p st1 /\ ip_dims st1 = d /\
              (p_initial_guess_method params = NAIVE -> st1 = st0) /\
              ofold clamp_one (qcons p) (xblk d (ip_vars st1)) = Ok x /\
              st' = with_vars st1 (set_z d (map (fun s => fdiv f1 s)
                 (map (fun c => fmax (flit lit_1em9) (fadd (fmul (la c) (vget x (cidx c))) (lb c))) (qcons p)))
                (set_s d (map (fun c => fmax (flit lit_1em9) (fadd (fmul (la c) (vget x (cidx c))) (lb c))) (qcons p))
                  (set_x d x (ip_vars st1))))).
    { pose proof H as HH. unfold ComputeInitialGuess in HH. fold d in HH. fold st0 in HH.
      destruct (p_initial_guess_method params) eqn:EM; [| |congruence].
      - cbn [bind] in HH. inv_bind HH. apply Ok_inj in HH. exists st0, a. splits; auto.
      - inv_bind HH. inv_bind HH. apply Ok_inj in HH. rename a into st1. rename a0 into x. exists st1, x.
        inv_bind Hm. rename a into sta. apply Ok_inj in Hm.
        unfold ComputeLDLT in Hm1. inv_bind Hm1. destruct (ldlt _) as [Hinv|]; [|discriminate].
        apply Ok_inj in Hm1.
        assert (RDa : ready p sta).
        { subst sta. destruct RD0. constructor; cbn [ip_p ip_dims ip_vars ip_r ip_delta ip_delta_aff]; auto;
            rewrite vzero_length; auto. }
        assert (Da : ip_dims sta = d) by (subst sta; reflexivity).
        set (stb := SolveForUpdateNoInequalities (EvaluateKKTConditions false p sta)) in *.
        assert (Db : ip_dims stb = d) by (unfold stb; exact Da).
        assert (Vb : ip_vars stb = ip_vars sta) by reflexivity.
        assert (Lvb : length (ip_vars stb) = tsize d) by (rewrite Vb, <- Da; apply RDa).
        assert (Ldb : length (ip_delta stb) = tsize d).
        { unfold stb, SolveForUpdateNoInequalities.
          change (ip_dims (EvaluateKKTConditions false p sta)) with (ip_dims sta).
          change (ip_delta (EvaluateKKTConditions false p sta)) with (ip_delta sta). rewrite Da.
          cbn [with_delta ip_delta]. pose proof (rd_delta _ _ RDa) as Ld. rewrite Da in Ld.
          apply set_y_length; [apply set_x_length; [exact Ld|apply solve_dx_length]|apply solve_dy_length]. }
        assert (Lrb : length (ip_r stb) = tsize d).
        { change (ip_r stb) with (ip_r (EvaluateKKTConditions false p sta)).
          pose proof (rd_r _ _ RDa) as Lr. rewrite Da in Lr.
          unfold EvaluateKKTConditions. rewrite Da. cbn [with_r ip_r].
          destruct (0 <? dK d)%nat; apply set_x_length; try apply mkvec_length; auto.
          apply set_y_length; [exact Lr|apply mkvec_length]. }
        splits; auto.
        + subst st1. destruct RDa. constructor; cbn [with_vars ip_p ip_dims ip_vars ip_r ip_delta ip_delta_aff];
            rewrite ?Db; auto.
          * rewrite Da in rd_dims. exact rd_dims.
          * apply set_y_length; [apply set_x_length; [exact Lvb|]|].
            -- apply xblk_length. exact Ldb.
            -- apply yblk_length. exact Ldb.
          * change (ip_delta_aff stb) with (ip_delta_aff sta). rewrite <- Da. exact rd_aff.
        + subst st1. exact Db.
        + intro; discriminate.
    }
    destruct Hst1 as (st1 & x & RD1 & D1 & HN & Hc & E').
    pose proof (rd_vars _ _ RD1) as Lv1. rewrite D1 in Lv1.
    assert (Lx1 : length (xblk d (ip_vars st1)) = nv p) by (rewrite xblk_length by exact Lv1; exact DN).
    assert (Hix : forall c, In c (qcons p) -> (cidx c < length (xblk d (ip_vars st1)))%nat)
      by (intros c Hcin; rewrite Lx1; apply cidx_lt; assumption).
    destruct (clamp_fold _ _ _ Hc Hix) as (Lx & _). rewrite Lx1 in Lx.
    exists st1, x. unfold x_block, y_block. rewrite D1.
    set (sv := map (fun c => fmax (flit lit_1em9) (fadd (fmul (la c) (vget x (cidx c))) (lb c))) (qcons p)) in *.
    set (zv := map (fun s => fdiv f1 s) sv) in *.
    assert (Lsv : length sv = dM d) by (unfold sv; rewrite map_length; symmetry; exact DM).
    assert (Lzv : length zv = dM d) by (unfold zv; rewrite map_length; exact Lsv).
    assert (LX : length x = dN d) by congruence.
    pose proof (set_x_length d x _ Lv1 LX) as M1.
    pose proof (set_s_length d sv _ M1 Lsv) as M2.
    pose proof (set_z_length d zv _ M2 Lzv) as M3.
    assert (D' : ip_dims st' = d) by (rewrite E'; exact D1).
    assert (V' : ip_vars st' = set_z d zv (set_s d sv (set_x d x (ip_vars st1)))) by (rewrite E'; reflexivity).
    unfold s_block, z_block. rewrite D', V'.
    rewrite x_set_z, x_set_s, x_set_x by assumption.
    rewrite y_set_z, y_set_s, y_set_x by assumption.
    rewrite s_set_z, s_set_s by assumption.
    rewrite z_set_z by assumption.
    splits; auto.
    - intros EN. rewrite (HN EN). change (xblk d (ip_vars st0)) with (x_block st0).
      change (yblk d (ip_vars st0)) with (y_block st0). rewrite X0, Y0.
      split; intro; apply vzero_get.
    - rewrite E'. destruct RD1. constructor; cbn [with_vars ip_p ip_dims ip_vars ip_r ip_delta ip_delta_aff]; auto.
      rewrite D1. exact M3.
  Qed.
End Init.

(** C15: what the built-in initial guesses produce, for every well formed problem and any (even wrong)
    factorisation. *)
Theorem C15_initial_guess : forall ldlt params (p : QP R) (st st' : ip_solver R),
  wf_qp p -> ready p st ->
  p_initial_guess_method params <> USER_PROVIDED ->
  ComputeInitialGuess ldlt params p st = Ok st' ->
  ready p st' /\
  (* slacks bounded below and multipliers their reciprocals *)
  (forall m, (m < nineq p)%nat ->
     vget (s_block st') m = Rmax (1 / 1000000000) (ca p m * vget (x_block st') (cv p m) + cb p m) /\
     vget (z_block st') m = 1 / vget (s_block st') m) /\
  (* every coefficient is non-zero (otherwise the call throws) *)
  (forall c, In c (qcons p) -> la c <> 0) /\
  (* if the constraints can be satisfied at all, x satisfies them *)
  ((exists xs, ineq_feasible p xs) -> ineq_feasible p (x_block st')).
Proof.
  intros ldlt params p st st' W RD NU H.
  destruct (init_inv ldlt params p st st' W RD H NU)
    as (st1 & x & RD1 & D1 & _ & Hc & Lx & RD' & D' & Ex & _ & Es & Ez).
  assert (Hix : forall c, In c (qcons p) -> (cidx c < length (x_block st1))%nat).
  { intros c Hcin. unfold x_block. rewrite xblk_length by apply RD1. rewrite D1, (dN_nv p st RD).
    apply cidx_lt; assumption. }
  destruct (clamp_fold _ _ _ Hc Hix) as (_ & A1 & _ & A2).
  split; [exact RD'|]. split; [|split].
  - intros m Hm. rewrite Ez.
    assert (E1 : vget (s_block st') m = Rmax (1 / 1000000000) (ca p m * vget (x_block st') (cv p m) + cb p m)).
    { rewrite Es, Ex. rewrite (vget_map_R _ _ (qcons p) m lic0) by exact Hm.
      rewrite R_fmax, R_1em9. reflexivity. }
    split; [exact E1|].
    assert (Hl : (m < length (s_block st'))%nat) by (rewrite Es, map_length; exact Hm).
    rewrite (vget_map_R _ _ (s_block st') m 0) by exact Hl. reflexivity.
  - intros c Hcin. apply A1. exact Hcin.
  - intros [xs Hxs]. rewrite Ex. intros m Hm.
    assert (Hall : forall c, In c (qcons p) -> feas c xs).
    { intros c Hcin. apply (In_nth _ _ lic0) in Hcin. destruct Hcin as (i & Hi & <-). apply (Hxs i Hi). }
    destruct (A2 xs Hall) as [B _]. apply (B (con p m)). apply nth_In. exact Hm.
Qed.

(** C15, NAIVE: x is the origin moved as little as possible: coordinates without constraints are 0,
    coordinates whose constraints allow 0 stay 0, and each coordinate lies between 0 and any feasible
    point's; the equality multipliers are 0. *)
Theorem C15_naive_guess : forall ldlt params (p : QP R) (st st' : ip_solver R),
  wf_qp p -> ready p st ->
  p_initial_guess_method params = NAIVE ->
  ComputeInitialGuess ldlt params p st = Ok st' ->
  (forall k, vget (y_block st') k = 0) /\
  (forall i, (forall c, In c (qcons p) -> Z.to_nat (lvar c) <> i) -> vget (x_block st') i = 0) /\
  (forall xs, ineq_feasible p xs -> forall i, Rabs (vget (x_block st') i) <= Rabs (vget xs i)).
Proof.
  intros ldlt params p st st' W RD EN H.
  destruct (init_inv ldlt params p st st' W RD H ltac:(congruence))
    as (st1 & x & RD1 & D1 & HN & Hc & Lx & RD' & D' & Ex & Ey & _ & _).
  destruct (HN EN) as [X0 Y0].
  assert (Hix : forall c, In c (qcons p) -> (cidx c < length (x_block st1))%nat).
  { intros c Hcin. unfold x_block. rewrite xblk_length by apply RD1. rewrite D1, (dN_nv p st RD).
    apply cidx_lt; assumption. }
  destruct (clamp_fold _ _ _ Hc Hix) as (_ & _ & A1 & A2).
  rewrite Ey, Ex. splits.
  - exact Y0.
  - intros i Hi. rewrite A1 by exact Hi. apply X0.
  - intros xs Hxs i.
    assert (Hall : forall c, In c (qcons p) -> feas c xs).
    { intros c Hcin. apply (In_nth _ _ lic0) in Hcin. destruct Hcin as (j & Hj & <-). apply (Hxs j Hj). }
    destruct (A2 xs Hall) as [_ B]. specialize (B i). rewrite X0 in B.
    destruct B as [B|[B|B]].
    + rewrite !Rabs_pos_eq; lra.
    + rewrite !Rabs_left1; lra.
    + rewrite B, Rabs_R0. apply Rabs_pos.
Qed.

(** C15: a constraint with a = 0 makes Solve throw (never return) with a built-in guess;
    USER_PROVIDED leaves everything untouched; NAIVE always succeeds otherwise, and
    SOLVE_EQUALITY_CONSTRAINED does unless the factorisation without inequalities fails. *)
Theorem C15_guess_outcomes : forall ldlt params (p : QP R) (st : ip_solver R),
  wf_qp p -> ready p st ->
  (p_initial_guess_method params = USER_PROVIDED -> ComputeInitialGuess ldlt params p st = Ok st) /\
  (p_initial_guess_method params = NAIVE ->
     ((forall c, In c (qcons p) -> la c <> 0) -> exists st', ComputeInitialGuess ldlt params p st = Ok st') /\
     ((exists c, In c (qcons p) /\ la c = 0) ->
         exists w, ComputeInitialGuess ldlt params p st = Throw (AssertFailed w))) /\
  (p_initial_guess_method params = SOLVE_EQUALITY_CONSTRAINED -> (forall c, In c (qcons p) -> la c <> 0) ->
     (exists st', ComputeInitialGuess ldlt params p st = Ok st') \/
     ComputeInitialGuess ldlt params p st = Throw FailedFactorization /\
       exists H, reduced_kkt p (fun _ => 0) H /\ ldlt H = None).
Proof.
  intros ldlt params p st W RD. unfold ComputeInitialGuess. split; [intros ->; reflexivity|].
  split; [|intros -> Ha; unfold ComputeLDLT; cbn [negb orb f_assert bind];
    match goal with |- context [ldlt ?H] => destruct (ldlt H) as [Hi|] eqn:EL end;
    [left|right; split; [reflexivity|eexists; split; [|exact EL]]];
    [|apply C08_reduced_matrix_no_inequalities; [exact W|apply (dN_nv p st RD)|apply (dK_ne p st RD)]];
    cbn [bind];
    match goal with |- context [ofold clamp_one (qcons p) ?x] =>
      destruct (clamp_fold_ok (qcons p) x) as [x' E]; [|rewrite E; cbn [bind]; eauto] end;
    intros c Hc; split; [apply (wf_idx p W c Hc)|auto]].
  intros ->. cbn [bind]. split.
  - intros Ha.
    destruct (clamp_fold_ok (qcons p) (xblk (ip_dims st)
       (ip_vars (with_vars st (set_y (ip_dims st) (vzero (dK (ip_dims st)))
          (set_x (ip_dims st) (vzero (dN (ip_dims st))) (ip_vars st))))))) as [x' ->].
    { intros c Hc. split; [apply (wf_idx p W c Hc)|auto]. }
    cbn [bind]. eauto.
  - intros (c0 & Hc0 & Ha0).
    match goal with |- context [ofold clamp_one (qcons p) ?x] => generalize x end.
    assert (Hnn : forall c, In c (qcons p) -> (0 <= lvar c)%Z) by (intros; apply (wf_idx p W c); assumption).
    intros x. assert (E : exists w, ofold clamp_one (qcons p) x = Throw (AssertFailed w)).
    { revert x Hc0 Hnn. induction (qcons p) as [|c l IH]; intros x Hin Hnn; [destruct Hin|].
      simpl. assert (Hn := Hnn c (or_introl eq_refl)). apply Z.leb_le in Hn.
      unfold clamp_one at 1. rewrite Hn. cbn [ub_unless bind].
      destruct (C02_ClampX_projection c (vget x (cidx c))) as [A B].
      destruct (Req_dec (la c) 0) as [Hz|Hz].
      - destruct (A Hz) as [w ->]. cbn [bind]. eauto.
      - destruct (B Hz) as (y & -> & _). cbn [bind]. apply IH.
        + destruct Hin as [->|Hin]; [contradiction|exact Hin].
        + intros; apply Hnn; right; assumption. }
    destruct E as [w ->]. cbn [bind]. eauto.
Qed.

(** Built-in guesses are interior. *)
Lemma init_interior : forall ldlt params (p : QP R) (st st' : ip_solver R),
  wf_qp p -> ready p st -> p_initial_guess_method params <> USER_PROVIDED ->
  ComputeInitialGuess ldlt params p st = Ok st' -> interior p st'.
Proof.
  intros ldlt params p st st' W RD NU H m Hm.
  destruct (C15_initial_guess ldlt params p st st' W RD NU H) as (_ & A & _).
  destruct (A m Hm) as [E1 E2].
  assert (0 < vget (s_block st') m).
  { rewrite E1. apply Rlt_le_trans with (1 / 1000000000); [lra|apply Rmax_l]. }
  split; [assumption|]. rewrite E2. apply Rdiv_lt_0_compat; lra.
Qed.
