(** C73 (cases), C74: the cache of ActuatorChain over any history of calls; the constructor of ActuatorLink. *)
From Coq Require Import String List Bool Arith QArith Reals Qreals Lra Lia.
From Flocq Require Import Core BinarySingleNaN.
From Verif Require Import Scalar Outcome LinAlg RInst FloatInst Chains ChainProps ChainDeriv ChainUpdate ChainJacobian.
Import ListNotations.
Local Open Scope list_scope.
Local Open Scope R_scope.

(** The chain after a history of Update calls, whatever each of them did. *)
Definition after (so3 : vec3 R -> quat R * mat3 R) (ls : list (link R)) (history : list (list R)) : chain R :=
  fold_left (fun c p => fst (Update so3 c p)) history (new_chain ls).

  Lemma close_of_no_update : forall c p, ShouldUpdate c p = false ->
    length (params_cached c) = length p /\ forall k, (k < length p)%nat -> Rabs (nth k (params_cached c) 0 - nth k p 0) <= 1 / 1000000000.
  Proof.
    intros c p H. unfold ShouldUpdate in H. destruct (length (params_cached c) =? length p)%nat eqn:E; [|discriminate H].
    cbn [negb] in H. apply Nat.eqb_eq in E. split; [exact E|]. intros k K.
    assert (LE : (length (params_cached c) <= length p)%nat) by lia.
    assert (K' : (k < length (combine (params_cached c) p))%nat) by (rewrite combine_length; lia).
    pose proof (nth_In _ (0, 0) K') as IN. rewrite combine_nth in IN by exact E.
    assert (B : fgtb (fabs (fsub (nth k (params_cached c) 0) (nth k p 0))) (flit lit_1em9) = false).
    { destruct (fgtb (fabs (fsub (nth k (params_cached c) 0) (nth k p 0))) (flit lit_1em9)) eqn:X; [|reflexivity].
      exfalso. apply Bool.not_true_iff_false in H. apply H. apply existsb_exists. eexists. split; [exact IN|]. exact X. }
    unfold fgtb in B. cbn [fltb fabs fsub flit R_ops] in B.
    destruct (Rltb_spec (Q2R lit_1em9) (Rabs (nth k (params_cached c) 0 - nth k p 0))) as [X|X]; [discriminate B|].
    replace (1 / 1000000000) with (Q2R lit_1em9) by (unfold Q2R, lit_1em9; cbn [Qnum Qden]; lra). lra.
  Qed.

Section Cache.
  Variable so3 : vec3 R -> quat R * mat3 R.
  Variable ls : list (link R).
  Hypothesis S6 : Forall six ls.
  Hypothesis POS : (0 < total ls)%nat.

  Definition cache_inv (c : chain R) : Prop :=
    links c = ls /\
    ((translation_D_params c = [] /\ rotation_D_params c = []) \/
     (length (translation_D_params c) = total ls /\ shape ls (rotation_D_params c))) /\
    (length (params_cached c) = total ls -> c = computed so3 ls (params_cached c)).

  Lemma inv_new : cache_inv (new_chain ls).
  Proof. split; [reflexivity|]. split; [left; split; reflexivity|]. cbn [params_cached new_chain length]. lia. Qed.
  Lemma inv_computed : forall p, cache_inv (computed so3 ls p).
  Proof.
    intro p. split; [reflexivity|]. split; [|reflexivity]. right. split.
    - apply out_trans_length. exact S6.
    - apply out_rot_shape. exact S6.
  Qed.

  Lemma wrong_size_step : forall c p, cache_inv c -> ShouldUpdate c p = true -> length p <> total ls ->
    exists e, snd (Update so3 c p) = Throw e /\ cache_inv (fst (Update so3 c p)) /\ params_cached (fst (Update so3 c p)) = p.
  Proof.
    intros c p (L & J & C) SU NE. unfold Update. rewrite SU. cbn [negb]. rewrite TotalActive_total, L.
    destruct J as [[J1 J2]|[J1 J2]].
    - rewrite J1. cbn [length Nat.eqb]. apply Nat.eqb_neq in NE. rewrite NE.
      eexists. split; [reflexivity|]. split; [|reflexivity]. split; [reflexivity|]. split; [left; split; [reflexivity|exact J2]|].
      cbn [fst params_cached]. apply Nat.eqb_neq in NE. lia.
    - rewrite J1. replace (total ls =? 0)%nat with false by (symmetry; apply Nat.eqb_neq; lia).
      rewrite (shape_length ls _ S6 J2). pose proof NE as NE'. apply Nat.eqb_neq in NE. rewrite NE. cbn [negb].
      eexists. split; [reflexivity|]. split; [|reflexivity]. split; [reflexivity|]. split; [right; split; [exact J1|exact J2]|].
      cbn [fst params_cached]. lia.
  Qed.

  Lemma inv_step : forall c p, cache_inv c -> cache_inv (fst (Update so3 c p)).
  Proof.
    intros c p I. destruct (ShouldUpdate c p) eqn:SU.
    - destruct (Nat.eq_dec (length p) (total ls)) as [E|NE].
      + destruct I as (L & J & C). rewrite compute_step; rewrite ?L; auto. apply inv_computed.
      + destruct (wrong_size_step c p I SU NE) as (e & _ & A & _). exact A.
    - unfold Update. rewrite SU. exact I.
  Qed.
  Lemma inv_after : forall history, cache_inv (after so3 ls history).
  Proof.
    intro history. unfold after. generalize inv_new. generalize (new_chain ls).
    induction history as [|p h IH]; intros c I; cbn [fold_left]; [exact I|]. apply IH. apply inv_step. exact I.
  Qed.

  (** Where the cached parameters come from. *)
  Lemma cached_from : forall history, params_cached (after so3 ls history) = [] \/ In (params_cached (after so3 ls history)) history.
  Proof.
    intro history. unfold after.
    assert (G : forall h c, let c' := fold_left (fun c p => fst (Update so3 c p)) h c in
       params_cached c' = params_cached c \/ In (params_cached c') h).
    { induction h as [|p h IH]; intro c; cbn [fold_left]; [left; reflexivity|].
      destruct (IH (fst (Update so3 c p))) as [E|E].
      - destruct (ShouldUpdate c p) eqn:SU.
        + right. left. cbv zeta. rewrite E. unfold Update. rewrite SU. cbn [negb].
          destruct (if (length (translation_D_params c) =? 0)%nat then _ else _) as [[rotD transD]|]; [|reflexivity].
          destruct (negb (length p =? length rotD)%nat); [reflexivity|].
          destruct (snd (compute_links _ _ _ _ _ _)); reflexivity.
        + left. cbv zeta. rewrite E. unfold Update. rewrite SU. reflexivity.
      - right. right. exact E. }
    destruct (G history (new_chain ls)) as [E|E]; [left; rewrite E; reflexivity|right; exact E].
  Qed.

End Cache.

(** C74: whatever was called before, an Update with the right number of parameters returns normally and leaves the chain
    exactly as a new chain updated with some p' that was passed now or earlier and differs from p by at most 1e-9 in every
    entry: results never come from a mix of calls, and slowly varying parameters do not drift away from what is cached. *)
Theorem C74_any_history : forall so3 ls history p,
  Forall (fun l => length (active l) = 6%nat) ls -> (0 < total ls)%nat -> length p = total ls ->
  exists p', Update so3 (after so3 ls history) p = (fst (Update so3 (new_chain ls) p'), Ok tt) /\
    In p' (p :: history) /\ length p' = total ls /\
    forall k, (k < length p)%nat -> Rabs (nth k p' 0 - nth k p 0) <= 1 / 1000000000.
Proof.
  intros so3 ls history p S6 POS L.
  assert (FRESH : forall q, length q = total ls -> Update so3 (new_chain ls) q = (computed so3 ls q, Ok tt)).
  { intros q Lq. apply (compute_step so3 (new_chain ls) q S6); [|exact Lq|exact POS|left; split; reflexivity].
    unfold ShouldUpdate. cbn [params_cached new_chain length]. rewrite Lq. destruct (total ls); [lia|reflexivity]. }
  pose proof (inv_after so3 ls S6 POS history) as I. set (c := after so3 ls history) in *.
  destruct (ShouldUpdate c p) eqn:SU.
  - exists p. destruct I as (LK & J & C). split.
    + rewrite FRESH by exact L. cbn [fst]. rewrite <- LK. apply compute_step; rewrite ?LK; auto.
    + split; [left; reflexivity|]. split; [exact L|]. intros k _. rewrite Rminus_diag_eq, Rabs_R0 by reflexivity. lra.
  - destruct (close_of_no_update c p SU) as [E B]. exists (params_cached c). destruct I as (LK & J & C). split.
    + rewrite FRESH by lia. cbn [fst]. unfold Update. rewrite SU. cbn [negb]. rewrite <- C by lia. reflexivity.
    + split; [|split; [lia|exact B]]. right. destruct (cached_from so3 ls history) as [X|X]; [|exact X].
      unfold c in E. rewrite X in E. cbn [length] in E. lia.
Qed.

(** C74: with the wrong number of parameters Update throws, unless these are the cached ones; in any case the same call again
    returns normally and changes nothing, so the second call hides the mistake. *)
Theorem C74_wrong_size : forall so3 ls history p,
  Forall (fun l => length (active l) = 6%nat) ls -> (0 < total ls)%nat -> length p <> total ls ->
  let c := after so3 ls history in
  let c' := fst (Update so3 c p) in
  ((exists e, snd (Update so3 c p) = Throw e) \/ c' = c /\ length (params_cached c) = length p) /\
  Update so3 c' p = (c', Ok tt).
Proof.
  intros so3 ls history p S6 POS NE c c'. pose proof (inv_after so3 ls S6 POS history) as I. fold c in I.
  assert (SAME : forall q : list R, existsb (fun cp => fgtb (fabs (fsub (fst cp) (snd cp))) (flit lit_1em9)) (combine q q) = false).
  { induction q as [|x q IH]; [reflexivity|]. cbn [combine existsb fst snd]. rewrite IH, orb_false_r.
    unfold fgtb. cbn [fltb fabs fsub flit R_ops]. rewrite Rminus_diag_eq, Rabs_R0 by reflexivity.
    destruct (Rltb_spec (Q2R lit_1em9) 0) as [X|X]; [|reflexivity]. unfold Q2R, lit_1em9 in X. cbn [Qnum Qden] in X. lra. }
  destruct (ShouldUpdate c p) eqn:SU.
  - destruct (wrong_size_step so3 ls S6 POS c p I SU NE) as (e & A & _ & B). split; [left; exists e; exact A|].
    fold c' in B. unfold Update. unfold ShouldUpdate. rewrite B, Nat.eqb_refl. cbn [negb]. rewrite SAME. reflexivity.
  - assert (E : c' = c) by (unfold c', Update; rewrite SU; reflexivity). rewrite E. split.
    + right. split; [reflexivity|]. apply (close_of_no_update c p SU).
    + unfold Update. rewrite SU. reflexivity.
Qed.

(** C74: without an active coordinate Update never computes anything, and reading the pose is undefined. *)
Theorem C74_nothing_active : forall so3 ls n, total ls = 0%nat ->
  Update so3 (after so3 ls (repeat [] n)) [] = (new_chain ls, Ok tt) /\
  chain_translation (new_chain ls) = UB "leftCols<1>() of an empty matrix" /\
  chain_rotation (new_chain ls) = UB "front() of an empty vector".
Proof.
  intros so3 ls n _. repeat split. assert (E : after so3 ls (repeat [] n) = new_chain ls).
  { unfold after. induction n as [|n IH]; [reflexivity|]. exact IH. }
  rewrite E. reflexivity.
Qed.

(** C74: links changed after the first Update are not noticed while the parameters stay the same. *)
Theorem C74_links_not_noticed : forall so3 (c : chain R) ls' p, ShouldUpdate c p = false ->
  let c' := MkChain ls' (pose_buffer c) (rotation_D_params c) (translation_D_params c) (buffer c) (params_cached c) in
  Update so3 c' p = (c', Ok tt).
Proof. intros so3 c ls' p H c'. unfold Update. change (ShouldUpdate c' p) with (ShouldUpdate c p). rewrite H. reflexivity. Qed.

(** C74, in binary64: a comparison with NaN is false, so an Update in which every entry is NaN or is NaN in the cache is
    ignored: the chain keeps the results of other parameters and reports success. *)
Theorem C74_binary64_nan : forall (e : eigen_red) so3 (c : chain double) p, length (params_cached c) = length p ->
  (forall k, (k < length p)%nat -> is_nan (nth k (params_cached c) B754_nan) = true \/ is_nan (nth k p B754_nan) = true) ->
  Update (O := D_ops e) so3 c p = (c, Ok tt).
Proof.
  intros e so3 c p L H. unfold Update.
  assert (E : ShouldUpdate (O := D_ops e) c p = false).
  { unfold ShouldUpdate. rewrite L, Nat.eqb_refl. cbn [negb]. destruct (existsb _ _) eqn:X; [|reflexivity]. exfalso.
    apply existsb_exists in X. destruct X as ([a b] & IN & X).
    apply (In_nth _ _ (B754_nan, B754_nan)) in IN. destruct IN as (k & K & E). rewrite combine_nth in E by exact L.
    rewrite combine_length in K. injection E as E1 E2. specialize (H k ltac:(lia)). rewrite E1, E2 in H.
    cbn [fst snd] in X. unfold fgtb in X. cbn [fltb fabs fsub D_ops] in X.
    assert (N : dminus a b = B754_nan).
    { destruct H as [N|N]; [destruct a; try discriminate N|destruct b; try discriminate N]; [reflexivity|destruct a as [[|]|[|]| |[|] ? ? ?]; reflexivity]. }
    rewrite N in X. change (Babs B754_nan : double) with (B754_nan : double) in X. rewrite Bltb_nan_r in X. discriminate X. }
  rewrite E. reflexivity.
Qed.

(** ** The contract on the Euler angles is met: rotations about x, y and z, in this order. *)
Definition so3_xyz (v : vec3 R) : quat R * mat3 R :=
  let X := rot_x (vx v) in let Y := rot_y (vy v) in let Z := rot_z (vz v) in
  (qmul X (qmul Y Z), M3 (qrot (qconj (qmul Y Z)) (V3 1 0 0)) (qrot (qconj Z) (V3 0 1 0)) (V3 0 0 1)).

Lemma rot_add : forall a t,
  qmul (qconj (rot_x a)) (rot_x (a + t)) = rot_x t /\ qmul (qconj (rot_y a)) (rot_y (a + t)) = rot_y t /\
  qmul (qconj (rot_z a)) (rot_z (a + t)) = rot_z t.
Proof.
  intros a t.
  assert (C : cos (a / 2) * cos ((a + t) / 2) + sin (a / 2) * sin ((a + t) / 2) = cos (t / 2)).
  { rewrite <- cos_minus. replace (a / 2 - (a + t) / 2) with (- (t / 2)) by field. apply cos_neg. }
  assert (S : cos (a / 2) * sin ((a + t) / 2) - sin (a / 2) * cos ((a + t) / 2) = sin (t / 2)).
  { transitivity (sin ((a + t) / 2 - a / 2)); [rewrite sin_minus; ring|]. f_equal. field. }
  unfold rot_x, rot_y, rot_z. repeat split; apply q_eq; q_unfold; lra.
Qed.

Lemma so3_xyz_contract : euler_contract so3_xyz.
Proof.
  intros [a b c]. set (X := rot_x a). set (Y := rot_y b). set (Z := rot_z c).
  destruct (rot_unit a) as (UX & _ & _). destruct (rot_unit b) as (_ & UY & _). destruct (rot_unit c) as (_ & _ & UZ).
  fold X in UX. fold Y in UY. fold Z in UZ.
  destruct rot_tangent as (TX & TY & TZ).
  split; [cbn [so3_xyz fst vx vy vz]; auto using unit_qmul|].
  intros axis H. destruct axis as [|[|[|]]]; [| | |lia]; cbn [so3_xyz fst snd bump3 vx vy vz m3col mc0 mc1 mc2]; fold X; fold Y; fold Z.
  - eapply tangent_ext; [|apply (tangent_conj rot_x (V3 1 0 0) (qmul Y Z)); [auto using unit_qmul|exact TX]].
    intro t. cbv beta. destruct (rot_add a t) as (E & _ & _). rewrite <- E. fold X. rewrite !qconj_qmul, !qmul_assoc. reflexivity.
  - eapply tangent_ext; [|apply (tangent_conj rot_y (V3 0 1 0) Z); [exact UZ|exact TY]].
    intro t. cbv beta. destruct (rot_add b t) as (_ & E & _). rewrite <- E. fold Y. rewrite !qconj_qmul, !qmul_assoc.
    rewrite <- (qmul_assoc (qconj X) X), (qmul_conj_l X UX), qmul_id_l. reflexivity.
  - eapply tangent_ext; [|exact TZ].
    intro t. cbv beta. destruct (rot_add c t) as (_ & _ & E). rewrite <- E. fold Z. rewrite !qconj_qmul, !qmul_assoc.
    rewrite <- (qmul_assoc (qconj X) X), (qmul_conj_l X UX), qmul_id_l.
    rewrite <- (qmul_assoc (qconj Y) Y), (qmul_conj_l Y UY), qmul_id_l. reflexivity.
Qed.

(** C73: a link is only constructed with Euler angles that reproduce its rotation, and no check is made when no angle moves. *)
Theorem C73_link_constructor : forall euler_from so3 junk p mask,
  (existsb (fun b => b) (firstn 3 mask) = false -> ActuatorLink euler_from so3 junk p mask = Ok (MkLink p mask junk)) /\
  (forall l, existsb (fun b => b) (firstn 3 mask) = true -> ActuatorLink euler_from so3 junk p mask = Ok l ->
     parent_T_child l = p /\ active l = mask /\
     forall i j, (i < 3)%nat -> (j < 3)%nat ->
       Rabs (v3get (m3col (qmatrix (fst (so3 (rotation_xyz l)))) j) i - v3get (m3col (qmatrix (rotation p)) j) i) < 1 / 100000).
Proof.
  intros euler_from so3 junk p mask.
  assert (C : (0 <? ActiveRotationCount (MkLink p mask junk))%nat = existsb (fun b => b) (firstn 3 mask)).
  { unfold ActiveRotationCount. cbn [active]. induction (firstn 3 mask) as [|b m IH]; [reflexivity|].
    destruct b; cbn [count_true filter existsb orb length]; [reflexivity|]. exact IH. }
  unfold ActuatorLink. rewrite C. split; [intros ->; reflexivity|]. intros l E H. rewrite E in H.
  apply bind_ok_inv in H. destruct H as (a & A & B). injection B as B. subst l. split; [reflexivity|]. split; [reflexivity|].
  cbn [rotation_xyz].
  unfold f_assert in A. destruct (_ && _ && _) eqn:T in A; [|discriminate A]. clear A.
  apply andb_true_iff in T. destruct T as [T T3]. apply andb_true_iff in T. destruct T as [T1 T2].
  unfold v3all in T1, T2, T3. cbn [vx vy vz] in T1, T2, T3.
  assert (K : forall x y : R, fltb (fabs (fsub x y)) (flit lit_1em5) = true -> Rabs (x - y) < 1 / 100000).
  { intros x y. cbn [fltb fabs fsub flit R_ops]. destruct (Rltb_spec (Rabs (x - y)) (Q2R lit_1em5)) as [X|X]; [|discriminate].
    intros _. unfold Q2R, lit_1em5 in X. cbn [Qnum Qden] in X. lra. }
  repeat (match goal with H : _ && _ = true |- _ => apply andb_true_iff in H; destruct H end).
  intros i j I J. destruct i as [|[|[|]]]; [| | |lia]; destruct j as [|[|[|]]]; try lia; cbn [v3get m3col]; apply K; assumption.
Qed.

(** C73: with a decomposition into Rz(c) Ry(b) Rx(a) that is exact, a link is constructed for every rotation, and its angles
    describe that rotation as Rx Ry Rz. *)
Theorem C73_every_rotation_accepted : forall euler_from so3 junk p mask,
  (let q := qconj (rotation p) in let e := euler_from q in qmatrix q = qmatrix (qmul (qmul (rot_z (vz e)) (rot_y (vy e))) (rot_x (vx e)))) ->
  (forall a b c, fst (so3 (V3 a b c)) = qmul (rot_x a) (qmul (rot_y b) (rot_z c))) ->
  existsb (fun b => b) (firstn 3 mask) = true ->
  exists a b c, ActuatorLink euler_from so3 junk p mask = Ok (MkLink p mask (V3 a b c)) /\
    qmatrix (qmul (rot_x a) (qmul (rot_y b) (rot_z c))) = qmatrix (rotation p).
Proof.
  intros euler_from so3 junk p mask EU SO E.
  assert (C : (0 <? ActiveRotationCount (MkLink p mask junk))%nat = existsb (fun b => b) (firstn 3 mask)).
  { unfold ActiveRotationCount. cbn [active]. induction (firstn 3 mask) as [|b m IH]; [reflexivity|].
    destruct b; cbn [count_true filter existsb orb length]; [reflexivity|]. exact (IH E). }
  set (e := euler_from (qconj (rotation p))).
  cbv zeta in EU. fold e in EU.
  assert (T : forall q r, qmatrix (qconj q) = qmatrix r -> qmatrix q = qmatrix (qconj r)).
  { intros [a0 a1 a2 a3] [b0 b1 b2 b3]. unfold qmatrix, qconj. cbv zeta. vsimp. rewrite !R_two. intro H. injection H as H1 H2 H3 H4 H5 H6 H7 H8 H9. f_equal; f_equal; lra. }
  assert (NEG : forall t, qconj (rot_x t) = rot_x (- t) /\ qconj (rot_y t) = rot_y (- t) /\ qconj (rot_z t) = rot_z (- t)).
  { intro t. unfold rot_x, rot_y, rot_z, qconj. vsimp. replace (- t / 2) with (- (t / 2)) by field. rewrite cos_neg, sin_neg.
    repeat split; f_equal; ring. }
  destruct (NEG (vx e)) as (NX & _ & _). destruct (NEG (vy e)) as (_ & NY & _). destruct (NEG (vz e)) as (_ & _ & NZ).
  assert (Q : qmatrix (rotation p) = qmatrix (qmul (rot_x (- vx e)) (qmul (rot_y (- vy e)) (rot_z (- vz e))))).
  { rewrite (T _ _ EU), !qconj_qmul, NX, NY, NZ. reflexivity. }
  exists (- vx e), (- vy e), (- vz e). split; [|symmetry; exact Q].
  unfold ActuatorLink. rewrite C, E. cbv zeta. fold e. change (v3neg e) with (V3 (- vx e) (- vy e) (- vz e)). rewrite SO, <- Q.
  assert (Z : forall x : R, fltb (fabs (fsub x x)) (flit lit_1em5) = true).
  { intro x. cbn [fltb fabs fsub flit R_ops]. replace (x - x) with 0 by ring. rewrite Rabs_R0.
    destruct (Rltb_spec 0 (Q2R lit_1em5)) as [X|X]; [reflexivity|]. exfalso. apply X. unfold Q2R, lit_1em5. cbn [Qnum Qden]. lra. }
  unfold v3all. cbn [vx vy vz]. rewrite !Z. reflexivity.
Qed.

(** A quarter turn about z, given to a decomposition that finds it. *)
Example C73_every_rotation_accepted_case : exists a b c,
  ActuatorLink (fun _ => V3 0 0 (- (PI / 2))) so3_xyz v3zero (Pose (rot_z (PI / 2)) (V3 1 2 3)) [false; false; true; false; false; false] =
    Ok (MkLink (Pose (rot_z (PI / 2)) (V3 1 2 3)) [false; false; true; false; false; false] (V3 a b c)) /\
  qmatrix (qmul (rot_x a) (qmul (rot_y b) (rot_z c))) = qmatrix (rot_z (PI / 2)).
Proof.
  apply (C73_every_rotation_accepted (fun _ => V3 0 0 (- (PI / 2))) so3_xyz v3zero (Pose (rot_z (PI / 2)) (V3 1 2 3)) [false; false; true; false; false; false]).
  - cbv zeta. cbn [vx vy vz rotation]. f_equal. unfold rot_x, rot_y, rot_z. apply q_eq; q_unfold; replace (0 / 2) with 0 by field; rewrite cos_0, sin_0;
      replace (- (PI / 2) / 2) with (- (PI / 2 / 2)) by field; rewrite cos_neg, sin_neg; ring.
  - reflexivity.
  - reflexivity.
Qed.

(** ** Cases: a revolute joint about z followed by a prismatic one along x. *)
Definition case_links : list (link R) :=
  [ MkLink (Pose qid (V3 1 0 0)) [false; false; true; false; false; false] v3zero;
    MkLink (Pose qid (V3 0 2 0)) [false; false; false; true; false; false] v3zero ].

Lemma case_links_ok : Forall link_ok case_links /\ total case_links = 2%nat.
Proof. split; [repeat constructor; apply unit_qid|reflexivity]. Qed.

(** C72, C73: the hypotheses hold, and the effector is where it should be: (1,0,0) + Rz(a) (b,2,0). *)
Example C73_case : forall a b,
  (exists c, Update so3_xyz (new_chain case_links) [a; b] = (c, Ok tt) /\
     chain_translation c = Ok (V3 (1 + cos a * b - sin a * 2) (sin a * b + cos a * 2) 0) /\
     d3 (fun t => translation (effector so3_xyz case_links [a + t; b])) (nth 0 (translation_D_params c) v3zero) /\
     d3 (fun t => translation (effector so3_xyz case_links [a; b + t])) (nth 1 (translation_D_params c) v3zero)) /\
  Forall unit_pose (link_poses so3_xyz case_links [a; b]).
Proof.
  intros a b. destruct case_links_ok as [OK TOT]. split.
  - destruct (C73_first_update so3_xyz case_links [a; b] so3_xyz_contract OK) as (c & E & T & R & _ & _ & _ & D); [rewrite TOT; lia|reflexivity|].
    exists c. split; [exact E|]. split; [|split].
    + rewrite T. f_equal.
      assert (C2 : cos a = cos (a / 2) * cos (a / 2) - sin (a / 2) * sin (a / 2)).
      { replace a with (a / 2 + a / 2) at 1 by field. apply cos_plus. }
      assert (S2 : sin a = sin (a / 2) * cos (a / 2) + cos (a / 2) * sin (a / 2)).
      { replace a with (a / 2 + a / 2) at 1 by field. apply sin_plus. }
      generalize (sc1 (a / 2)). rewrite C2, S2. intro U.
      assert (Z0 : rot_x 0 = qid /\ rot_y 0 = qid).
      { unfold rot_x, rot_y. replace (0 / 2) with 0 by field. rewrite cos_0, sin_0. split; reflexivity. }
      assert (P : link_poses so3_xyz case_links [a; b]
        = [Pose (qmul (rot_x 0) (qmul (rot_y 0) (rot_z a))) (V3 1 0 0); Pose qid (V3 b 2 0)]) by reflexivity.
      unfold effector. rewrite P. destruct Z0 as [-> ->]. rewrite !qmul_id_l. clear P T R D E.
      unfold product. cbn [fold_right pose_mul pose_id rotation translation].
      rewrite qrot_zero, v3add_0_r. unfold rot_z.
      apply v3_eq; q_unfold.
      * transitivity (1 + (cos (a / 2) * cos (a / 2) + sin (a / 2) * sin (a / 2)) * b - 2 * (sin (a / 2) * sin (a / 2)) * b - 4 * (cos (a / 2) * sin (a / 2))); [rewrite U; ring|ring].
      * transitivity ((cos (a / 2) * cos (a / 2) + sin (a / 2) * sin (a / 2)) * 2 - 4 * (sin (a / 2) * sin (a / 2)) + 2 * (cos (a / 2) * sin (a / 2)) * b); [rewrite U; ring|ring].
      * ring.
    + apply (D 0%nat). rewrite TOT. lia.
    + apply (D 1%nat). rewrite TOT. lia.
  - apply link_poses_unit; [exact so3_xyz_contract|exact OK].
Qed.

Example C74_case : forall p, length p = 2%nat ->
  exists p', Update so3_xyz (after so3_xyz case_links [[0; 3]; [5]; [0; 3 + 1 / 10000000000]]) p
             = (fst (Update so3_xyz (new_chain case_links) p'), Ok tt) /\
    In p' [p; [0; 3]; [5]; [0; 3 + 1 / 10000000000]] /\ length p' = 2%nat.
Proof.
  intros p L. destruct case_links_ok as [OK TOT].
  destruct (C74_any_history so3_xyz case_links [[0; 3]; [5]; [0; 3 + 1 / 10000000000]] p) as (p' & A & B & C & _).
  - repeat constructor.
  - rewrite TOT. lia.
  - rewrite TOT. exact L.
  - exists p'. rewrite TOT in C. auto.
Qed.

Example C70_case : unit_pose (Pose (Quat (3 / 5) (4 / 5) 0 0) (V3 1 2 3)).
Proof. unfold unit_pose, unit_q. cbn [rotation qw qx qy qz]. field. Qed.
