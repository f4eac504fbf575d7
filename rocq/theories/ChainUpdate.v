(** C73, C74: ActuatorChain::Update computes the effector pose and its Jacobians, and caches them. Over the reals. *)
From Coq Require Import String List Bool Arith QArith Reals Qreals Lra Lia.
From Verif Require Import Scalar Outcome LinAlg RInst Chains ChainProps ChainDeriv.
Import ListNotations.
Local Open Scope list_scope.
Local Open Scope R_scope.

(** ** Specification: forward kinematics, read off the parameters directly *)

(** Replace, in order, the entries whose mask is set by the next parameter. *)
Fixpoint fill (mask : list bool) (own params : list R) : list R :=
  match mask, own with
  | true :: m, _ :: o => nth 0 params 0 :: fill m o (skipn 1 params)
  | false :: m, v :: o => v :: fill m o params
  | _, _ => []
  end.

(** How many parameters a link takes, how many a list of links. *)
Definition count (l : link R) : nat := count_occ Bool.bool_dec (active l) true.
Fixpoint total (ls : list (link R)) : nat := match ls with [] => 0 | l :: ls' => count l + total ls' end.

Definition own_values (l : link R) : list R :=
  let a := rotation_xyz l in let t := translation (parent_T_child l) in [vx a; vy a; vz a; vx t; vy t; vz t].
Definition rotates (l : link R) : bool := nth 0 (active l) false || nth 1 (active l) false || nth 2 (active l) false.

Definition angles (l : link R) (params : list R) : vec3 R :=
  let u := fill (active l) (own_values l) params in V3 (nth 0 u 0) (nth 1 u 0) (nth 2 u 0).
Definition offset (l : link R) (params : list R) : vec3 R :=
  let u := fill (active l) (own_values l) params in V3 (nth 3 u 0) (nth 4 u 0) (nth 5 u 0).

(** [so3] turns Euler angles into a quaternion, and a matrix of derivatives. *)
Definition link_pose (so3 : vec3 R -> quat R * mat3 R) (l : link R) (params : list R) : pose R :=
  Pose (if rotates l then fst (so3 (angles l params)) else rotation (parent_T_child l)) (offset l params).

Fixpoint link_poses (so3 : vec3 R -> quat R * mat3 R) (ls : list (link R)) (params : list R) : list (pose R) :=
  match ls with
  | [] => []
  | l :: ls' => link_pose so3 l params :: link_poses so3 ls' (skipn (count l) params)
  end.
(** The pose of the end of the chain. *)
Definition effector so3 ls params : pose R := product (link_poses so3 ls params).

Definition bump (p : list R) (k : nat) (t : R) : list R := firstn k p ++ (nth k p 0 + t) :: skipn (S k) p.
Definition bump3 (v : vec3 R) (axis : nat) (t : R) : vec3 R :=
  match axis with
  | 0%nat => V3 (vx v + t) (vy v) (vz v) | 1%nat => V3 (vx v) (vy v + t) (vz v) | _ => V3 (vx v) (vy v) (vz v + t)
  end.

(** What is assumed of geometry_utils' SO3FromEulerAngles: a unit quaternion q(angles), and the derivative of the right
    tangent with respect to each angle. *)
Definition euler_contract (so3 : vec3 R -> quat R * mat3 R) : Prop :=
  forall v, unit_q (fst (so3 v)) /\
  forall axis, (axis < 3)%nat ->
    tangent (fun t => qmul (qconj (fst (so3 v))) (fst (so3 (bump3 v axis t)))) (m3col (snd (so3 v)) axis).

(** std::array<uint8_t, 6>, and a rotation that is one. *)
Definition link_ok (l : link R) : Prop := length (active l) = 6%nat /\ unit_q (rotation (parent_T_child l)).

Lemma skipn_skipn_add : forall (A : Type) a b (l : list A), skipn a (skipn b l) = skipn (a + b) l.
Proof.
  intros A a b l. revert a l. induction b as [|b IH]; intros a l; [rewrite Nat.add_0_r; reflexivity|].
  destruct l as [|x l]; [rewrite !skipn_nil; reflexivity|]. rewrite Nat.add_succ_r. cbn [skipn]. apply IH.
Qed.

(** ** Counting *)
Lemma count_true_occ : forall m, count_true m = count_occ Bool.bool_dec m true.
Proof. induction m as [|[|] m IH]; cbn [count_true filter length count_occ]; [reflexivity| |].
  - destruct (Bool.bool_dec true true); [|congruence]. f_equal. exact IH.
  - destruct (Bool.bool_dec false true); [congruence|]. exact IH.
Qed.
Lemma ActiveCount_count : forall l, ActiveCount l = count l.
Proof. intro l. apply count_true_occ. Qed.
Lemma TotalActive_total : forall c, TotalActive c = total (links c).
Proof.
  intro c. unfold TotalActive.
  assert (G : forall ls n, fold_left (fun t l => (t + ActiveCount l)%nat) ls n = (n + total ls)%nat).
  { induction ls as [|l ls IH]; intro n; cbn [fold_left total]; [lia|]. rewrite IH, ActiveCount_count. lia. }
  apply (G (links c) 0%nat).
Qed.

Section Update.
  Variable so3 : vec3 R -> quat R * mat3 R.

  Definition six (l : link R) : Prop := length (active l) = 6%nat.

  Lemma six_inv : forall l, six l -> exists a b c d e f, active l = [a; b; c; d; e; f].
  Proof.
    intros l H. unfold six in H. destruct (active l) as [|a [|b [|c [|d [|e [|f [|]]]]]]]; cbn in H; try lia.
    exists a, b, c, d, e, f. reflexivity.
  Qed.

  Lemma substitute_fill : forall chk mask values params i, length mask = length values ->
    (i + count_true mask <= length params)%nat ->
    substitute chk mask values params i = Ok (fill mask values (skipn i params)).
  Proof.
    intros chk mask. induction mask as [|b mask IH]; intros values params i L H; destruct values as [|v values]; cbn [length] in L; try lia; cbn [substitute fill].
    - reflexivity.
    - destruct b.
      + assert (H1 : (i < length params)%nat) by (cbn [count_true filter length] in H; lia).
        assert (LT : (i <? length params)%nat = true) by (apply Nat.ltb_lt; exact H1). rewrite LT.
        assert (IH' : substitute chk mask values params (S i) = Ok (fill mask values (skipn (S i) params))).
        { apply IH; [lia|]. cbn [count_true filter length] in H. unfold count_true. lia. }
        assert (E : nth 0 (skipn i params) 0 = vget params i).
        { unfold vget. rewrite <- (firstn_skipn i params) at 2. rewrite app_nth2 by (rewrite firstn_length; lia).
          rewrite firstn_length, Nat.min_l, Nat.sub_diag by lia. reflexivity. }
        assert (E2 : skipn 1 (skipn i params) = skipn (S i) params) by (rewrite skipn_skipn_add; reflexivity).
        destruct chk; cbn [f_assert ub_unless bind]; rewrite IH'; cbn [bind]; rewrite E, E2; reflexivity.
      + rewrite IH; [reflexivity|lia|]. exact H.
  Qed.

  (** The rotation axes a link moves about, and translates along, as Update enumerates them. *)
  Definition rot_axes (l : link R) : list nat := filter (fun axis => nth axis (active l) false) [0; 1; 2]%nat.
  Definition trans_axes (l : link R) : list nat := filter (fun axis => nth (axis + 3) (active l) false) [0; 1; 2]%nat.
  Definition rot_cols (l : link R) (ps : list R) : list (vec3 R) := map (m3col (snd (so3 (angles l ps)))) (rot_axes l).

  Lemma axes_count : forall l, six l -> length (rot_axes l) = ActiveRotationCount l /\
    (ActiveRotationCount l + length (trans_axes l) = count l)%nat /\ (rotates l = negb (ActiveRotationCount l =? 0)%nat).
  Proof.
    intros l H. destruct (six_inv l H) as (a & b & c & d & e & f & E).
    unfold rot_axes, trans_axes, ActiveRotationCount, count, rotates. rewrite E.
    destruct a, b, c, d, e, f; repeat split; reflexivity.
  Qed.

  Lemma Compute_spec : forall l params pos, six l -> (pos + count l <= length params)%nat ->
    Compute so3 l params pos (ActiveRotationCount l) = Ok (link_pose so3 l (skipn pos params), rot_cols l (skipn pos params)).
  Proof.
    intros l params pos H L. unfold Compute. rewrite Nat.eqb_refl. cbn [f_assert bind].
    destruct (axes_count l H) as (A1 & A2 & A3). unfold link_pose. rewrite A3.
    assert (AC : count_true (active l) = count l) by (apply ActiveCount_count).
    destruct (ActiveRotationCount l =? 0)%nat eqn:Z; cbn [negb].
    - apply Nat.eqb_eq in Z. rewrite Z in A1. unfold rot_cols. destruct (rot_axes l) eqn:RA; [|cbn in A1; lia].
      assert (FF : firstn 3 (active l) = [false; false; false]).
      { destruct (six_inv l H) as (a & b & c & d & e & f & E). unfold rot_axes in RA. rewrite E in *. destruct a, b, c; cbn in RA; try discriminate. reflexivity. }
      assert (AE : active l = false :: false :: false :: skipn 3 (active l)) by (rewrite <- (firstn_skipn 3 (active l)) at 1; rewrite FF; reflexivity).
      rewrite substitute_fill.
      + cbn [bind map]. unfold offset. clear - AE. revert AE. generalize (skipn 3 (active l)). intros m AE. rewrite AE. reflexivity.
      + rewrite skipn_length. unfold six in H. rewrite H. reflexivity.
      + rewrite <- AC in L. rewrite AE in L. exact L.
    - rewrite substitute_fill.
      + cbn [bind]. change (of_v3 (rotation_xyz l) ++ of_v3 (translation (parent_T_child l))) with (own_values l).
        assert (LEN : length (fill (active l) (own_values l) (skipn pos params)) = 6%nat).
        { destruct (six_inv l H) as (a & b & c & d & e & f & E). rewrite E. destruct a, b, c, d, e, f; reflexivity. }
        unfold rot_cols, angles, offset. set (u := fill _ _ _) in *.
        destruct u as [|u0 [|u1 [|u2 [|u3 [|u4 [|u5 [|]]]]]]]; cbn in LEN; try lia. reflexivity.
      + unfold six in H. rewrite H. reflexivity.
      + rewrite AC. exact L.
  Qed.

  (** ** The Jacobian buffers between calls: the columns of translations in rotation_D_params_ stay zero. *)
  Fixpoint shape (ls : list (link R)) (m : list (vec3 R)) : Prop :=
    match ls with
    | [] => m = []
    | l :: ls' => exists a r, m = a ++ repeat v3zero (length (trans_axes l)) ++ r /\ length a = ActiveRotationCount l /\ shape ls' r
    end.

  Fixpoint rot_blocks (ls : list (link R)) (ps : list R) : list (vec3 R) :=
    match ls with
    | [] => []
    | l :: ls' => rot_cols l ps ++ repeat v3zero (length (trans_axes l)) ++ rot_blocks ls' (skipn (count l) ps)
    end.

  Lemma shape_length : forall ls m, Forall six ls -> shape ls m -> length m = total ls.
  Proof.
    induction ls as [|l ls IH]; intros m H S; cbn [shape total] in *.
    - subst m. reflexivity.
    - inversion H; subst. destruct S as (a & r & -> & L & S). rewrite !app_length, repeat_length, (IH r); auto.
      destruct (axes_count l H2) as (_ & A & _). lia.
  Qed.
  Lemma shape_zero : forall ls, Forall six ls -> shape ls (repeat v3zero (total ls)).
  Proof.
    intros ls H. induction H as [|l ls S H IH]; cbn [shape total]; [reflexivity|].
    exists (repeat v3zero (ActiveRotationCount l)), (repeat v3zero (total ls)).
    destruct (axes_count l S) as (_ & A & _). rewrite <- A, !repeat_app, <- app_assoc. repeat split; [apply repeat_length|exact IH].
  Qed.

  Lemma set_cols_mid : forall (done a cols r : list (vec3 R)), length a = length cols ->
    set_cols (length done) cols (done ++ a ++ r) = done ++ cols ++ r.
  Proof.
    intros done a cols r L. unfold set_cols.
    rewrite firstn_app, firstn_all, Nat.sub_diag. cbn [firstn]. rewrite app_nil_r. f_equal. f_equal.
    rewrite <- L. rewrite app_assoc, <- app_length. rewrite skipn_app, skipn_all, Nat.sub_diag. reflexivity.
  Qed.

  Lemma compute_links_spec : forall ls params poses done rest, Forall six ls -> shape ls rest ->
    (length done + total ls <= length params)%nat ->
    compute_links so3 ls (length done) params poses (done ++ rest)
    = ((poses ++ link_poses so3 ls (skipn (length done) params), done ++ rot_blocks ls (skipn (length done) params)), Ok tt).
  Proof.
    induction ls as [|l ls IH]; intros params poses done rest H S L; cbn [compute_links link_poses rot_blocks total shape] in *.
    - subst rest. rewrite !app_nil_r. reflexivity.
    - inversion H as [|x y H1 H2]; subst. destruct S as (a & r & -> & LA & S).
      destruct (axes_count l H1) as (A1 & A2 & A3).
      assert (LE : (length done + ActiveRotationCount l <=? length (done ++ a ++ repeat v3zero (length (trans_axes l)) ++ r))%nat = true).
      { apply Nat.leb_le. rewrite !app_length. lia. }
      rewrite LE. cbn [ub_unless bind]. rewrite Compute_spec by (auto; lia).
      rewrite set_cols_mid by (unfold rot_cols; rewrite map_length; lia).
      rewrite ActiveCount_count.
      set (cols := rot_cols l (skipn (length done) params)).
      set (z := repeat v3zero (length (trans_axes l))).
      assert (LC : (length cols = ActiveRotationCount l)%nat) by (unfold cols, rot_cols; rewrite map_length; exact A1).
      assert (ED : (length done + count l = length (done ++ cols ++ z))%nat).
      { rewrite !app_length. unfold z. rewrite repeat_length. lia. }
      rewrite ED. replace (done ++ cols ++ z ++ r) with ((done ++ cols ++ z) ++ r) by (rewrite <- !app_assoc; reflexivity).
      rewrite IH; [|exact H2|exact S|rewrite <- ED; lia].
      rewrite <- ED, Nat.add_comm, <- skipn_skipn_add. rewrite <- !app_assoc. reflexivity.
  Qed.

  Fixpoint out_rot (cb : chain_buffer R) (ls : list (link R)) (i : nat) (ps : list R) : list (vec3 R) :=
    match ls with
    | [] => []
    | l :: ls' => map (m3mulv (nth i (rotation_D_rotation cb) m3zero)) (rot_cols l ps) ++ repeat v3zero (length (trans_axes l))
                  ++ out_rot cb ls' (S i) (skipn (count l) ps)
    end.
  Fixpoint out_trans (cb : chain_buffer R) (ls : list (link R)) (i : nat) (ps : list R) : list (vec3 R) :=
    match ls with
    | [] => []
    | l :: ls' => map (m3mulv (nth i (translation_D_rotation cb) m3zero)) (rot_cols l ps)
                  ++ map (m3col (nth i (translation_D_translation cb) m3zero)) (trans_axes l)
                  ++ out_trans cb ls' (S i) (skipn (count l) ps)
    end.

  Lemma chain_rule_spec : forall cb ls i done doneT restT ps, Forall six ls -> length done = length doneT ->
    length restT = total ls ->
    chain_rule cb ls i (length done) (done ++ rot_blocks ls ps) (doneT ++ restT)
    = ((done ++ out_rot cb ls i ps, doneT ++ out_trans cb ls i ps), Ok tt).
  Proof.
    intros cb. induction ls as [|l ls IH]; intros i done doneT restT ps H LD LT; cbn [chain_rule rot_blocks out_rot out_trans total] in *.
    - destruct restT; [|cbn in LT; lia]. reflexivity.
    - inversion H as [|x y H1 H2]; subst. destruct (axes_count l H1) as (A1 & A2 & A3).
      rewrite ActiveCount_count.
      set (cols := rot_cols l ps) in *.
      assert (LC : (length cols = ActiveRotationCount l)%nat) by (unfold cols, rot_cols; rewrite map_length; exact A1).
      set (z := repeat v3zero (length (trans_axes l))).
      assert (LZ : length z = length (trans_axes l)) by apply repeat_length.
      destruct (count l =? 0)%nat eqn:Z.
      + apply Nat.eqb_eq in Z.
        assert (Ec : cols = []) by (apply length_zero_iff_nil; lia).
        assert (Et : trans_axes l = []) by (apply length_zero_iff_nil; lia).
        unfold z. rewrite Ec, Et. cbn [map repeat length app]. rewrite IH; [rewrite Z; reflexivity|exact H2|exact LD|lia].
      + assert (LR : (length (rot_blocks ls (skipn (count l) ps)) = total ls)%nat).
        { clear - H2. revert H2. generalize (skipn (count l) ps). induction ls as [|l' ls IH]; intros q H2; cbn [rot_blocks total]; [reflexivity|].
          inversion H2; subst. rewrite !app_length, IH, repeat_length by assumption. unfold rot_cols. rewrite map_length.
          destruct (axes_count l' H1) as (A1 & A2 & _). lia. }
        assert (LE : (length done + count l <=? length (done ++ cols ++ z ++ rot_blocks ls (skipn (count l) ps)))%nat = true).
        { apply Nat.leb_le. rewrite !app_length. lia. }
        assert (LE2 : (length done + count l <=? length (doneT ++ restT))%nat = true).
        { apply Nat.leb_le. rewrite app_length. lia. }
        rewrite LE, LE2. cbn [negb]. unfold chain_rule_link. cbn [fst snd].
        assert (EA : firstn (ActiveRotationCount l) (skipn (length done) (done ++ cols ++ z ++ rot_blocks ls (skipn (count l) ps))) = cols).
        { rewrite skipn_app, skipn_all, Nat.sub_diag. cbn [skipn app]. rewrite <- LC, firstn_app, firstn_all, Nat.sub_diag. cbn [firstn]. apply app_nil_r. }
        rewrite EA. clear EA.
        set (cR := map (m3mulv (nth i (rotation_D_rotation cb) m3zero)) cols).
        set (cT := map (m3mulv (nth i (translation_D_rotation cb) m3zero)) cols).
        change (filter (fun axis => nth (axis + 3) (active l) false) [0; 1; 2]%nat) with (trans_axes l).
        set (cS := map (m3col (nth i (translation_D_translation cb) m3zero)) (trans_axes l)).
        assert (LcR : length cR = length cols) by apply map_length.
        assert (LcT : length cT = length cols) by apply map_length.
        assert (LcS : length cS = length (trans_axes l)) by apply map_length.
        rewrite (set_cols_mid done cols cR) by lia.
        rewrite <- (firstn_skipn (length cols) restT), <- (firstn_skipn (length cS) (skipn (length cols) restT)), LD.
        rewrite (set_cols_mid doneT (firstn (length cols) restT) cT) by (rewrite firstn_length; lia).
        replace (length doneT + ActiveRotationCount l)%nat with (length (doneT ++ cT)) by (rewrite app_length; lia).
        rewrite (app_assoc doneT cT).
        rewrite (set_cols_mid (doneT ++ cT) (firstn (length cS) (skipn (length cols) restT)) cS)
          by (rewrite firstn_length, skipn_length; lia).
        replace (length doneT + count l)%nat with (length (done ++ cR ++ z)) by (rewrite !app_length; lia).
        replace (done ++ cR ++ z ++ rot_blocks ls (skipn (count l) ps)) with ((done ++ cR ++ z) ++ rot_blocks ls (skipn (count l) ps))
          by (rewrite <- !app_assoc; reflexivity).
        replace ((doneT ++ cT) ++ cS ++ skipn (length cS) (skipn (length cols) restT))
          with ((doneT ++ cT ++ cS) ++ skipn (length cS) (skipn (length cols) restT)) by (rewrite <- !app_assoc; reflexivity).
        rewrite IH; [|exact H2|rewrite !app_length; lia|rewrite !skipn_length; lia].
        rewrite <- !app_assoc. reflexivity.
  Qed.

  (** The state Update leaves when it computes. *)
  Definition computed (ls : list (link R)) (params : list R) : chain R :=
    let cb := ComputeChain (link_poses so3 ls params) in
    MkChain ls (link_poses so3 ls params) (out_rot cb ls 0 params) (out_trans cb ls 0 params) cb params.

  Lemma link_poses_length : forall ls ps, length (link_poses so3 ls ps) = length ls.
  Proof. induction ls as [|l ls IH]; intro ps; cbn [link_poses length]; auto. Qed.

  Lemma out_trans_length : forall cb ls i ps, Forall six ls -> length (out_trans cb ls i ps) = total ls.
  Proof.
    intros cb. induction ls as [|l ls IH]; intros i ps H; cbn [out_trans total]; [reflexivity|].
    inversion H; subst. destruct (axes_count l H2) as (A1 & A2 & _). rewrite !app_length, IH by assumption. unfold rot_cols. rewrite !map_length. lia.
  Qed.
  Lemma out_rot_shape : forall cb ls i ps, Forall six ls -> shape ls (out_rot cb ls i ps).
  Proof.
    intros cb. induction ls as [|l ls IH]; intros i ps H; cbn [out_rot shape]; [reflexivity|].
    inversion H; subst. destruct (axes_count l H2) as (A1 & A2 & _).
    eexists _, _. split; [reflexivity|]. split; [unfold rot_cols; rewrite !map_length; exact A1|]. apply IH; assumption.
  Qed.

  Lemma compute_step : forall c params, Forall six (links c) -> ShouldUpdate c params = true ->
    length params = total (links c) -> (0 < total (links c))%nat ->
    (translation_D_params c = [] /\ rotation_D_params c = []) \/
    (length (translation_D_params c) = total (links c) /\ shape (links c) (rotation_D_params c)) ->
    Update so3 c params = (computed (links c) params, Ok tt).
  Proof.
    intros c params H SU L POS INV. unfold Update. rewrite SU. cbn [negb].
    assert (K : forall rotD transD, shape (links c) rotD -> length transD = total (links c) ->
       match compute_links so3 (links c) 0 params [] rotD with ((ps, rD), o) =>
         ps = link_poses so3 (links c) params /\ o = Ok tt /\ forall cb, chain_rule cb (links c) 0 0 rD transD = ((out_rot cb (links c) 0 params, out_trans cb (links c) 0 params), Ok tt) end).
    { intros rotD transD S LT. generalize (compute_links_spec (links c) params [] [] rotD H S). cbn [length app]. intro E. rewrite E by lia.
      cbn [skipn]. split; [reflexivity|]. split; [reflexivity|]. intro cb.
      apply (chain_rule_spec cb (links c) 0 [] [] transD params H); auto. }
    assert (OV : forall resized : list (pose R), length resized = length (links c) ->
      link_poses so3 (links c) params ++ skipn (length (link_poses so3 (links c) params)) resized = link_poses so3 (links c) params).
    { intros rs LR. rewrite link_poses_length, <- LR, skipn_all. apply app_nil_r. }
    assert (RS : length (firstn (length (links c)) (pose_buffer c ++ repeat pose_id (length (links c)))) = length (links c)).
    { rewrite firstn_length, app_length, repeat_length. lia. }
    rewrite TotalActive_total.
    assert (G : exists rotD transD, shape (links c) rotD /\ length transD = total (links c) /\
      (if (length (translation_D_params c) =? 0)%nat
       then if (length params =? total (links c))%nat then Some (repeat v3zero (total (links c)), repeat v3zero (total (links c))) else None
       else Some (rotation_D_params c, translation_D_params c)) = Some (rotD, transD)).
    { destruct INV as [[E1 E2]|[E1 E2]].
      - rewrite E1. cbn [length Nat.eqb]. rewrite L, Nat.eqb_refl. eexists _, _. split; [|split; [|reflexivity]].
        + apply shape_zero; exact H.
        + apply repeat_length.
      - rewrite E1. replace (total (links c) =? 0)%nat with false by (symmetry; apply Nat.eqb_neq; lia).
        eexists _, _. split; [exact E2|]. split; [exact E1|reflexivity]. }
    destruct G as (rotD & transD & S & LT & ->).
    rewrite L, (shape_length (links c) rotD H S), Nat.eqb_refl. cbn [negb].
    specialize (K rotD transD S LT). destruct (compute_links so3 (links c) 0 params [] rotD) as [[ps rD] o].
    destruct K as (-> & -> & K). cbn [fst snd]. rewrite OV by exact RS. rewrite K. reflexivity.
  Qed.

  (** ** One parameter *)
  Ltac cell ps := destruct ps as [|? ps]; [cbn [length] in *; lia|].

  Lemma link_bump : forall l ps j, six l -> (count l <= length ps)%nat -> (j < count l)%nat ->
    ((j < ActiveRotationCount l)%nat /\ rotates l = true /\ exists axis, (axis < 3)%nat /\ nth_error (rot_axes l) j = Some axis /\
       forall t, angles l (bump ps j t) = bump3 (angles l ps) axis t /\ offset l (bump ps j t) = offset l ps) \/
    ((ActiveRotationCount l <= j)%nat /\ exists axis, (axis < 3)%nat /\ nth_error (trans_axes l) (j - ActiveRotationCount l) = Some axis /\
       forall t, (rotates l = true -> angles l (bump ps j t) = angles l ps) /\ offset l (bump ps j t) = bump3 (offset l ps) axis t).
  Proof.
    intros l ps j H L J. destruct (six_inv l H) as (a & b & c & d & e & f & E).
    unfold rotates, ActiveRotationCount, count, rot_axes, trans_axes, angles, offset in *. rewrite E in *. clear E.
    destruct (own_values l) as [|v0 [|v1 [|v2 [|v3 [|v4 [|v5 []]]]]]] eqn:OV; try discriminate OV. clear OV H.
    destruct a, b, c, d, e, f; cbn in L, J;
      (let rec split_ps n := match n with O => idtac | S ?m => match type of L with (S _ <= _)%nat => cell ps; cbn [length] in L; apply le_S_n in L; split_ps m | _ => idtac end end in split_ps 6%nat);
      (let rec split_j n := match n with O => exfalso; lia | S ?m => destruct j as [|j]; [|split_j m] end in split_j 6%nat);
      try (exfalso; lia);
      cbn [count_true filter firstn length nth nth_error Nat.sub Nat.add orb fill];
      first [ left; split; [lia|]; split; [reflexivity|]; first [exists 0%nat; split; [lia|]; split; [reflexivity|]; intro t; split; reflexivity
                   | exists 1%nat; split; [lia|]; split; [reflexivity|]; intro t; split; reflexivity
                   | exists 2%nat; split; [lia|]; split; [reflexivity|]; intro t; split; reflexivity ]
            | right; split; [lia|]; first [exists 0%nat; split; [lia|]; split; [reflexivity|]; intro t; split; reflexivity
                   | exists 1%nat; split; [lia|]; split; [reflexivity|]; intro t; split; reflexivity
                   | exists 2%nat; split; [lia|]; split; [reflexivity|]; intro t; split; reflexivity ] ].
  Qed.
End Update.
