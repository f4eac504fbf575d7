(** C73, C74: the Jacobians of ActuatorChain, and the history of its cache. Over the reals. *)
From Coq Require Import String List Bool Arith QArith Reals Qreals Lra Lia.
From Verif Require Import Scalar Outcome LinAlg RInst Chains ChainProps ChainDeriv ChainUpdate.
Import ListNotations.
Local Open Scope list_scope.
Local Open Scope R_scope.

Section Update.
  Variable so3 : vec3 R -> quat R * mat3 R.

  Lemma fill_firstn : forall m o p k, (count_true m <= k)%nat -> fill m o (firstn k p) = fill m o p.
  Proof.
    induction m as [|b m IH]; intros o p k H; [reflexivity|]. destruct o as [|v o]; [destruct b; reflexivity|]. destruct b; cbn [fill].
    - cbn [count_true filter length] in H. destruct k as [|k]; [lia|]. destruct p as [|x p]; [reflexivity|]. cbn [firstn nth skipn].
      f_equal. apply IH. unfold count_true. lia.
    - f_equal. apply IH. exact H.
  Qed.
  Lemma link_pose_firstn : forall l p k, (count l <= k)%nat -> link_pose so3 l (firstn k p) = link_pose so3 l p.
  Proof.
    intros l p k H. unfold link_pose, angles, offset. rewrite <- ActiveCount_count in H. rewrite fill_firstn by exact H. reflexivity.
  Qed.
  Lemma link_poses_firstn : forall ls p k, (total ls <= k)%nat -> link_poses so3 ls (firstn k p) = link_poses so3 ls p.
  Proof.
    induction ls as [|l ls IH]; intros p k H; [reflexivity|]. cbn [link_poses total] in *.
    rewrite link_pose_firstn by lia. f_equal. rewrite skipn_firstn_comm. apply IH. lia.
  Qed.
  Lemma link_poses_app : forall a l b p, link_poses so3 (a ++ l :: b) p
    = link_poses so3 a p ++ link_pose so3 l (skipn (total a) p) :: link_poses so3 b (skipn (total a + count l) p).
  Proof.
    induction a as [|x a IH]; intros l b p; cbn [app link_poses total]; [reflexivity|].
    rewrite IH, !skipn_skipn_add. replace (total a + count l + count x)%nat with (count x + total a + count l)%nat by lia.
    replace (total a + count x)%nat with (count x + total a)%nat by lia. reflexivity.
  Qed.
  Lemma total_app : forall a b, total (a ++ b) = (total a + total b)%nat.
  Proof. induction a as [|l a IH]; intro b; cbn [app total]; [reflexivity|]. rewrite IH. lia. Qed.

  Lemma bump_length : forall p k t, (k < length p)%nat -> length (bump p k t) = length p.
  Proof. intros p k t H. unfold bump. rewrite app_length, firstn_length. cbn [length]. rewrite skipn_length. lia. Qed.
  Lemma bump_firstn : forall p k t n, (n <= k)%nat -> (k < length p)%nat -> firstn n (bump p k t) = firstn n p.
  Proof.
    intros p k t n H L. unfold bump. rewrite firstn_app, firstn_length, firstn_firstn, Nat.min_l by lia.
    replace (n - Nat.min k (length p))%nat with 0%nat by lia. cbn [firstn]. apply app_nil_r.
  Qed.
  Lemma bump_skipn : forall p a j t, (a + j < length p)%nat -> skipn a (bump p (a + j) t) = bump (skipn a p) j t.
  Proof.
    intros p a j t H. unfold bump. rewrite skipn_app, firstn_length, Nat.min_l by lia.
    replace (a - (a + j))%nat with 0%nat by lia. rewrite skipn_O. f_equal.
    - rewrite firstn_skipn_comm. reflexivity.
    - assert (E1 : nth (a + j) p 0 = nth j (skipn a p) 0).
      { rewrite <- (firstn_skipn a p) at 1. rewrite app_nth2 by (rewrite firstn_length; lia).
        rewrite firstn_length, Nat.min_l by lia. replace (a + j - a)%nat with j by lia. reflexivity. }
      assert (E2 : skipn (S (a + j)) p = skipn (S j) (skipn a p)) by (rewrite skipn_skipn_add; f_equal; lia).
      rewrite E1, E2. reflexivity.
  Qed.
  Lemma bump_skipn_past : forall p k t n, (k < n)%nat -> (k < length p)%nat -> skipn n (bump p k t) = skipn n p.
  Proof.
    intros p k t n H L. unfold bump. rewrite skipn_app, firstn_length, Nat.min_l by lia.
    rewrite skipn_all2 by (rewrite firstn_length; lia). cbn [app].
    replace (n - k)%nat with (S (n - S k)) by lia. rewrite skipn_cons. rewrite skipn_skipn_add. f_equal. lia.
  Qed.

  Lemma which_link : forall ls k, (k < total ls)%nat -> exists a l b j, ls = a ++ l :: b /\ k = (total a + j)%nat /\ (j < count l)%nat.
  Proof.
    induction ls as [|l ls IH]; intros k H; cbn [total] in H; [lia|].
    destruct (lt_dec k (count l)) as [C|C].
    - exists [], l, ls, k. auto.
    - destruct (IH (k - count l)%nat) as (a & x & b & j & -> & E & J); [lia|].
      exists (l :: a), x, b, j. cbn [app total]. repeat split; [lia|exact J].
  Qed.

  Lemma out_trans_app : forall cb a b i p, out_trans so3 cb (a ++ b) i p
    = out_trans so3 cb a i p ++ out_trans so3 cb b (length a + i) (skipn (total a) p).
  Proof.
    intros cb. induction a as [|l a IH]; intros b i p; cbn [app out_trans total length]; [reflexivity|].
    rewrite IH, skipn_skipn_add, <- !app_assoc. replace (total a + count l)%nat with (count l + total a)%nat by lia.
    replace (S (length a) + i)%nat with (length a + S i)%nat by lia. reflexivity.
  Qed.
  Lemma out_rot_app : forall cb a b i p, out_rot so3 cb (a ++ b) i p
    = out_rot so3 cb a i p ++ out_rot so3 cb b (length a + i) (skipn (total a) p).
  Proof.
    intros cb. induction a as [|l a IH]; intros b i p; cbn [app out_rot total length]; [reflexivity|].
    rewrite IH, skipn_skipn_add, <- !app_assoc. replace (total a + count l)%nat with (count l + total a)%nat by lia.
    replace (S (length a) + i)%nat with (length a + S i)%nat by lia. reflexivity.
  Qed.
  Lemma out_rot_length : forall cb ls i ps, Forall six ls -> length (out_rot so3 cb ls i ps) = total ls.
  Proof. intros. apply shape_length; [assumption|]. apply out_rot_shape. assumption. Qed.

  Hypothesis SO3 : euler_contract so3.

  Lemma link_pose_unit : forall l p, link_ok l -> unit_pose (link_pose so3 l p).
  Proof. intros l p [_ U]. unfold unit_pose, link_pose. cbn [rotation]. destruct (rotates l); [apply SO3|exact U]. Qed.
  Lemma link_poses_unit : forall ls p, Forall link_ok ls -> Forall unit_pose (link_poses so3 ls p).
  Proof.
    induction ls as [|l ls IH]; intros p H; cbn [link_poses]; constructor; inversion H; subst.
    - apply link_pose_unit; assumption.
    - apply IH; assumption.
  Qed.

  Lemma tangent_ext : forall c c' w, (forall t, c t = c' t) -> tangent c w -> tangent c' w.
  Proof.
    intros c c' w E (A0 & A1 & A2 & A3 & A4). unfold tangent. rewrite <- E. split; [exact A0|].
    repeat split; (eapply d1_ext; [intro t; rewrite <- E; reflexivity|]); assumption.
  Qed.
  Lemma tangent_const : tangent (fun _ => qid) v3zero.
  Proof.
    assert (Z : forall k, d1 (fun _ => k) (0 / 2)) by (intro k; eapply d1_val; [apply d1_const|field]).
    unfold tangent. split; [reflexivity|]. cbn [qid v3zero vx vy vz qw qx qy qz]. split; [apply d1_const|].
    cbn [f0 R_ops]. repeat split; apply Z.
  Qed.
  Lemma nth_of_error : forall (A B : Type) (g : A -> B) (l : list A) j x d, nth_error l j = Some x -> nth j (map g l) d = g x.
  Proof.
    intros A B g l j x d H. apply nth_error_nth. rewrite nth_error_map, H. reflexivity.
  Qed.

  Lemma jacobian_columns : forall ls p k, Forall link_ok ls -> length p = total ls -> (k < total ls)%nat ->
    let cb := ComputeChain (link_poses so3 ls p) in
    d3 (fun t => translation (effector so3 ls (bump p k t))) (nth k (out_trans so3 cb ls 0 p) v3zero) /\
    tangent (fun t => qmul (qconj (rotation (effector so3 ls p))) (rotation (effector so3 ls (bump p k t))))
            (nth k (out_rot so3 cb ls 0 p) v3zero).
  Proof.
    intros ls p k H L K cb. destruct (which_link ls k K) as (a & l & b & j & E & Ek & J).
    subst ls. rewrite total_app in L, K. cbn [total] in L, K.
    assert (H' := H). apply Forall_app in H'. destruct H' as [HA HB]. inversion HB as [|x y HL HB']; subst x y.
    set (ps := skipn (total a) p).
    assert (Lps : (count l <= length ps)%nat) by (unfold ps; rewrite skipn_length; lia).
    assert (S6 : Forall six a) by (eapply Forall_impl; [|exact HA]; intros x [X _]; exact X).
    set (A := link_poses so3 a p). set (B := link_poses so3 b (skipn (total a + count l) p)).
    assert (EP : forall t, link_poses so3 (a ++ l :: b) (bump p k t) = A ++ link_pose so3 l (bump ps j t) :: B).
    { intro t. rewrite link_poses_app. rewrite Ek. rewrite bump_skipn by lia. rewrite bump_skipn_past by lia.
      rewrite <- (link_poses_firstn a (bump p (total a + j) t) (total a)) by lia. rewrite bump_firstn by lia.
      rewrite link_poses_firstn by lia. reflexivity. }
    assert (EP0 : link_poses so3 (a ++ l :: b) p = A ++ link_pose so3 l ps :: B) by apply link_poses_app.
    assert (UP : Forall unit_pose (A ++ link_pose so3 l ps :: B)) by (rewrite <- EP0; apply link_poses_unit; exact H).
    assert (LA : length A = length a) by apply link_poses_length.
    destruct (axes_count l (proj1 HL)) as (C1 & C2 & C3).
    destruct (C72_derivatives A (link_pose so3 l ps) B UP) as [DT DR]. rewrite <- EP0 in DT, DR. fold cb in DT, DR. rewrite LA in DT, DR.
    assert (NT : nth k (out_trans so3 cb (a ++ l :: b) 0 p) v3zero
       = nth j (map (m3mulv (nth (length a) (translation_D_rotation cb) m3zero)) (rot_cols so3 l ps)
                ++ map (m3col (nth (length a) (translation_D_translation cb) m3zero)) (trans_axes l)) v3zero).
    { rewrite out_trans_app, app_nth2; rewrite out_trans_length by exact S6; [|lia].
      rewrite Ek, Nat.add_comm, Nat.add_sub, Nat.add_0_r. cbn [out_trans]. fold ps. rewrite app_assoc. apply app_nth1.
      rewrite app_length, !map_length. unfold rot_cols. rewrite map_length. lia. }
    assert (NR : nth k (out_rot so3 cb (a ++ l :: b) 0 p) v3zero
       = nth j (map (m3mulv (nth (length a) (rotation_D_rotation cb) m3zero)) (rot_cols so3 l ps)
                ++ repeat v3zero (length (trans_axes l))) v3zero).
    { rewrite out_rot_app, app_nth2; rewrite out_rot_length by exact S6; [|lia].
      rewrite Ek, Nat.add_comm, Nat.add_sub, Nat.add_0_r. cbn [out_rot]. fold ps. rewrite app_assoc. apply app_nth1.
      rewrite app_length, repeat_length, !map_length. unfold rot_cols. rewrite map_length. lia. }
    rewrite NT, NR. unfold effector. rewrite EP0.
    assert (LRC : length (rot_cols so3 l ps) = ActiveRotationCount l) by (unfold rot_cols; rewrite map_length; exact C1).
    destruct (link_bump l ps j (proj1 HL) Lps J) as [(JR & RT & axis & AX & NE & BT)|(JR & axis & AX & NE & BT)].
    - (* an angle *)
      set (q0 := fst (so3 (angles l ps))).
      destruct (SO3 (angles l ps)) as [U0 TG]. specialize (TG axis AX). fold q0 in U0, TG.
      set (curve := fun t => qmul (qconj q0) (fst (so3 (bump3 (angles l ps) axis t)))).
      assert (UC : forall t, unit_q (curve t)).
      { intro t. apply unit_qmul; [apply unit_qconj; exact U0|]. apply SO3. }
      assert (LP : forall t, link_pose so3 l (bump ps j t)
         = Pose (qmul (rotation (link_pose so3 l ps)) (curve t)) (translation (link_pose so3 l ps))).
      { intro t. destruct (BT t) as [BA BO]. unfold link_pose. rewrite RT, BA, BO. cbn [rotation translation]. f_equal.
        fold q0. unfold curve. rewrite <- qmul_assoc, (qmul_conj_r q0 U0), qmul_id_l. reflexivity. }
      destruct (DR curve _ UC TG) as [D1 D2]. split.
      + rewrite app_nth1 by (rewrite map_length; lia). unfold rot_cols. rewrite map_map.
        rewrite (nth_of_error _ _ _ _ _ _ _ NE).
        eapply d3_ext; [|exact D1]. intro t. cbv beta. rewrite EP, LP. reflexivity.
      + rewrite app_nth1 by (rewrite map_length; lia). unfold rot_cols. rewrite map_map.
        rewrite (nth_of_error _ _ _ _ _ _ _ NE).
        eapply tangent_ext; [|exact D2]. intro t. cbv beta. rewrite EP, LP. rewrite EP0. reflexivity.
    - (* a translation *)
      set (ex := fun t => match axis with 0%nat => V3 t 0 0 | 1%nat => V3 0 t 0 | _ => V3 0 0 t end).
      assert (LP : forall t, link_pose so3 l (bump ps j t)
         = Pose (rotation (link_pose so3 l ps)) (v3add (translation (link_pose so3 l ps)) (ex t))).
      { intro t. destruct (BT t) as [BA BO]. unfold link_pose. rewrite BO. cbn [rotation translation]. f_equal.
        - destruct (rotates l); [|reflexivity]. rewrite BA by reflexivity. reflexivity.
        - unfold ex. destruct axis as [|[|[|]]]; [| | |lia]; apply v3_eq; cbn [bump3 v3add vx vy vz fadd R_ops]; ring. }
      split.
      + rewrite app_nth2 by (rewrite map_length; lia). rewrite map_length, LRC.
        rewrite (nth_of_error _ _ _ _ _ _ _ NE).
        eapply d3_ext; [intro t; rewrite EP, LP, DT; cbn [translation]; reflexivity|].
        set (M := nth (length a) (translation_D_translation cb) m3zero).
        rewrite <- (v3add_0_l (m3col M axis)). apply d3_add; [apply d3_const|].
        unfold ex. destruct axis as [|[|[|]]]; [| | |lia]; unfold d3; q_unfold; cbn [m3col];
          repeat split; (eapply d1_val; [der|]); cbv beta; ring.
      + rewrite app_nth2 by (rewrite map_length; lia). rewrite nth_repeat.
        eapply tangent_ext; [|exact tangent_const]. intro t. cbv beta. rewrite EP, LP, DT. cbn [rotation].
        rewrite EP0. symmetry. apply qmul_conj_l. apply product_unit. exact UP.
  Qed.
End Update.

(** C73: the first Update of a chain. With as many parameters as the links have active coordinates it returns normally; the
    chain's translation and rotation are those of the effector, column k of translation_D_params is the derivative of the
    effector's translation with respect to parameter k, and column k of rotation_D_params the derivative of its rotation, in
    the right tangent space. *)
Theorem C73_first_update : forall so3 ls params, euler_contract so3 -> Forall link_ok ls ->
  (0 < total ls)%nat -> length params = total ls ->
  exists c, Update so3 (new_chain ls) params = (c, Ok tt) /\
    chain_translation c = Ok (translation (effector so3 ls params)) /\
    chain_rotation c = Ok (rotation (effector so3 ls params)) /\
    pose_buffer c = link_poses so3 ls params /\
    length (translation_D_params c) = total ls /\ length (rotation_D_params c) = total ls /\
    forall k, (k < total ls)%nat ->
      d3 (fun t => translation (effector so3 ls (bump params k t))) (nth k (translation_D_params c) v3zero) /\
      tangent (fun t => qmul (qconj (rotation (effector so3 ls params))) (rotation (effector so3 ls (bump params k t))))
              (nth k (rotation_D_params c) v3zero).
Proof.
  intros so3 ls params SO3 H POS L.
  assert (S6 : Forall six ls) by (eapply Forall_impl; [|exact H]; intros x [X _]; exact X).
  exists (computed so3 ls params). split; [|split; [|split; [|split; [|split; [|split]]]]].
  - apply (compute_step so3 (new_chain ls) params S6); [|exact L|exact POS|left; split; reflexivity].
    unfold ShouldUpdate. cbn [params_cached new_chain length]. rewrite L. destruct (total ls); [lia|reflexivity].
  - unfold chain_translation, computed. cbn [buffer].
    destruct ls as [|l ls]; [cbn in POS; lia|]. cbn [link_poses].
    destruct (C71_composition (link_pose so3 l params :: link_poses so3 ls (skipn (count l) params))) as (_ & _ & N & _); [discriminate|].
    specialize (N 0%nat (Nat.le_0_l _)). cbn [skipn] in N. unfold effector. cbn [link_poses]. rewrite <- N. reflexivity.
  - unfold chain_rotation, computed. cbn [buffer].
    destruct ls as [|l ls]; [cbn in POS; lia|]. cbn [link_poses].
    destruct (C71_composition (link_pose so3 l params :: link_poses so3 ls (skipn (count l) params))) as (_ & _ & N & _); [discriminate|].
    specialize (N 0%nat (Nat.le_0_l _)). cbn [skipn] in N. unfold effector. cbn [link_poses]. rewrite <- N. reflexivity.
  - reflexivity.
  - apply out_trans_length. exact S6.
  - apply out_rot_length. exact S6.
  - intros k K. apply (jacobian_columns so3 SO3 ls params k H L K).
Qed.
