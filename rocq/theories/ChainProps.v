(** C70, C71: pose algebra and chains of poses, over the reals. *)
From Coq Require Import String List Bool Arith QArith Reals Qreals Lra Lia.
From Verif Require Import Scalar Outcome LinAlg RInst Chains.
Import ListNotations.
Local Open Scope list_scope.
Local Open Scope R_scope.

(** A unit quaternion, i.e. one that represents a rotation. *)
Definition unit_q (q : quat R) : Prop := qw q * qw q + qx q * qx q + qy q * qy q + qz q * qz q = 1.
Definition unit_pose (a : pose R) : Prop := unit_q (rotation a).

Lemma R_two : flit lit_2 = 2. Proof. cbn. unfold lit_2, Q2R. cbn. lra. Qed.

Ltac vsimp := cbn [fadd fsub fmul fneg fdiv f0 f1 R_ops vx vy vz qw qx qy qz mc0 mc1 mc2 rotation translation] in *.
Ltac q_unfold := unfold m3mul, m3id, m3zero, skew3, m3mulv, qmul, qconj, qrot, qvec, v3add, v3neg, v3scale, v3cross, v3zero, qid in *; cbv zeta in *; vsimp.

Lemma v3_eq : forall (u v : vec3 R), vx u = vx v -> vy u = vy v -> vz u = vz v -> u = v.
Proof. intros [a b c] [a' b' c']; cbn; intros -> -> ->; reflexivity. Qed.
Lemma q_eq : forall (u v : quat R), qw u = qw v -> qx u = qx v -> qy u = qy v -> qz u = qz v -> u = v.
Proof. intros [a b c d] [a' b' c' d']; cbn; intros -> -> -> ->; reflexivity. Qed.
Lemma pose_eq : forall (u v : pose R), rotation u = rotation v -> translation u = translation v -> u = v.
Proof. intros [a b] [a' b']; cbn; intros -> ->; reflexivity. Qed.

(** ** Quaternions *)
Lemma qmul_assoc : forall a b c : quat R, qmul (qmul a b) c = qmul a (qmul b c).
Proof. intros [a0 a1 a2 a3] [b0 b1 b2 b3] [c0 c1 c2 c3]. apply q_eq; q_unfold; ring. Qed.
Lemma qmul_id_l : forall a : quat R, qmul qid a = a.
Proof. intros [a0 a1 a2 a3]. apply q_eq; q_unfold; ring. Qed.
Lemma qmul_id_r : forall a : quat R, qmul a qid = a.
Proof. intros [a0 a1 a2 a3]. apply q_eq; q_unfold; ring. Qed.
Lemma unit_qid : unit_q qid. Proof. unfold unit_q, qid; vsimp; ring. Qed.
Lemma unit_qmul : forall a b, unit_q a -> unit_q b -> unit_q (qmul a b).
Proof.
  intros [a0 a1 a2 a3] [b0 b1 b2 b3] A B. unfold unit_q in *. q_unfold.
  transitivity ((a0 * a0 + a1 * a1 + a2 * a2 + a3 * a3) * (b0 * b0 + b1 * b1 + b2 * b2 + b3 * b3)); [ring|]. rewrite A, B. ring.
Qed.
Lemma unit_qconj : forall a, unit_q a -> unit_q (qconj a).
Proof. intros [a0 a1 a2 a3] A. unfold unit_q in *. q_unfold. lra. Qed.
Lemma qmul_conj_l : forall a, unit_q a -> qmul (qconj a) a = qid.
Proof. intros [a0 a1 a2 a3] A. unfold unit_q in A. apply q_eq; q_unfold; lra. Qed.
Lemma qmul_conj_r : forall a, unit_q a -> qmul a (qconj a) = qid.
Proof. intros [a0 a1 a2 a3] A. unfold unit_q in A. apply q_eq; q_unfold; lra. Qed.
Lemma qconj_qmul : forall a b : quat R, qconj (qmul a b) = qmul (qconj b) (qconj a).
Proof. intros [a0 a1 a2 a3] [b0 b1 b2 b3]. apply q_eq; q_unfold; ring. Qed.
Lemma qinverse_unit : forall a, unit_q a -> qinverse a = qconj a.
Proof.
  intros [a0 a1 a2 a3] A. unfold unit_q in A. vsimp. unfold qinverse, qsqnorm. vsimp.
  replace (a1 * a1 + a2 * a2 + a3 * a3 + a0 * a0) with 1 by lra.
  replace (fgtb 1 0) with true.
  2: { unfold fgtb. cbn. destruct (Rltb_spec 0 1); [reflexivity|lra]. }
  apply q_eq; q_unfold; field.
Qed.

Lemma qrot_id : forall v, qrot qid v = v.
Proof. intros [x y z]. apply v3_eq; q_unfold; ring. Qed.
(** q v q* *)
Definition qact (q : quat R) (v : vec3 R) : vec3 R :=
  qvec (qmul (qmul q (Quat 0 (vx v) (vy v) (vz v))) (qconj q)).
Lemma qrot_qact : forall q v, unit_q q -> qrot q v = qact q v.
Proof.
  intros [a b c d] [x y z] U. unfold unit_q in U. vsimp. unfold qact.
  apply v3_eq; q_unfold.
  - transitivity (a * a * x + b * b * x - c * c * x - d * d * x - 2 * a * d * y + 2 * b * c * y + 2 * a * c * z + 2 * b * d * z
       + (1 - (a * a + b * b + c * c + d * d)) * x); [ring|rewrite U; ring].
  - transitivity (a * a * y - b * b * y + c * c * y - d * d * y + 2 * a * d * x + 2 * b * c * x - 2 * a * b * z + 2 * c * d * z
       + (1 - (a * a + b * b + c * c + d * d)) * y); [ring|rewrite U; ring].
  - transitivity (a * a * z - b * b * z - c * c * z + d * d * z - 2 * a * c * x + 2 * b * d * x + 2 * a * b * y + 2 * c * d * y
       + (1 - (a * a + b * b + c * c + d * d)) * z); [ring|rewrite U; ring].
Qed.
Lemma qact_pure : forall q v, qmul (qmul q (Quat 0 (vx v) (vy v) (vz v))) (qconj q)
  = Quat 0 (vx (qact q v)) (vy (qact q v)) (vz (qact q v)).
Proof. intros [a b c d] [x y z]. apply q_eq; [|reflexivity|reflexivity|reflexivity]. q_unfold. ring. Qed.
Lemma qact_qmul : forall a b v, qact (qmul a b) v = qact a (qact b v).
Proof.
  intros a b v. unfold qact at 1 2. rewrite <- qact_pure, qconj_qmul, !qmul_assoc. reflexivity.
Qed.
Lemma qrot_qmul : forall a b v, unit_q a -> unit_q b -> qrot (qmul a b) v = qrot a (qrot b v).
Proof. intros a b v A B. rewrite !qrot_qact by auto using unit_qmul. apply qact_qmul. Qed.
Lemma qrot_add : forall q u v, qrot q (v3add u v) = v3add (qrot q u) (qrot q v).
Proof. intros [a b c d] [x y z] [x' y' z']. apply v3_eq; q_unfold; ring. Qed.
Lemma qrot_scale : forall q k v, qrot q (v3scale k v) = v3scale k (qrot q v).
Proof. intros [a b c d] k [x y z]. apply v3_eq; q_unfold; ring. Qed.
Lemma qrot_neg : forall q v, qrot q (v3neg v) = v3neg (qrot q v).
Proof. intros [a b c d] [x y z]. apply v3_eq; q_unfold; ring. Qed.
Lemma qrot_zero : forall q, qrot q v3zero = v3zero.
Proof. intros [a b c d]. apply v3_eq; q_unfold; ring. Qed.
Lemma qmatrix_rot : forall q v, m3mulv (qmatrix q) v = qrot q v.
Proof. intros [a b c d] [x y z]. unfold qmatrix. rewrite R_two. apply v3_eq; q_unfold; ring. Qed.
Lemma m3mulv_m3mul : forall (m n : mat3 R) v, m3mulv (m3mul m n) v = m3mulv m (m3mulv n v).
Proof.
  intros [[a b c] [d e f] [g h i]] [[a' b' c'] [d' e' f'] [g' h' i']] [x y z]. apply v3_eq; q_unfold; ring.
Qed.
Lemma skew_cross : forall u v : vec3 R, m3mulv (skew3 u) v = v3cross u v.
Proof. intros [a b c] [x y z]. apply v3_eq; q_unfold; ring. Qed.
Lemma m3id_mulv : forall v : vec3 R, m3mulv m3id v = v.
Proof. intros [x y z]. apply v3_eq; q_unfold; ring. Qed.
Lemma m3zero_mulv : forall v : vec3 R, m3mulv m3zero v = v3zero.
Proof. intros [x y z]. apply v3_eq; q_unfold; ring. Qed.

(** ** C70: poses form a group that acts on points *)
Lemma v3add_assoc : forall u v w : vec3 R, v3add (v3add u v) w = v3add u (v3add v w).
Proof. intros [a b c] [x y z] [x' y' z']. apply v3_eq; q_unfold; ring. Qed.
Lemma v3add_comm : forall u v : vec3 R, v3add u v = v3add v u.
Proof. intros [a b c] [x y z]. apply v3_eq; q_unfold; ring. Qed.
Lemma v3add_0_l : forall u : vec3 R, v3add v3zero u = u.
Proof. intros [a b c]. apply v3_eq; q_unfold; ring. Qed.
Lemma v3add_0_r : forall u : vec3 R, v3add u v3zero = u.
Proof. intros [a b c]. apply v3_eq; q_unfold; ring. Qed.
Lemma v3add_neg_r : forall u : vec3 R, v3add u (v3neg u) = v3zero.
Proof. intros [a b c]. apply v3_eq; q_unfold; ring. Qed.
Lemma v3add_neg_l : forall u : vec3 R, v3add (v3neg u) u = v3zero.
Proof. intros [a b c]. apply v3_eq; q_unfold; ring. Qed.

Theorem C70_pose_group : forall a b c, unit_pose a -> unit_pose b ->
  unit_pose (pose_mul a b) /\ unit_pose (pose_inverse a) /\ unit_pose pose_id /\
  pose_mul (pose_mul a b) c = pose_mul a (pose_mul b c) /\
  pose_mul pose_id a = a /\ pose_mul a pose_id = a /\
  pose_mul a (pose_inverse a) = pose_id /\ pose_mul (pose_inverse a) a = pose_id /\
  pose_inverse (pose_inverse a) = a.
Proof.
  intros [qa ta] [qb tb] [qc tc] A B. unfold unit_pose in *. cbn [rotation translation] in A, B.
  unfold pose_mul, pose_inverse, pose_id. cbn [rotation translation].
  rewrite (qinverse_unit qa A). rewrite (qinverse_unit (qconj qa) (unit_qconj _ A)).
  assert (CC : qconj (qconj qa) = qa) by (destruct qa; apply q_eq; q_unfold; ring).
  rewrite CC.
  repeat (split; [|]); try (apply pose_eq; cbn [rotation translation]).
  - apply unit_qmul; assumption.
  - apply unit_qconj; assumption.
  - apply unit_qid.
  - apply qmul_assoc.
  - rewrite qrot_qmul, qrot_add, v3add_assoc by assumption. reflexivity.
  - apply qmul_id_l.
  - rewrite qrot_id. apply v3add_0_l.
  - apply qmul_id_r.
  - rewrite qrot_zero. apply v3add_0_r.
  - apply qmul_conj_r; assumption.
  - rewrite <- qrot_qmul by auto using unit_qconj. rewrite qmul_conj_r, qrot_id by assumption. apply v3add_neg_r.
  - apply qmul_conj_l; assumption.
  - rewrite qrot_neg. apply v3add_neg_l.
  - reflexivity.
  - rewrite <- qrot_neg, <- qrot_qmul by auto using unit_qconj. rewrite qmul_conj_r, qrot_id by assumption.
    destruct ta; apply v3_eq; q_unfold; ring.
Qed.

(** Rigid motions: composition acts as composition, the inverse undoes, distances and the 4x4 matrix agree. *)
Definition dist2 (u v : vec3 R) : R :=
  (vx u - vx v) * (vx u - vx v) + (vy u - vy v) * (vy u - vy v) + (vz u - vz v) * (vz u - vz v).

Lemma qrot_norm : forall q v, unit_q q ->
  vx (qrot q v) * vx (qrot q v) + vy (qrot q v) * vy (qrot q v) + vz (qrot q v) * vz (qrot q v)
  = vx v * vx v + vy v * vy v + vz v * vz v.
Proof.
  intros q v U. rewrite (qrot_qact q v U). destruct q as [a b c d]. destruct v as [x y z]. unfold unit_q in U. vsimp.
  unfold qact. q_unfold.
  transitivity ((a * a + b * b + c * c + d * d) * (a * a + b * b + c * c + d * d) * (x * x + y * y + z * z)); [ring|].
  rewrite U. ring.
Qed.

Theorem C70_rigid_motion : forall a b u v, unit_pose a -> unit_pose b ->
  pose_apply (pose_mul a b) v = pose_apply a (pose_apply b v) /\
  pose_apply (pose_inverse a) (pose_apply a v) = v /\
  pose_apply a (pose_apply (pose_inverse a) v) = v /\
  dist2 (pose_apply a u) (pose_apply a v) = dist2 u v.
Proof.
  intros a b u v A B. unfold unit_pose in *.
  assert (M : forall p r w, unit_pose p -> unit_pose r -> pose_apply (pose_mul p r) w = pose_apply p (pose_apply r w)).
  { intros [qp tp] [qr tr] w P Q. unfold unit_pose in *. unfold pose_apply, pose_mul. cbn [rotation translation] in *.
    rewrite qrot_qmul, qrot_add by assumption. rewrite (v3add_comm tp), v3add_assoc. reflexivity. }
  destruct (C70_pose_group a b b A B) as (_ & UI & _ & _ & _ & _ & I1 & I2 & _).
  assert (ID : forall w, pose_apply pose_id w = w).
  { intro w. unfold pose_apply, pose_id. cbn [rotation translation]. rewrite qrot_id. apply v3add_0_r. }
  split; [apply M; assumption|]. split; [rewrite <- M by assumption; rewrite I2; apply ID|].
  split; [rewrite <- M by assumption; rewrite I1; apply ID|].
  unfold pose_apply. 
  assert (N := qrot_norm (rotation a) (v3add u (v3neg v)) A). rewrite qrot_add, qrot_neg in N.
  set (p := qrot (rotation a) u) in *. set (r := qrot (rotation a) v) in *. clearbody p r.
  destruct p, r, u, v. destruct a as [qa [t0 t1 t2]]. unfold dist2. q_unfold. lra.
Qed.

(** The 4x4 matrix: products of matrices are products of poses, and applying it to (v, 1) applies the pose. *)
Theorem C70_ToMatrix : forall a b v, unit_pose a -> unit_pose b ->
  (forall i j, (i < 4)%nat -> (j < 4)%nat ->
     pose_matrix (pose_mul a b) i j = Rsum 4 (fun k => pose_matrix a i k * pose_matrix b k j)) /\
  (forall i, (i < 3)%nat ->
     v3get (pose_apply a v) i = Rsum 3 (fun k => pose_matrix a i k * v3get v k) + pose_matrix a i 3).
Proof.
  intros [qa ta] [qb tb] v A B. unfold unit_pose in *. cbn [rotation] in A, B.
  assert (COL : forall q j, (j < 3)%nat -> m3col (qmatrix q) j = qrot q (V3 (if j =? 0 then 1 else 0) (if j =? 1 then 1 else 0) (if j =? 2 then 1 else 0))).
  { intros q j Hj. rewrite <- qmatrix_rot.
    destruct j as [|[|[|j]]]; try lia; cbn [Nat.eqb m3col]; destruct (qmatrix q) as [[? ? ?] [? ? ?] [? ? ?]]; apply v3_eq; q_unfold; ring. }
  assert (ROT : forall q w i, (i < 3)%nat -> v3get (qrot q w) i = v3get (mc0 (qmatrix q)) i * vx w + v3get (mc1 (qmatrix q)) i * vy w + v3get (mc2 (qmatrix q)) i * vz w).
  { intros q w i Hi. rewrite <- qmatrix_rot. destruct (qmatrix q) as [[? ? ?] [? ? ?] [? ? ?]].
    destruct i as [|[|[|i]]]; try lia; cbn [v3get]; q_unfold; ring. }
  split.
  - intros i j Hi Hj. unfold pose_mul, pose_matrix. cbn [rotation translation].
    destruct (Nat.ltb_spec i 3) as [Li|Li].
    + destruct (Nat.ltb_spec j 3) as [Lj|Lj].
      * rewrite COL, qrot_qmul, <- (COL qb j), ROT by assumption.
        cbn [Rsum Nat.ltb Nat.leb m3col v3get]. vsimp.
        destruct (m3col (qmatrix qb) j) as [g1 g2 g3]. cbn [v3get vx vy vz]. ring.
      * assert (E : v3get (v3add ta (qrot qa tb)) i = v3get ta i + v3get (qrot qa tb) i)
          by (destruct i as [|[|[|i]]]; try lia; reflexivity).
        rewrite E, ROT by assumption. cbn [Rsum Nat.ltb Nat.leb m3col v3get]. vsimp. ring.
    + cbn [Rsum Nat.ltb Nat.leb m3col v3get]. vsimp. destruct (Nat.ltb_spec j 3); ring.
  - intros i Hi. unfold pose_apply, pose_matrix. cbn [rotation translation]. apply Nat.ltb_lt in Hi as Li. rewrite Li.
    assert (E : v3get (v3add (qrot qa v) ta) i = v3get (qrot qa v) i + v3get ta i)
      by (destruct i as [|[|[|i]]]; try lia; reflexivity).
    rewrite E, ROT by assumption. cbn [Rsum Nat.ltb Nat.leb m3col v3get]. vsimp. ring.
Qed.
