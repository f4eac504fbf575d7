(** C71, C72: ComputeChain composes the links, and its matrices are the derivatives of the effector pose with respect to the
    translations and (in the right tangent space) the rotations of the links. Over the reals. *)
From Coq Require Import String List Bool Arith QArith Reals Qreals Lra Lia.
From Verif Require Import Scalar Outcome LinAlg RInst Chains ChainProps.
Import ListNotations.
Local Open Scope list_scope.
Local Open Scope R_scope.

(** The composition of a list of poses, first to last. *)
Definition product (links : list (pose R)) : pose R := fold_right pose_mul pose_id links.

Lemma pose_mul_id_l : forall p : pose R, pose_mul pose_id p = p.
Proof. intros [q t]. apply pose_eq; cbn [pose_mul pose_id rotation translation]; [apply qmul_id_l|]. rewrite qrot_id. apply v3add_0_l. Qed.
Lemma product_unit : forall links, Forall unit_pose links -> unit_pose (product links).
Proof.
  intros links H. induction H as [|l ls U _ IH]; cbn [product fold_right].
  - apply unit_qid.
  - apply unit_qmul; assumption.
Qed.
Lemma product_app : forall a b, Forall unit_pose a -> product (a ++ b) = pose_mul (product a) (product b).
Proof.
  intros a b H. induction H as [|l ls U H IH]; cbn [app product fold_right].
  - change (fold_right pose_mul pose_id b) with (product b). symmetry. apply pose_mul_id_l.
  - change (fold_right pose_mul pose_id (ls ++ b)) with (product (ls ++ b)). rewrite IH.
    change (fold_right pose_mul pose_id ls) with (product ls).
    symmetry. apply (C70_pose_group l (product ls) (product b) U (product_unit ls H)).
Qed.

(** ** The two backward loops *)
Lemma back_length : forall links : list (pose R), length (back_R links) = S (length links) /\ length (back_t links) = S (length links).
Proof. induction links as [|l ls [A B]]; cbn [back_R back_t length]; [auto|]. rewrite A, B. auto. Qed.
Lemma back_hd : forall links, Pose (hd qid (back_R links)) (hd v3zero (back_t links)) = product links.
Proof.
  induction links as [|l ls IH]; cbn [back_R back_t hd product fold_right]; [reflexivity|].
  change (fold_right pose_mul pose_id ls) with (product ls). rewrite <- IH. unfold pose_mul. cbn [rotation translation].
  rewrite v3add_comm. reflexivity.
Qed.
Lemma back_nth : forall links i, (i <= length links)%nat ->
  Pose (nth i (back_R links) qid) (nth i (back_t links) v3zero) = product (skipn i links).
Proof.
  induction links as [|l ls IH]; intros i Hi.
  - assert (i = 0)%nat by (cbn in Hi; lia). subst i. reflexivity.
  - destruct i as [|i]; [|apply IH; cbn in Hi; lia].
    change (skipn 0 (l :: ls)) with (l :: ls). rewrite <- back_hd. destruct (l :: ls); reflexivity.
Qed.
Lemma forward_length : forall links (q : quat R), length (forward_R q links) = length links.
Proof. induction links as [|l ls IH]; intro q; cbn [forward_R length]; auto. Qed.
Lemma forward_nth : forall links q i, (i < length links)%nat ->
  nth i (forward_R q links) m3zero = qmatrix (qmul q (rotation (product (firstn i links)))).
Proof.
  induction links as [|l ls IH]; intros q i Hi; [cbn in Hi; lia|].
  destruct i as [|i]; cbn [forward_R nth firstn product fold_right].
  - change (rotation (fold_right pose_mul pose_id [])) with (qid : quat R). rewrite qmul_id_r. reflexivity.
  - rewrite IH by (cbn in Hi; lia). change (fold_right pose_mul pose_id (firstn i ls)) with (product (firstn i ls)).
    unfold pose_mul. cbn [rotation]. rewrite qmul_assoc. reflexivity.
Qed.

(** C71: ComputeChain produces the pose of the end frame in every intermediate frame; the first one is the composition of
    all links, and ComputeAllPoses returns the pose of every frame in the start frame. *)
Theorem C71_composition : forall links, links <> [] ->
  let c := ComputeChain links in
  length (i_R_end c) = S (length links) /\ length (i_t_end c) = S (length links) /\
  (forall i, (i <= length links)%nat -> Pose (nth i (i_R_end c) qid) (nth i (i_t_end c) v3zero) = product (skipn i links)) /\
  start_T_end c = Ok (product links) /\
  (Forall unit_pose links ->
     ComputeAllPoses c = Ok (map (fun i => product (firstn i links)) (seq 0 (S (length links))))).
Proof.
  intros links NE c.
  assert (E : i_R_end c = back_R links /\ i_t_end c = back_t links) by (destruct links; [congruence|split; reflexivity]).
  destruct E as [E1 E2]. destruct (back_length links) as [L1 L2]. rewrite E1, E2.
  split; [exact L1|]. split; [exact L2|]. split; [intros; apply back_nth; assumption|].
  split.
  - unfold start_T_end. rewrite E1, E2, L1, L2. cbn [Nat.ltb Nat.leb f_assert bind]. rewrite back_hd. reflexivity.
  - intro U. unfold ComputeAllPoses. rewrite E1, E2, L1, L2, Nat.leb_refl. cbn [Nat.ltb Nat.leb ub_unless bind].
    f_equal. rewrite back_hd. apply map_ext_in. intros i Hi. apply in_seq in Hi.
    rewrite back_nth by lia.
    assert (UF : Forall unit_pose (firstn i links)).
    { apply Forall_forall. intros x Hx. apply (proj1 (Forall_forall _ _) U). apply (proj1 (in_or_app (firstn i links) (skipn i links) x) (or_introl Hx)) || (rewrite <- (firstn_skipn i links); apply in_or_app; left; exact Hx). }
    assert (US : Forall unit_pose (skipn i links)).
    { apply Forall_forall. intros x Hx. apply (proj1 (Forall_forall _ _) U). rewrite <- (firstn_skipn i links). apply in_or_app. right. exact Hx. }
    rewrite <- (firstn_skipn i links) at 1. rewrite product_app by exact UF.
    destruct (C70_pose_group (product (firstn i links)) (product (skipn i links)) (pose_inverse (product (skipn i links)))
                (product_unit _ UF) (product_unit _ US)) as (_ & _ & _ & A & _ & I & _).
    rewrite A. destruct (C70_pose_group (product (skipn i links)) pose_id pose_id (product_unit _ US) unit_qid) as (_ & _ & _ & _ & _ & _ & J & _).
    rewrite J. exact I.
Qed.

(** C71: an empty list of links clears the buffer; asking it for the end pose throws and for all poses is undefined. *)
Theorem C71_no_links :
  start_T_end (ComputeChain ([] : list (pose R))) = Throw (AssertFailed "!i_R_end.empty()") /\
  ComputeAllPoses (ComputeChain ([] : list (pose R))) = UB "front() of an empty vector".
Proof. split; reflexivity. Qed.

(** ** Derivatives at 0 *)
Definition d1 (f : R -> R) (l : R) : Prop := derivable_pt_lim f 0 l.
Definition d3 (f : R -> vec3 R) (l : vec3 R) : Prop :=
  d1 (fun t => vx (f t)) (vx l) /\ d1 (fun t => vy (f t)) (vy l) /\ d1 (fun t => vz (f t)) (vz l).
(** [c] is a curve of quaternions through the identity whose velocity there is the tangent vector [w]; in so(3) coordinates a
    rotation by the small vector w is the quaternion 1 + w/2. *)
Definition tangent (c : R -> quat R) (w : vec3 R) : Prop :=
  c 0 = qid /\ d1 (fun t => qw (c t)) 0 /\ d1 (fun t => qx (c t)) (vx w / 2) /\ d1 (fun t => qy (c t)) (vy w / 2) /\
  d1 (fun t => qz (c t)) (vz w / 2).

Lemma d1_plus : forall f g a b, d1 f a -> d1 g b -> d1 (fun t => f t + g t) (a + b).
Proof. intros f g a b A B. exact (derivable_pt_lim_plus f g 0 a b A B). Qed.
Lemma d1_minus : forall f g a b, d1 f a -> d1 g b -> d1 (fun t => f t - g t) (a - b).
Proof. intros f g a b A B. exact (derivable_pt_lim_minus f g 0 a b A B). Qed.
Lemma d1_mult : forall f g a b, d1 f a -> d1 g b -> d1 (fun t => f t * g t) (a * g 0 + f 0 * b).
Proof. intros f g a b A B. exact (derivable_pt_lim_mult f g 0 a b A B). Qed.
Lemma d1_opp : forall f a, d1 f a -> d1 (fun t => - f t) (- a).
Proof. intros f a A. exact (derivable_pt_lim_opp f 0 a A). Qed.
Lemma d1_const : forall k, d1 (fun _ => k) 0.
Proof. intro k. exact (derivable_pt_lim_const k 0). Qed.
Lemma d1_id : d1 (fun t => t) 1.
Proof. exact (derivable_pt_lim_id 0). Qed.
Lemma d1_val : forall f a b, d1 f a -> a = b -> d1 f b.
Proof. intros f a b A <-. exact A. Qed.
Lemma d1_ext : forall f g a, (forall t, f t = g t) -> d1 f a -> d1 g a.
Proof.
  intros f g a E H eps He. destruct (H eps He) as [d Hd]. exists d. intros h Hn Hh. rewrite <- !E. apply Hd; assumption.
Qed.
Lemma d3_ext : forall f g a, (forall t, f t = g t) -> d3 f a -> d3 g a.
Proof.
  intros f g a E (A & B & C). split; [|split].
  - apply (d1_ext (fun t => vx (f t))); [intro; rewrite E; reflexivity|exact A].
  - apply (d1_ext (fun t => vy (f t))); [intro; rewrite E; reflexivity|exact B].
  - apply (d1_ext (fun t => vz (f t))); [intro; rewrite E; reflexivity|exact C].
Qed.
Ltac der := repeat first [ eassumption | apply d1_plus | apply d1_minus | apply d1_mult | apply d1_opp | apply d1_const | apply d1_id ].

Lemma d3_const : forall v, d3 (fun _ => v) v3zero.
Proof. intro v. repeat split; apply d1_const. Qed.
Lemma d3_add : forall f g a b, d3 f a -> d3 g b -> d3 (fun t => v3add (f t) (g t)) (v3add a b).
Proof. intros f g a b (A & B & C) (A' & B' & C'). repeat split; cbn [v3add vx vy vz]; apply d1_plus; assumption. Qed.
Lemma d3_rot : forall q f a, d3 f a -> d3 (fun t => qrot q (f t)) (qrot q a).
Proof.
  intros [q0 q1 q2 q3] f a (A & B & C).
  assert (G : forall k0 k1 k2 , d1 (fun t => k0 * vx (f t) + k1 * vy (f t) + k2 * vz (f t)) (k0 * vx a + k1 * vy a + k2 * vz a)).
  { intros. eapply d1_val; [der|]. cbv beta. ring. }
  assert (E : forall v, qrot (Quat q0 q1 q2 q3) v = V3
     ((1 - 2 * q2 * q2 - 2 * q3 * q3) * vx v + (2 * q1 * q2 - 2 * q0 * q3) * vy v + (2 * q1 * q3 + 2 * q0 * q2) * vz v)
     ((2 * q1 * q2 + 2 * q0 * q3) * vx v + (1 - 2 * q1 * q1 - 2 * q3 * q3) * vy v + (2 * q2 * q3 - 2 * q0 * q1) * vz v)
     ((2 * q1 * q3 - 2 * q0 * q2) * vx v + (2 * q2 * q3 + 2 * q0 * q1) * vy v + (1 - 2 * q1 * q1 - 2 * q2 * q2) * vz v)).
  { intros [x y z]. apply v3_eq; q_unfold; ring. }
  apply (d3_ext (fun t => V3
     ((1 - 2 * q2 * q2 - 2 * q3 * q3) * vx (f t) + (2 * q1 * q2 - 2 * q0 * q3) * vy (f t) + (2 * q1 * q3 + 2 * q0 * q2) * vz (f t))
     ((2 * q1 * q2 + 2 * q0 * q3) * vx (f t) + (1 - 2 * q1 * q1 - 2 * q3 * q3) * vy (f t) + (2 * q2 * q3 - 2 * q0 * q1) * vz (f t))
     ((2 * q1 * q3 - 2 * q0 * q2) * vx (f t) + (2 * q2 * q3 + 2 * q0 * q1) * vy (f t) + (1 - 2 * q1 * q1 - 2 * q2 * q2) * vz (f t)))).
  { intro t. symmetry. apply E. }
  rewrite E. unfold d3. cbn [vx vy vz]. repeat split; apply G.
Qed.

(** Rotating a fixed vector by a curve through the identity. *)
Lemma d3_tangent : forall c w v, tangent c w -> d3 (fun t => qrot (c t) v) (v3cross w v).
Proof.
  intros c w v (C0 & Dw & Dx & Dy & Dz).
  assert (E : qw (c 0) = 1 /\ qx (c 0) = 0 /\ qy (c 0) = 0 /\ qz (c 0) = 0) by (rewrite C0; repeat split).
  destruct E as (Ew & Ex & Ey & Ez). destruct v as [x y z]. destruct w as [w0 w1 w2]. cbn [vx vy vz] in *.
  unfold d3. q_unfold.
  repeat split; (eapply d1_val; [der|]); cbv beta; rewrite ?Ew, ?Ex, ?Ey, ?Ez; field.
Qed.

(** Conjugating a curve by a fixed rotation turns its tangent vector. *)
Lemma tangent_conj : forall c w q, unit_q q -> tangent c w -> tangent (fun t => qmul (qmul (qconj q) (c t)) q) (qrot (qconj q) w).
Proof.
  intros c w q U (C0 & Dw & Dx & Dy & Dz). rewrite (qrot_qact (qconj q) w (unit_qconj q U)).
  assert (Q0 : qmul (qmul (qconj q) (c 0)) q = qid) by (rewrite C0, qmul_id_r; apply qmul_conj_l; exact U).
  destruct q as [a b cc d]. destruct w as [w0 w1 w2]. cbn [vx vy vz] in *.
  unfold tangent. split; [exact Q0|]. unfold qact. q_unfold.
  repeat split; (eapply d1_val; [der|]); cbv beta; field.
Qed.

(** ** C72 *)
Lemma unit_app_inv : forall a (l : pose R) b, Forall unit_pose (a ++ l :: b) -> Forall unit_pose a /\ unit_pose l /\ Forall unit_pose b.
Proof. intros a l b H. apply Forall_app in H. destruct H as [A B]. inversion B; subst. auto. Qed.

Lemma product_mid : forall a l b, Forall unit_pose a ->
  product (a ++ l :: b) = pose_mul (product a) (pose_mul l (product b)).
Proof. intros a l b A. rewrite product_app by exact A. reflexivity. Qed.

Lemma mid_length : forall (a : list (pose R)) l b, length (a ++ l :: b) = (length a + S (length b))%nat.
Proof. intros. rewrite app_length. reflexivity. Qed.

Lemma skipn_mid : forall (a : list (pose R)) l b, skipn (length a + 1) (a ++ l :: b) = b.
Proof. intros. replace (length a + 1)%nat with (length (a ++ [l])) by (rewrite app_length; reflexivity).
  replace (a ++ l :: b) with ((a ++ [l]) ++ b) by (rewrite <- app_assoc; reflexivity). rewrite skipn_app, skipn_all, Nat.sub_diag. reflexivity. Qed.
Lemma firstn_mid : forall (a : list (pose R)) l b, firstn (length a + 1) (a ++ l :: b) = a ++ [l].
Proof. intros. replace (length a + 1)%nat with (length (a ++ [l])) by (rewrite app_length; reflexivity).
  replace (a ++ l :: b) with ((a ++ [l]) ++ b) by (rewrite <- app_assoc; reflexivity).
  rewrite firstn_app, firstn_all, Nat.sub_diag. cbn [firstn]. apply app_nil_r. Qed.
Lemma firstn_pre : forall (a : list (pose R)) b, firstn (length a) (a ++ b) = a.
Proof. intros. rewrite firstn_app, firstn_all, Nat.sub_diag. cbn [firstn]. apply app_nil_r. Qed.

(** What the blocks of index [length a] do to a vector. *)
Lemma tDt_block : forall a l b w,
  m3mulv (nth (length a) (translation_D_translation (ComputeChain (a ++ l :: b))) m3zero) w = qrot (rotation (product a)) w.
Proof.
  intros a l b w.
  assert (E : translation_D_translation (ComputeChain (a ++ l :: b)) = forward_R qid (a ++ l :: b)) by (destruct a; reflexivity).
  rewrite E, forward_nth by (rewrite mid_length; lia). rewrite firstn_pre, qmul_id_l. apply qmatrix_rot.
Qed.

Lemma nth_mkvec : forall (A : Type) n (f : nat -> A) i d, (i < n)%nat -> nth i (mkvec n f) d = f i.
Proof.
  intros A n f i d H. unfold mkvec. rewrite (nth_indep _ d (f 0%nat)) by (rewrite map_length, seq_length; exact H).
  rewrite map_nth, seq_nth by exact H. reflexivity.
Qed.

Lemma rDr_block : forall a l b w,
  m3mulv (nth (length a) (rotation_D_rotation (ComputeChain (a ++ l :: b))) m3zero) w = qrot (qconj (rotation (product b))) w.
Proof.
  intros a l b w.
  assert (E : rotation_D_rotation (ComputeChain (a ++ l :: b))
    = mkvec (length (a ++ l :: b)) (fun i => if (i <? length (a ++ l :: b) - 1)%nat
        then qmatrix (qconj (nth (i + 1) (back_R (a ++ l :: b)) qid)) else m3id)) by (destruct a; reflexivity).
  rewrite E, nth_mkvec by (rewrite mid_length; lia).
  destruct (Nat.ltb_spec (length a) (length (a ++ l :: b) - 1)) as [L|L].
  - rewrite qmatrix_rot. f_equal. f_equal.
    assert (N := back_nth (a ++ l :: b) (length a + 1)). rewrite skipn_mid in N. rewrite <- N; [reflexivity|]. rewrite mid_length in *. lia.
  - rewrite mid_length in L. destruct b; [|cbn [length] in L; lia]. rewrite m3id_mulv.
    replace (qconj (rotation (product []))) with (qid : quat R); [symmetry; apply qrot_id|].
    apply q_eq; cbn [product fold_right pose_id rotation]; q_unfold; ring.
Qed.

Lemma tDr_block : forall a l b w, Forall unit_pose a -> unit_pose l ->
  m3mulv (nth (length a) (translation_D_rotation (ComputeChain (a ++ l :: b))) m3zero) w
  = qrot (rotation (product a)) (qrot (rotation l) (v3cross w (translation (product b)))).
Proof.
  intros a l b w UA UL.
  assert (E : translation_D_rotation (ComputeChain (a ++ l :: b))
    = mkvec (length (a ++ l :: b)) (fun i => if (i <? length (a ++ l :: b) - 1)%nat
        then m3mul (nth (i + 1) (forward_R qid (a ++ l :: b)) m3zero) (skew3 (v3neg (nth (i + 1) (back_t (a ++ l :: b)) v3zero)))
        else m3zero)) by (destruct a; reflexivity).
  rewrite E, nth_mkvec by (rewrite mid_length; lia).
  destruct (Nat.ltb_spec (length a) (length (a ++ l :: b) - 1)) as [L|L].
  - rewrite m3mulv_m3mul, skew_cross. rewrite forward_nth by lia. rewrite firstn_mid, qmul_id_l, qmatrix_rot.
    assert (N := back_nth (a ++ l :: b) (length a + 1)). rewrite skipn_mid in N. rewrite <- N by (rewrite mid_length in *; lia).
    cbn [translation]. rewrite product_mid by exact UA. cbn [product fold_right pose_mul pose_id rotation]. rewrite qmul_id_r.
    rewrite qrot_qmul; [|apply product_unit; exact UA|exact UL]. f_equal. f_equal.
    destruct (nth (length a + 1) (back_t (a ++ l :: b)) v3zero) as [x y z]. destruct w as [x' y' z']. apply v3_eq; q_unfold; ring.
  - rewrite mid_length in L. destruct b; [|cbn [length] in L; lia]. rewrite m3zero_mulv.
    replace (v3cross w (translation (product []))) with (v3zero : vec3 R); [rewrite !qrot_zero; reflexivity|].
    destruct w as [x y z]. apply v3_eq; cbn [product fold_right pose_id translation]; q_unfold; ring.
Qed.

(** C72: the blocks of translation_D_translation, translation_D_rotation and rotation_D_rotation of link i are the derivatives
    of the effector pose with respect to the translation of link i (exactly affine) and to its rotation, perturbed on the
    right along any smooth curve of rotations. The effector's rotation is differentiated in its own right tangent space. *)
Theorem C72_derivatives : forall pre l post, Forall unit_pose (pre ++ l :: post) ->
  let links := pre ++ l :: post in
  let c := ComputeChain links in
  let i := length pre in
  let effector q t := product (pre ++ Pose q t :: post) in
  (forall d, effector (rotation l) (v3add (translation l) d)
     = Pose (rotation (product links))
            (v3add (translation (product links)) (m3mulv (nth i (translation_D_translation c) m3zero) d))) /\
  (forall curve w, (forall t, unit_q (curve t)) -> tangent curve w ->
     d3 (fun t => translation (effector (qmul (rotation l) (curve t)) (translation l)))
        (m3mulv (nth i (translation_D_rotation c) m3zero) w) /\
     tangent (fun t => qmul (qconj (rotation (product links))) (rotation (effector (qmul (rotation l) (curve t)) (translation l))))
        (m3mulv (nth i (rotation_D_rotation c) m3zero) w)).
Proof.
  intros pre l post U links c i effector. destruct (unit_app_inv _ _ _ U) as (UA & UL & UB).
  pose proof (product_unit _ UA) as PA. pose proof (product_unit _ UB) as PB. unfold unit_pose in PA, PB, UL.
  unfold effector, c, i, links. split.
  - intro d. rewrite !product_mid by exact UA. rewrite tDt_block. unfold pose_mul. cbn [rotation translation]. f_equal.
    rewrite !qrot_add, !v3add_assoc. f_equal. f_equal. apply v3add_comm.
  - intros curve w UC T. rewrite tDr_block by assumption. rewrite rDr_block. split.
    + apply (d3_ext (fun t => v3add (translation (product pre)) (qrot (rotation (product pre))
          (v3add (translation l) (qrot (rotation l) (qrot (curve t) (translation (product post)))))))).
      { intro t. rewrite product_mid by exact UA. unfold pose_mul. cbn [rotation translation].
        rewrite qrot_qmul by auto. reflexivity. }
      rewrite <- (v3add_0_l (qrot (rotation (product pre)) _)). apply d3_add; [apply d3_const|]. apply d3_rot.
      rewrite <- (v3add_0_l (qrot (rotation l) _)). apply d3_add; [apply d3_const|]. apply d3_rot. apply d3_tangent. exact T.
    + assert (E : forall t, qmul (qconj (rotation (product (pre ++ l :: post)))) (rotation (product (pre ++ Pose (qmul (rotation l) (curve t)) (translation l) :: post)))
         = qmul (qmul (qconj (rotation (product post))) (curve t)) (rotation (product post))).
      { intro t. rewrite !product_mid by exact UA. unfold pose_mul. cbn [rotation].
        rewrite !qconj_qmul, !qmul_assoc. rewrite <- (qmul_assoc (qconj (rotation (product pre)))), (qmul_conj_l _ PA), qmul_id_l.
        rewrite <- (qmul_assoc (qconj (rotation l))), (qmul_conj_l _ UL), qmul_id_l. reflexivity. }
      destruct (tangent_conj curve w (rotation (product post)) PB T) as (A0 & A1 & A2 & A3 & A4).
      unfold tangent. rewrite E. split; [exact A0|].
      repeat split; (eapply d1_ext; [intro t; rewrite E; reflexivity|]); assumption.
Qed.

(** Every tangent vector of the rotations is reached: e.g. rotating about the first axis by the angle t. *)
Definition rot_x (t : R) : quat R := Quat (cos (t / 2)) (sin (t / 2)) 0 0.
Definition rot_y (t : R) : quat R := Quat (cos (t / 2)) 0 (sin (t / 2)) 0.
Definition rot_z (t : R) : quat R := Quat (cos (t / 2)) 0 0 (sin (t / 2)).
Lemma sc1 : forall x, cos x * cos x + sin x * sin x = 1.
Proof. intro x. generalize (sin2_cos2 x). unfold Rsqr. lra. Qed.
Lemma rot_unit : forall t, unit_q (rot_x t) /\ unit_q (rot_y t) /\ unit_q (rot_z t).
Proof. intro t. generalize (sc1 (t / 2)). intro H. unfold unit_q. repeat split; cbn [rot_x rot_y rot_z qw qx qy qz]; rewrite !Rmult_0_l; lra. Qed.
Lemma d1_half_cos : d1 (fun t => cos (t / 2)) 0.
Proof.
  assert (A : d1 (fun t => t / 2) (1 / 2)).
  { eapply d1_val; [unfold Rdiv; der|]. cbv beta. field. }
  generalize (derivable_pt_lim_comp (fun t => t / 2) cos 0 (1 / 2) (- sin (0 / 2)) A (derivable_pt_lim_cos (0 / 2))).
  intro H. eapply d1_val; [exact H|]. replace (0 / 2) with 0 by field. rewrite sin_0. ring.
Qed.
Lemma d1_half_sin : d1 (fun t => sin (t / 2)) (1 / 2).
Proof.
  assert (A : d1 (fun t => t / 2) (1 / 2)).
  { eapply d1_val; [unfold Rdiv; der|]. cbv beta. field. }
  generalize (derivable_pt_lim_comp (fun t => t / 2) sin 0 (1 / 2) (cos (0 / 2)) A (derivable_pt_lim_sin (0 / 2))).
  intro H. eapply d1_val; [exact H|]. replace (0 / 2) with 0 by field. rewrite cos_0. ring.
Qed.
Lemma rot_tangent : tangent rot_x (V3 1 0 0) /\ tangent rot_y (V3 0 1 0) /\ tangent rot_z (V3 0 0 1).
Proof.
  assert (Z : d1 (fun _ => 0) (0 / 2)) by (eapply d1_val; [apply d1_const|field]).
  assert (I : forall x : R, x = 0 -> cos (x / 2) = 1 /\ sin (x / 2) = 0).
  { intros x ->. replace (0 / 2) with 0 by field. split; [apply cos_0|apply sin_0]. }
  destruct (I 0 eq_refl) as [I1 I2].
  unfold tangent, rot_x, rot_y, rot_z. cbn [qw qx qy qz vx vy vz]. rewrite I1, I2.
  split; [|split]; (split; [reflexivity|]); (split; [exact d1_half_cos|]); repeat split; first [exact d1_half_sin|exact Z].
Qed.
