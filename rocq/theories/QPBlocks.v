(** C05: the x, s, y, z blocks tile the variable vector (every element type). *)
From Coq Require Import List Bool Arith Lia.
From Verif Require Import Scalar LinAlg QPModel.
Import ListNotations.

(** Size of variables_, r_, delta_ after Setup (qp.cc:42). *)
Definition tsize (d : dims) : nat := dN d + dM d * 2 + dK d.

Lemma vseg_set_same : forall A off len (new v : list A),
  off + length new <= length v -> length new = len -> vseg off len (vset_seg off new v) = new.
Proof.
  intros A off len new v H <-. unfold vseg, vset_seg.
  rewrite skipn_app, skipn_all2 by (rewrite firstn_length; lia).
  rewrite firstn_length. replace (off - Nat.min off (length v)) with 0 by lia.
  simpl. rewrite firstn_app, firstn_all, Nat.sub_diag. simpl. apply app_nil_r.
Qed.

Lemma nth_ext_default : forall A (u v : list A),
  length u = length v -> (forall i d, i < length u -> nth i u d = nth i v d) -> u = v.
Proof.
  intros A u v Hl H. destruct u as [|x u]; destruct v as [|y v]; try discriminate; auto.
  apply nth_ext with (d := x) (d' := x); auto.
Qed.

Lemma vseg_set_disj : forall A off off2 len2 (new v : list A),
  off + length new <= length v -> off2 + len2 <= length v ->
  off2 + len2 <= off \/ off + length new <= off2 ->
  vseg off2 len2 (vset_seg off new v) = vseg off2 len2 v.
Proof.
  intros A off off2 len2 new v H1 H2 H3.
  apply nth_ext_default.
  - rewrite !vseg_length; auto. rewrite vset_seg_length; auto.
  - intros i d Hi. rewrite vseg_length in Hi by (rewrite vset_seg_length; auto).
    rewrite !vseg_nth by assumption. rewrite vset_seg_nth by assumption.
    destruct (Nat.leb_spec off (off2 + i)); destruct (Nat.ltb_spec (off2 + i) (off + length new));
      simpl; auto; lia.
Qed.

Section BlockLemmas.
  Context {A : Type} (d : dims).
  Implicit Types v new : list A.

  Lemma xblk_length : forall v, length v = tsize d -> length (xblk d v) = dN d.
  Proof. intros v H. unfold xblk. apply vseg_length. unfold tsize in H. lia. Qed.
  Lemma sblk_length : forall v, length v = tsize d -> length (sblk d v) = dM d.
  Proof. intros v H. unfold sblk. apply vseg_length. unfold tsize in H. lia. Qed.
  Lemma yblk_length : forall v, length v = tsize d -> length (yblk d v) = dK d.
  Proof. intros v H. unfold yblk. apply vseg_length. unfold tsize in H. lia. Qed.
  Lemma zblk_length : forall v, length v = tsize d -> length (zblk d v) = dM d.
  Proof. intros v H. unfold zblk. apply vseg_length. unfold tsize in H. lia. Qed.

  Ltac len := unfold tsize, set_x, set_s, set_y, set_z in *;
              repeat (rewrite vset_seg_length in * by lia); try lia.
  Lemma set_x_length : forall new v, length v = tsize d -> length new = dN d ->
    length (set_x d new v) = tsize d.
  Proof. intros. len. Qed.
  Lemma set_s_length : forall new v, length v = tsize d -> length new = dM d ->
    length (set_s d new v) = tsize d.
  Proof. intros. len. Qed.
  Lemma set_y_length : forall new v, length v = tsize d -> length new = dK d ->
    length (set_y d new v) = tsize d.
  Proof. intros. len. Qed.
  Lemma set_z_length : forall new v, length v = tsize d -> length new = dM d ->
    length (set_z d new v) = tsize d.
  Proof. intros. len. Qed.

  Ltac same := intros; unfold tsize in *; apply vseg_set_same; auto; lia.
  Ltac disj := intros; unfold tsize, xblk, sblk, yblk, zblk, set_x, set_s, set_y, set_z in *;
    rewrite ?vset_seg_length by lia; apply vseg_set_disj; lia.

  Lemma x_set_x : forall new v, length v = tsize d -> length new = dN d -> xblk d (set_x d new v) = new.
  Proof. same. Qed.
  Lemma x_set_s : forall new v, length v = tsize d -> length new = dM d -> xblk d (set_s d new v) = xblk d v.
  Proof. disj. Qed.
  Lemma x_set_y : forall new v, length v = tsize d -> length new = dK d -> xblk d (set_y d new v) = xblk d v.
  Proof. disj. Qed.
  Lemma x_set_z : forall new v, length v = tsize d -> length new = dM d -> xblk d (set_z d new v) = xblk d v.
  Proof. disj. Qed.

  Lemma s_set_x : forall new v, length v = tsize d -> length new = dN d -> sblk d (set_x d new v) = sblk d v.
  Proof. disj. Qed.
  Lemma s_set_s : forall new v, length v = tsize d -> length new = dM d -> sblk d (set_s d new v) = new.
  Proof. same. Qed.
  Lemma s_set_y : forall new v, length v = tsize d -> length new = dK d -> sblk d (set_y d new v) = sblk d v.
  Proof. disj. Qed.
  Lemma s_set_z : forall new v, length v = tsize d -> length new = dM d -> sblk d (set_z d new v) = sblk d v.
  Proof. disj. Qed.

  Lemma y_set_x : forall new v, length v = tsize d -> length new = dN d -> yblk d (set_x d new v) = yblk d v.
  Proof. disj. Qed.
  Lemma y_set_s : forall new v, length v = tsize d -> length new = dM d -> yblk d (set_s d new v) = yblk d v.
  Proof. disj. Qed.
  Lemma y_set_y : forall new v, length v = tsize d -> length new = dK d -> yblk d (set_y d new v) = new.
  Proof. same. Qed.
  Lemma y_set_z : forall new v, length v = tsize d -> length new = dM d -> yblk d (set_z d new v) = yblk d v.
  Proof. disj. Qed.

  Lemma z_set_x : forall new v, length v = tsize d -> length new = dN d -> zblk d (set_x d new v) = zblk d v.
  Proof. disj. Qed.
  Lemma z_set_s : forall new v, length v = tsize d -> length new = dM d -> zblk d (set_s d new v) = zblk d v.
  Proof. disj. Qed.
  Lemma z_set_y : forall new v, length v = tsize d -> length new = dK d -> zblk d (set_y d new v) = zblk d v.
  Proof. disj. Qed.
  Lemma z_set_z : forall new v, length v = tsize d -> length new = dM d -> zblk d (set_z d new v) = new.
  Proof.
    intros. unfold zblk, set_z, tsize in *. rewrite vset_seg_length by lia.
    apply vseg_set_same; lia.
  Qed.

  (** C05: the four accessors cut the vector into consecutive pieces x | s | y | z covering it. *)
  Theorem C05_blocks_tile : forall v, length v = dN d + dM d * 2 + dK d ->
    v = xblk d v ++ sblk d v ++ yblk d v ++ zblk d v /\
    length (xblk d v) = dN d /\ length (sblk d v) = dM d /\
    length (yblk d v) = dK d /\ length (zblk d v) = dM d.
  Proof.
    intros v H. fold (tsize d) in H.
    split; [|split; [|split; [|split]]];
      [|apply xblk_length|apply sblk_length|apply yblk_length|apply zblk_length]; auto.
    unfold xblk, sblk, yblk, zblk, vseg, tsize in *.
    replace (length v - dM d) with (dN d + dM d + dK d) by lia. simpl.
    rewrite <- (firstn_skipn (dN d) v) at 1. f_equal.
    rewrite <- (firstn_skipn (dM d) (skipn (dN d) v)) at 1. f_equal.
    rewrite skipn_skipn'. rewrite <- (firstn_skipn (dK d) (skipn (dN d + dM d) v)) at 1. f_equal.
    rewrite skipn_skipn'. rewrite firstn_all2; auto. rewrite skipn_length. lia.
  Qed.

  (** C05: writing one block and reading another returns the old content; writing and reading the
      same block returns what was written; the size never changes. *)
  Theorem C05_block_writes : forall v x s y z,
    length v = dN d + dM d * 2 + dK d ->
    length x = dN d -> length s = dM d -> length y = dK d -> length z = dM d ->
    (xblk d (set_x d x v) = x /\ sblk d (set_x d x v) = sblk d v /\
     yblk d (set_x d x v) = yblk d v /\ zblk d (set_x d x v) = zblk d v) /\
    (xblk d (set_s d s v) = xblk d v /\ sblk d (set_s d s v) = s /\
     yblk d (set_s d s v) = yblk d v /\ zblk d (set_s d s v) = zblk d v) /\
    (xblk d (set_y d y v) = xblk d v /\ sblk d (set_y d y v) = sblk d v /\
     yblk d (set_y d y v) = y /\ zblk d (set_y d y v) = zblk d v) /\
    (xblk d (set_z d z v) = xblk d v /\ sblk d (set_z d z v) = sblk d v /\
     yblk d (set_z d z v) = yblk d v /\ zblk d (set_z d z v) = z) /\
    length (set_x d x v) = length v /\ length (set_s d s v) = length v /\
    length (set_y d y v) = length v /\ length (set_z d z v) = length v.
  Proof.
    intros v x s y z Hv Hx Hs Hy Hz. rewrite Hv. fold (tsize d) in *.
    repeat split; auto using x_set_x, s_set_x, y_set_x, z_set_x, x_set_s, s_set_s, y_set_s, z_set_s,
      x_set_y, s_set_y, y_set_y, z_set_y, x_set_z, s_set_z, y_set_z, z_set_z,
      set_x_length, set_s_length, set_y_length, set_z_length.
  Qed.
End BlockLemmas.

Example C05_case :
  let d := MkDims 2 1 1 in
  let v := [10; 11; 20; 30; 40] in
  xblk d v = [10; 11] /\ sblk d v = [20] /\ yblk d v = [30] /\ zblk d v = [40] /\
  set_y d [7] v = [10; 11; 20; 7; 40].
Proof. repeat split. Qed.

Lemma indexed_nth : forall A (l : list A) i d0, i < length l -> nth i (indexed l) (0, d0) = (i, nth i l d0).
Proof.
  intros A l i d0 H. unfold indexed. rewrite combine_nth by apply seq_length.
  rewrite seq_nth by assumption. reflexivity.
Qed.
Lemma indexed_length : forall A (l : list A), length (indexed l) = length l.
Proof. intros. unfold indexed. rewrite combine_length, seq_length. lia. Qed.
Lemma indexed_In : forall A (l : list A) i c, In (i, c) (indexed l) -> i < length l /\ In c l.
Proof.
  intros A l i c H. unfold indexed in H. split.
  - apply in_combine_l in H. apply in_seq in H. lia.
  - apply in_combine_r in H. exact H.
Qed.

(** Loops "new[i] = f(i, constraints[i])": coefficient access. *)
Lemma vget_map_indexed : forall F (O : Ops F) A (l : list A) (f : nat * A -> F) i d0,
  i < length l -> vget (map f (indexed l)) i = f (i, nth i l d0).
Proof.
  intros F O A l f i d0 H. unfold vget.
  rewrite nth_indep with (d' := f (0, d0)) by (rewrite map_length, indexed_length; exact H).
  rewrite map_nth. rewrite indexed_nth by exact H. reflexivity.
Qed.
