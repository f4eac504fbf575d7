(** What the private steps of the interior point solver compute, over the reals: coefficient
    formulas for EvaluateKKTConditions, the reduced matrix, and the solution step. Theorems C08,
    C09 (see Props_QP.v for the statements about Solve). *)
From Coq Require Import List Bool Arith ZArith Reals Lra Lia.
From Verif Require Import Scalar Outcome LinAlg Structs Constraint QPModel QPBlocks RInst Spec.
Import ListNotations.
Local Open Scope R_scope.

(** Solver states as left by Setup on problem [p] (any vector contents). *)
Record ready (p : QP R) (st : ip_solver R) : Prop := {
  rd_p : ip_p st = Some p;
  rd_dims : ip_dims st = MkDims (nv p) (nineq p) (neq p);
  rd_vars : length (ip_vars st) = tsize (ip_dims st);
  rd_r : length (ip_r st) = tsize (ip_dims st);
  rd_delta : length (ip_delta st) = tsize (ip_dims st);
  rd_aff : length (ip_delta_aff st) = tsize (ip_dims st) }.

Lemma vupd_vupd : forall A i (f g : A -> A) v, vupd i f (vupd i g v) = vupd i (fun x => f (g x)) v.
Proof.
  intros A i f g v. revert i. induction v as [|x v IH]; intros [|i]; simpl; auto.
  rewrite IH. reflexivity.
Qed.

(** Scatter-add loops. *)
Lemma fold_upd_length : forall A (L : list A) (ix : A -> nat) (u : A -> R -> R) v0,
  length (fold_left (fun acc a => vupd (ix a) (u a) acc) L v0) = length v0.
Proof.
  intros A L ix u. induction L as [|a L IH]; intros v0; simpl; [reflexivity|].
  rewrite IH. apply vupd_length.
Qed.

Lemma fold_upd_list : forall A (L : list A) (ix : A -> nat) (u : A -> R -> R) (g : A -> R) v0 j,
  (forall a v, In a L -> u a v = v + g a) ->
  (forall a, In a L -> (ix a < length v0)%nat) ->
  vget (fold_left (fun acc a => vupd (ix a) (u a) acc) L v0) j
    = vget v0 j + Rlsum (map (fun a => if (ix a =? j)%nat then g a else 0) L).
Proof.
  intros A L ix u g. induction L as [|a L IH]; intros v0 j Hu Hix; simpl.
  - ring.
  - rewrite IH.
    + rewrite (vget_vupd R R_ops) by (apply Hix; left; reflexivity).
      rewrite (Nat.eqb_sym j (ix a)).
      destruct (ix a =? j)%nat; [rewrite Hu by (left; reflexivity)|]; ring.
    + intros; apply Hu; right; assumption.
    + intros a' Ha'. rewrite vupd_length. apply Hix. right; assumption.
Qed.

Lemma Rlsum_map_indexed : forall A (l : list A) (f : nat * A -> R) d0,
  Rlsum (map f (indexed l)) = Rsum (length l) (fun m => f (m, nth m l d0)).
Proof.
  intros A l f d0. rewrite Rlsum_Rsum, map_length, indexed_length.
  apply Rsum_ext. intros m Hm. apply (vget_map_indexed R R_ops). exact Hm.
Qed.

Lemma fold_upd_indexed : forall (l : list (lic R)) (u : nat * lic R -> R -> R) (g : nat * lic R -> R) v0 j,
  (forall a v, In a (indexed l) -> u a v = v + g a) ->
  (forall c, In c l -> (cidx c < length v0)%nat) ->
  vget (fold_left (fun acc ic => vupd (cidx (snd ic)) (u ic) acc) (indexed l) v0) j
    = vget v0 j + Rsum (length l) (fun m =>
        if (cidx (nth m l lic0) =? j)%nat then g (m, nth m l lic0) else 0).
Proof.
  intros l u g v0 j Hu Hix.
  rewrite (fold_upd_list _ (indexed l) (fun ic => cidx (snd ic)) u g).
  - f_equal. rewrite (Rlsum_map_indexed _ l _ lic0). reflexivity.
  - exact Hu.
  - intros [i c] H. apply indexed_In in H. apply Hix. apply H.
Qed.

Lemma fold_left_ext : forall A B (f g : A -> B -> A) (l : list B) a,
  (forall a b, In b l -> f a b = g a b) -> fold_left f l a = fold_left g l a.
Proof.
  intros A B f g l. induction l as [|b l IH]; intros a H; simpl; [reflexivity|].
  rewrite H by (left; reflexivity). apply IH. intros; apply H; right; assumption.
Qed.

Lemma cidx_lt : forall p c, wf_qp p -> In c (qcons p) -> (cidx c < nv p)%nat.
Proof. intros p c W H. apply wf_idx in H; auto. unfold cidx. lia. Qed.

Lemma cv_lt : forall p m, wf_qp p -> (m < nineq p)%nat -> (cv p m < nv p)%nat.
Proof. intros p m W H. apply (cidx_lt p (con p m) W). apply nth_In. exact H. Qed.

Ltac blk := rewrite ?x_set_x, ?x_set_s, ?x_set_y, ?x_set_z,
                    ?s_set_x, ?s_set_s, ?s_set_y, ?s_set_z,
                    ?y_set_x, ?y_set_s, ?y_set_y, ?y_set_z,
                    ?z_set_x, ?z_set_s, ?z_set_y, ?z_set_z.
Ltac blen := repeat first [ apply set_x_length | apply set_s_length | apply set_y_length
                          | apply set_z_length | assumption ].

Lemma K_pos_cases : forall (A : Type) (k : nat) (a b : A),
  (if (0 <? k)%nat then a else b) = match k with O => b | _ => a end.
Proof. intros A [|k] a b; reflexivity. Qed.

(* ------------------------------------------------------------------ *)
(** ** EvaluateKKTConditions *)

Section Eval.
  Variables (p : QP R) (st : ip_solver R).
  Hypothesis W : wf_qp p.
  Hypothesis RD : ready p st.
  Let d := ip_dims st.
  Let x := xblk d (ip_vars st).
  Let s := sblk d (ip_vars st).
  Let y := yblk d (ip_vars st).
  Let z := zblk d (ip_vars st).

  Lemma dN_nv : dN d = nv p. Proof. unfold d. rewrite (rd_dims _ _ RD). reflexivity. Qed.
  Lemma dM_ni : dM d = nineq p. Proof. unfold d. rewrite (rd_dims _ _ RD). reflexivity. Qed.
  Lemma dK_ne : dK d = neq p. Proof. unfold d. rewrite (rd_dims _ _ RD). reflexivity. Qed.

  Lemma len_x : length x = nv p.
  Proof. unfold x. rewrite xblk_length; [apply dN_nv|apply (rd_vars _ _ RD)]. Qed.
  Lemma len_s : length s = nineq p.
  Proof. unfold s. rewrite sblk_length; [apply dM_ni|apply (rd_vars _ _ RD)]. Qed.
  Lemma len_y : length y = neq p.
  Proof. unfold y. rewrite yblk_length; [apply dK_ne|apply (rd_vars _ _ RD)]. Qed.
  Lemma len_z : length z = nineq p.
  Proof. unfold z. rewrite zblk_length; [apply dM_ni|apply (rd_vars _ _ RD)]. Qed.

  Lemma dot_srow : forall i v, length v = nv p ->
    fdot (srow (qG p) i) v = Rsum (nv p) (fun j => Gs p i j * vget v j).
  Proof.
    intros i v Hv. simpl. rewrite (Rdot_n (nv p)); auto.
    - apply Rsum_ext. intros j Hj. unfold srow. rewrite (vget_mkvec R R_ops) by (rewrite wf_Gr; auto).
      reflexivity.
    - unfold srow. rewrite mkvec_length. apply wf_Gr; auto.
  Qed.

  Lemma dot_mcolA : forall i v, length v = neq p ->
    fdot (mcol (qA p) i) v = Rsum (neq p) (fun k => Ae p k i * vget v k).
  Proof.
    intros i v Hv. simpl. rewrite (Rdot_n (neq p)); auto.
    - apply Rsum_ext. intros k Hk. unfold mcol. rewrite (vget_mkvec R R_ops) by (rewrite wf_Ar; auto).
      reflexivity.
    - unfold mcol. rewrite mkvec_length. apply wf_Ar; auto.
  Qed.

  Lemma dot_mrowA : forall k v, (k < neq p)%nat -> length v = nv p ->
    fdot (mrow (qA p) k) v = Rsum (nv p) (fun j => Ae p k j * vget v j).
  Proof.
    intros k v Hk Hv. assert (HA := wf_Ac p W ltac:(lia)). simpl. rewrite (Rdot_n (nv p)); auto.
    - apply Rsum_ext. intros j Hj. unfold mrow. rewrite (vget_mkvec R R_ops) by (rewrite HA; auto).
      reflexivity.
    - unfold mrow. rewrite mkvec_length. exact HA.
  Qed.

  (** r_d before the inequality terms are subtracted. *)
  Let rd0 := mkvec (dN d) (fun i => fadd (fdot (srow (qG p) i) x) (vget (qc p) i)).
  Let rd1 := if (0 <? dK d)%nat
             then mkvec (dN d) (fun i => fsub (vget rd0 i) (fdot (mcol (qA p) i) y)) else rd0.

  Lemma rd1_length : length rd1 = dN d.
  Proof. unfold rd1. destruct (0 <? dK d)%nat; apply mkvec_length. Qed.

  Lemma rd1_get : forall i, (i < nv p)%nat ->
    vget rd1 i = Rsum (nv p) (fun j => Gs p i j * vget x j) + vget (qc p) i
                 - Rsum (neq p) (fun k => Ae p k i * vget y k).
  Proof.
    intros i Hi. unfold rd1.
    assert (H0 : vget rd0 i = Rsum (nv p) (fun j => Gs p i j * vget x j) + vget (qc p) i).
    { unfold rd0. rewrite (vget_mkvec R R_ops) by (rewrite dN_nv; exact Hi).
      rewrite dot_srow by apply len_x. reflexivity. }
    destruct (Nat.ltb_spec 0 (dK d)) as [HK|HK].
    - rewrite (vget_mkvec R R_ops) by (rewrite dN_nv; exact Hi).
      rewrite dot_mcolA by apply len_y. rewrite H0. reflexivity.
    - rewrite dK_ne in HK. rewrite H0. replace (neq p) with O by lia. simpl. ring.
  Qed.

  Let st' := EvaluateKKTConditions true p st.

  Lemma eval_ready : ready p st'.
  Proof.
    unfold st', EvaluateKKTConditions. fold d. fold x s y z. fold rd0. fold rd1.
    constructor; simpl; try apply RD.
    pose proof (rd_r _ _ RD) as Hr. fold d in Hr |- *.
    apply set_s_length; [apply set_z_length; [apply set_x_length|]|].
    - destruct (0 <? dK d)%nat; [apply set_y_length; [exact Hr|apply mkvec_length]|exact Hr].
    - rewrite fold_upd_length. apply rd1_length.
    - rewrite map_length, indexed_length. symmetry; apply dM_ni.
    - rewrite map_length, indexed_length. symmetry; apply dM_ni.
  Qed.

  Lemma eval_keeps : ip_vars st' = ip_vars st /\ ip_dims st' = d /\ ip_Hinv st' = ip_Hinv st /\
                     ip_delta st' = ip_delta st /\ ip_delta_aff st' = ip_delta_aff st.
  Proof. repeat split. Qed.

  (** Residual blocks. *)
  Lemma eval_r_blocks :
    (forall i, (i < nv p)%nat -> vget (xblk d (ip_r st')) i = kkt_dual p x y z i) /\
    (forall m, (m < nineq p)%nat -> vget (sblk d (ip_r st')) m = kkt_comp s z m) /\
    (forall k, (k < neq p)%nat -> vget (yblk d (ip_r st')) k = kkt_eq p x k) /\
    (forall m, (m < nineq p)%nat -> vget (zblk d (ip_r st')) m = kkt_ineq p x s m).
  Proof.
    pose proof (rd_r _ _ RD) as Hr. fold d in Hr.
    unfold st', EvaluateKKTConditions. fold d. fold x s y z. fold rd0. fold rd1.
    set (r1 := if (0 <? dK d)%nat then set_y d _ (ip_r st) else ip_r st).
    assert (Hr1 : length r1 = tsize d).
    { unfold r1. destruct (0 <? dK d)%nat; [apply set_y_length; [exact Hr|apply mkvec_length]|exact Hr]. }
    set (rd2 := fold_left _ (indexed (qcons p)) rd1).
    assert (Hrd2 : length rd2 = dN d) by (unfold rd2; rewrite fold_upd_length; apply rd1_length).
    set (rcp := map (fun ic : nat * lic R => fmul (vget s (fst ic)) (vget z (fst ic))) (indexed (qcons p))).
    set (rpi := map _ (indexed (qcons p))).
    assert (Hrpi : length rpi = dM d) by (unfold rpi; rewrite map_length, indexed_length; symmetry; apply dM_ni).
    assert (Hrcp : length rcp = dM d) by (unfold rcp; rewrite map_length, indexed_length; symmetry; apply dM_ni).
    cbn [with_r ip_r].
    assert (L1 : length (set_x d rd2 r1) = tsize d) by (apply set_x_length; assumption).
    assert (L2 : length (set_z d rpi (set_x d rd2 r1)) = tsize d) by (apply set_z_length; assumption).
    rewrite x_set_s, x_set_z, x_set_x by assumption.
    rewrite s_set_s by assumption.
    rewrite y_set_s, y_set_z, y_set_x by assumption.
    rewrite z_set_s, z_set_z by assumption.
    split; [|split; [|split]].
    - intros i Hi. unfold rd2.
      rewrite (fold_upd_indexed (qcons p) _ (fun ic => - (la (snd ic) * vget z (fst ic)))).
      + rewrite rd1_get by assumption. unfold kkt_dual.
        unfold Rminus at 2. f_equal. rewrite <- Rsum_opp. apply Rsum_ext. intros m Hm.
        cbn [fst snd]. change (cidx (nth m (qcons p) lic0)) with (cv p m).
        destruct (cv p m =? i)%nat; [reflexivity|ring].
      + intros ic v _. simpl. ring.
      + intros c Hc. rewrite rd1_length, dN_nv. apply cidx_lt; assumption.
    - intros m Hm. unfold rcp. rewrite (vget_map_indexed R R_ops _ _ _ _ lic0) by exact Hm.
      reflexivity.
    - intros k Hk. unfold r1. destruct (Nat.ltb_spec 0 (dK d)) as [HK|HK]; [|rewrite dK_ne in HK; lia].
      rewrite y_set_y by (try assumption; apply mkvec_length).
      rewrite (vget_mkvec R R_ops) by (rewrite dK_ne; exact Hk).
      rewrite dot_mrowA by (try assumption; apply len_x). reflexivity.
    - intros m Hm. unfold rpi. rewrite (vget_map_indexed R R_ops _ _ _ _ lic0) by exact Hm.
      reflexivity.
  Qed.
End Eval.
