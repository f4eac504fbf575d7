(** Dense vectors and matrices (Eigen::VectorXd, Eigen::MatrixXd) and the block
    operations of Eigen used by the library.  A vector is the list of its
    coefficients; a matrix is its list of rows together with its dimensions.
    [mkvec]/[mkmat] build one from a coefficient function. *)
From Coq Require Import List Bool Arith ZArith Lia.
From Verif Require Import Scalar.
Import ListNotations.

Definition mkvec {A : Type} (n : nat) (f : nat -> A) : list A := map f (seq 0 n).

Record mat (F : Type) : Type := Mat { mrows : nat; mcols : nat; mdata : list (list F) }.
Arguments Mat {F} _ _ _.
Arguments mrows {F} _.
Arguments mcols {F} _.
Arguments mdata {F} _.

Definition mkmat {F : Type} (r c : nat) (f : nat -> nat -> F) : mat F :=
  Mat r c (mkvec r (fun i => mkvec c (f i))).

(** A matrix value whose storage agrees with its declared dimensions. *)
Definition wf_mat {F : Type} (m : mat F) : Prop :=
  length (mdata m) = mrows m /\ Forall (fun row => length row = mcols m) (mdata m).

(** Replace coefficient [i] by a function of its old value: v[i] op= ... *)
Fixpoint vupd {A : Type} (i : nat) (g : A -> A) (v : list A) : list A :=
  match v, i with
  | [], _ => []
  | x :: v', O => g x :: v'
  | x :: v', S i' => x :: vupd i' g v'
  end.

Section Ops.
  Context {F : Type} {O : Ops F}.

  (** v[i]; every use is preceded by a range check in the model. *)
  Definition vget (v : list F) (i : nat) : F := nth i v f0.

  (** M(i,j) *)
  Definition mget (m : mat F) (i j : nat) : F := nth j (nth i (mdata m) []) f0.

  (** M.row(i), M.col(j) as coefficient lists *)
  Definition mrow (m : mat F) (i : nat) : list F := mkvec (mcols m) (fun j => mget m i j).
  Definition mcol (m : mat F) (j : nat) : list F := mkvec (mrows m) (fun i => mget m i j).

  (** Coefficient (i,j) of M.selfadjointView<Eigen::Lower>(). *)
  Definition sget (m : mat F) (i j : nat) : F :=
    if j <=? i then mget m i j else mget m j i.
  Definition srow (m : mat F) (i : nat) : list F := mkvec (mrows m) (fun j => sget m i j).

  (** M(i,j) op= ... *)
  Definition mupd (i j : nat) (g : F -> F) (m : mat F) : mat F :=
    Mat (mrows m) (mcols m) (vupd i (vupd j g) (mdata m)).

  Definition vzero (n : nat) : list F := repeat f0 n.
  Definition mzero (r c : nat) : mat F := Mat r c (repeat (repeat f0 c) r).

  (** Coefficient-wise expressions. *)
  Definition vadd (u v : list F) : list F := map (fun p => fadd (fst p) (snd p)) (combine u v).
  Definition vscale (v : list F) (a : F) : list F := map (fun x => fmul x a) v.
  Definition vneg (v : list F) : list F := map fneg v.

  (** M * v *)
  Definition mvmul (m : mat F) (v : list F) : list F :=
    mkvec (mrows m) (fun i => fdot (mrow m i) v).
  (** M.selfadjointView<Lower>() * v *)
  Definition smvmul (m : mat F) (v : list F) : list F :=
    mkvec (mrows m) (fun i => fdot (srow m i) v).
End Ops.

(** v.segment(off, len) *)
Definition vseg {A : Type} (off len : nat) (v : list A) : list A := firstn len (skipn off v).
(** v.segment(off, new.rows()) = new *)
Definition vset_seg {A : Type} (off : nat) (new v : list A) : list A :=
  firstn off v ++ new ++ skipn (off + length new) v.

(* ------------------------------------------------------------------ *)
(** * Basic facts, independent of the arithmetic. *)

Lemma mkvec_length : forall A n (f : nat -> A), length (mkvec n f) = n.
Proof. intros. unfold mkvec. rewrite map_length, seq_length. reflexivity. Qed.

Lemma mkvec_nth : forall A n (f : nat -> A) i d, i < n -> nth i (mkvec n f) d = f i.
Proof.
  intros A n f i d Hi. unfold mkvec.
  rewrite nth_indep with (d' := f 0) by (rewrite map_length, seq_length; exact Hi).
  rewrite map_nth. rewrite seq_nth by exact Hi. reflexivity.
Qed.

Lemma mkvec_ext : forall A n (f g : nat -> A),
  (forall i, i < n -> f i = g i) -> mkvec n f = mkvec n g.
Proof.
  intros A n f g H. unfold mkvec. apply map_ext_in. intros i Hi.
  apply H. apply in_seq in Hi. lia.
Qed.

Lemma mkmat_rows : forall F r c (f : nat -> nat -> F), mrows (mkmat r c f) = r.
Proof. reflexivity. Qed.
Lemma mkmat_cols : forall F r c (f : nat -> nat -> F), mcols (mkmat r c f) = c.
Proof. reflexivity. Qed.

Lemma mkmat_wf : forall F r c (f : nat -> nat -> F), wf_mat (mkmat r c f).
Proof.
  intros. split; simpl.
  - apply mkvec_length.
  - apply Forall_forall. intros row H. unfold mkvec in H. apply in_map_iff in H.
    destruct H as [i [<- _]]. apply mkvec_length.
Qed.

Lemma mkmat_ext : forall F r c (f g : nat -> nat -> F),
  (forall i j, i < r -> j < c -> f i j = g i j) -> mkmat r c f = mkmat r c g.
Proof.
  intros F r c f g H. unfold mkmat. f_equal. apply mkvec_ext. intros i Hi.
  apply mkvec_ext. intros j Hj. auto.
Qed.

Lemma mget_mkmat : forall F (O : Ops F) r c (f : nat -> nat -> F) i j,
  i < r -> j < c -> mget (mkmat r c f) i j = f i j.
Proof.
  intros. unfold mget, mkmat; simpl. rewrite mkvec_nth by assumption.
  rewrite mkvec_nth by assumption. reflexivity.
Qed.

Lemma vget_mkvec : forall F (O : Ops F) n (f : nat -> F) i,
  i < n -> vget (mkvec n f) i = f i.
Proof. intros. unfold vget. apply mkvec_nth; assumption. Qed.

Lemma vupd_length : forall A i (g : A -> A) v, length (vupd i g v) = length v.
Proof. intros A i g v. revert i. induction v; intros [|i]; simpl; auto. Qed.

Lemma vupd_nth : forall A i (g : A -> A) v j d,
  nth j (vupd i g v) d = if (j =? i) && (i <? length v) then g (nth j v d) else nth j v d.
Proof.
  intros A i g v. revert i. induction v as [|x v IH]; intros i j d; simpl.
  - destruct i, j; simpl; rewrite ?andb_false_r; reflexivity.
  - destruct i as [|i], j as [|j]; simpl; auto.
    rewrite IH. reflexivity.
Qed.

Lemma vget_vupd : forall F (O : Ops F) i g v j,
  i < length v -> vget (vupd i g v) j = if j =? i then g (vget v j) else vget v j.
Proof.
  intros. unfold vget. rewrite vupd_nth.
  destruct (i <? length v) eqn:E; [rewrite andb_true_r; reflexivity|].
  apply Nat.ltb_ge in E. lia.
Qed.

Lemma vget_ext : forall F (O : Ops F) (u v : list F),
  length u = length v -> (forall i, i < length u -> vget u i = vget v i) -> u = v.
Proof.
  intros F O u v Hl H. apply nth_ext with (d := f0) (d' := f0); auto.
Qed.

Lemma mkvec_vget : forall F (O : Ops F) (v : list F), mkvec (length v) (vget v) = v.
Proof.
  intros F O v. apply (vget_ext F O).
  - apply mkvec_length.
  - intros i Hi. rewrite mkvec_length in Hi. apply vget_mkvec. exact Hi.
Qed.

Lemma vseg_length : forall A off len (v : list A),
  off + len <= length v -> length (vseg off len v) = len.
Proof. intros. unfold vseg. rewrite firstn_length, skipn_length. lia. Qed.

Lemma skipn_skipn' : forall A n m (l : list A), skipn n (skipn m l) = skipn (m + n) l.
Proof.
  intros A n m. induction m as [|m IH]; intros l; [reflexivity|].
  destruct l as [|x l]; simpl; [destruct n; reflexivity|apply IH].
Qed.

Lemma nth_skipn : forall A n (l : list A) i d, nth i (skipn n l) d = nth (n + i) l d.
Proof.
  intros A n. induction n as [|n IH]; intros l i d; [reflexivity|].
  destruct l as [|x l]; simpl; [destruct i; reflexivity|apply IH].
Qed.

Lemma nth_firstn : forall A n (l : list A) i d, i < n -> nth i (firstn n l) d = nth i l d.
Proof.
  intros A n. induction n as [|n IH]; intros l i d H; [lia|].
  destruct l as [|x l]; [reflexivity|]. destruct i as [|i]; [reflexivity|].
  simpl. apply IH. lia.
Qed.

Lemma vseg_nth : forall A off len (v : list A) i d,
  i < len -> nth i (vseg off len v) d = nth (off + i) v d.
Proof. intros. unfold vseg. rewrite nth_firstn by assumption. apply nth_skipn. Qed.

Lemma vset_seg_length : forall A off (new v : list A),
  off + length new <= length v -> length (vset_seg off new v) = length v.
Proof.
  intros. unfold vset_seg. rewrite !app_length, firstn_length, skipn_length. lia.
Qed.

Lemma vset_seg_nth : forall A off (new v : list A) i d,
  off + length new <= length v ->
  nth i (vset_seg off new v) d =
    if (off <=? i) && (i <? off + length new) then nth (i - off) new d else nth i v d.
Proof.
  intros A off new v i d H. unfold vset_seg.
  destruct (Nat.leb_spec off i) as [H1|H1]; simpl.
  - rewrite app_nth2 by (rewrite firstn_length; lia).
    rewrite firstn_length. replace (i - Nat.min off (length v)) with (i - off) by lia.
    destruct (Nat.ltb_spec i (off + length new)) as [H2|H2].
    + rewrite app_nth1 by lia. reflexivity.
    + rewrite app_nth2 by lia. rewrite nth_skipn. f_equal. lia.
  - rewrite app_nth1 by (rewrite firstn_length; lia). apply nth_firstn. lia.
Qed.
