(** C86: residual handles (residual.hpp).  What MakeResidual builds, what can and cannot be done with a handle that was moved
    from or that has a dynamic dimension, and who owns the objects behind the handles. *)
From Coq Require Import String List Bool ZArith Arith QArith Lia.
From Verif Require Import Scalar Outcome LinAlg Structs Constraint Residual QPModel NullSpace Nonlinear NLSObject ResidualHandle.
Import ListNotations.
Local Open Scope outcome_scope.
Local Open Scope string_scope.
Local Open Scope list_scope.
Local Open Scope nat_scope.

(** ** Specification: handles as values

    A program with Residual objects, described without pointers: each object either contains a residual or is empty. *)
Section ValueSpec.
  Context {C : Type}.
  Definition put (i : nat) (v : option C) (l : list (option C)) : list (option C) :=
    map (fun k => if k =? i then v else nth k l None) (seq 0 (length l)).
  Definition at_ (i : nat) (l : list (option C)) : option C := nth i l None.

  Definition vstep (o : hop C) (l : list (option C)) : list (option C) :=
    match o with
    | Declare_made c => l ++ [Some c]
    | Declare_moved i => put i None l ++ [at_ i l]
    | Assign_made i c => put i (Some c) l
    | Assign_moved i j => if i =? j then l else put j None (put i (at_ j l) l)
    | Swap i j => put j (at_ i l) (put i (at_ j l) l)
    | Call i => l
    end.
  Definition vrun (ops : list (hop C)) (l : list (option C)) : list (option C) :=
    fold_left (fun l o => vstep o l) ops l.

  (** What the pointer level shows: the contents of each object. *)
  Definition content (s : store C) (i : nat) : option C :=
    match slot i s with
    | None => None
    | Some a => match nth_error (st_heap s) a with Some (Some c) => Some c | _ => None end
    end.
  Definition contents (s : store C) : list (option C) := map (content s) (seq 0 (length (st_slots s))).

  (** Block [a] is allocated and not freed. *)
  Definition live (s : store C) (a : nat) : Prop := exists c, nth_error (st_heap s) a = Some (Some c).
End ValueSpec.

Section OwnershipProofs.
  Context {C : Type}.
  Implicit Types (s : store C) (o : hop C).

  Lemma put_length : forall i (v : option C) l, length (put i v l) = length l.
  Proof. intros. unfold put. rewrite map_length, seq_length. reflexivity. Qed.
  Lemma put_nth : forall i (v : option C) l k, k < length l -> nth k (put i v l) None = if k =? i then v else nth k l None.
  Proof.
    intros. unfold put. rewrite (nth_indep _ None ((fun k => if k =? i then v else nth k l None) 0)).
    - rewrite (map_nth (fun k => if k =? i then v else nth k l None)). rewrite seq_nth by assumption. reflexivity.
    - rewrite map_length, seq_length. assumption.
  Qed.

  Lemma set_slot_length : forall i p l, i < length l -> length (set_slot i p l) = length l.
  Proof.
    intros. unfold set_slot. rewrite app_length. cbn [length]. rewrite firstn_length, skipn_length. lia.
  Qed.
  Lemma nth_replace : forall (A : Type) (l : list A) i x d k, i < length l ->
    nth k (firstn i l ++ x :: skipn (S i) l) d = if k =? i then x else nth k l d.
  Proof.
    intros A l. induction l as [|a l IH]; intros i x d k H; cbn [length] in H; [lia|].
    destruct i as [|i].
    - cbn. destruct k; reflexivity.
    - cbn [firstn skipn app]. destruct k as [|k]; [reflexivity|]. cbn [nth]. rewrite IH by lia. reflexivity.
  Qed.
  Lemma nth_error_replace : forall (A : Type) (l : list A) i x k, i < length l ->
    nth_error (firstn i l ++ x :: skipn (S i) l) k = if k =? i then Some x else nth_error l k.
  Proof.
    intros A l. induction l as [|a l IH]; intros i x k H; cbn [length] in H; [lia|].
    destruct i as [|i].
    - cbn. destruct k; reflexivity.
    - cbn [firstn skipn app]. destruct k as [|k]; [reflexivity|]. cbn [nth_error]. rewrite IH by lia. reflexivity.
  Qed.
  Lemma set_slot_nth : forall i p l k, i < length l -> nth k (set_slot i p l) None = if k =? i then p else nth k l None.
  Proof. intros. unfold set_slot. apply nth_replace. assumption. Qed.

  (** Every object is empty or owns a live block, no block has two owners. [extra] is a pointer held by a temporary. *)
  Record owned (extra : option nat) (s : store C) : Prop := {
    ow_live : forall i a, slot i s = Some a -> live s a;
    ow_uniq : forall i j a, slot i s = Some a -> slot j s = Some a -> i = j;
    ow_extra : forall a, extra = Some a -> live s a /\ forall i, slot i s <> Some a;
    ow_all : forall a, live s a -> extra = Some a \/ exists i, slot i s = Some a }.

  Lemma slot_bound : forall s i a, slot i s = Some a -> i < length (st_slots s).
  Proof.
    intros s i a H. unfold slot in H. destruct (Nat.lt_ge_cases i (length (st_slots s))); [assumption|].
    rewrite nth_overflow in H by assumption. discriminate.
  Qed.
  Lemma live_bound : forall s a, live s a -> a < length (st_heap s).
  Proof. intros s a (c & H). apply nth_error_Some. rewrite H. discriminate. Qed.

  Lemma slot_set : forall h i p l k, i < length l ->
    slot k (MkStore (C:=C) h (set_slot i p l)) = if k =? i then p else nth k l None.
  Proof. intros. unfold slot. cbn [st_slots]. apply set_slot_nth. assumption. Qed.

  (** release into a temporary *)
  Lemma release_owned : forall s i, owned None s -> i < length (st_slots s) ->
    owned (snd (release i s)) (fst (release i s)).
  Proof.
    intros s i [L U E A] B. unfold release. cbn [fst snd].
    assert (LV : forall a, live (MkStore (st_heap s) (set_slot i None (st_slots s))) a <-> live s a) by (intro; reflexivity).
    constructor.
    - intros k a H. rewrite slot_set in H by assumption. destruct (Nat.eqb_spec k i); [discriminate|]. apply LV. eapply L, H.
    - intros k j a H H'. rewrite slot_set in H, H' by assumption.
      destruct (Nat.eqb_spec k i); [discriminate|]. destruct (Nat.eqb_spec j i); [discriminate|]. eapply U; [exact H|exact H'].
    - intros a H. split; [apply LV; eapply L, H|]. intros k H'. rewrite slot_set in H' by assumption.
      destruct (Nat.eqb_spec k i); [discriminate|]. pose proof (U _ _ _ H H'). congruence.
    - intros a H. apply LV in H. destruct (A a H) as [H1|(k & H1)]; [discriminate|].
      destruct (Nat.eq_dec k i) as [->|N]; [left; exact H1|]. right. exists k. rewrite slot_set by assumption.
      destruct (Nat.eqb_spec k i); [congruence|exact H1].
  Qed.

  (** reset from a temporary, when a further temporary may exist only if this one is null: stated for one temporary. *)
  Lemma reset_owned : forall s i p, owned p s -> i < length (st_slots s) ->
    exists s', reset i p s = Ok s' /\ owned None s' /\ length (st_slots s') = length (st_slots s) /\
      (forall k, slot k s' = if k =? i then p else slot k s) /\
      (forall a, slot i s <> Some a -> nth_error (st_heap s') a = nth_error (st_heap s) a) /\
      length (st_heap s') = length (st_heap s).
  Proof.
    intros s i p [L U E A] B. unfold reset. destruct (slot i s) as [a0|] eqn:SI.
    - destruct (L i a0 SI) as (c0 & N0). cbn [delete]. rewrite N0. cbn [bind].
      assert (B0 : a0 < length (st_heap s)) by (apply nth_error_Some; rewrite N0; discriminate).
      assert (NE : forall a, nth_error (firstn a0 (st_heap s) ++ None :: skipn (S a0) (st_heap s)) a =
                             if a =? a0 then Some None else nth_error (st_heap s) a) by (intro; apply nth_error_replace; assumption).
      eexists. split; [reflexivity|].
      set (h' := firstn a0 (st_heap s) ++ None :: skipn (S a0) (st_heap s)) in *.
      assert (SL : forall k, slot k (MkStore h' (set_slot i p (st_slots s))) = if k =? i then p else slot k s)
        by (intro; apply slot_set; assumption).
      assert (LV : forall a, live (MkStore h' (set_slot i p (st_slots s))) a <-> live s a /\ a <> a0).
      { intro a. unfold live. cbn [st_heap]. rewrite NE. destruct (Nat.eqb_spec a a0).
        - split; [intros (c & H); discriminate|intros (_ & H); congruence].
        - tauto. }
      assert (OK : owned None (MkStore h' (set_slot i p (st_slots s)))).
      { constructor.
        - intros k a H. rewrite SL in H. apply LV. destruct (Nat.eqb_spec k i).
          + destruct (E a H) as (H1 & H2). split; [exact H1|]. intros ->. exact (H2 i SI).
          + split; [eapply L, H|]. intros ->. apply n. eapply U; [exact H|exact SI].
        - intros k j a H H'. rewrite SL in H, H'. destruct (Nat.eqb_spec k i), (Nat.eqb_spec j i); subst; try reflexivity.
          + exfalso. exact (proj2 (E a eq_refl) j H').
          + exfalso. exact (proj2 (E a eq_refl) k H).
          + eapply U; [exact H|exact H'].
        - intros a H. discriminate.
        - intros a H. apply LV in H. destruct H as (H & Na). right. destruct (A a H) as [->|(k & Hk)].
          + exists i. rewrite SL, Nat.eqb_refl. reflexivity.
          + exists k. rewrite SL. destruct (Nat.eqb_spec k i); [|exact Hk]. subst k. congruence. }
      split; [exact OK|]. cbn [st_slots st_heap]. split; [apply set_slot_length; assumption|]. split; [exact SL|].
      split.
      + intros a H. rewrite NE. destruct (Nat.eqb_spec a a0); [subst; congruence|reflexivity].
      + subst h'. rewrite app_length. cbn [length]. rewrite firstn_length, skipn_length. lia.
    - cbn [delete bind]. eexists. split; [reflexivity|].
      assert (SL : forall k, slot k (MkStore (st_heap s) (set_slot i p (st_slots s))) = if k =? i then p else slot k s)
        by (intro; apply slot_set; assumption).
      assert (LV : forall a, live (MkStore (st_heap s) (set_slot i p (st_slots s))) a <-> live s a) by (intro; reflexivity).
      split; [|cbn [st_slots st_heap]; split; [apply set_slot_length; assumption|]; split; [exact SL|]; split; auto].
      constructor.
      + intros k a H. rewrite SL in H. apply LV. destruct (Nat.eqb_spec k i); [exact (proj1 (E a H))|eapply L, H].
      + intros k j a H H'. rewrite SL in H, H'. destruct (Nat.eqb_spec k i), (Nat.eqb_spec j i); subst; try reflexivity.
        * exfalso. exact (proj2 (E a eq_refl) j H').
        * exfalso. exact (proj2 (E a eq_refl) k H).
        * eapply U; [exact H|exact H'].
      + intros a H. discriminate.
      + intros a H. apply LV in H. right. destruct (A a H) as [->|(k & Hk)].
        * exists i. rewrite SL, Nat.eqb_refl. reflexivity.
        * exists k. rewrite SL. destruct (Nat.eqb_spec k i); [|exact Hk]. subst k. congruence.
  Qed.

  Lemma contents_length : forall s, length (contents s) = length (st_slots s).
  Proof. intros. unfold contents. rewrite map_length, seq_length. reflexivity. Qed.
  Lemma contents_nth : forall s k, nth k (contents s) None = content s k.
  Proof.
    intros s k. destruct (Nat.lt_ge_cases k (length (st_slots s))) as [H|H].
    - unfold contents. rewrite (nth_indep _ None (content s 0)) by (rewrite map_length, seq_length; assumption).
      rewrite (map_nth (content s)), seq_nth by assumption. reflexivity.
    - rewrite nth_overflow by (rewrite contents_length; assumption).
      unfold content, slot. rewrite nth_overflow by assumption. reflexivity.
  Qed.
  Lemma contents_ext : forall s l, length l = length (st_slots s) ->
    (forall k, k < length l -> content s k = nth k l None) -> contents s = l.
  Proof.
    intros s l L H. apply (nth_ext _ _ None None); [rewrite contents_length; auto|].
    intros k Hk. rewrite contents_nth. apply H. rewrite contents_length in Hk. lia.
  Qed.
  (** Contents are determined by the pointer and the block it points to. *)
  Lemma content_same : forall s s' k k', slot k' s' = slot k s ->
    (forall a, slot k s = Some a -> nth_error (st_heap s') a = nth_error (st_heap s) a) -> content s' k' = content s k.
  Proof.
    intros s s' k k' E H. unfold content. rewrite E. destruct (slot k s) as [a|]; [|reflexivity].
    rewrite (H a eq_refl). reflexivity.
  Qed.

  Lemma alloc_owned : forall s c, owned None s ->
    owned (Some (length (st_heap s))) (MkStore (st_heap s ++ [Some c]) (st_slots s)).
  Proof.
    intros s c [L U E A].
    assert (LV : forall a, live (MkStore (st_heap s ++ [Some c]) (st_slots s)) a <-> live s a \/ a = length (st_heap s)).
    { intro a. unfold live. cbn [st_heap]. destruct (Nat.lt_trichotomy a (length (st_heap s))) as [H|[->|H]].
      - rewrite nth_error_app1 by assumption. split; [auto|intros [H'|H']; [exact H'|lia]].
      - rewrite nth_error_app2 by lia. rewrite Nat.sub_diag. cbn. split; [auto|intros _; eauto].
      - split.
        + intros (c' & H'). exfalso. assert (B : a < length (st_heap s ++ [Some c])) by (apply nth_error_Some; rewrite H'; discriminate).
          rewrite app_length in B. cbn in B. lia.
        + intros [H'|H']; [|lia]. apply live_bound in H'. lia. }
    constructor.
    - intros i a H. apply LV. left. exact (L i a H).
    - intros i j a H H'. exact (U i j a H H').
    - intros a H. injection H as <-. split; [apply LV; auto|]. intros i H. change (slot i s = Some (length (st_heap s))) in H.
      apply L, live_bound in H. lia.
    - intros a H. apply LV in H. destruct H as [H|H]; [|left; congruence]. right.
      destruct (A a H) as [H'|H']; [discriminate|exact H'].
  Qed.

  (** A temporary becomes a new object. *)
  Lemma push_owned : forall s p, owned p s -> owned None (MkStore (st_heap s) (st_slots s ++ [p])).
  Proof.
    intros s p [L U E A].
    assert (SL : forall k, slot k (MkStore (st_heap s) (st_slots s ++ [p])) = if k =? length (st_slots s) then p else slot k s).
    { intro k. unfold slot. cbn [st_slots]. destruct (Nat.eqb_spec k (length (st_slots s))) as [->|N].
      - rewrite app_nth2 by lia. rewrite Nat.sub_diag. reflexivity.
      - destruct (Nat.lt_ge_cases k (length (st_slots s))); [apply app_nth1; assumption|].
        rewrite !nth_overflow; [reflexivity|lia|rewrite app_length; cbn; lia]. }
    constructor.
    - intros k a H. rewrite SL in H. destruct (k =? _); [exact (proj1 (E a H))|exact (L k a H)].
    - intros k j a H H'. rewrite SL in H, H'. destruct (Nat.eqb_spec k (length (st_slots s))), (Nat.eqb_spec j (length (st_slots s)));
        subst; try reflexivity.
      + exfalso. exact (proj2 (E a eq_refl) j H').
      + exfalso. exact (proj2 (E a eq_refl) k H).
      + eapply U; eassumption.
    - intros a H. discriminate.
    - intros a H. right. destruct (A a H) as [->|(k & Hk)].
      + exists (length (st_slots s)). rewrite SL, Nat.eqb_refl. reflexivity.
      + exists k. rewrite SL. pose proof (slot_bound _ _ _ Hk). destruct (Nat.eqb_spec k (length (st_slots s))); [lia|exact Hk].
  Qed.
  Lemma push_slot : forall h l p k, slot k (MkStore (C:=C) h (l ++ [p])) = if k =? length l then p else nth k l None.
  Proof.
    intros. unfold slot. cbn [st_slots]. destruct (Nat.eqb_spec k (length l)) as [->|N].
    - rewrite app_nth2 by lia. rewrite Nat.sub_diag. reflexivity.
    - destruct (Nat.lt_ge_cases k (length l)); [apply app_nth1; assumption|].
      rewrite !nth_overflow; [reflexivity|lia|rewrite app_length; cbn; lia].
  Qed.

  Ltac slen := first [assumption | rewrite set_slot_length; slen].
  Lemma swap_result : forall s i j, i < length (st_slots s) -> j < length (st_slots s) ->
    exists s', hstep (Swap i j) s = Ok s' /\ st_heap s' = st_heap s /\ length (st_slots s') = length (st_slots s) /\
      forall k, slot k s' = if k =? j then slot i s else if k =? i then slot j s else slot k s.
  Proof.
    intros s i j Bi Bj.
    assert (S2i : slot i (MkStore (st_heap s) (set_slot j None (set_slot i None (st_slots s)))) = None).
    { unfold slot. cbn [st_slots]. rewrite set_slot_nth by slen. rewrite set_slot_nth by assumption.
      rewrite Nat.eqb_refl. destruct (i =? j); reflexivity. }
    cbn [hstep]. unfold release. cbn [st_slots st_heap]. unfold reset. cbn [st_slots st_heap].
    rewrite S2i. cbn [delete bind st_slots st_heap].
    set (p := slot j (MkStore (st_heap s) (set_slot i None (st_slots s)))).
    assert (P : p = if j =? i then None else slot j s) by (unfold p; apply slot_set; assumption).
    assert (S3j : slot j (MkStore (st_heap s) (set_slot i p (set_slot j None (set_slot i None (st_slots s))))) = None).
    { unfold slot. cbn [st_slots]. rewrite set_slot_nth by slen.
      rewrite set_slot_nth by slen. rewrite P, Nat.eqb_refl. destruct (j =? i); reflexivity. }
    rewrite S3j. cbn [delete bind st_heap st_slots].
    eexists. split; [reflexivity|]. cbn [st_heap st_slots]. split; [reflexivity|].
    split; [rewrite !set_slot_length by slen; reflexivity|].
    intro k. unfold slot at 1. cbn [st_slots].
    rewrite set_slot_nth by slen.
    destruct (Nat.eqb_spec k j); [reflexivity|].
    rewrite set_slot_nth by slen.
    destruct (Nat.eqb_spec k i).
    - subst k. rewrite P. destruct (Nat.eqb_spec j i); [congruence|reflexivity].
    - rewrite set_slot_nth by slen. destruct (Nat.eqb_spec k j); [congruence|].
      rewrite set_slot_nth by assumption. destruct (Nat.eqb_spec k i); [congruence|reflexivity].
  Qed.

  Lemma step_refines : forall o s, owned None s -> op_ok (length (st_slots s)) o ->
    exists s', hstep_catch o s = Ok s' /\ owned None s' /\ contents s' = vstep o (contents s) /\
               length (st_slots s') = length (st_slots s) + grows o.
  Proof.
    intros o s W B. destruct o as [c|i|i c|i j|i j|i]; cbn [op_ok] in B.
    - (* Declare_made *)
      unfold hstep_catch. cbn [hstep]. eexists. split; [reflexivity|].
      pose proof (push_owned _ _ (alloc_owned s c W)) as W'. cbn [st_heap st_slots] in W'.
      split; [exact W'|]. split; [|cbn [st_slots grows]; rewrite app_length; reflexivity].
      apply contents_ext; cbn [vstep st_slots]; [rewrite !app_length, contents_length; reflexivity|].
      intros k Hk. rewrite app_length, contents_length in Hk. cbn [length] in Hk.
      destruct (Nat.eq_dec k (length (st_slots s))) as [->|N].
      + rewrite app_nth2 by (rewrite contents_length; lia). rewrite contents_length, Nat.sub_diag. cbn [nth].
        unfold content. rewrite push_slot, Nat.eqb_refl. cbn [st_heap]. rewrite nth_error_app2, Nat.sub_diag by lia. reflexivity.
      + rewrite app_nth1 by (rewrite contents_length; lia). rewrite contents_nth. apply content_same.
        * rewrite push_slot. destruct (Nat.eqb_spec k (length (st_slots s))); [congruence|reflexivity].
        * intros a Ha. cbn [st_heap]. apply nth_error_app1. eapply live_bound. eapply (ow_live _ _ W), Ha.
    - (* Declare_moved *)
      unfold hstep_catch. cbn [hstep release]. unfold release. cbn [st_heap st_slots]. eexists. split; [reflexivity|].
      pose proof (release_owned s i W B) as R1. unfold release in R1. cbn [fst snd] in R1.
      pose proof (push_owned _ _ R1) as W'. cbn [st_heap st_slots] in W'. split; [exact W'|].
      split; [|cbn [st_slots grows]; rewrite app_length, set_slot_length by assumption; reflexivity].
      apply contents_ext; cbn [vstep st_slots];
        [rewrite !app_length, put_length, contents_length, set_slot_length by assumption; reflexivity|].
      intros k Hk. rewrite app_length, put_length, contents_length in Hk. cbn [length] in Hk.
      destruct (Nat.eq_dec k (length (st_slots s))) as [->|N].
      + rewrite app_nth2 by (rewrite put_length, contents_length; lia). rewrite put_length, contents_length, Nat.sub_diag. cbn [nth].
        unfold at_. rewrite contents_nth. apply content_same; [|reflexivity].
        rewrite push_slot, set_slot_length, Nat.eqb_refl by assumption. reflexivity.
      + rewrite app_nth1 by (rewrite put_length, contents_length; lia). rewrite put_nth by (rewrite contents_length; lia).
        rewrite contents_nth.
        assert (SK : slot k (MkStore (st_heap s) (set_slot i None (st_slots s) ++ [slot i s])) = if k =? i then None else slot k s).
        { rewrite push_slot, set_slot_length by assumption. destruct (Nat.eqb_spec k (length (st_slots s))); [congruence|].
          apply set_slot_nth; assumption. }
        destruct (Nat.eqb_spec k i).
        * unfold content. rewrite SK. reflexivity.
        * apply content_same; [exact SK|reflexivity].
    - (* Assign_made *)
      unfold hstep_catch. cbn [hstep].
      destruct (reset_owned _ i _ (alloc_owned s c W) B) as (s' & E & W' & L' & SL & HP & HL). rewrite E.
      exists s'. split; [reflexivity|]. split; [exact W'|]. cbn [st_slots st_heap grows] in *. split; [|lia].
      apply contents_ext; cbn [vstep]; [rewrite put_length, contents_length; auto|].
      intros k Hk. rewrite put_length in Hk. rewrite put_nth by assumption. rewrite contents_nth.
      destruct (Nat.eqb_spec k i).
      + subst k. unfold content. rewrite SL, Nat.eqb_refl. rewrite HP.
        * rewrite nth_error_app2, Nat.sub_diag by lia. reflexivity.
        * intro H. change (slot i s = Some (length (st_heap s))) in H. apply (ow_live _ _ W), live_bound in H. lia.
      + apply content_same.
        * rewrite SL. destruct (Nat.eqb_spec k i); [congruence|reflexivity].
        * intros a Ha. rewrite HP.
          -- apply nth_error_app1. eapply live_bound. eapply (ow_live _ _ W), Ha.
          -- intro H. change (slot i s = Some a) in H. pose proof (ow_uniq _ _ W _ _ _ Ha H). congruence.
    - (* Assign_moved *)
      destruct B as (Bi & Bj). unfold hstep_catch. cbn [hstep].
      pose proof (release_owned s j W Bj) as R1. destruct (release j s) as [s1 p] eqn:ER. cbn [fst snd] in R1.
      unfold release in ER. injection ER as <- <-.
      assert (Bi' : i < length (st_slots (MkStore (st_heap s) (set_slot j None (st_slots s)))))
        by (cbn [st_slots]; rewrite set_slot_length; assumption).
      destruct (reset_owned _ i _ R1 Bi') as (s' & E & W' & L' & SL & HP & HL). rewrite E.
      exists s'. split; [reflexivity|]. split; [exact W'|]. cbn [st_slots st_heap grows] in *.
      rewrite set_slot_length in L' by assumption. split; [|lia].
      assert (SL' : forall k, slot k s' = if k =? i then slot j s else if k =? j then None else slot k s).
      { intro k. rewrite SL. destruct (k =? i); [reflexivity|]. apply slot_set; assumption. }
      assert (SI : forall a, slot i (MkStore (st_heap s) (set_slot j None (st_slots s))) = Some a -> i <> j /\ slot i s = Some a).
      { intros a. rewrite slot_set by assumption. destruct (Nat.eqb_spec i j); [discriminate|]. intros H. split; assumption. }
      apply contents_ext; cbn [vstep].
      + destruct (i =? j); [|rewrite !put_length]; rewrite contents_length; auto.
      + intros k Hk. destruct (Nat.eqb_spec i j) as [->|Nij].
        * rewrite contents_nth. apply content_same.
          -- rewrite SL'. destruct (Nat.eqb_spec k j); [subst; reflexivity|reflexivity].
          -- intros a Ha. apply HP. intro H. apply SI in H. destruct H; congruence.
        * rewrite !put_length in Hk. rewrite put_nth by (rewrite put_length; assumption).
          destruct (Nat.eqb_spec k j) as [->|Nkj].
          -- unfold content. rewrite SL'. destruct (Nat.eqb_spec j i); [congruence|]. rewrite Nat.eqb_refl. reflexivity.
          -- rewrite put_nth by assumption. unfold at_. rewrite !contents_nth. destruct (Nat.eqb_spec k i) as [->|Nki].
             ++ apply content_same; [rewrite SL', Nat.eqb_refl; reflexivity|].
                intros a Ha. apply HP. intro H. apply SI in H. destruct H as (_ & H). pose proof (ow_uniq _ _ W _ _ _ Ha H). congruence.
             ++ apply content_same.
                ** rewrite SL'. destruct (Nat.eqb_spec k i); [congruence|]. destruct (Nat.eqb_spec k j); [congruence|reflexivity].
                ** intros a Ha. apply HP. intro H. apply SI in H. destruct H as (_ & H). pose proof (ow_uniq _ _ W _ _ _ Ha H). congruence.
    - (* Swap *)
      destruct B as (Bi & Bj). unfold hstep_catch. destruct (swap_result s i j Bi Bj) as (s' & E & HE & L & SL). rewrite E.
      exists s'. split; [reflexivity|]. cbn [grows].
      assert (LV : forall a, live s' a <-> live s a) by (intro; unfold live; rewrite HE; reflexivity).
      set (pi := fun k => if k =? j then i else if k =? i then j else k).
      assert (SP : forall k, slot k s' = slot (pi k) s).
      { intro k. rewrite SL. unfold pi. destruct (k =? j); [reflexivity|]. destruct (k =? i); reflexivity. }
      assert (PP : forall k, pi (pi k) = k).
      { intro k. unfold pi. destruct (Nat.eqb_spec k j).
        - subst. destruct (Nat.eqb_spec i j); [congruence|]. rewrite Nat.eqb_refl. reflexivity.
        - destruct (Nat.eqb_spec k i).
          + subst. rewrite Nat.eqb_refl. reflexivity.
          + destruct (Nat.eqb_spec k j); [congruence|]. destruct (Nat.eqb_spec k i); [congruence|reflexivity]. }
      split; [|split; [|lia]].
      + destruct W as [WL WU WE WA]. constructor.
        * intros k a H. rewrite SP in H. apply LV. eapply WL, H.
        * intros k l a H H'. rewrite SP in H, H'. pose proof (WU _ _ _ H H') as Q. rewrite <- (PP k), <- (PP l), Q. reflexivity.
        * intros a H. discriminate.
        * intros a H. apply LV in H. right. destruct (WA a H) as [H'|(k & Hk)]; [discriminate|].
          exists (pi k). rewrite SP, PP. exact Hk.
      + apply contents_ext; cbn [vstep]; [rewrite !put_length, contents_length; auto|].
        intros k Hk. rewrite !put_length in Hk. rewrite put_nth by (rewrite put_length; assumption).
        unfold at_. destruct (Nat.eqb_spec k j).
        * rewrite contents_nth. apply content_same; [|intros; rewrite HE; reflexivity]. rewrite SL. subst. rewrite Nat.eqb_refl. reflexivity.
        * rewrite put_nth by assumption. destruct (Nat.eqb_spec k i); rewrite contents_nth;
            (apply content_same; [|intros; rewrite HE; reflexivity]); rewrite SL;
            destruct (Nat.eqb_spec k j); try congruence; destruct (Nat.eqb_spec k i); try congruence; reflexivity.
    - (* Call *)
      exists s. split; [|split; [exact W|]; split; [reflexivity|cbn; lia]].
      unfold hstep_catch. cbn [hstep]. destruct (slot i s) as [a|] eqn:E; [|reflexivity].
      destruct (ow_live _ _ W i a E) as (c & ->). reflexivity.
  Qed.

  Lemma run_refines : forall ops s, owned None s -> ops_ok (length (st_slots s)) ops ->
    exists s', hrun ops s = Ok s' /\ owned None s' /\ contents s' = vrun ops (contents s).
  Proof.
    induction ops as [|o ops IH]; intros s W B.
    - exists s. split; [reflexivity|]. split; [exact W|reflexivity].
    - destruct B as (B & Bs). destruct (step_refines o s W B) as (s1 & E & W1 & C1 & L1).
      rewrite <- L1 in Bs. destruct (IH s1 W1 Bs) as (s' & E' & W' & C').
      exists s'. split; [cbn [hrun]; rewrite E; exact E'|]. split; [exact W'|].
      rewrite C', C1. reflexivity.
  Qed.

  Lemma destroy_frees : forall n s, owned None s -> n <= length (st_slots s) ->
    (forall k a, slot k s = Some a -> k < n) ->
    exists s', destroy_all n s = Ok s' /\ length (st_heap s') = length (st_heap s) /\ forall a, ~ live s' a.
  Proof.
    induction n as [|n IH]; intros s W B K.
    - exists s. split; [reflexivity|]. split; [reflexivity|]. intros a H. destruct (ow_all _ _ W a H) as [H'|(k & H')]; [discriminate|].
      apply K in H'. lia.
    - cbn [destroy_all].
      (* reset n None: release and drop *)
      assert (W0 : owned None s) by exact W.
      destruct (reset_owned s n None W0 ltac:(lia)) as (s1 & E & W1 & L1 & SL & _ & HL). rewrite E. cbn [bind].
      destruct (IH s1 W1 ltac:(lia)) as (s' & E' & HL' & D).
      + intros k a H. rewrite SL in H. destruct (Nat.eqb_spec k n); [discriminate|]. apply K in H. lia.
      + exists s'. split; [exact E'|]. split; [congruence|exact D].
  Qed.

  Lemma empty_owned : owned None (MkStore (C:=C) [] []).
  Proof.
    constructor.
    - intros [|i] a H; discriminate.
    - intros [|i] j a H; discriminate.
    - intros a H. discriminate.
    - intros a (c & H). destruct a; discriminate.
  Qed.

  (** C86: residual objects behave as values, and their memory is managed correctly.  Whatever sequence of creations, moves,
      assignments, swaps and method calls a program performs on its Residual objects, it runs without a double free or a use
      after free; afterwards every object contains exactly what the pointer-free description says; no two objects share the
      residual behind them; nothing is leaked; and destroying the objects frees every block. *)
  Theorem C86_ownership : forall ops : list (hop C), ops_ok 0 ops ->
    exists s, hrun ops (MkStore [] []) = Ok s /\
      contents s = vrun ops [] /\
      (forall i a, slot i s = Some a -> live s a) /\
      (forall i j a, slot i s = Some a -> slot j s = Some a -> i = j) /\
      (forall a, live s a -> exists i, slot i s = Some a) /\
      exists s', destroy_all (length (st_slots s)) s = Ok s' /\ length (st_heap s') = length (st_heap s) /\
                 forall a, ~ live s' a.
  Proof.
    intros ops B. destruct (run_refines ops (MkStore [] []) empty_owned B) as (s & E & W & CC).
    exists s. split; [exact E|]. split; [exact CC|]. split; [exact (ow_live _ _ W)|]. split; [exact (ow_uniq _ _ W)|]. split.
    - intros a H. destruct (ow_all _ _ W a H) as [H'|H']; [discriminate|exact H'].
    - apply (destroy_frees (length (st_slots s)) s W (le_n _)). intros k a H. exact (slot_bound _ _ _ H).
  Qed.

  (** C86: a method call answers an exception exactly on the objects that contain nothing. *)
  Theorem C86_call_throws_iff_empty : forall (ops : list (hop C)) s i, ops_ok 0 ops -> hrun ops (MkStore [] []) = Ok s ->
    i < length (st_slots s) ->
    hstep (Call i) s = match nth i (vrun ops []) None with Some _ => Ok s | None => Throw (AssertFailed "impl_") end.
  Proof.
    intros ops s i B E Bi. destruct (run_refines ops (MkStore [] []) empty_owned B) as (s' & E' & W & CC).
    rewrite E in E'. injection E' as <-. change (vrun ops (contents (MkStore [] []))) with (vrun ops (@nil (option C))) in CC.
    rewrite <- CC, contents_nth. unfold content. cbn [hstep]. destruct (slot i s) as [a|] eqn:S1; [|reflexivity].
    destruct (ow_live _ _ W i a S1) as (c & ->). reflexivity.
  Qed.
End OwnershipProofs.

(** ** Using handles *)
Section Use.
  Context {F : Type} {O : Ops F}.
  Implicit Types (h : handle F) (hp : hproblem F).

  Definition moved_from (h : handle F) : Prop := h = None.
  Definition dynamic (h : handle F) : Prop := exists c, h = Some c /\ cc_rdim c = None.
  (** Every residual of the problem. *)
  Definition handles (hp : hproblem F) : list (handle F) := hp_costs hp ++ hp_eq hp.

  (** C86: MakeResidual with a braced list throws exactly when the number of indices is not P; in all other cases both
      variants build the same residual. *)
  Theorem C86_make_residual : forall (R P : option nat) index (f : list F -> list F) (fJ : list F -> list F * mat F),
    (typed_index P index -> MakeResidual_list R P index f fJ = Ok (MakeResidual R P index f fJ)) /\
    (~ typed_index P index -> exists w, MakeResidual_list R P index f fJ = Throw (AssertFailed w)).
  Proof.
    intros R P index f fJ. destruct P as [p|]; cbn [typed_index MakeResidual_list].
    - split.
      + intros <-. rewrite Nat.eqb_refl. cbn [f_assert bind]. unfold MakeResidual. repeat f_equal.
        rewrite firstn_all, firstn_app, firstn_all, Nat.sub_diag, firstn_O, app_nil_r. reflexivity.
      + intros N. destruct (Nat.eqb_spec (length index) p); [congruence|]. eexists. reflexivity.
    - split; [reflexivity|]. intros N. exfalso. apply N. exact I.
  Qed.

  (** C86: every method of a handle that was moved from throws; the user's function cannot be reached through it. *)
  Theorem C86_moved_from_throws : forall params n m cols H b, let h : handle F := None in
    h_Dimension h = Throw (AssertFailed "impl_") /\
    h_ErrorVector h params n = Throw (AssertFailed "impl_") /\
    h_UpdateHessian h params H b = Throw (AssertFailed "impl_") /\
    h_UpdateJacobian h params n m cols = Throw (AssertFailed "impl_") /\
    h_QuadraticError h params = Throw (AssertFailed "impl_").
  Proof. intros. repeat split. Qed.

  Lemma as_residual_inv : forall h r, as_residual h = Some r ->
    exists c, h = Some c /\ cc_rdim c = Some (res_dim r) /\ r = sized (res_dim r) c.
  Proof.
    intros [c|] r H; [|discriminate]. cbn [as_residual] in H. destruct (cc_rdim c) as [d|] eqn:E; [|discriminate].
    injection H as <-. exists c. repeat split. exact E.
  Qed.
  Lemma usable_iff : forall h, (exists r, as_residual h = Some r) <-> ~ moved_from h /\ ~ dynamic h.
  Proof.
    intros [c|]; cbn [as_residual].
    - destruct (cc_rdim c) as [d|] eqn:E.
      + split; [|eauto]. intros _. split; [discriminate|]. intros (c' & H & E'). injection H as <-. congruence.
      + split; [intros (r & H); discriminate|]. intros (_ & H). exfalso. apply H. exists c. auto.
    - split; [intros (r & H); discriminate|]. intros (H & _). exfalso. apply H. reflexivity.
  Qed.

  (** C86: a residual built with a fixed dimension and not moved from acts as the residual of Residual.v that all other
      theorems speak of, and refuses blocks of the wrong size. *)
  Theorem C86_usable_handle : forall R P index f fJ, let h := MakeResidual (Some R) P index f fJ in
    let r : residual F := MkRes R index f fJ in
    h_Dimension h = Ok (Z.of_nat R) /\
    (forall params n, h_ErrorVector h params n = ErrorVector r params n) /\
    (forall params H b, h_UpdateHessian h params H b = UpdateHessian r params H b) /\
    (forall params cols, h_UpdateJacobian h params R R cols = UpdateJacobian r params cols) /\
    (forall params n m cols, n <> R \/ m <> R -> exists w, h_UpdateJacobian h params n m cols = Throw (AssertFailed w)) /\
    (forall params, h_QuadraticError h params = QuadraticError r params).
  Proof.
    intros R P index f fJ h r.
    assert (EV : forall params n, h_ErrorVector h params n = ErrorVector r params n) by reflexivity.
    repeat split.
    - intros params cols. unfold h_UpdateJacobian. cbn [h MakeResidual deref bind cc_Dimension cc_rdim]. rewrite Z.eqb_refl.
      reflexivity.
    - intros params n m cols N. unfold h_UpdateJacobian. cbn [h MakeResidual deref bind cc_Dimension cc_rdim].
      destruct (Z.eqb_spec (Z.of_nat R) (Z.of_nat m)); cbn [f_assert bind]; [|eexists; reflexivity].
      destruct (Z.eqb_spec (Z.of_nat R) (Z.of_nat n)); cbn [f_assert bind]; [|eexists; reflexivity]. lia.
    - intros params. unfold h_QuadraticError, QuadraticError. cbn [h MakeResidual h_Dimension deref bind cc_Dimension cc_rdim].
      unfold nonneg_size. assert (Z0 : (0 <=? Z.of_nat R)%Z = true) by (apply Z.leb_le; lia). rewrite Z0.
      cbn [ub_unless bind]. rewrite Nat2Z.id. reflexivity.
  Qed.

  Lemma nonneg_ok : forall n, nonneg_size (Z.of_nat n) = Ok n.
  Proof.
    intro n. unfold nonneg_size. assert (Z0 : (0 <=? Z.of_nat n)%Z = true) by (apply Z.leb_le; lia). rewrite Z0.
    cbn [ub_unless bind]. rewrite Nat2Z.id. reflexivity.
  Qed.

  Lemma handle_eqs : forall h r, as_residual h = Some r ->
    h_Dimension h = Ok (Z.of_nat (res_dim r)) /\
    (forall params n, h_ErrorVector h params n = ErrorVector r params n) /\
    (forall params H b, h_UpdateHessian h params H b = UpdateHessian r params H b) /\
    (forall params cols, h_UpdateJacobian h params (res_dim r) (res_dim r) cols = UpdateJacobian r params cols).
  Proof.
    intros h r E. destruct (as_residual_inv h r E) as (c & -> & D & Q). destruct c as [rd pd ix f fJ]. cbn [cc_rdim] in D. subst rd.
    destruct (C86_usable_handle (res_dim r) pd ix f fJ) as (A1 & A2 & A3 & A4 & _).
    unfold sized in Q. cbn [cc_index cc_f cc_fJ] in Q. rewrite <- Q in A2, A3, A4. auto.
  Qed.

  Lemma all_residuals_in : forall hs rs h, all_residuals hs = Some rs -> In h hs -> exists r, as_residual h = Some r /\ In r rs.
  Proof.
    induction hs as [|h0 hs IH]; intros rs h E I; [destruct I|]. cbn [all_residuals] in E.
    destruct (as_residual h0) as [r0|] eqn:E0; [|discriminate]. destruct (all_residuals hs) as [rs'|] eqn:E1; [|discriminate].
    injection E as <-. destruct I as [->|I]; [exists r0; split; [exact E0|left; reflexivity]|].
    destruct (IH rs' h eq_refl I) as (r & A & B). exists r. split; [exact A|right; exact B].
  Qed.
  Lemma all_residuals_iff : forall hs, (exists rs, all_residuals hs = Some rs) <-> forall h, In h hs -> exists r, as_residual h = Some r.
  Proof.
    intro hs. split.
    - intros (rs & E) h I. destruct (all_residuals_in hs rs h E I) as (r & A & _). eauto.
    - induction hs as [|h0 hs IH]; intro H; [exists []; reflexivity|]. cbn [all_residuals].
      destruct (H h0 (or_introl eq_refl)) as (r0 & ->). destruct IH as (rs & ->); [intros h I; apply H; right; exact I|]. eauto.
  Qed.

  (** A loop over handles is the loop over the residuals they stand for. *)
  Lemma ofold_handles : forall (A : Type) (fh : A -> handle F -> outcome A) (fr : A -> residual F -> outcome A),
    forall hs rs a, all_residuals hs = Some rs ->
    (forall a h r, as_residual h = Some r -> In r rs -> fh a h = fr a r) -> ofold fh hs a = ofold fr rs a.
  Proof.
    intros A fh fr. induction hs as [|h0 hs IH]; intros rs a E H; cbn [all_residuals] in E.
    - injection E as <-. reflexivity.
    - destruct (as_residual h0) as [r0|] eqn:E0; [|discriminate]. destruct (all_residuals hs) as [rs'|] eqn:E1; [|discriminate].
      injection E as <-. cbn [ofold]. rewrite (H a h0 r0 E0 (or_introl eq_refl)). destruct (fr a r0); cbn [bind]; try reflexivity.
      apply IH; [reflexivity|]. intros a1 h r A1 I. apply H; [exact A1|right; exact I].
  Qed.

  Lemma as_problem_inv : forall hp pr, as_problem hp = Some pr ->
    all_residuals (hp_costs hp) = Some (pr_costs pr) /\ all_residuals (hp_eq hp) = Some (pr_eq pr) /\
    pr_ineq pr = hp_ineq hp /\ pr_dimension pr = hp_dimension hp.
  Proof.
    intros hp pr E. unfold as_problem in E. destruct (all_residuals (hp_costs hp)) as [cs|]; [|discriminate].
    destruct (all_residuals (hp_eq hp)) as [es|]; [|discriminate]. injection E as <-. repeat split.
  Qed.
  Lemma as_problem_iff : forall hp, (exists pr, as_problem hp = Some pr) <-> forall h, In h (handles hp) -> ~ moved_from h /\ ~ dynamic h.
  Proof.
    intro hp. unfold handles, as_problem. split.
    - intros (pr & E) h I. apply usable_iff. destruct (all_residuals (hp_costs hp)) as [cs|] eqn:E1; [|discriminate].
      destruct (all_residuals (hp_eq hp)) as [es|] eqn:E2; [|discriminate]. apply in_app_or in I.
      destruct I as [I|I]; [destruct (all_residuals_in _ _ _ E1 I) as (r & A & _)|destruct (all_residuals_in _ _ _ E2 I) as (r & A & _)]; eauto.
    - intro H. destruct (proj2 (all_residuals_iff (hp_costs hp))) as (cs & ->).
      { intros h I. apply usable_iff. apply H. apply in_or_app. auto. }
      destruct (proj2 (all_residuals_iff (hp_eq hp))) as (es & ->).
      { intros h I. apply usable_iff. apply H. apply in_or_app. auto. }
      eauto.
  Qed.

  (** *** The constructor *)
  Lemma dims_eq_fold : forall hs rs t m, all_residuals hs = Some rs ->
    ofold (fun (acc : Z * Z) h => do d <- h_Dimension h ; Ok (fst acc + d, Z.max (snd acc) d)%Z) hs (Z.of_nat t, Z.of_nat m) =
    Ok (Z.of_nat (fold_left (fun n r => n + res_dim r) rs t), Z.of_nat (fold_left (fun m r => Nat.max m (res_dim r)) rs m)).
  Proof.
    induction hs as [|h0 hs IH]; intros rs t m E; cbn [all_residuals] in E.
    - injection E as <-. reflexivity.
    - destruct (as_residual h0) as [r0|] eqn:E0; [|discriminate]. destruct (all_residuals hs) as [rs'|] eqn:E1; [|discriminate].
      injection E as <-. destruct (handle_eqs _ _ E0) as (D & _). cbn [ofold fold_left]. rewrite D. cbn [bind fst snd].
      rewrite <- Nat2Z.inj_add, <- Nat2Z.inj_max. apply IH. reflexivity.
  Qed.
  Lemma dims_cost_fold : forall hs rs m, all_residuals hs = Some rs ->
    ofold (fun (acc : Z) h => do d <- h_Dimension h ; Ok (Z.max acc d)) hs (Z.of_nat m) =
    Ok (Z.of_nat (fold_left (fun m r => Nat.max m (res_dim r)) rs m)).
  Proof.
    induction hs as [|h0 hs IH]; intros rs m E; cbn [all_residuals] in E.
    - injection E as <-. reflexivity.
    - destruct (as_residual h0) as [r0|] eqn:E0; [|discriminate]. destruct (all_residuals hs) as [rs'|] eqn:E1; [|discriminate].
      injection E as <-. destruct (handle_eqs _ _ E0) as (D & _). cbn [ofold fold_left]. rewrite D. cbn [bind].
      rewrite <- Nat2Z.inj_max. apply IH. reflexivity.
  Qed.

  (** A loop that asks an empty handle for its dimension throws, unless something went wrong before. *)
  Lemma ofold_stops : forall (A B : Type) (f : A -> B -> outcome A) (bad ok : B -> Prop) l a,
    (forall a b, ok b -> (exists a', f a b = Ok a') \/ (exists e, f a b = Throw e)) ->
    (forall a b, bad b -> exists e, f a b = Throw e) ->
    (forall b, In b l -> ok b \/ bad b) -> (exists b, In b l /\ bad b) -> exists e, ofold f l a = Throw e.
  Proof.
    intros A B f bad ok. induction l as [|b l IH]; intros a H1 H2 H3 (x & I & Bx); [destruct I|]. cbn [ofold].
    destruct I as [->|I].
    - destruct (H2 a x Bx) as (e & ->). exists e. reflexivity.
    - destruct (H3 b (or_introl eq_refl)) as [K|K].
      + destruct (H1 a b K) as [(a' & ->)|(e & ->)]; cbn [bind]; [|eauto]. apply IH; auto.
        * intros y Iy. apply H3. right. exact Iy.
        * eauto.
      + destruct (H2 a b K) as (e & ->). exists e. reflexivity.
  Qed.
  Lemma ofold_no_ub : forall (A B : Type) (f : A -> B -> outcome A) l a,
    (forall a b, In b l -> (exists a', f a b = Ok a') \/ (exists e, f a b = Throw e)) ->
    (exists a', ofold f l a = Ok a') \/ (exists e, ofold f l a = Throw e).
  Proof.
    intros A B f. induction l as [|b l IH]; intros a H; cbn [ofold]; [left; eauto|].
    destruct (H a b (or_introl eq_refl)) as [(a' & ->)|(e & ->)]; cbn [bind]; [|right; eauto].
    apply IH. intros a1 b1 I. apply H. right. exact I.
  Qed.

  (** C86: constructing a solver.  For a problem whose residuals all have a fixed dimension the constructor never runs into
      undefined behaviour; it succeeds exactly when the dimension is positive and no residual was moved from, and then sizes its
      storage as the other theorems assume. *)
  Theorem C86_constructor : forall hp, (forall h, In h (handles hp) -> ~ dynamic h) ->
    ((hp_dimension hp > 0)%Z /\ (forall h, In h (handles hp) -> ~ moved_from h) ->
       exists pr, as_problem hp = Some pr /\ h_construct (Some hp) = Ok (total_eq_size pr, max_error_size pr)) /\
    ((hp_dimension hp <= 0)%Z \/ (exists h, In h (handles hp) /\ moved_from h) ->
       exists w, h_construct (Some hp) = Throw (AssertFailed w)).
  Proof.
    intros hp ND. split.
    - intros (D & NM). destruct (proj2 (as_problem_iff hp)) as (pr & E).
      { intros h I. split; [exact (NM h I)|exact (ND h I)]. }
      exists pr. split; [exact E|]. destruct (as_problem_inv hp pr E) as (E1 & E2 & _ & E4).
      unfold h_construct. assert (DD : (0 <? hp_dimension hp)%Z = true) by (apply Z.ltb_lt; lia). rewrite DD. cbn [f_assert bind].
      change (0, 0)%Z with (Z.of_nat 0, Z.of_nat 0). rewrite (dims_eq_fold _ _ 0 0 E2). cbn [bind]. rewrite nonneg_ok. cbn [bind].
      rewrite (dims_cost_fold _ _ _ E1). cbn [bind]. rewrite nonneg_ok. reflexivity.
    - intros Bad. unfold h_construct. destruct (Z.ltb_spec 0 (hp_dimension hp)) as [D|D]; cbn [f_assert bind]; [|eauto].
      destruct Bad as [Bad|(h & I & M)]; [lia|]. unfold handles in *. 
      set (fe := fun (acc : Z * Z) h => do d <- h_Dimension h ; Ok (fst acc + d, Z.max (snd acc) d)%Z).
      set (fc := fun (acc : Z) h => do d <- h_Dimension h ; Ok (Z.max acc d)).
      assert (FE : forall hs a, exists e, ofold fe hs a = Throw (AssertFailed e) \/ exists b, ofold fe hs a = Ok b /\ ~ In None hs).
      { induction hs as [|h0 hs IH]; intro a; [exists ""; right; eexists; split; [reflexivity|intros []]|]. cbn [ofold].
        destruct h0 as [c0|]; [|exists "impl_"; left; reflexivity]. unfold fe at 1 3. cbn [h_Dimension deref bind].
        destruct (IH (fst a + cc_Dimension c0, Z.max (snd a) (cc_Dimension c0))%Z) as (e & [H|(b & H & N)]).
        - exists e. left. exact H.
        - exists e. right. exists b. split; [exact H|]. intros [K|K]; [discriminate|exact (N K)]. }
      assert (FC : forall hs a, exists e, ofold fc hs a = Throw (AssertFailed e) \/ exists b, ofold fc hs a = Ok b /\ ~ In None hs).
      { induction hs as [|h0 hs IH]; intro a; [exists ""; right; eexists; split; [reflexivity|intros []]|]. cbn [ofold].
        destruct h0 as [c0|]; [|exists "impl_"; left; reflexivity]. unfold fc at 1 3. cbn [h_Dimension deref bind].
        destruct (IH (Z.max a (cc_Dimension c0))%Z) as (e & [H|(b & H & N)]).
        - exists e. left. exact H.
        - exists e. right. exists b. split; [exact H|]. intros [K|K]; [discriminate|exact (N K)]. }
      unfold moved_from in M. subst h.
      destruct (FE (hp_eq hp) (0, 0)%Z) as (e & [H|((t, m) & H & N)]); [exists e; rewrite H; reflexivity|].
      assert (UE : exists rs, all_residuals (hp_eq hp) = Some rs).
      { apply all_residuals_iff. intros h I'. apply usable_iff. split; [intro Q; unfold moved_from in Q; subst h; exact (N I')|apply ND; apply in_or_app; auto]. }
      destruct UE as (rs & UE). pose proof (dims_eq_fold _ _ 0 0 UE) as H'. change (Z.of_nat 0, Z.of_nat 0) with (0, 0)%Z in H'.
      fold fe in H'. rewrite H' in H |- *. apply Ok_inj in H. injection H as <- <-. cbn [bind]. rewrite nonneg_ok. cbn [bind].
      apply in_app_or in I. destruct I as [I|I]; [|contradiction].
      destruct (FC (hp_costs hp) (Z.of_nat (fold_left (fun m r => Nat.max m (res_dim r)) rs 0))) as (e' & [H|(b & H & N')]); [|contradiction].
      exists e'. rewrite H. reflexivity.
  Qed.

  Theorem C86_constructor_null : exists w, h_construct (F:=F) None = Throw (AssertFailed w).
  Proof. eexists. reflexivity. Qed.
  (** *** Linearising and evaluating *)

  (** C86: on a problem whose residuals are all usable, the two functions through which Solve meets the residuals are those of
      the model without handles. *)
  Theorem C86_usable_problem : forall hp pr, as_problem hp = Some pr ->
    (forall vars lambda, h_LinearizeAndFillQP (total_eq_size pr) vars lambda hp = LinearizeAndFillQP vars lambda pr) /\
    (forall vars, h_EvaluateNonlinearErrors (max_error_size pr) hp vars = EvaluateNonlinearErrors pr vars).
  Proof.
    intros hp pr E. destruct (as_problem_inv hp pr E) as (E1 & E2 & E3 & E4). split.
    - intros vars lambda. unfold h_LinearizeAndFillQP, LinearizeAndFillQP, linearize_costs, linearize_eq, pdim.
      rewrite E4, E3. set (n := Z.to_nat (hp_dimension hp)).
      rewrite (ofold_handles _ _ (fun acc r => let '(G, c, f) := acc in do '(G', c', e) <- UpdateHessian r vars G c ; Ok (G', c', fadd f e))
                 _ _ _ E1).
      2:{ intros [[G c] f] h r A _. destruct (handle_eqs _ _ A) as (_ & _ & -> & _). reflexivity. }
      match goal with |- context [bind ?X _] => destruct X as [[[G c] f]|e|w] end; cbn [bind]; try reflexivity.
      rewrite (ofold_handles _ _ (fun (acc : list (list F) * list F * F) (r : residual F) =>
        let '(rows, b, e) := acc in
        f_assert (List.length rows + res_dim r <=? total_eq_size pr) "row + dim <= A_eq.rows()" ;;
        do '(J, br) <- UpdateJacobian r vars n ;
        Ok (rows ++ mdata J, b ++ br, fadd e (fl1 br))) _ _ _ E2).
      { reflexivity. }
      intros [[rows b] e] h r A _. destruct (handle_eqs _ _ A) as (D & _ & _ & J). rewrite D. cbn [bind].
      rewrite <- Nat2Z.inj_add.
      assert (LE : (Z.of_nat (length rows + res_dim r) <=? Z.of_nat (total_eq_size pr))%Z = (length rows + res_dim r <=? total_eq_size pr)).
      { destruct (Nat.leb_spec (length rows + res_dim r) (total_eq_size pr)); [apply Z.leb_le; lia|apply Z.leb_gt; lia]. }
      rewrite LE. destruct (length rows + res_dim r <=? total_eq_size pr); cbn [f_assert bind]; [|reflexivity].
      rewrite nonneg_ok. cbn [bind]. rewrite J. reflexivity.
    - intros vars. unfold h_EvaluateNonlinearErrors, EvaluateNonlinearErrors.
      assert (GE : forall (l : list (residual F)) a, a <= fold_left (fun m r => Nat.max m (res_dim r)) l a).
      { induction l as [|x l IH]; intro a; cbn [fold_left]; [lia|]. specialize (IH (Nat.max a (res_dim x))). lia. }
      assert (GI : forall (l : list (residual F)) a r, In r l -> res_dim r <= fold_left (fun m r => Nat.max m (res_dim r)) l a).
      { induction l as [|x l IH]; intros a r I; [destruct I|]. cbn [fold_left]. destruct I as [->|I]; [|apply IH; exact I].
        pose proof (GE l (Nat.max a (res_dim r))). lia. }
      assert (MC : forall r, In r (pr_costs pr) -> (res_dim r <=? max_error_size pr) = true).
      { intros r I. apply Nat.leb_le. unfold max_error_size. apply GI. exact I. }
      assert (ME : forall r, In r (pr_eq pr) -> (res_dim r <=? max_error_size pr) = true).
      { intros r I. apply Nat.leb_le. unfold max_error_size. eapply Nat.le_trans; [|apply GE]. apply GI. exact I. }
      rewrite (ofold_handles _ _ (fun f r => do e <- ErrorVector r vars (res_dim r) ; Ok (fadd f (fmul (flit lit_half) (fsqnorm e)))) _ _ _ E1).
      2:{ intros a h r A I. destruct (handle_eqs _ _ A) as (D & EV & _). rewrite D. cbn [bind]. rewrite nonneg_ok. cbn [bind].
          rewrite (MC r I). cbn [ub_unless bind]. rewrite EV. reflexivity. }
      match goal with |- context [bind ?X _] => destruct X as [f|e|w] end; cbn [bind]; try reflexivity.
      rewrite (ofold_handles _ _ (fun q r => do e <- ErrorVector r vars (res_dim r) ; Ok (fadd q (fl1 e))) _ _ _ E2); [reflexivity|].
      intros a h r A I. destruct (handle_eqs _ _ A) as (D & EV & _). rewrite D. cbn [bind]. rewrite nonneg_ok. cbn [bind].
      rewrite (ME r I). cbn [ub_unless bind]. rewrite EV. reflexivity.
  Qed.

  Definition no_ub {A : Type} (x : outcome A) : Prop := (exists a, x = Ok a) \/ (exists e, x = Throw e).
  Lemma no_ub_bind : forall (A B : Type) (m : outcome A) (k : A -> outcome B), no_ub m -> (forall a, no_ub (k a)) -> no_ub (bind m k).
  Proof. intros A B m k [(a & ->)|(e & ->)] H; cbn [bind]; [apply H|right; eauto]. Qed.
  Lemma no_ub_ok : forall (A : Type) (a : A), no_ub (Ok a).
  Proof. intros. left. eauto. Qed.
  Lemma no_ub_assert : forall c w, no_ub (f_assert c w).
  Proof. intros [|] w; [left|right]; cbn [f_assert]; eauto. Qed.
  Lemma no_ub_ofold : forall (A B : Type) (f : A -> B -> outcome A) l a, (forall a b, no_ub (f a b)) -> no_ub (ofold f l a).
  Proof. intros. apply ofold_no_ub. intros. apply H. Qed.
  Lemma no_ub_gather : forall (v : list F) ix, no_ub (GatherValues v ix).
  Proof.
    intros. unfold GatherValues. apply no_ub_ofold. intros. apply no_ub_bind; [apply no_ub_assert|intros _].
    apply no_ub_bind; [apply no_ub_assert|intros _]. apply no_ub_ok.
  Qed.
  Lemma no_ub_hessian : forall (r : residual F) v H b, no_ub (UpdateHessian r v H b).
  Proof.
    intros. unfold UpdateHessian. apply no_ub_bind; [apply no_ub_assert|intros _].
    apply no_ub_bind; [apply no_ub_assert|intros _]. apply no_ub_bind; [apply no_ub_gather|intros p].
    apply no_ub_bind; [|intros [H' b']; apply no_ub_ok].
    apply no_ub_ofold. intros. apply no_ub_bind; [apply no_ub_assert|intros _]. apply no_ub_ok.
  Qed.
  Lemma no_ub_jacobian : forall (r : residual F) v n, no_ub (UpdateJacobian r v n).
  Proof.
    intros. unfold UpdateJacobian. apply no_ub_bind; [apply no_ub_gather|intros p].
    apply no_ub_bind; [|intros; apply no_ub_ok].
    apply no_ub_ofold. intros. apply no_ub_bind; [apply no_ub_assert|intros _]. apply no_ub_ok.
  Qed.

  Definition fixed_or_empty (h : handle F) : Prop := ~ dynamic h.
  Lemma fixed_cases : forall h, fixed_or_empty h -> h = None \/ exists r, as_residual h = Some r.
  Proof.
    intros [c|] H; [right|left; reflexivity]. apply usable_iff. split; [discriminate|exact H].
  Qed.

  Lemma linearize_moved_from : forall hp rows vars lambda, (forall h, In h (handles hp) -> ~ dynamic h) ->
    (exists h, In h (handles hp) /\ moved_from h) -> exists e, h_LinearizeAndFillQP rows vars lambda hp = Throw e.
  Proof.
    intros hp rows vars lambda ND (h0 & I0 & M0). unfold moved_from in M0. subst h0. unfold handles in *.
    unfold h_LinearizeAndFillQP. cbv zeta. set (n := Z.to_nat (hp_dimension hp)).
    set (fc := fun (acc : mat F * list F * F) h => let '(G, c, f) := acc in
       do '(G', c', e) <- h_UpdateHessian h vars G c ; Ok (G', c', fadd f e)).
    set (fe := fun (acc : list (list F) * list F * F) h => let '(rows0, b, e) := acc in
        do dim <- h_Dimension h ;
        f_assert (Z.of_nat (List.length rows0) + dim <=? Z.of_nat rows)%Z "row + dim <= A_eq.rows()" ;;
        do k <- nonneg_size dim ;
        do '(J, br) <- h_UpdateJacobian h vars k k n ;
        Ok (rows0 ++ mdata J, b ++ br, fadd e (fl1 br))).
    assert (FC : forall a h r, as_residual h = Some r -> no_ub (fc a h)).
    { intros [[G c] f] h r A. unfold fc. destruct (handle_eqs _ _ A) as (_ & _ & -> & _).
      apply no_ub_bind; [apply no_ub_hessian|intros [[H' b'] e]; apply no_ub_ok]. }
    assert (FE : forall a h r, as_residual h = Some r -> no_ub (fe a h)).
    { intros [[R b] e] h r A. unfold fe. destruct (handle_eqs _ _ A) as (-> & _ & _ & J). cbn [bind].
      apply no_ub_bind; [apply no_ub_assert|intros _]. rewrite nonneg_ok. cbn [bind]. rewrite J.
      apply no_ub_bind; [apply no_ub_jacobian|intros [J' br]; apply no_ub_ok]. }
    assert (FC0 : forall a, exists e, fc a None = Throw e) by (intros [[G c] f]; eexists; reflexivity).
    assert (FE0 : forall a, exists e, fe a None = Throw e) by (intros [[R b] e]; eexists; reflexivity).
    apply in_app_or in I0.
    assert (OKL : forall hs, (forall h, In h hs -> In h (hp_costs hp ++ hp_eq hp)) ->
              forall h, In h hs -> (exists r, as_residual h = Some r) \/ h = None).
    { intros hs S h I. destruct (fixed_cases h) as [K|K]; auto. apply (ND h). apply S. exact I. }
    assert (C1 : no_ub (ofold fc (hp_costs hp) (mzero n n, vzero n, f0))).
    { apply ofold_no_ub. intros a b I. destruct (OKL (hp_costs hp)) with (h := b) as [(r & A)|A]; auto.
      - intros; apply in_or_app; auto.
      - exact (FC a b r A).
      - subst b. right. exact (FC0 a). }
    destruct I0 as [I0|I0].
    - destruct (ofold_stops _ _ fc (fun h => h = None) (fun h => exists r, as_residual h = Some r) (hp_costs hp) (mzero n n, vzero n, f0)) as (e & ->).
      + intros a b (r & A). exact (FC a b r A).
      + intros a b ->. exact (FC0 a).
      + apply OKL. intros; apply in_or_app; auto.
      + exists None. auto.
      + exists e. reflexivity.
    - destruct C1 as [([[G c] f] & ->)|(e & ->)]; [|exists e; reflexivity]. cbn [bind].
      destruct (ofold_stops _ _ fe (fun h => h = None) (fun h => exists r, as_residual h = Some r) (hp_eq hp) ([], [], f0)) as (e & ->).
      + intros a b (r & A). exact (FE a b r A).
      + intros a b ->. exact (FE0 a).
      + apply OKL. intros; apply in_or_app; auto.
      + exists None. auto.
      + exists e. reflexivity.
  Qed.

  (** C86: if a residual is moved out of the problem after the solver was constructed, Solve throws as soon as it has an
      iteration to do, whatever the rest of Solve would have done, whatever sizes the solver was constructed with and for all
      accepted parameters. *)
  Theorem C86_solve_moved_from : forall (A : Type) hp rows pa vars (rest : Errors F * QP F -> outcome A) none,
    (forall h, In h (handles hp) -> ~ dynamic h) -> (exists h, In h (handles hp) /\ moved_from h) ->
    (n_max_iterations pa >= 1)%Z -> NLS_CheckParams pa = Ok tt ->
    exists e, h_Solve rows pa hp vars rest none = Throw e.
  Proof.
    intros A hp rows pa vars rest none ND M N CP. unfold h_Solve. rewrite CP. cbn [bind].
    destruct (Z.leb_spec (n_max_iterations pa) 0); [lia|].
    destruct (linearize_moved_from hp rows vars (n_lambda_initial pa) ND M) as (e & ->). exists e. reflexivity.
  Qed.

  (** *** Dynamic dimensions *)

  Lemma ofold_never : forall (A B : Type) (f : A -> B -> outcome A) l b, In b l -> (forall a a', f a b <> Ok a') ->
    forall a a', ofold f l a <> Ok a'.
  Proof.
    intros A B f. induction l as [|x l IH]; intros b I H a a' E; [destruct I|]. cbn [ofold] in E.
    apply bind_ok_inv in E. destruct E as (a1 & E1 & E2). destruct I as [->|I]; [exact (H a a1 E1)|exact (IH b I H a1 a' E2)].
  Qed.

  (** C86: the one thing that works with a dynamic dimension: UpdateHessian, if the number of parameters is fixed and the
      callable gives J as many rows as the error it returns; it then acts as a residual of that dimension.  With a dynamic number
      of parameters J is resized to -1 rows. *)
  Theorem C86_dynamic_hessian : forall P index (f : list F -> list F) fJ params p H b,
    let h := MakeResidual None P index f fJ in
    mrows H = mcols H -> length b = mrows H -> GatherValues params index = Ok p ->
    (P <> None -> mrows (snd (fJ p)) = length (fst (fJ p)) ->
       h_UpdateHessian h params H b = UpdateHessian (MkRes (length (fst (fJ p))) index f fJ) params H b) /\
    (P <> None -> mrows (snd (fJ p)) <> length (fst (fJ p)) -> exists w, h_UpdateHessian h params H b = UB w) /\
    (P = None -> exists w, h_UpdateHessian h params H b = UB w).
  Proof.
    intros P index f fJ params p H b h EH EB EG.
    assert (U : h_UpdateHessian h params H b =
      match P with
      | None => UB "negative size passed to Eigen"
      | Some _ => ub_unless (mrows (snd (fJ p)) =? length (fst (fJ p))) "J.col(i).dot(r) of vectors of different sizes" ;;
                  UpdateHessian (MkRes (length (fst (fJ p))) index f fJ) params H b
      end).
    { unfold h_UpdateHessian. cbn [h MakeResidual deref bind cc_rdim cc_index cc_pdim cc_fJ].
      rewrite EH, EB, EH, Nat.eqb_refl. cbn [f_assert bind]. rewrite EG. cbn [bind]. destruct P; reflexivity. }
    rewrite U. repeat split.
    - intros NP E. destruct P; [|congruence]. rewrite E, Nat.eqb_refl. reflexivity.
    - intros NP E. destruct P; [|congruence]. destruct (Nat.eqb_spec (mrows (snd (fJ p))) (length (fst (fJ p)))); [congruence|].
      eexists. reflexivity.
    - intros ->. eexists. reflexivity.
  Qed.

  (** C86: a residual declared with ResidualDim == Eigen::Dynamic compiles and can be constructed, but is not usable: its
      Dimension() is -1, it accepts no output block of any size, QuadraticError is undefined behaviour, a problem that has it as
      an equality constraint is never linearised, and a problem that has it anywhere is never evaluated. *)
  Theorem C86_dynamic_unusable : forall h, dynamic h ->
    h_Dimension h = Ok (-1)%Z /\
    (forall params n, exists w, h_ErrorVector h params n = Throw (AssertFailed w)) /\
    (forall params n m cols, exists w, h_UpdateJacobian h params n m cols = Throw (AssertFailed w)) /\
    (forall params, exists w, h_QuadraticError h params = UB w) /\
    (forall hp rows vars lambda r, In h (hp_eq hp) -> h_LinearizeAndFillQP rows vars lambda hp <> Ok r) /\
    (forall hp buf vars r, In h (handles hp) -> h_EvaluateNonlinearErrors buf hp vars <> Ok r).
  Proof.
    intros h (c & -> & D). assert (DM : h_Dimension (Some c) = Ok (-1)%Z) by (unfold h_Dimension, cc_Dimension; cbn [deref bind]; rewrite D; reflexivity).
    split; [exact DM|]. split; [|split; [|split; [|split]]].
    - intros params n. unfold h_ErrorVector, cc_Dimension. cbn [deref bind]. rewrite D.
      destruct (Z.eqb_spec (Z.of_nat n) (-1)); [lia|]. eexists. reflexivity.
    - intros params n m cols. unfold h_UpdateJacobian, cc_Dimension. cbn [deref bind]. rewrite D.
      destruct (Z.eqb_spec (-1) (Z.of_nat m)); [lia|]. eexists. reflexivity.
    - intros params. unfold h_QuadraticError. rewrite DM. eexists. reflexivity.
    - intros hp rows vars lambda r I E. unfold h_LinearizeAndFillQP in E. cbv zeta in E.
      apply bind_ok_inv in E. destruct E as ([[G cc] f] & _ & E). apply bind_ok_inv in E. destruct E as (acc & E & _).
      revert E. apply (ofold_never _ _ _ _ _ I). intros [[R b] e] a' E. rewrite DM in E. cbn [bind] in E.
      apply bind_ok_inv in E. destruct E as (u & _ & E). discriminate.
    - intros hp buf vars r I E. unfold h_EvaluateNonlinearErrors in E. apply bind_ok_inv in E. destruct E as (f & E1 & E).
      apply bind_ok_inv in E. destruct E as (q & E2 & _). apply in_app_or in I. destruct I as [I|I].
      + revert E1. apply (ofold_never _ _ _ _ _ I). intros a a' E. rewrite DM in E. discriminate.
      + revert E2. apply (ofold_never _ _ _ _ _ I). intros a a' E. rewrite DM in E. discriminate.
  Qed.
End Use.

(** C86: on usable handles Solve of this model is the Solve that all other theorems speak of. *)
Section UseSolve.
  Context {F : Type} {O : Ops F}.
  Variable ldlt : mat F -> option (mat F).
  Variable qr : mat F -> QRResult F.
  Variable llt : mat F -> option (list F -> list F).
  Variable eigs : mat F -> QPEigenvalues F.
  Variable retract : option (list F -> list F -> F -> list F).
  Context {S : Type}.
  Variable cb : option (S -> NLSIteration F -> S * bool).

  Theorem C86_solve_usable : forall hp pr pa g vars cs, as_problem hp = Some pr ->
    exists rest, NLS_Solve ldlt qr llt eigs retract cb pa pr g vars cs =
      h_Solve (total_eq_size pr) pa hp vars rest (MkNLSResult (MkNLSOut NLS_MAX_ITERATIONS []) vars cs).
  Proof.
    intros hp pr pa g vars cs E. destruct (C86_usable_problem hp pr E) as (LQ & _).
    unfold NLS_Solve, h_Solve.
    exists (fun _ => nls_loop ldlt qr llt eigs retract cb (Z.to_nat (n_max_iterations pa)) pa pr g 0 []
      (MkNS vars (n_lambda_initial pa) (n_equality_penalty_initial pa) NOMINAL) cs).
    destruct (NLS_CheckParams pa) as [u|e|w]; cbn [bind]; try reflexivity.
    destruct (Z.leb_spec (n_max_iterations pa) 0) as [N|N].
    - replace (Z.to_nat (n_max_iterations pa)) with 0 by lia. reflexivity.
    - replace (Z.to_nat (n_max_iterations pa)) with (Datatypes.S (Z.to_nat (n_max_iterations pa - 1))) by lia.
      rewrite LQ. cbn [nls_loop]. unfold nls_iterate. cbn [ns_vars ns_lambda].
      destruct (LinearizeAndFillQP vars (n_lambda_initial pa) pr) as [[er qp]|e|w]; reflexivity.
  Qed.
End UseSolve.
