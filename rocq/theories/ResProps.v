(** C22, C23: residual.hpp. *)
From Coq Require Import String List Bool Arith ZArith Reals Lra Lia.
From Verif Require Import Scalar Outcome LinAlg Residual RInst QPStep.
Import ListNotations.
Local Open Scope string_scope.
Local Open Scope list_scope.
Local Open Scope R_scope.

(** ** Specification vocabulary *)

(** All indices of [r] select an entry of a vector of [n] coefficients. *)
Definition idx_ok {F} (r : residual F) (n : nat) : Prop :=
  forall i, In i (res_index r) -> (0 <= i < Z.of_nat n)%Z.

(** The entries of [params] that [r] depends on, in the order of its indices. *)
Definition gathered {F} {O : Ops F} (r : residual F) (params : list F) : list F :=
  map (fun i => vget params (Z.to_nat i)) (res_index r).

(** Position in the full vector of local parameter [a]. *)
Definition gidx {F} (r : residual F) (a : nat) : nat := Z.to_nat (nth a (res_index r) 0%Z).

(** ** C23: for every arithmetic *)
Section AnyArith.
  Context {F : Type} {O : Ops F}.

  Lemma gather_ok : forall (input : list F) index acc,
    (forall i, In i index -> (0 <= i < Z.of_nat (length input))%Z) ->
    ofold (fun acc (i : Z) =>
      bind (f_assert (0 <=? i)%Z "GatherValues: i >= 0") (fun _ =>
      bind (f_assert (i <? Z.of_nat (List.length input))%Z "Index exceeds the number of params") (fun _ =>
      Ok (acc ++ [vget input (Z.to_nat i)])))) index acc
    = Ok (acc ++ map (fun i => vget input (Z.to_nat i)) index).
  Proof.
    intros input index. induction index as [|i index IH]; intros acc H; simpl.
    - rewrite app_nil_r. reflexivity.
    - destruct (H i (or_introl eq_refl)) as [H1 H2].
      apply Z.leb_le in H1. apply Z.ltb_lt in H2. rewrite H1, H2. cbn [f_assert bind].
      rewrite IH by (intros; apply H; right; assumption). rewrite <- app_assoc. reflexivity.
  Qed.

  Lemma gather_throws : forall (input : list F) index acc,
    (exists i, In i index /\ ~ (0 <= i < Z.of_nat (length input))%Z) ->
    exists w, ofold (fun acc (i : Z) =>
      bind (f_assert (0 <=? i)%Z "GatherValues: i >= 0") (fun _ =>
      bind (f_assert (i <? Z.of_nat (List.length input))%Z "Index exceeds the number of params") (fun _ =>
      Ok (acc ++ [vget input (Z.to_nat i)])))) index acc
    = Throw (AssertFailed w).
  Proof.
    intros input index. induction index as [|i index IH]; intros acc [j [Hin Hj]]; simpl; [destruct Hin|].
    destruct (Z.leb_spec 0 i); cbn [f_assert bind]; [|eauto].
    destruct (Z.ltb_spec i (Z.of_nat (List.length input))); cbn [f_assert bind]; [|eauto].
    apply IH. destruct Hin as [->|Hin]; [lia|]. eauto.
  Qed.

  Lemma idx_dec : forall (r : residual F) n,
    idx_ok r n \/ exists i, In i (res_index r) /\ ~ (0 <= i < Z.of_nat n)%Z.
  Proof.
    intros r n. unfold idx_ok. induction (res_index r) as [|i l IH].
    - left. intros i [].
    - destruct IH as [IH|[j [Hin Hj]]]; [|right; exists j; split; [right; exact Hin|exact Hj]].
      destruct (Z.leb_spec 0 i).
      + destruct (Z.ltb_spec i (Z.of_nat n)).
        * left. intros j [<-|Hj]; [lia|apply IH; exact Hj].
        * right. exists i. split; [left; reflexivity|lia].
      + right. exists i. split; [left; reflexivity|lia].
  Qed.

  Lemma GatherValues_ok : forall (r : residual F) params, idx_ok r (length params) ->
    GatherValues params (res_index r) = Ok (gathered r params).
  Proof. intros r params H. unfold GatherValues. rewrite gather_ok by exact H. reflexivity. Qed.

  Lemma GatherValues_inv : forall (r : residual F) params p,
    GatherValues params (res_index r) = Ok p -> idx_ok r (length params) /\ p = gathered r params.
  Proof.
    intros r params p H. destruct (idx_dec r (length params)) as [D|D].
    - rewrite (GatherValues_ok r params D) in H. split; [exact D|]. apply Ok_inj in H. auto.
    - destruct (gather_throws params (res_index r) [] D) as [w E]. unfold GatherValues in H. rewrite E in H. discriminate.
  Qed.

  (** C23: ErrorVector either evaluates the user function on exactly the selected entries, or throws
      because an index is out of range (or the output has the wrong size). It is never undefined. *)
  Theorem C23_ErrorVector : forall (r : residual F) params rows,
    (rows = res_dim r /\ idx_ok r (length params) ->
       ErrorVector r params rows = Ok (res_err r (gathered r params))) /\
    (~ (rows = res_dim r /\ idx_ok r (length params)) -> exists w, ErrorVector r params rows = Throw (AssertFailed w)).
  Proof.
    intros r params rows. split.
    - intros [-> H]. unfold ErrorVector. rewrite Nat.eqb_refl. cbn [f_assert bind]. rewrite GatherValues_ok by exact H. reflexivity.
    - intro H. unfold ErrorVector. destruct (Nat.eqb_spec rows (res_dim r)) as [E|E]; cbn [f_assert bind]; [|eauto].
      destruct (idx_dec r (length params)) as [D|D]; [tauto|].
      destruct (gather_throws params (res_index r) [] D) as [w W]. unfold GatherValues. rewrite W. cbn [bind]. eauto.
  Qed.

  (** The number of rows processed matches the position, when an [ofold] runs over [seq 0 n]. *)
  Lemma seq_split_pos : forall n done (x : nat) rest, seq 0 n = done ++ x :: rest ->
    x = length done /\ done = seq 0 (length done) /\ (x < n)%nat.
  Proof.
    intros n done x rest H.
    assert (L : n = (length done + S (length rest))%nat).
    { apply (f_equal (@List.length nat)) in H. rewrite seq_length, app_length in H. exact H. }
    rewrite L, seq_app in H. 
    assert (H1 : seq 0 (length done) = done /\ seq (0 + length done) (S (length rest)) = x :: rest).
    { apply app_inj_tail_iff || idtac.
      revert H. generalize (seq (0 + length done) (S (length rest))). intros l Hl.
      assert (Q : forall (a b c d : list nat), length a = length c -> a ++ b = c ++ d -> a = c /\ b = d).
      { induction a as [|a0 a IH]; intros b [|c0 c] d Lq E; simpl in *; try discriminate; [auto|].
        injection E as -> E. destruct (IH b c d) as [-> ->]; [congruence|exact E|auto]. }
      apply Q in Hl; [exact Hl|]. rewrite seq_length. reflexivity. }
    destruct H1 as [H1 H2]. simpl in H2. injection H2 as H2 _. split; [lia|]. split; [auto|lia].
  Qed.

  Lemma nth_in_index : forall (r : residual F) a, (a < length (res_index r))%nat ->
    In (nth a (res_index r) 0%Z) (res_index r).
  Proof. intros. apply nth_In. assumption. Qed.

  (** C23: UpdateHessian on a system of the right dimensions (as many rows as there are parameters):
      succeeds if all indices are in range, otherwise throws. *)
  Theorem C23_UpdateHessian : forall (r : residual F) params H b,
    mrows H = mcols H -> length b = mrows H -> mrows H = length params ->
    (idx_ok r (length params) -> exists H' b' cost, UpdateHessian r params H b = Ok (H', b', cost)) /\
    (~ idx_ok r (length params) -> exists w, UpdateHessian r params H b = Throw (AssertFailed w)).
  Proof.
    intros r params H b HS HB HP. unfold UpdateHessian. rewrite HS, HB, Nat.eqb_refl. cbn [f_assert bind].
    rewrite HS, Nat.eqb_refl. cbn [f_assert bind]. split.
    - intro I. rewrite GatherValues_ok by exact I. cbn [bind].
      set (stp := fun Hb row_local => _).
      assert (E : forall l Hb, (forall a, In a l -> (a < length (res_index r))%nat) ->
        exists H' b', ofold stp l Hb = Ok (H', b')).
      { induction l as [|a l IH]; intros [h v] Hl; simpl; [eauto|].
        unfold stp at 1. pose proof (I _ (nth_in_index r a (Hl a (or_introl eq_refl)))) as [_ I2].
        replace (nth a (res_index r) 0 <? Z.of_nat (mcols H))%Z with true by (symmetry; apply Z.ltb_lt; lia).
        cbn [f_assert bind]. apply IH. intros; apply Hl; right; assumption. }
      destruct (E (seq 0 (length (res_index r))) (H, b)) as (H' & b' & ->).
      + intros a Ha. apply in_seq in Ha. lia.
      + cbn [bind]. eauto.
    - intro I. destruct (idx_dec r (length params)) as [D|D]; [tauto|].
      destruct (gather_throws params (res_index r) [] D) as [w W]. unfold GatherValues. rewrite W. cbn [bind]. eauto.
  Qed.

  (** C23: UpdateJacobian likewise. *)
  Theorem C23_UpdateJacobian : forall (r : residual F) params cols,
    cols = length params ->
    (idx_ok r (length params) -> exists J, UpdateJacobian r params cols = Ok (J, res_errJ r (gathered r params))) /\
    (~ idx_ok r (length params) -> exists w, UpdateJacobian r params cols = Throw (AssertFailed w)).
  Proof.
    intros r params cols HP. unfold UpdateJacobian. split.
    - intro I. rewrite GatherValues_ok by exact I. cbn [bind].
      set (stp := fun (Jo : mat F) col_local => _).
      assert (E : forall l Jo, (forall a, In a l -> (a < length (res_index r))%nat) -> exists J, ofold stp l Jo = Ok J).
      { induction l as [|a l IH]; intros Jo Hl; simpl; [eauto|].
        unfold stp at 1. pose proof (I _ (nth_in_index r a (Hl a (or_introl eq_refl)))) as [_ I2].
        replace (nth a (res_index r) 0 <? Z.of_nat cols)%Z with true by (symmetry; apply Z.ltb_lt; lia).
        cbn [f_assert bind]. apply IH. intros; apply Hl; right; assumption. }
      destruct (E (seq 0 (length (res_index r))) (mzero (res_dim r) cols)) as (J & ->).
      + intros a Ha. apply in_seq in Ha. lia.
      + cbn [bind]. eauto.
    - intro I. destruct (idx_dec r (length params)) as [D|D]; [tauto|].
      destruct (gather_throws params (res_index r) [] D) as [w W]. unfold GatherValues. rewrite W. cbn [bind]. eauto.
  Qed.
  (** C23, for a Hessian and a right hand side of any size (they need not match the parameters): UpdateHessian
      succeeds exactly if H is square, b has its size, and every index is within both the parameters and H;
      otherwise it throws. *)
  Theorem C23_UpdateHessian_any_size : forall (r : residual F) params H b,
    (mrows H = mcols H /\ length b = mrows H /\ idx_ok r (length params) /\ idx_ok r (mrows H) ->
       exists H' b' cost, UpdateHessian r params H b = Ok (H', b', cost)) /\
    (~ (mrows H = mcols H /\ length b = mrows H /\ idx_ok r (length params) /\ idx_ok r (mrows H)) ->
       exists w, UpdateHessian r params H b = Throw (AssertFailed w)).
  Proof.
    intros r params H b. unfold UpdateHessian. split.
    - intros (HS & HB & I & J). rewrite HS, HB, Nat.eqb_refl. cbn [f_assert bind].
      rewrite <- HS, Nat.eqb_refl. cbn [f_assert bind].
      rewrite GatherValues_ok by exact I. cbn [bind].
      set (stp := fun Hb row_local => _).
      assert (E : forall l Hb, (forall a, In a l -> (a < length (res_index r))%nat) ->
        exists H' b', ofold stp l Hb = Ok (H', b')).
      { induction l as [|a l IH]; intros [h v] Hl; simpl; [eauto|].
        unfold stp at 1. pose proof (J _ (nth_in_index r a (Hl a (or_introl eq_refl)))) as [_ I2].
        replace (nth a (res_index r) 0 <? Z.of_nat (mrows H))%Z with true by (symmetry; apply Z.ltb_lt; lia).
        cbn [f_assert bind]. apply IH. intros; apply Hl; right; assumption. }
      destruct (E (seq 0 (length (res_index r))) (H, b)) as (H' & b' & ->).
      + intros a Ha. apply in_seq in Ha. lia.
      + cbn [bind]. eauto.
    - intro N. destruct (Nat.eqb_spec (mrows H) (mcols H)) as [HS|HS]; cbn [f_assert bind]; [|eauto].
      destruct (Nat.eqb_spec (length b) (mrows H)) as [HB|HB]; cbn [f_assert bind]; [|eauto].
      destruct (idx_dec r (length params)) as [I|D].
      2: { destruct (gather_throws params (res_index r) [] D) as [w W]. unfold GatherValues. rewrite W. cbn [bind]. eauto. }
      rewrite GatherValues_ok by exact I. cbn [bind].
      destruct (idx_dec r (mrows H)) as [J|(i & Hin & Hi)]; [tauto|].
      pose proof (I i Hin) as [I0 _]. apply In_nth with (d := 0%Z) in Hin. destruct Hin as (a & Ha & Ea).
      set (stp := fun Hb row_local => _).
      assert (E : forall l Hb, In a l -> exists w, ofold stp l Hb = Throw (AssertFailed w)).
      { induction l as [|a' l IH]; intros [h v] Hl; [destruct Hl|]. cbn [ofold].
        unfold stp at 1. destruct (nth a' (res_index r) 0 <? Z.of_nat (mrows H))%Z eqn:EL; cbn [f_assert bind]; [|eauto].
        destruct Hl as [->|Hl]; [|apply IH; exact Hl]. apply Z.ltb_lt in EL. lia. }
      destruct (E (seq 0 (length (res_index r))) (H, b)) as [w ->]; [apply in_seq; lia|]. cbn [bind]. eauto.
  Qed.

  (** C23: UpdateJacobian likewise, for an output with any number of columns. *)
  Theorem C23_UpdateJacobian_any_size : forall (r : residual F) params cols,
    (idx_ok r (length params) /\ idx_ok r cols ->
       exists J, UpdateJacobian r params cols = Ok (J, res_errJ r (gathered r params))) /\
    (~ (idx_ok r (length params) /\ idx_ok r cols) -> exists w, UpdateJacobian r params cols = Throw (AssertFailed w)).
  Proof.
    intros r params cols. unfold UpdateJacobian. split.
    - intros [I K]. rewrite GatherValues_ok by exact I. cbn [bind].
      set (stp := fun (Jo : mat F) col_local => _).
      assert (E : forall l Jo, (forall a, In a l -> (a < length (res_index r))%nat) -> exists J, ofold stp l Jo = Ok J).
      { induction l as [|a l IH]; intros Jo Hl; simpl; [eauto|].
        unfold stp at 1. pose proof (K _ (nth_in_index r a (Hl a (or_introl eq_refl)))) as [_ I2].
        replace (nth a (res_index r) 0 <? Z.of_nat cols)%Z with true by (symmetry; apply Z.ltb_lt; lia).
        cbn [f_assert bind]. apply IH. intros; apply Hl; right; assumption. }
      destruct (E (seq 0 (length (res_index r))) (mzero (res_dim r) cols)) as (J & ->).
      + intros a Ha. apply in_seq in Ha. lia.
      + cbn [bind]. eauto.
    - intro N. destruct (idx_dec r (length params)) as [I|D].
      2: { destruct (gather_throws params (res_index r) [] D) as [w W]. unfold GatherValues. rewrite W. cbn [bind]. eauto. }
      rewrite GatherValues_ok by exact I. cbn [bind].
      destruct (idx_dec r cols) as [K|(i & Hin & Hi)]; [tauto|].
      pose proof (I i Hin) as [I0 _]. apply In_nth with (d := 0%Z) in Hin. destruct Hin as (a & Ha & Ea).
      set (stp := fun (Jo : mat F) col_local => _).
      assert (E : forall l Jo, In a l -> exists w, ofold stp l Jo = Throw (AssertFailed w)).
      { induction l as [|a' l IH]; intros Jo Hl; [destruct Hl|]. cbn [ofold].
        unfold stp at 1. destruct (nth a' (res_index r) 0 <? Z.of_nat cols)%Z eqn:EL; cbn [f_assert bind]; [|eauto].
        destruct Hl as [->|Hl]; [|apply IH; exact Hl]. apply Z.ltb_lt in EL. lia. }
      destruct (E (seq 0 (length (res_index r))) (mzero (res_dim r) cols)) as [w ->]; [apply in_seq; lia|]. cbn [bind]. eauto.
  Qed.
End AnyArith.

(** ** C22: over the reals *)

Lemma mupd_wf : forall F i j (g : F -> F) m, wf_mat m -> wf_mat (mupd i j g m).
Proof.
  intros F i j g m [L FA]. split; simpl.
  - rewrite vupd_length. exact L.
  - rewrite Forall_forall in *. intros row Hin. destruct (In_nth _ _ [] Hin) as [k [Hk <-]].
    rewrite vupd_length in Hk. rewrite vupd_nth.
    destruct ((k =? i)%nat && (i <? length (mdata m))%nat); rewrite ?vupd_length; apply FA; apply nth_In; exact Hk.
Qed.

Lemma mget_mupd : forall F (O : Ops F) i j g (m : mat F) a b, wf_mat m -> (i < mrows m)%nat -> (j < mcols m)%nat ->
  mget (mupd i j g m) a b = if (a =? i)%nat && (b =? j)%nat then g (mget m a b) else mget m a b.
Proof.
  intros F O i j g m a b [L FA] Hi Hj. unfold mget, mupd; cbn [mdata]. rewrite vupd_nth, L.
  destruct (Nat.ltb_spec i (mrows m)); [|lia]. rewrite andb_true_r.
  destruct (Nat.eqb_spec a i) as [->|]; [|reflexivity]. cbn [andb]. rewrite vupd_nth.
  rewrite Forall_forall in FA. rewrite (FA (nth i (mdata m) [])) by (apply nth_In; lia).
  destruct (Nat.ltb_spec j (mcols m)); [|lia]. rewrite andb_true_r. reflexivity.
Qed.

(** Entry (a, b) of J^T J. *)
Definition JtJ (r : residual R) (p : list R) (a b : nat) : R :=
  Rsum (res_dim r) (fun k => mget (snd (res_fJ r p)) k a * mget (snd (res_fJ r p)) k b).
(** Entry a of J^T e. *)
Definition Jte (r : residual R) (p : list R) (a : nat) : R :=
  Rsum (res_dim r) (fun k => mget (snd (res_fJ r p)) k a * vget (fst (res_fJ r p)) k).
(** J^T J and J^T e scattered into the full system. *)
Definition scatterH (r : residual R) (p : list R) (i j : nat) : R :=
  let m := length (res_index r) in
  Rsum m (fun a => Rsum m (fun b => if (gidx r a =? i)%nat && (gidx r b =? j)%nat then JtJ r p a b else 0)).
Definition scatterb (r : residual R) (p : list R) (i : nat) : R :=
  Rsum (length (res_index r)) (fun a => if (gidx r a =? i)%nat then Jte r p a else 0).

Lemma JtJ_sym : forall r p a b, JtJ r p a b = JtJ r p b a.
Proof. intros. unfold JtJ. apply Rsum_ext. intros; ring. Qed.

Lemma dot_JtJ : forall (r : residual R) p a b, (a < length (res_index r))%nat -> (b < length (res_index r))%nat ->
  Rdot (mcol (res_J r p) a) (mcol (res_J r p) b) = JtJ r p a b.
Proof.
  intros r p a b Ha Hb. unfold mcol, res_J, fixm. rewrite mkmat_rows.
  rewrite (Rdot_n (res_dim r)) by apply mkvec_length. unfold JtJ. apply Rsum_ext. intros k Hk.
  rewrite !vget_mkvec by exact Hk. rewrite !mget_mkmat by assumption. reflexivity.
Qed.

Lemma dot_Jte : forall (r : residual R) p a, (a < length (res_index r))%nat ->
  Rdot (mcol (res_J r p) a) (res_errJ r p) = Jte r p a.
Proof.
  intros r p a Ha. unfold mcol, res_J, fixm, res_errJ, fixv. rewrite mkmat_rows.
  rewrite (Rdot_n (res_dim r)) by apply mkvec_length. unfold Jte. apply Rsum_ext. intros k Hk.
  rewrite !vget_mkvec by exact Hk. rewrite mget_mkmat by assumption. reflexivity.
Qed.

(** Contribution of the local pair (a, b) to entry (i, j): only the lower triangle is touched. *)
Definition pairc (r : residual R) p i j a b : R :=
  if (i =? Nat.max (gidx r a) (gidx r b))%nat && (j =? Nat.min (gidx r a) (gidx r b))%nat then JtJ r p a b else 0.

Lemma hess_row_spec : forall (r : residual R) p a H, wf_mat H -> mcols H = mrows H ->
  (a < length (res_index r))%nat ->
  (forall c, (c <= a)%nat -> (gidx r c < mrows H)%nat) ->
  let H' := hess_row (res_J r p) (res_index r) a H in
  wf_mat H' /\ mrows H' = mrows H /\ mcols H' = mcols H /\
  forall i j, mget H' i j = mget H i j + Rsum (S a) (fun b => pairc r p i j a b).
Proof.
  intros r p a H W SQ Ha G. unfold hess_row. cbv zeta.
  set (stp := fun (H : mat R) col_local => _).
  assert (GEN : forall n, (n <= S a)%nat ->
    let H' := fold_left stp (seq 0 n) H in
    wf_mat H' /\ mrows H' = mrows H /\ mcols H' = mcols H /\
    forall i j, mget H' i j = mget H i j + Rsum n (fun b => pairc r p i j a b)).
  { induction n; intro Hn; cbv zeta.
    - simpl. splits; auto. intros; ring.
    - destruct (IHn ltac:(lia)) as (W' & R' & C' & E'). rewrite seq_S, fold_left_app. simpl fold_left.
      set (Hp := fold_left stp (seq 0 n) H) in *. unfold stp.
      fold (gidx r a) (gidx r n). cbn [fdot fadd R_ops]. rewrite (dot_JtJ r p a n Ha) by lia.
      pose proof (G a (Nat.le_refl _)) as Ga. pose proof (G n ltac:(lia)) as Gn.
      destruct (Nat.leb_spec (gidx r n) (gidx r a)).
      + splits; [apply mupd_wf; exact W'|exact R'|exact C'|]. intros i j.
        rewrite mget_mupd by (try assumption; lia). rewrite E'. cbn [Rsum]. set (T := Rsum n (fun b => pairc r p i j a b)). unfold pairc.
        replace (Nat.max (gidx r a) (gidx r n)) with (gidx r a) by lia.
        replace (Nat.min (gidx r a) (gidx r n)) with (gidx r n) by lia.
        destruct ((i =? gidx r a)%nat && (j =? gidx r n)%nat); ring.
      + splits; [apply mupd_wf; exact W'|exact R'|exact C'|]. intros i j.
        rewrite mget_mupd by (try assumption; lia). rewrite E'. cbn [Rsum]. set (T := Rsum n (fun b => pairc r p i j a b)). unfold pairc.
        replace (Nat.max (gidx r a) (gidx r n)) with (gidx r n) by lia.
        replace (Nat.min (gidx r a) (gidx r n)) with (gidx r a) by lia.
        destruct ((i =? gidx r n)%nat && (j =? gidx r a)%nat); ring. }
  apply (GEN (S a)). lia.
Qed.

(** What UpdateHessian computes in general (also for repeated indices). *)
Lemma UpdateHessian_raw : forall (r : residual R) params H b H' b' cost,
  wf_mat H -> UpdateHessian r params H b = Ok (H', b', cost) ->
  let p := gathered r params in
  wf_mat H' /\ mrows H' = mrows H /\ mcols H' = mcols H /\ length b' = length b /\
  mcols H = mrows H /\ length b = mrows H /\
  idx_ok r (length params) /\ idx_ok r (mrows H) /\
  (forall i j, mget H' i j = mget H i j +
     Rsum (length (res_index r)) (fun a => Rsum (S a) (fun c => pairc r p i j a c))) /\
  (forall i, vget b' i = vget b i + scatterb r p i) /\
  cost = / 2 * Rsum (res_dim r) (fun k => vget (fst (res_fJ r p)) k * vget (fst (res_fJ r p)) k).
Proof.
  intros r params H b H' b' cost W E. unfold UpdateHessian in E.
  inv_bind E. apply f_assert_ok_inv in Hm. apply Nat.eqb_eq in Hm.
  inv_bind E. apply f_assert_ok_inv in Hm0. apply Nat.eqb_eq in Hm0.
  inv_bind E. apply GatherValues_inv in Hm1. destruct Hm1 as [I ->]. cbv zeta in E.
  set (p := gathered r params) in *.
  inv_bind E. match goal with X : (mat R * list R)%type |- _ => destruct X as [H2 b2] end. apply Ok_inj in E. apply pair_inj in E. destruct E as [E <-].
  apply pair_inj in E. destruct E as [<- <-].
  set (Inv := fun (dn : list nat) (Hb : mat R * list R) =>
    let k := length dn in
    wf_mat (fst Hb) /\ mrows (fst Hb) = mrows H /\ mcols (fst Hb) = mcols H /\ length (snd Hb) = length b /\
    (forall a, (a < k)%nat -> (nth a (res_index r) 0 < Z.of_nat (mrows H))%Z) /\
    (forall i j, mget (fst Hb) i j = mget H i j + Rsum k (fun a => Rsum (S a) (fun c => pairc r p i j a c))) /\
    (forall i, vget (snd Hb) i = vget b i + Rsum k (fun a => if (gidx r a =? i)%nat then Jte r p a else 0))).
  assert (HI : Inv (seq 0 (length (res_index r))) (H2, b2)).
  { eapply ofold_invariant with (P := Inv); [exact Hm1| |].
    - unfold Inv; simpl. splits; auto; try (intros; lia); intros; ring.
    - intros dn x [h v] [h1 v1] [rest HR] (IW & IR & IC & IL & IX & IG & IB) HS.
      destruct (seq_split_pos _ _ _ _ HR) as (Hx & _ & Hlt). subst x. set (k := length dn) in *.
      cbn [fst snd] in *. inv_bind HS. apply f_assert_ok_inv in Hm2. apply Z.ltb_lt in Hm2.
      apply Ok_inj in HS. apply pair_inj in HS. destruct HS as [<- <-].
      assert (G : forall c, (c <= k)%nat -> (gidx r c < mrows h)%nat).
      { intros c Hc. unfold gidx. rewrite IR.
        assert (0 <= nth c (res_index r) 0)%Z by (apply I; apply nth_In; lia).
        assert (nth c (res_index r) 0 < Z.of_nat (mrows H))%Z
          by (destruct (Nat.eq_dec c k) as [->|]; [exact Hm2|apply IX; lia]). lia. }
      destruct (hess_row_spec r p k h IW ltac:(congruence) Hlt G) as (HW & HRr & HC & HG).
      unfold Inv; cbv zeta. rewrite app_length; cbn [List.length fst snd]. replace (length dn + 1)%nat with (S k) by (unfold k; lia).
      splits.
      + exact HW.
      + rewrite HRr. exact IR.
      + rewrite HC. exact IC.
      + rewrite vupd_length. exact IL.
      + intros a9 Ha. destruct (Nat.eq_dec a9 k) as [->|]; [exact Hm2|apply IX; lia].
      + intros i j. rewrite HG, IG. cbn [Rsum]. ring.
      + intros i. fold (gidx r k). specialize (G k (Nat.le_refl _)).
        rewrite vget_vupd by lia. cbn [fdot fadd R_ops]. rewrite dot_Jte by exact Hlt. rewrite IB. cbn [Rsum].
        rewrite (Nat.eqb_sym (gidx r k) i). destruct (i =? gidx r k)%nat; ring. }
  destruct HI as (IW & IR & IC & IL & IX & IG & IB). rewrite seq_length in *. cbn [fst snd] in *.
  cbv zeta. splits; auto.
  - intros i Hi. split; [apply I; exact Hi|]. destruct (In_nth _ _ 0%Z Hi) as [a9 [Ha <-]]. apply IX. exact Ha.
  - cbn [fmul flit fdot fsqnorm R_ops]. unfold fsqnorm. cbn [fdot R_ops].
    rewrite (Rdot_n (res_dim r)) by apply mkvec_length. f_equal; [unfold Q2R; simpl; lra|].
    apply Rsum_ext. intros k Hk. unfold res_errJ, fixv. rewrite vget_mkvec by exact Hk. reflexivity.
Qed.

(** A triangle and its transpose make the full square. *)
Lemma Rsum_triangle : forall m (f : nat -> nat -> R),
  Rsum m (fun a => Rsum m (fun b => f a b)) =
  Rsum m (fun a => Rsum a (fun b => f a b + f b a)) + Rsum m (fun a => f a a).
Proof.
  induction m; intro f; [simpl; ring|]. cbn [Rsum]. rewrite (Rsum_plus m), IHm, (Rsum_plus m (fun b => f m b)). ring.
Qed.

(** Distinct indices select distinct parameters. *)
Lemma gidx_inj : forall (r : residual R) n a b, idx_ok r n -> NoDup (res_index r) ->
  (a < length (res_index r))%nat -> (b < length (res_index r))%nat -> gidx r a = gidx r b -> a = b.
Proof.
  intros r n a b I ND Ha Hb E. apply (proj1 (NoDup_nth (res_index r) 0%Z) ND a b Ha Hb).
  unfold gidx in E. pose proof (I _ (nth_In (res_index r) 0%Z Ha)). pose proof (I _ (nth_In (res_index r) 0%Z Hb)). lia.
Qed.

(** C22: UpdateHessian adds J^T J (scattered to the indices of the residual) to the lower triangle of H,
    leaves the entries strictly above the diagonal alone, adds J^T e to b, and returns half of the
    squared error. *)
Theorem C22_UpdateHessian_entries : forall (r : residual R) params H b H' b' cost,
  wf_mat H -> NoDup (res_index r) -> UpdateHessian r params H b = Ok (H', b', cost) ->
  let p := gathered r params in
  (forall i j, mget H' i j = mget H i j + (if (j <=? i)%nat then scatterH r p i j else 0)) /\
  (forall i, vget b' i = vget b i + scatterb r p i) /\
  cost = / 2 * Rsum (res_dim r) (fun k => vget (fst (res_fJ r p)) k ^ 2).
Proof.
  intros r params H b H' b' cost W ND E p.
  destruct (UpdateHessian_raw _ _ _ _ _ _ _ W E) as (_ & _ & _ & _ & _ & _ & _ & I & EH & EB & EC). fold p in EH, EB, EC.
  splits; [|exact EB|rewrite EC; f_equal; apply Rsum_ext; intros; ring].
  intros i j. rewrite EH. f_equal. unfold scatterH. cbv zeta. set (m := length (res_index r)).
  destruct (Nat.leb_spec j i) as [Hji|Hji].
  - rewrite Rsum_triangle. rewrite <- Rsum_plus. apply Rsum_ext. intros a Ha. cbn [Rsum]. f_equal.
    + apply Rsum_ext. intros c Hc. unfold pairc. rewrite (JtJ_sym r p c a).
      assert (NE : gidx r a <> gidx r c) by (intro E'; assert (a = c) by (eapply gidx_inj; eauto; fold m; lia); lia).
      destruct (Nat.eqb_spec (gidx r a) i); destruct (Nat.eqb_spec (gidx r c) j);
      destruct (Nat.eqb_spec (gidx r c) i); destruct (Nat.eqb_spec (gidx r a) j);
      destruct (Nat.eqb_spec i (Nat.max (gidx r a) (gidx r c)));
      destruct (Nat.eqb_spec j (Nat.min (gidx r a) (gidx r c))); cbn [andb]; try ring; exfalso; lia.
    + unfold pairc. rewrite Nat.max_id, Nat.min_id, (Nat.eqb_sym i), (Nat.eqb_sym j). reflexivity.
  - apply Rsum_0. intros a Ha. apply Rsum_0. intros c Hc. unfold pairc.
    destruct (Nat.eqb_spec i (Nat.max (gidx r a) (gidx r c)));
    destruct (Nat.eqb_spec j (Nat.min (gidx r a) (gidx r c))); cbn [andb]; try reflexivity; lia.
Qed.

(** The quadratic form of the symmetric matrix stored in the lower triangle of [H]. *)
Definition sym_form (H : mat R) (n : nat) (x : nat -> R) : R :=
  Rsum n (fun i => Rsum n (fun j => x i * sget H i j * x j)).
(** |J dx|^2 for the Jacobian of [r] at the parameters [p], with dx in full coordinates. *)
Definition Jdx_sq (r : residual R) (p : list R) (x : nat -> R) : R :=
  Rsum (res_dim r) (fun k => (Rsum (length (res_index r)) (fun a => mget (snd (res_fJ r p)) k a * x (gidx r a))) ^ 2).
(** (J dx) . e *)
Definition Jdx_dot_e (r : residual R) (p : list R) (x : nat -> R) : R :=
  Rsum (res_dim r) (fun k => vget (fst (res_fJ r p)) k *
    Rsum (length (res_index r)) (fun a => mget (snd (res_fJ r p)) k a * x (gidx r a))).

Lemma scatterH_sym : forall r p i j, scatterH r p i j = scatterH r p j i.
Proof.
  intros. unfold scatterH. cbv zeta. rewrite Rsum_swap. apply Rsum_ext. intros a Ha. apply Rsum_ext. intros b Hb.
  rewrite (JtJ_sym r p b a), andb_comm. reflexivity.
Qed.

Lemma Rsum_select : forall n (k : nat) (x : nat -> R) c, (k < n)%nat ->
  Rsum n (fun i => if (k =? i)%nat then c * x i else 0) = c * x k.
Proof.
  intros n k x c Hk. rewrite <- (Rsum_delta n k (fun i => c * x i) Hk). apply Rsum_ext. intros i Hi.
  rewrite Nat.eqb_sym. reflexivity.
Qed.

Lemma scatterH_form : forall r p n x, (forall a, (a < length (res_index r))%nat -> (gidx r a < n)%nat) ->
  Rsum n (fun i => Rsum n (fun j => x i * scatterH r p i j * x j)) = Jdx_sq r p x.
Proof.
  intros r p n x G. unfold Jdx_sq. set (m := length (res_index r)) in *.
  transitivity (Rsum m (fun a => Rsum m (fun b => JtJ r p a b * x (gidx r a) * x (gidx r b)))).
  - unfold scatterH. cbv zeta. fold m.
    transitivity (Rsum m (fun a => Rsum m (fun b => Rsum n (fun i => Rsum n (fun j =>
       x i * (if (gidx r a =? i)%nat && (gidx r b =? j)%nat then JtJ r p a b else 0) * x j))))).
    + rewrite (Rsum_ext n _ (fun i => Rsum m (fun a => Rsum m (fun b => Rsum n (fun j =>
         x i * (if (gidx r a =? i)%nat && (gidx r b =? j)%nat then JtJ r p a b else 0) * x j))))).
      * rewrite Rsum_swap. apply Rsum_ext. intros a Ha. apply Rsum_swap.
      * intros i Hi. rewrite (Rsum_ext n _ (fun j => Rsum m (fun a => Rsum m (fun b =>
          x i * (if (gidx r a =? i)%nat && (gidx r b =? j)%nat then JtJ r p a b else 0) * x j)))).
        -- rewrite Rsum_swap. apply Rsum_ext. intros a Ha. apply Rsum_swap.
        -- intros j Hj. rewrite <- Rsum_scal_l, <- Rsum_scal_r. apply Rsum_ext. intros a Ha.
           rewrite <- Rsum_scal_l, <- Rsum_scal_r. reflexivity.
    + apply Rsum_ext. intros a Ha. apply Rsum_ext. intros b Hb.
      rewrite (Rsum_ext n _ (fun i => if (gidx r a =? i)%nat then (JtJ r p a b * x (gidx r b)) * x i else 0)).
      * rewrite Rsum_select by auto. ring.
      * intros i Hi. destruct (gidx r a =? i)%nat; cbn [andb].
        -- rewrite (Rsum_ext n _ (fun j => if (gidx r b =? j)%nat then (x i * JtJ r p a b) * x j else 0)).
           ++ rewrite Rsum_select by auto. ring.
           ++ intros j Hj. destruct (gidx r b =? j)%nat; ring.
        -- apply Rsum_0. intros; ring.
  - rewrite (Rsum_ext (res_dim r) _ (fun k => Rsum m (fun a => Rsum m (fun b =>
      mget (snd (res_fJ r p)) k a * mget (snd (res_fJ r p)) k b * x (gidx r a) * x (gidx r b))))).
    + rewrite (Rsum_swap (res_dim r) m). apply Rsum_ext. intros a Ha. rewrite (Rsum_swap (res_dim r) m). apply Rsum_ext. intros b Hb.
      unfold JtJ. rewrite <- !Rsum_scal_r. reflexivity.
    + intros k Hk. simpl pow. rewrite Rmult_1_r. rewrite <- Rsum_scal_r. apply Rsum_ext. intros a Ha.
      rewrite <- Rsum_scal_l. apply Rsum_ext. intros b Hb. ring.
Qed.

Lemma scatterb_form : forall r p n x, (forall a, (a < length (res_index r))%nat -> (gidx r a < n)%nat) ->
  Rsum n (fun i => scatterb r p i * x i) = Jdx_dot_e r p x.
Proof.
  intros r p n x G. unfold Jdx_dot_e, scatterb. set (m := length (res_index r)) in *.
  rewrite (Rsum_ext n _ (fun i => Rsum m (fun a => if (gidx r a =? i)%nat then Jte r p a * x i else 0))).
  - rewrite Rsum_swap. rewrite (Rsum_ext m _ (fun a => Jte r p a * x (gidx r a))) by (intros; apply Rsum_select; auto).
    rewrite (Rsum_ext (res_dim r) _ (fun k => Rsum m (fun a => mget (snd (res_fJ r p)) k a * vget (fst (res_fJ r p)) k * x (gidx r a)))).
    + rewrite (Rsum_swap (res_dim r) m). apply Rsum_ext. intros a Ha. unfold Jte. rewrite <- Rsum_scal_r. reflexivity.
    + intros k Hk. rewrite <- Rsum_scal_l. apply Rsum_ext. intros; ring.
  - intros i Hi. rewrite <- Rsum_scal_r. apply Rsum_ext. intros a Ha. destruct (gidx r a =? i)%nat; ring.
Qed.

Lemma gidx_range : forall (r : residual R) n, idx_ok r n ->
  forall a, (a < length (res_index r))%nat -> (gidx r a < n)%nat.
Proof. intros r n I a Ha. unfold gidx. pose proof (I _ (nth_In (res_index r) 0%Z Ha)). lia. Qed.

(** C22: read as a symmetric matrix, H gains dx -> |J dx|^2, and b gains dx -> (J dx) . e, so that
    cost + b^T dx + 1/2 dx^T H dx gains exactly 1/2 |e + J dx|^2. *)
Theorem C22_UpdateHessian_gauss_newton : forall (r : residual R) params H b H' b' cost,
  wf_mat H -> NoDup (res_index r) -> UpdateHessian r params H b = Ok (H', b', cost) ->
  let p := gathered r params in let n := mrows H in
  forall x : nat -> R,
  sym_form H' n x = sym_form H n x + Jdx_sq r p x /\
  Rsum n (fun i => vget b' i * x i) = Rsum n (fun i => vget b i * x i) + Jdx_dot_e r p x /\
  cost + Rsum n (fun i => vget b' i * x i) + / 2 * sym_form H' n x =
  Rsum n (fun i => vget b i * x i) + / 2 * sym_form H n x +
  / 2 * Rsum (res_dim r) (fun k => (vget (fst (res_fJ r p)) k +
        Rsum (length (res_index r)) (fun a => mget (snd (res_fJ r p)) k a * x (gidx r a))) ^ 2).
Proof.
  intros r params H b H' b' cost W ND E p n x.
  destruct (C22_UpdateHessian_entries _ _ _ _ _ _ _ W ND E) as (EH & EB & EC). fold p in EH, EB, EC.
  destruct (UpdateHessian_raw _ _ _ _ _ _ _ W E) as (_ & _ & _ & _ & _ & _ & _ & I & _). fold n in I.
  pose proof (gidx_range r n I) as G.
  assert (A : sym_form H' n x = sym_form H n x + Jdx_sq r p x).
  { rewrite <- (scatterH_form r p n x G). unfold sym_form. rewrite <- Rsum_plus. apply Rsum_ext. intros i Hi.
    rewrite <- Rsum_plus. apply Rsum_ext. intros j Hj. unfold sget. rewrite !EH.
    destruct (Nat.leb_spec j i); [ring|]. destruct (Nat.leb_spec i j); [|lia]. rewrite (scatterH_sym r p j i). ring. }
  assert (B : Rsum n (fun i => vget b' i * x i) = Rsum n (fun i => vget b i * x i) + Jdx_dot_e r p x).
  { rewrite <- (scatterb_form r p n x G), <- Rsum_plus. apply Rsum_ext. intros i Hi. rewrite EB. ring. }
  splits; [exact A|exact B|]. rewrite A, B, EC. unfold Jdx_sq, Jdx_dot_e.
  rewrite (Rsum_ext (res_dim r) (fun k => (vget (fst (res_fJ r p)) k + _) ^ 2)
    (fun k => vget (fst (res_fJ r p)) k ^ 2 +
      2 * (vget (fst (res_fJ r p)) k * Rsum (length (res_index r)) (fun a => mget (snd (res_fJ r p)) k a * x (gidx r a))) +
      (Rsum (length (res_index r)) (fun a => mget (snd (res_fJ r p)) k a * x (gidx r a))) ^ 2)) by (intros; ring).
  rewrite !Rsum_plus, Rsum_scal_l. lra.
Qed.

(** C22: UpdateJacobian writes J into the columns of the indices and zero elsewhere. *)
Theorem C22_UpdateJacobian : forall (r : residual R) params cols Jo e,
  NoDup (res_index r) -> UpdateJacobian r params cols = Ok (Jo, e) ->
  let p := gathered r params in
  mrows Jo = res_dim r /\ mcols Jo = cols /\ e = res_errJ r p /\
  (forall k a, (k < res_dim r)%nat -> (a < length (res_index r))%nat ->
     mget Jo k (gidx r a) = mget (snd (res_fJ r p)) k a) /\
  (forall k j, (k < res_dim r)%nat -> (j < cols)%nat -> (forall a, (a < length (res_index r))%nat -> gidx r a <> j) ->
     mget Jo k j = 0) /\
  (forall k (x : nat -> R), (k < res_dim r)%nat ->
     Rsum cols (fun j => mget Jo k j * x j) =
     Rsum (length (res_index r)) (fun a => mget (snd (res_fJ r p)) k a * x (gidx r a))).
Proof.
  intros r params cols Jo e ND E p. unfold UpdateJacobian in E.
  inv_bind E. apply GatherValues_inv in Hm. destruct Hm as [I ->]. cbv zeta in E. fold p in E.
  inv_bind E. apply Ok_inj in E. apply pair_inj in E. destruct E as [-> <-].
  set (Inv := fun (dn : list nat) (M : mat R) => let k := length dn in
    mrows M = res_dim r /\ mcols M = cols /\
    (forall a, (a < k)%nat -> (gidx r a < cols)%nat) /\
    forall i j, (i < res_dim r)%nat -> (j < cols)%nat ->
      mget M i j = Rsum k (fun a => if (gidx r a =? j)%nat then mget (snd (res_fJ r p)) i a else 0)).
  assert (HI : Inv (seq 0 (length (res_index r))) Jo).
  { eapply ofold_invariant with (P := Inv); [exact Hm| |].
    - unfold Inv; simpl. splits; auto; try (intros; lia). intros i j Hi Hj. unfold mget, mzero; simpl.
      rewrite nth_repeat_lt || idtac.
      rewrite (nth_indep _ [] (repeat 0 cols)) by (rewrite repeat_length; exact Hi).
      rewrite nth_repeat. apply nth_repeat.
    - intros dn x M M' [rest HR] (IR & IC & IG & IM) HS.
      destruct (seq_split_pos _ _ _ _ HR) as (Hx & _ & Hlt). subst x. set (k := length dn) in *.
      inv_bind HS. apply f_assert_ok_inv in Hm0. apply Z.ltb_lt in Hm0. apply Ok_inj in HS. subst M'.
      unfold Inv; cbv zeta. rewrite app_length; cbn [List.length]. replace (length dn + 1)%nat with (S k) by (unfold k; lia).
      assert (Gk : (gidx r k < cols)%nat).
      { unfold gidx. pose proof (I _ (nth_In (res_index r) 0%Z Hlt)). lia. }
      splits; try reflexivity.
      + intros a' Ha'. destruct (Nat.eq_dec a' k) as [->|]; [exact Gk|apply IG; lia].
      + intros i j Hi Hj. rewrite mget_mkmat by assumption. fold (gidx r k). cbn [Rsum].
        rewrite (Nat.eqb_sym (gidx r k) j). destruct (Nat.eqb_spec j (gidx r k)) as [->|NE].
        * unfold res_J, fixm. rewrite mget_mkmat by assumption. rewrite Rsum_0; [ring|].
          intros a' Ha'. destruct (Nat.eqb_spec (gidx r a') (gidx r k)) as [E|]; [|reflexivity].
          exfalso. assert (a' = k) by (eapply gidx_inj; eauto; lia). lia.
        * rewrite IM by assumption. ring. }
  destruct HI as (IR & IC & IG & IM). rewrite seq_length in *.
  splits; auto.
  - intros k a' Hk Ha'. rewrite IM by auto.
    rewrite (Rsum_ext _ _ (fun c => if (c =? a')%nat then mget (snd (res_fJ r p)) k c else 0)).
    + rewrite (Rsum_delta _ a' (fun c => mget (snd (res_fJ r p)) k c) Ha'). reflexivity.
    + intros c Hc. destruct (Nat.eqb_spec c a') as [->|NE]; [rewrite Nat.eqb_refl; reflexivity|].
      destruct (Nat.eqb_spec (gidx r c) (gidx r a')) as [E|]; [|reflexivity].
      exfalso. apply NE. eapply gidx_inj; eauto.
  - intros k j Hk Hj NO. rewrite IM by assumption. apply Rsum_0. intros a' Ha'.
    destruct (Nat.eqb_spec (gidx r a') j); [exfalso; eapply NO; eauto|reflexivity].
  - intros k x Hk. rewrite (Rsum_ext cols _ (fun j => Rsum (length (res_index r)) (fun a => if (gidx r a =? j)%nat then mget (snd (res_fJ r p)) k a * x j else 0))).
    + rewrite Rsum_swap. apply Rsum_ext. intros a' Ha'. apply Rsum_select. auto.
    + intros j Hj. rewrite IM by assumption. rewrite <- Rsum_scal_r. apply Rsum_ext. intros a' Ha'.
      destruct (gidx r a' =? j)%nat; ring.
Qed.

(** C23 finding: with a repeated index the call succeeds but H is not J^T J.
    Residual e(p0, p1) = p0 + p1 - 1 applied to parameters (x0, x0), so J = (1 1) and J dx = 2 dx0;
    H should gain 4 but gains 3. *)
Definition dup_res : residual R :=
  MkRes 1 [0%Z; 0%Z] (fun p => [vget p 0 + vget p 1 - 1]) (fun p => ([vget p 0 + vget p 1 - 1], Mat 1 2 [[1; 1]])).
Theorem C23_duplicate_index_refuted : exists (r : residual R) params H b H' b' cost,
  wf_mat H /\ UpdateHessian r params H b = Ok (H', b', cost) /\
  exists x : nat -> R, sym_form H' (mrows H) x <> sym_form H (mrows H) x + Jdx_sq r (gathered r params) x.
Proof.
  exists dup_res, [5], (mzero 1 1), (vzero 1). do 3 eexists.
  split; [split; [reflexivity|repeat constructor]|].
  split; [reflexivity|].
  exists (fun _ => 1). unfold sym_form, Jdx_sq, sget, mget; simpl. unfold mget; simpl. unfold mget; simpl. lra.
Qed.

(** A residual meeting the hypotheses: 2 errors of 2 parameters at positions 2 and 0 of 3. *)
Definition ok_res : residual R :=
  MkRes 2 [2%Z; 0%Z] (fun p => [vget p 0; vget p 1]) (fun p => ([vget p 0; vget p 1], Mat 2 2 [[1; 0]; [0; 1]])).
Example C22_example : exists H' b' cost,
  UpdateHessian ok_res [4; 5; 6] (mzero 3 3) (vzero 3) = Ok (H', b', cost) /\
  mget H' 2 2 = 1 /\ mget H' 0 0 = 1 /\ mget H' 1 1 = 0 /\ vget b' 2 = 6 /\ vget b' 0 = 4.
Proof.
  do 3 eexists. split; [reflexivity|]. unfold mget, vget; simpl. unfold mget, vget; simpl. unfold mget, vget; simpl. splits; lra.
Qed.
