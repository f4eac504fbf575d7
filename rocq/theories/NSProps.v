(** C20, C21: the null space solver, over the reals. *)
From Coq Require Import String List Bool Arith ZArith Reals Lra Lia Permutation Classical_Prop.
From Verif Require Import Scalar Outcome LinAlg Structs Constraint QPModel NullSpace RInst Spec QPStep.
Import ListNotations.
Local Open Scope list_scope.
Local Open Scope R_scope.

(** Kronecker delta. *)
Definition kd (i j : nat) : R := if (i =? j)%nat then 1 else 0.

(** What Eigen documents for ColPivHouseholderQR of A^T (A has k rows and n columns): Q is orthogonal,
    R is upper triangular with non-zero pivots up to rank(), the permutation is one, and
    A^T P = Q R. *)
Record qr_ok (A : mat R) (f : QRResult R) : Prop := {
  qr_orth_cols : forall a b, (a < mcols A)%nat -> (b < mcols A)%nat ->
    Rsum (mcols A) (fun i => mget (qrQ f) i a * mget (qrQ f) i b) = kd a b;
  qr_orth_rows : forall i j, (i < mcols A)%nat -> (j < mcols A)%nat ->
    Rsum (mcols A) (fun a => mget (qrQ f) i a * mget (qrQ f) j a) = kd i j;
  qr_upper : forall i j, (i < mcols A)%nat -> (j < i)%nat -> (j < mrows A)%nat -> mget (qrR f) i j = 0;
  qr_perm_len : length (qrPerm f) = mrows A;
  qr_perm_range : forall j, (j < mrows A)%nat -> (nth j (qrPerm f) 0 < mrows A)%nat;
  qr_perm_onto : forall r, (r < mrows A)%nat -> exists j, (j < mrows A)%nat /\ nth j (qrPerm f) 0%nat = r;
  qr_factors : forall j i, (j < mrows A)%nat -> (i < mcols A)%nat ->
    mget A (nth j (qrPerm f) 0%nat) i = Rsum (mcols A) (fun a => mget (qrQ f) i a * mget (qrR f) a j);
  qr_rank_le : (qrRank f <= mrows A)%nat;
  qr_pivots : forall j, (j < qrRank f)%nat -> mget (qrR f) j j <> 0 }.

(** Positive definiteness of the symmetric matrix given by the lower triangle of [H] (m x m). *)
Definition pos_def (m : nat) (H : mat R) : Prop :=
  forall t : nat -> R, (exists i, (i < m)%nat /\ t i <> 0) ->
    0 < Rsum m (fun i => Rsum m (fun j => t i * sget H i j * t j)).

(** What Eigen documents for LLT of the square matrix [H]: it succeeds exactly if [H] is positive
    definite, and then solves. *)
Definition llt_ok (llt : mat R -> option (list R -> list R)) (H : mat R) : Prop :=
  forall m, mrows H = m -> mcols H = m ->
    match llt H with
    | Some solve => pos_def m H /\ forall b, length b = m ->
        length (solve b) = m /\ forall i, (i < m)%nat -> Rsum m (fun j => sget H i j * vget (solve b) j) = vget b i
    | None => ~ pos_def m H
    end.

(** ** Forward substitution *)

Lemma fwd_subst_S : forall R k rhs,
  fwd_subst R (S k) rhs =
  fwd_subst R k rhs ++ [(vget rhs k - Rdot (mkvec k (fun j => mget R j k)) (fwd_subst R k rhs)) / mget R k k].
Proof.
  intros. unfold fwd_subst. rewrite seq_S, fold_left_app. reflexivity.
Qed.

Lemma fwd_subst_length : forall R k rhs, length (fwd_subst R k rhs) = k.
Proof.
  intros R k rhs. induction k; [reflexivity|]. rewrite fwd_subst_S, app_length, IHk. simpl. lia.
Qed.

Lemma vget_app1 : forall (u v : list R) i, (i < length u)%nat -> vget (u ++ v) i = vget u i.
Proof. intros. unfold vget. apply app_nth1. assumption. Qed.
Lemma vget_app2 : forall (u : list R) x, vget (u ++ [x]) (length u) = x.
Proof. intros. unfold vget. rewrite app_nth2, Nat.sub_diag by lia. reflexivity. Qed.

Lemma fwd_subst_solves : forall R k rhs, (forall j, (j < k)%nat -> mget R j j <> 0) ->
  forall j, (j < k)%nat -> Rsum (S j) (fun a => mget R a j * vget (fwd_subst R k rhs) a) = vget rhs j.
Proof.
  intros R k rhs. induction k as [|k IH]; intros HD j Hj; [lia|].
  rewrite fwd_subst_S. set (w := fwd_subst R k rhs) in *.
  assert (Lw : length w = k) by apply fwd_subst_length.
  destruct (Nat.eq_dec j k) as [->|Hne].
  - simpl Rsum. set (last := (vget rhs k - Rdot _ w) / mget R k k).
    assert (E : forall x, vget (w ++ [x]) k = x) by (intro x; rewrite <- Lw; apply vget_app2).
    rewrite E.
    rewrite (Rsum_ext k _ (fun a => mget R a k * vget w a)) by (intros a Ha; rewrite vget_app1 by lia; reflexivity).
    unfold last. rewrite (Rdot_n k) by (auto using mkvec_length).
    rewrite (Rsum_ext k (fun i => vget (mkvec k (fun j => mget R j k)) i * vget w i) (fun a => mget R a k * vget w a))
      by (intros a Ha; rewrite vget_mkvec by exact Ha; reflexivity).
    field. apply HD. lia.
  - rewrite <- (IH (fun i Hi => HD i ltac:(lia)) j ltac:(lia)).
    apply Rsum_ext. intros a Ha. rewrite vget_app1 by lia. reflexivity.
Qed.

(** A lower triangular homogeneous system with non-zero diagonal has only the zero solution. *)
Lemma lower_unique : forall k (L : nat -> nat -> R) (v : nat -> R),
  (forall j, (j < k)%nat -> L j j <> 0) ->
  (forall j, (j < k)%nat -> Rsum (S j) (fun a => L a j * v a) = 0) ->
  forall j, (j < k)%nat -> v j = 0.
Proof.
  intros k L v HD HS j. induction j as [j IH] using lt_wf_ind. intro Hj.
  specialize (HS j Hj). simpl in HS.
  rewrite Rsum_0 in HS by (intros a Ha; rewrite IH by lia; ring).
  assert (L j j * v j = 0) by lra. destruct (Rmult_integral _ _ H) as [E|E]; [|exact E].
  exfalso. apply (HD j Hj E).
Qed.

(** An upper triangular homogeneous system with non-zero diagonal has only the zero solution. *)
Lemma upper_unique : forall k (U : nat -> nat -> R) (v : nat -> R),
  (forall j, (j < k)%nat -> U j j <> 0) ->
  (forall i j, (j < i)%nat -> (i < k)%nat -> U i j = 0) ->
  (forall i, (i < k)%nat -> Rsum k (fun j => U i j * v j) = 0) ->
  forall j, (j < k)%nat -> v j = 0.
Proof.
  intros k U v HD HU HS.
  assert (G : forall m j, (j < k)%nat -> (k - j <= m)%nat -> v j = 0).
  { induction m as [|m IH]; intros j Hj Hm; [lia|].
    specialize (HS j Hj).
    rewrite (Rsum_ext k _ (fun i => if (i =? j)%nat then U j i * v i else 0)) in HS.
    - rewrite (Rsum_delta k j (fun i => U j i * v i) Hj) in HS.
      destruct (Rmult_integral _ _ HS) as [E|E]; [exfalso; apply (HD j Hj E)|exact E].
    - intros i Hi. destruct (Nat.eqb_spec i j) as [->|Hne]; [reflexivity|].
      destruct (lt_dec i j) as [Hlt|Hge].
      + rewrite HU by lia. ring.
      + rewrite (IH i) by lia. ring. }
  intros j Hj. apply (G k j Hj). lia.
Qed.

Lemma Rsum_kd : forall n f j, (j < n)%nat -> Rsum n (fun i => f i * kd i j) = f j.
Proof.
  intros n f j Hj. rewrite <- (Rsum_delta n j f Hj). apply Rsum_ext. intros i Hi. unfold kd.
  destruct (i =? j)%nat; ring.
Qed.

Lemma Rsum_split : forall n k f, (k <= n)%nat -> Rsum n f = Rsum k f + Rsum (n - k) (fun a => f (k + a)%nat).
Proof. intros n k f H. replace n with (k + (n - k))%nat at 1 by lia. apply Rsum_app. Qed.

Lemma Gs_sym : forall (p : QP R) i j, Gs p i j = Gs p j i.
Proof.
  intros p i j. unfold Gs. destruct (Nat.leb_spec j i); destruct (Nat.leb_spec i j); auto; try lia.
  replace j with i by lia. reflexivity.
Qed.

Section Solve.
  Variable qr : mat R -> QRResult R.
  Variable llt : mat R -> option (list R -> list R).
  Variable p : QP R.
  Let A := qA p.
  Let n := mcols A.
  Let k := mrows A.
  Let f := qr A.
  Let Q (i a : nat) : R := mget (qrQ f) i a.
  Hypothesis QR : qr_ok A f.
  Hypothesis Hkn : (k <= n)%nat.
  Hypothesis Hrank : qrRank f = k.

  Let m := (n - k)%nat.

  (** A times a column of Q, row sigma(j): R(a, j). *)
  Lemma A_Q : forall j a, (j < k)%nat -> (a < n)%nat ->
    Rsum n (fun i => mget A (nth j (qrPerm f) 0%nat) i * Q i a) = mget (qrR f) a j.
  Proof.
    intros j a Hj Ha.
    rewrite (Rsum_ext n _ (fun i => Rsum n (fun b => mget (qrR f) b j * (Q i b * Q i a)))).
    - rewrite Rsum_swap.
      rewrite (Rsum_ext n _ (fun b => mget (qrR f) b j * kd b a)).
      + apply (Rsum_kd n (fun b => mget (qrR f) b j) a Ha).
      + intros b Hb. rewrite Rsum_scal_l. f_equal. apply (qr_orth_cols _ _ QR); assumption.
    - intros i Hi. rewrite (qr_factors _ _ QR) by assumption.
      rewrite <- Rsum_scal_r. apply Rsum_ext. intros b Hb. unfold Q. ring.
  Qed.

  (** Coordinates of a vector in the basis Q. *)
  Definition coord (d : nat -> R) (a : nat) : R := Rsum n (fun i => Q i a * d i).

  Lemma coord_expand : forall d i, (i < n)%nat -> Rsum n (fun a => Q i a * coord d a) = d i.
  Proof.
    intros d i Hi. unfold coord.
    rewrite (Rsum_ext n _ (fun a => Rsum n (fun j => Q i a * Q j a * d j)))
      by (intros a Ha; rewrite <- Rsum_scal_l; apply Rsum_ext; intros; ring).
    rewrite Rsum_swap.
    rewrite (Rsum_ext n _ (fun j => d j * kd j i)).
    - apply (Rsum_kd n d i Hi).
    - intros j Hj. rewrite Rsum_scal_r. rewrite Rmult_comm. f_equal.
      replace (Rsum n (fun a => Q i a * Q j a)) with (kd i j) by (symmetry; apply (qr_orth_rows _ _ QR i j Hi Hj)).
      unfold kd. rewrite Nat.eqb_sym. reflexivity.
  Qed.

  (** A d, row sigma(j), in coordinates. *)
  Lemma A_coord : forall d j, (j < k)%nat ->
    Rsum n (fun i => mget A (nth j (qrPerm f) 0%nat) i * d i) = Rsum (S j) (fun a => mget (qrR f) a j * coord d a).
  Proof.
    intros d j Hj.
    rewrite (Rsum_ext n _ (fun i => Rsum n (fun a => mget A (nth j (qrPerm f) 0%nat) i * Q i a * coord d a))).
    2: { intros i Hi. rewrite <- (coord_expand d i Hi) at 1. rewrite <- Rsum_scal_l. apply Rsum_ext. intros; ring. }
    rewrite Rsum_swap.
    rewrite (Rsum_ext n _ (fun a => mget (qrR f) a j * coord d a)).
    2: { intros a Ha. rewrite Rsum_scal_r. f_equal. apply A_Q; assumption. }
    rewrite (Rsum_split n (S j)) by lia.
    rewrite (Rsum_0 (n - S j)); [ring|].
    intros a Ha. rewrite (qr_upper _ _ QR (S j + a) j) by (fold n k; lia). ring.
  Qed.

  (** Directions in the null space of A have no components along the first k columns of Q. *)
  Lemma null_coord : forall d, (forall r, (r < k)%nat -> Rsum n (fun i => mget A r i * d i) = 0) ->
    forall a, (a < k)%nat -> coord d a = 0.
  Proof.
    intros d H. apply (lower_unique k (fun a j => mget (qrR f) a j)).
    - intros j Hj. apply (qr_pivots _ _ QR). fold f. rewrite Hrank. exact Hj.
    - intros j Hj. rewrite <- A_coord by exact Hj. apply H. apply (qr_perm_range _ _ QR). exact Hj.
  Qed.

  Lemma null_expand : forall d, (forall r, (r < k)%nat -> Rsum n (fun i => mget A r i * d i) = 0) ->
    forall i, (i < n)%nat -> d i = Rsum m (fun c => Q i (k + c)%nat * coord d (k + c)%nat).
  Proof.
    intros d H i Hi. rewrite <- (coord_expand d i Hi) at 1. rewrite (Rsum_split n k) by exact Hkn.
    rewrite (Rsum_0 k); [fold m; ring|]. intros a Ha. rewrite (null_coord d H a Ha). ring.
  Qed.

  Lemma Q2_null : forall (t : nat -> R) r, (r < k)%nat ->
    Rsum n (fun i => mget A r i * Rsum m (fun c => Q i (k + c)%nat * t c)) = 0.
  Proof.
    intros t r Hr. destruct (qr_perm_onto _ _ QR r Hr) as [j [Hj <-]].
    rewrite (Rsum_ext n _ (fun i => Rsum m (fun c => mget A (nth j (qrPerm f) 0%nat) i * Q i (k + c)%nat * t c)))
      by (intros i Hi; rewrite <- Rsum_scal_l; apply Rsum_ext; intros; ring).
    rewrite Rsum_swap. apply Rsum_0. intros c Hc. rewrite Rsum_scal_r. fold k in Hj.
    unfold m in Hc. rewrite A_Q by lia. rewrite (qr_upper _ _ QR (k + c) j) by (fold n k; lia). ring.
  Qed.

  (** The particular solution. *)
  Lemma ns_u_feasible : length (qb p) = k ->
    forall r, (r < k)%nat -> Rsum n (fun i => mget A r i * vget (ns_u f n k (qb p)) i) = - vget (qb p) r.
  Proof.
    intros HB r Hr. destruct (qr_perm_onto _ _ QR r Hr) as [j [Hj <-]]. fold k in Hj.
    set (w := fwd_subst (qrR f) k (perm_t (qrPerm f) (vneg (qb p)))).
    assert (Lw : length w = k) by apply fwd_subst_length.
    rewrite (Rsum_ext n _ (fun i => Rsum k (fun a => mget A (nth j (qrPerm f) 0%nat) i * Q i a * vget w a))).
    2: { intros i Hi. unfold ns_u. fold w. rewrite vget_mkvec by exact Hi. cbn [fdot R_ops]. rewrite Hrank.
         rewrite (Rdot_n k) by (auto using mkvec_length). rewrite <- Rsum_scal_l. apply Rsum_ext.
         intros a Ha. rewrite vget_mkvec by exact Ha. unfold Q. ring. }
    rewrite Rsum_swap.
    rewrite (Rsum_ext k _ (fun a => mget (qrR f) a j * vget w a))
      by (intros a Ha; rewrite Rsum_scal_r; f_equal; apply A_Q; lia).
    rewrite (Rsum_split k (S j)) by lia.
    rewrite (Rsum_0 (k - S j)).
    2: { intros a Ha. rewrite (qr_upper _ _ QR (S j + a) j) by (fold n k; lia). ring. }
    unfold w. rewrite fwd_subst_solves; [|intros i Hi; apply (qr_pivots _ _ QR); fold f; rewrite Hrank; exact Hi|exact Hj].
    rewrite Rplus_0_r. unfold perm_t.
    unfold vget at 1. rewrite nth_indep with (d' := (fun s => vget (vneg (qb p)) s) 0%nat)
      by (rewrite map_length, (qr_perm_len _ _ QR); exact Hj).
    rewrite map_nth.
    assert (Hr' : (nth j (qrPerm f) 0 < k)%nat) by (apply (qr_perm_range _ _ QR); exact Hj).
    unfold vget, vneg. rewrite nth_indep with (d' := (@fneg R R_ops) 0) by (rewrite map_length, HB; exact Hr').
    rewrite map_nth. reflexivity.
  Qed.

  Lemma ns_Gred_get : forall a b, (a < m)%nat -> (b < m)%nat ->
    mget (ns_Gred f n (qG p)) a b = Rsum n (fun i => Rsum n (fun j => Q i (k + a)%nat * Gs p i j * Q j (k + b)%nat)).
  Proof.
    intros a b Ha Hb. unfold ns_Gred. rewrite Hrank. fold m. rewrite mget_mkmat by assumption.
    cbn [fdot R_ops]. unfold q2col. rewrite Hrank.
    rewrite (Rdot_n n) by (auto using mkvec_length).
    rewrite (Rsum_ext n _ (fun j => Rsum n (fun i => Q i (k + a)%nat * Gs p i j * Q j (k + b)%nat))).
    - apply Rsum_swap.
    - intros j Hj. rewrite !vget_mkvec by exact Hj. rewrite (Rdot_n n) by (auto using mkvec_length).
      rewrite Rsum_scal_r. f_equal. apply Rsum_ext. intros i Hi. rewrite !vget_mkvec by exact Hi. reflexivity.
  Qed.

  Lemma ns_Gred_sget : forall a b, (a < m)%nat -> (b < m)%nat ->
    sget (ns_Gred f n (qG p)) a b = Rsum n (fun i => Rsum n (fun j => Q i (k + a)%nat * Gs p i j * Q j (k + b)%nat)).
  Proof.
    intros a b Ha Hb. unfold sget. destruct (b <=? a)%nat; [apply ns_Gred_get; assumption|].
    rewrite ns_Gred_get by assumption. rewrite Rsum_swap. apply Rsum_ext. intros i Hi. apply Rsum_ext. intros j Hj.
    rewrite (Gs_sym p j i). ring.
  Qed.

  (** t^T (Q2^T G Q2) t' is the G-form of Q2 t and Q2 t'. *)
  Lemma red_form : forall t t',
    Rsum m (fun a => Rsum m (fun b => t a * sget (ns_Gred f n (qG p)) a b * t' b)) =
    Rsum n (fun i => Rsum n (fun j => Rsum m (fun a => Q i (k + a)%nat * t a) * Gs p i j * Rsum m (fun b => Q j (k + b)%nat * t' b))).
  Proof.
    intros t t'.
    transitivity (Rsum m (fun a => Rsum m (fun b => Rsum n (fun i => Rsum n (fun j =>
      t a * Q i (k + a)%nat * Gs p i j * Q j (k + b)%nat * t' b))))).
    - apply Rsum_ext. intros a Ha. apply Rsum_ext. intros b Hb. rewrite ns_Gred_sget by assumption.
      rewrite <- Rsum_scal_l, <- Rsum_scal_r. apply Rsum_ext. intros i Hi.
      rewrite <- Rsum_scal_l, <- Rsum_scal_r. apply Rsum_ext. intros; ring.
    - rewrite (Rsum_ext m _ (fun a => Rsum n (fun i => Rsum m (fun b => Rsum n (fun j =>
        t a * Q i (k + a)%nat * Gs p i j * Q j (k + b)%nat * t' b))))) by (intros; apply Rsum_swap).
      rewrite Rsum_swap. apply Rsum_ext. intros i Hi.
      rewrite (Rsum_ext m _ (fun a => Rsum n (fun j => Rsum m (fun b =>
        t a * Q i (k + a)%nat * Gs p i j * Q j (k + b)%nat * t' b)))) by (intros; apply Rsum_swap).
      rewrite Rsum_swap. apply Rsum_ext. intros j Hj.
      rewrite <- Rsum_scal_r. rewrite <- Rsum_scal_r. apply Rsum_ext. intros a Ha.
      rewrite <- Rsum_scal_l. apply Rsum_ext. intros b Hb. ring.
  Qed.
End Solve.

(** Exact second order expansion of the objective. *)
Lemma objective_expand : forall p x x',
  let d := fun i => vget x' i - vget x i in
  objective p x' = objective p x
    + Rsum (nv p) (fun i => (Rsum (nv p) (fun j => Gs p i j * vget x j) + vget (qc p) i) * d i)
    + / 2 * Rsum (nv p) (fun i => Rsum (nv p) (fun j => d i * Gs p i j * d j)).
Proof.
  intros p x x' d. unfold objective, qform. set (N := nv p).
  assert (E1 : Rsum N (fun i => Rsum N (fun j => vget x' i * Gs p i j * vget x' j)) =
     Rsum N (fun i => Rsum N (fun j => vget x i * Gs p i j * vget x j))
     + Rsum N (fun i => Rsum N (fun j => d i * Gs p i j * vget x j))
     + Rsum N (fun i => Rsum N (fun j => vget x i * Gs p i j * d j))
     + Rsum N (fun i => Rsum N (fun j => d i * Gs p i j * d j))).
  { rewrite <- !Rsum_plus. apply Rsum_ext. intros i Hi. rewrite <- !Rsum_plus. apply Rsum_ext. intros j Hj.
    unfold d. ring. }
  assert (E2 : Rsum N (fun i => Rsum N (fun j => vget x i * Gs p i j * d j)) =
               Rsum N (fun i => Rsum N (fun j => d i * Gs p i j * vget x j))).
  { rewrite Rsum_swap. apply Rsum_ext. intros i Hi. apply Rsum_ext. intros j Hj. rewrite (Gs_sym p j i). ring. }
  assert (E3 : Rsum N (fun i => (Rsum N (fun j => Gs p i j * vget x j) + vget (qc p) i) * d i) =
     Rsum N (fun i => Rsum N (fun j => d i * Gs p i j * vget x j)) +
     (Rsum N (fun i => vget (qc p) i * vget x' i) - Rsum N (fun i => vget (qc p) i * vget x i))).
  { rewrite <- Rsum_minus, <- Rsum_plus. apply Rsum_ext. intros i Hi.
    rewrite (Rsum_ext N (fun j => d i * Gs p i j * vget x j) (fun j => d i * (Gs p i j * vget x j))) by (intros; ring).
    rewrite Rsum_scal_l. unfold d. ring. }
  rewrite E1, E2, E3. lra.
Qed.

(** Everything the checks of NS_Solve establish when it returns. *)
Lemma NS_Solve_inv : forall qr llt (p : QP R) x_old t x,
  NS_Solve qr llt p x_old = Ok (t, x) ->
  (0 < mrows (qA p))%nat /\ length (qb p) = mrows (qA p) /\
  mrows (qG p) = mcols (qA p) /\ mcols (qG p) = mcols (qA p) /\ length (qc p) = mcols (qA p) /\
  (mrows (qA p) <= mcols (qA p))%nat /\ qrRank (qr (qA p)) = mrows (qA p) /\
  let f := qr (qA p) in let n := mcols (qA p) in
  match llt (ns_Gred f n (qG p)) with
  | None => t = NOT_POSITIVE_DEFINITE /\ x = x_old
  | Some solve => t = NS_SUCCESS /\
     let u := ns_u f n (mrows (qA p)) (qb p) in
     let y := solve (mkvec (n - qrRank f) (fun a => - Rdot (q2col f n a) (vadd (qc p) (smvmul (qG p) u)))) in
     x = mkvec n (fun i => vget u i + Rdot (mkvec (n - qrRank f) (fun a => mget (qrQ f) i (qrRank f + a))) y)
  end.
Proof.
  intros qr llt p x_old t x H. unfold NS_Solve in H.
  inv_bind H. apply f_assert_ok_inv in Hm. apply Nat.ltb_lt in Hm.
  inv_bind H. apply f_assert_ok_inv in Hm0. apply Nat.eqb_eq in Hm0.
  inv_bind H. apply ub_unless_ok_inv in Hm1. apply andb_prop in Hm1. destruct Hm1 as [Hm1 Hc].
  apply andb_prop in Hm1. destruct Hm1 as [HG1 HG2].
  apply Nat.eqb_eq in HG1, HG2, Hc.
  inv_bind H. apply ub_unless_ok_inv in Hm1. apply Nat.leb_le in Hm1.
  inv_bind H. apply ub_unless_ok_inv in Hm2. apply Nat.eqb_eq in Hm2.
  splits; auto. cbn zeta.
  destruct (llt (ns_Gred (qr (qA p)) (mcols (qA p)) (qG p))) as [solve|].
  - apply Ok_inj in H. apply pair_inj in H. destruct H as [<- <-]. split; reflexivity.
  - apply Ok_inj in H. apply pair_inj in H. destruct H as [<- <-]. split; reflexivity.
Qed.

(** C20: if the null space solver reports SUCCESS, variables() satisfies the equality constraints and is
    the unique minimiser of the objective among all points satisfying them. *)
Theorem C20_null_space_minimiser : forall qr llt (p : QP R) x_old x,
  qr_ok (qA p) (qr (qA p)) -> llt_ok llt (ns_Gred (qr (qA p)) (mcols (qA p)) (qG p)) ->
  NS_Solve qr llt p x_old = Ok (NS_SUCCESS, x) ->
  length x = nv p /\ eq_feasible p x /\
  forall x', length x' = nv p -> eq_feasible p x' -> x' <> x -> objective p x < objective p x'.
Proof.
  intros qr llt p x_old x QR LLT H.
  apply NS_Solve_inv in H. destruct H as (Hk0 & Hb & HGr & HGc & Hc & Hkn & Hrank & H). cbn zeta in H.
  destruct (llt (ns_Gred (qr (qA p)) (mcols (qA p)) (qG p))) as [solve|] eqn:EL; [|destruct H; discriminate].
  destruct H as [_ Hx].
  set (f := qr (qA p)) in *. set (n := mcols (qA p)) in *. set (k := mrows (qA p)) in *.
  rewrite Hrank in Hx. set (m := (n - k)%nat) in *.
  assert (HN : nv p = n) by exact Hc. assert (HK : neq p = k) by exact Hb.
  specialize (LLT m). unfold ns_Gred in LLT at 1 2. rewrite mkmat_rows, mkmat_cols in LLT.
  rewrite Hrank in LLT. specialize (LLT eq_refl eq_refl). rewrite EL in LLT. destruct LLT as [PD SOLVE].
  set (u := ns_u f n k (qb p)) in *.
  set (g := vadd (qc p) (smvmul (qG p) u)) in *.
  set (y0 := mkvec m (fun a => - Rdot (q2col f n a) g)) in *.
  destruct (SOLVE y0 (mkvec_length _ _ _)) as [Ly HY]. set (y := solve y0) in *.
  set (Q := fun i a => mget (qrQ f) i a).
  set (x2 := fun i => Rsum m (fun c => Q i (k + c)%nat * vget y c)).
  assert (Lu : length u = n) by apply mkvec_length.
  assert (Xi : forall i, (i < n)%nat -> vget x i = vget u i + x2 i).
  { intros i Hi. rewrite Hx, vget_mkvec by exact Hi. f_equal. rewrite (Rdot_n m) by (auto using mkvec_length).
    unfold x2. apply Rsum_ext. intros c Hcc. rewrite vget_mkvec by exact Hcc. reflexivity. }
  assert (FEAS : eq_feasible p x).
  { intros r Hr. rewrite HK in Hr. unfold kkt_eq, Ae. rewrite HN.
    rewrite (Rsum_ext n _ (fun j => mget (qA p) r j * vget u j + mget (qA p) r j * x2 j))
      by (intros i Hi; rewrite Xi by exact Hi; ring).
    rewrite Rsum_plus.
    pose proof (ns_u_feasible qr p QR Hkn Hrank Hb r Hr) as F1. fold f n k u in F1.
    pose proof (Q2_null qr p QR Hkn Hrank (vget y) r Hr) as F2. fold f n k m in F2. fold Q x2 in F2.
    replace (Rsum n (fun j => mget (qA p) r j * x2 j)) with 0 by (symmetry; exact F2). rewrite F1. ring. }
  assert (Lx : length x = n) by (rewrite Hx; apply mkvec_length).
  split; [congruence|]. split; [exact FEAS|].
  intros x' Lx' FE' NE. rewrite HN in Lx'.
  set (d := fun i => vget x' i - vget x i).
  assert (AD : forall r, (r < k)%nat -> Rsum n (fun i => mget (qA p) r i * d i) = 0).
  { intros r Hr. specialize (FEAS r ltac:(lia)). specialize (FE' r ltac:(lia)). unfold kkt_eq, Ae in *. rewrite HN in *.
    unfold d. rewrite (Rsum_ext n _ (fun i => mget (qA p) r i * vget x' i - mget (qA p) r i * vget x i)) by (intros; ring).
    rewrite Rsum_minus. lra. }
  set (t := fun c => coord qr p d (k + c)%nat).
  assert (DE : forall i, (i < n)%nat -> d i = Rsum m (fun c => Q i (k + c)%nat * t c))
    by (exact (null_expand qr p QR Hkn Hrank d AD)).
  pose proof (objective_expand p x x') as EXP. cbv zeta in EXP. rewrite HN in EXP.
  change (fun i => vget x' i - vget x i) with d in EXP.
  (* first order term vanishes *)
  assert (FO : Rsum n (fun i => (Rsum n (fun j => Gs p i j * vget x j) + vget (qc p) i) * d i) = 0).
  { rewrite (Rsum_ext n _ (fun i => Rsum m (fun c => (Rsum n (fun j => Gs p i j * vget x j) + vget (qc p) i) * Q i (k + c)%nat * t c)))
      by (intros i Hi; rewrite (DE i Hi), <- Rsum_scal_l; apply Rsum_ext; intros; ring).
    rewrite Rsum_swap. apply Rsum_0. intros c Hcm. rewrite Rsum_scal_r.
    enough (Z : Rsum n (fun i => (Rsum n (fun j => Gs p i j * vget x j) + vget (qc p) i) * Q i (k + c)%nat) = 0) by (rewrite Z; ring).
    assert (GI : forall i, (i < n)%nat -> vget g i = vget (qc p) i + Rsum n (fun j => Gs p i j * vget u j)).
    { intros i Hi. unfold g. rewrite vadd_get by (unfold smvmul; rewrite mkvec_length; lia).
      f_equal. unfold smvmul. rewrite vget_mkvec by lia. cbn [fdot R_ops].
      unfold srow. rewrite HGr. rewrite (Rdot_n n) by (auto using mkvec_length). apply Rsum_ext. intros j Hj.
      rewrite vget_mkvec by exact Hj. reflexivity. }
    rewrite (Rsum_ext n _ (fun i => Q i (k + c)%nat * vget g i + Q i (k + c)%nat * Rsum n (fun j => Gs p i j * x2 j))).
    2: { intros i Hi. rewrite (GI i Hi).
         rewrite (Rsum_ext n (fun j => Gs p i j * vget x j) (fun j => Gs p i j * vget u j + Gs p i j * x2 j))
           by (intros j Hj; rewrite Xi by exact Hj; ring).
         rewrite Rsum_plus. ring. }
    rewrite Rsum_plus.
    specialize (HY c Hcm). unfold y0 in HY. rewrite vget_mkvec in HY by exact Hcm.
    unfold q2col in HY. rewrite Hrank in HY.
    rewrite (Rdot_n n) in HY by (rewrite ?mkvec_length; auto; unfold g, vadd; rewrite map_length, combine_length; unfold smvmul; rewrite mkvec_length; lia).
    rewrite (Rsum_ext n (fun i => vget (mkvec n (fun i => mget (qrQ f) i (k + c))) i * vget g i) (fun i => Q i (k + c)%nat * vget g i)) in HY
      by (intros i Hi; rewrite vget_mkvec by exact Hi; reflexivity).
    assert (EH : Rsum m (fun j => sget (ns_Gred f n (qG p)) c j * vget y j) =
       Rsum n (fun i => Q i (k + c)%nat * Rsum n (fun j => Gs p i j * x2 j))).
    { rewrite (Rsum_ext m _ (fun b => Rsum n (fun i => Rsum n (fun j => Q i (k + c)%nat * Gs p i j * Q j (k + b)%nat * vget y b)))).
      2: { intros b Hbm. pose proof (ns_Gred_sget qr p Hrank c b Hcm Hbm) as GS. fold f n k m in GS. rewrite GS. rewrite <- Rsum_scal_r. apply Rsum_ext. intros i Hi.
           rewrite <- Rsum_scal_r. apply Rsum_ext. intros; reflexivity. }
      rewrite Rsum_swap. apply Rsum_ext. intros i Hi. rewrite Rsum_swap. rewrite <- Rsum_scal_l. apply Rsum_ext. intros j Hj.
      unfold x2. rewrite <- !Rsum_scal_l. apply Rsum_ext. intros; ring. }
    rewrite <- EH, HY. ring. }
  assert (SO : 0 < Rsum n (fun i => Rsum n (fun j => d i * Gs p i j * d j))).
  { rewrite (Rsum_ext n _ (fun i => Rsum n (fun j => Rsum m (fun a => Q i (k + a)%nat * t a) * Gs p i j * Rsum m (fun b => Q j (k + b)%nat * t b))))
      by (intros i Hi; apply Rsum_ext; intros j Hj; rewrite (DE i Hi), (DE j Hj); reflexivity).
    pose proof (red_form qr p Hrank t t) as RF. fold f n k m in RF. unfold Q. rewrite <- RF. apply PD.
    (* some coordinate is non-zero, otherwise x' = x *)
    destruct (List.Exists_dec (fun c => t c <> 0) (seq 0 m) (fun c => match Req_EM_T (t c) 0 with left e => right (fun h => h e) | right h => left h end)) as [EX|NX].
    - apply Exists_exists in EX. destruct EX as [c [Hin Hne]]. apply in_seq in Hin. exists c. split; [lia|exact Hne].
    - exfalso. apply NE. apply (vget_ext R R_ops); [congruence|]. intros i Hi.
      assert (D0 : d i = 0).
      { rewrite DE by lia. apply Rsum_0. intros c Hcm.
        destruct (Req_EM_T (t c) 0) as [E|E]; [rewrite E; ring|].
        exfalso. apply NX. apply Exists_exists. exists c. split; [apply in_seq; lia|exact E]. }
      unfold d in D0. lra. }
  unfold d in FO, SO. cbv beta in EXP. unfold d in EXP. rewrite FO in EXP. lra.
Qed.

(** ** C21 *)

(** A non-zero direction that keeps the equality constraints and along which the objective does not
    curve upwards. *)
Definition bad_direction (p : QP R) (d : nat -> R) : Prop :=
  (exists i, (i < nv p)%nat /\ d i <> 0) /\
  (forall k, (k < neq p)%nat -> Rsum (nv p) (fun j => Ae p k j * d j) = 0) /\
  Rsum (nv p) (fun i => Rsum (nv p) (fun j => d i * Gs p i j * d j)) <= 0.

(** C21: whenever the solver returns, it returns SUCCESS exactly for problems that are strictly convex on
    the null space of the constraints, and NOT_POSITIVE_DEFINITE exactly for the others, leaving the
    variables alone. *)
Theorem C21_termination_states : forall qr llt (p : QP R) x_old t x,
  qr_ok (qA p) (qr (qA p)) -> llt_ok llt (ns_Gred (qr (qA p)) (mcols (qA p)) (qG p)) ->
  NS_Solve qr llt p x_old = Ok (t, x) ->
  (t = NS_SUCCESS -> ~ exists d, bad_direction p d) /\
  (t = NOT_POSITIVE_DEFINITE -> x = x_old /\ exists d, bad_direction p d).
Proof.
  intros qr llt p x_old t x QR LLT H.
  apply NS_Solve_inv in H. destruct H as (Hk0 & Hb & HGr & HGc & Hc & Hkn & Hrank & H). cbn zeta in H.
  set (f := qr (qA p)) in *. set (n := mcols (qA p)) in *. set (k := mrows (qA p)) in *.
  set (m := (n - k)%nat) in *.
  assert (HN : nv p = n) by exact Hc. assert (HK : neq p = k) by exact Hb.
  specialize (LLT m). unfold ns_Gred in LLT at 1 2. rewrite mkmat_rows, mkmat_cols in LLT.
  rewrite Hrank in LLT. specialize (LLT eq_refl eq_refl).
  set (Q := fun i a => mget (qrQ f) i a).
  destruct (llt (ns_Gred f n (qG p))) as [solve|].
  - destruct H as [-> _]. split; [|discriminate]. intros _ [d (NZ & AD & CURV)].
    destruct LLT as [PD _]. unfold Ae in AD. rewrite HN, HK in *.
    set (tt := fun c => coord qr p d (k + c)%nat).
    assert (DE : forall i, (i < n)%nat -> d i = Rsum m (fun c => Q i (k + c)%nat * tt c))
      by (exact (null_expand qr p QR Hkn Hrank d AD)).
    assert (0 < Rsum m (fun i => Rsum m (fun j => tt i * sget (ns_Gred f n (qG p)) i j * tt j))).
    { apply PD. destruct NZ as [i [Hi Hne]].
      destruct (List.Exists_dec (fun c => tt c <> 0) (seq 0 m) (fun c => match Req_EM_T (tt c) 0 with left e => right (fun h => h e) | right h => left h end)) as [EX|NX].
      - apply Exists_exists in EX. destruct EX as [c [Hin Hn]]. apply in_seq in Hin. exists c. split; [lia|exact Hn].
      - exfalso. apply Hne. rewrite DE by exact Hi. apply Rsum_0. intros c Hcm.
        destruct (Req_EM_T (tt c) 0) as [E|E]; [rewrite E; ring|].
        exfalso. apply NX. apply Exists_exists. exists c. split; [apply in_seq; lia|exact E]. }
    pose proof (red_form qr p Hrank tt tt) as RF. fold f n k m in RF. rewrite RF in H.
    rewrite (Rsum_ext n _ (fun i => Rsum n (fun j => d i * Gs p i j * d j))) in H.
    + lra.
    + intros i Hi. apply Rsum_ext. intros j Hj. rewrite (DE i Hi), (DE j Hj). reflexivity.
  - destruct H as [-> ->]. split; [discriminate|]. intros _. split; [reflexivity|]. apply NNPP. intro NB. apply LLT.
    intros tv [c [Hcm Hne]].
    set (d := fun i => Rsum m (fun a => Q i (k + a)%nat * tv a)).
    pose proof (red_form qr p Hrank tv tv) as RF. fold f n k m in RF. rewrite RF.
    destruct (Rlt_le_dec 0 (Rsum n (fun i => Rsum n (fun j => d i * Gs p i j * d j)))) as [HP|HP]; [exact HP|].
    exfalso. apply NB. exists d. unfold bad_direction. splits.
    + (* Q2 has independent columns *)
      destruct (List.Exists_dec (fun i => d i <> 0) (seq 0 n) (fun i => match Req_EM_T (d i) 0 with left e => right (fun h => h e) | right h => left h end)) as [EX|NX].
      * apply Exists_exists in EX. destruct EX as [i [Hin Hn]]. apply in_seq in Hin. exists i. split; [rewrite HN; lia|exact Hn].
      * exfalso. apply Hne.
        assert (D0 : forall i, (i < n)%nat -> d i = 0).
        { intros i Hi. destruct (Req_EM_T (d i) 0) as [E|E]; [exact E|].
          exfalso. apply NX. apply Exists_exists. exists i. split; [apply in_seq; lia|exact E]. }
        assert (E : Rsum n (fun i => Q i (k + c)%nat * d i) = tv c).
        { unfold d. rewrite (Rsum_ext n _ (fun i => Rsum m (fun a => Q i (k + c)%nat * Q i (k + a)%nat * tv a)))
            by (intros; rewrite <- Rsum_scal_l; apply Rsum_ext; intros; ring).
          rewrite Rsum_swap.
          rewrite (Rsum_ext m _ (fun a => tv a * kd a c)); [apply (Rsum_kd m tv c Hcm)|].
          intros a Ha. rewrite Rsum_scal_r.
          replace (Rsum n (fun i => Q i (k + c)%nat * Q i (k + a)%nat)) with (kd (k + c) (k + a))
            by (symmetry; apply (qr_orth_cols _ _ QR); fold n; lia).
          unfold kd. destruct (Nat.eqb_spec (k + c) (k + a)); destruct (Nat.eqb_spec a c); try lia; ring. }
        rewrite <- E. apply Rsum_0. intros i Hi. rewrite D0 by exact Hi. ring.
    + intros r Hr. rewrite HK in Hr. rewrite HN. unfold d, Q. apply (Q2_null qr p QR Hkn Hrank tv r Hr).
    + rewrite HN. exact HP.
Qed.

(** C21: exceptions, for every arithmetic. *)
Theorem C21_no_equality_constraints_throws : forall (F : Type) (O : Ops F) qr llt (p : QP F) x_old,
  mrows (qA p) = 0%nat -> exists w, NS_Solve qr llt p x_old = Throw (AssertFailed w).
Proof. intros F O qr llt p x_old H. unfold NS_Solve. rewrite H. cbn. eauto. Qed.

(** C21: the stored variables change only on SUCCESS, and do not depend on their previous value;
    every arithmetic. *)
Theorem C21_failure_keeps_variables : forall (F : Type) (O : Ops F) qr llt (p : QP F) x_old t x,
  NS_Solve qr llt p x_old = Ok (t, x) ->
  (t = NOT_POSITIVE_DEFINITE -> x = x_old) /\
  (t = NS_SUCCESS -> forall x_old', NS_Solve qr llt p x_old' = Ok (t, x)).
Proof.
  intros F O qr llt p x_old t x H. unfold NS_Solve in *.
  inv_bind H. inv_bind H. inv_bind H. inv_bind H. inv_bind H.
  destruct (llt _) as [solve|]; apply Ok_inj in H; apply pair_inj in H; destruct H as [<- <-].
  - split; [discriminate|]. intros _ x_old'. rewrite Hm, Hm0, Hm1, Hm2, Hm3. reflexivity.
  - split; [reflexivity|discriminate].
Qed.

(** C21 finding: linearly dependent constraint rows (even consistent ones) are never handled: the call
    is undefined (a matrix product with mismatched dimensions) whatever the QR decomposition, and it is
    not reported through the termination state. *)
Theorem C21_dependent_rows_undefined : forall qr llt (p : QP R) x_old (w : nat -> R),
  qr_ok (qA p) (qr (qA p)) ->
  (0 < mrows (qA p))%nat -> length (qb p) = mrows (qA p) ->
  (exists r, (r < mrows (qA p))%nat /\ w r <> 0) ->
  (forall j, (j < mcols (qA p))%nat -> Rsum (mrows (qA p)) (fun r => w r * mget (qA p) r j) = 0) ->
  exists why, NS_Solve qr llt p x_old = UB why.
Proof.
  intros qr llt p x_old w QR Hk Hb [r0 [Hr0 Hne]] DEP.
  destruct (NS_Solve qr llt p x_old) as [[t x]|e|why] eqn:E; [exfalso|exfalso|eauto].
  - apply NS_Solve_inv in E. destruct E as (_ & _ & _ & _ & _ & Hkn & Hrank & _).
    set (A := qA p) in *. set (f := qr A) in *. set (n := mcols A) in *. set (k := mrows A) in *.
    (* sum over r of w r * A r is the same as over sigma j; use the onto/injective index map *)
    set (v := fun j => w (nth j (qrPerm f) 0%nat)).
    assert (PERM : forall g : nat -> R, Rsum k g = Rsum k (fun j => g (nth j (qrPerm f) 0%nat))).
    { intro g.
      assert (P : Permutation.Permutation (qrPerm f) (seq 0 k)).
      { symmetry. apply Permutation.NoDup_Permutation_bis.
        - apply seq_NoDup.
        - rewrite (qr_perm_len _ _ QR), seq_length. fold k. lia.
        - intros r Hr. apply in_seq in Hr. destruct (qr_perm_onto _ _ QR r ltac:(fold k; lia)) as [j [Hj <-]].
          apply nth_In. rewrite (qr_perm_len _ _ QR). exact Hj. }
      assert (S1 : forall l l', Permutation.Permutation l l' -> Rlsum (map g l) = Rlsum (map g l')).
      { intros l l' PP. induction PP; simpl; lra. }
      pose proof (S1 _ _ P) as S2. rewrite !Rlsum_Rsum, !map_length, seq_length, (qr_perm_len _ _ QR) in S2. fold k in S2.
      rewrite (Rsum_ext k (fun i => vget (map g (seq 0 k)) i) g) in S2.
      2: { intros i Hi. unfold vget. rewrite nth_indep with (d' := g 0%nat) by (rewrite map_length, seq_length; exact Hi).
           rewrite map_nth, seq_nth by exact Hi. reflexivity. }
      rewrite <- S2. apply Rsum_ext. intros i Hi. unfold vget.
      rewrite nth_indep with (d' := g 0%nat) by (rewrite map_length, (qr_perm_len _ _ QR); exact Hi).
      rewrite map_nth. reflexivity. }
    assert (V0 : forall j, (j < k)%nat -> v j = 0).
    { apply (upper_unique k (fun a j => mget (qrR f) a j)).
      - intros j Hj. apply (qr_pivots _ _ QR). fold f. rewrite Hrank. exact Hj.
      - intros i j Hji Hi. apply (qr_upper _ _ QR); fold n k; lia.
      - intros a Ha.
        rewrite (Rsum_ext k _ (fun j => Rsum n (fun i => w (nth j (qrPerm f) 0%nat) * mget A (nth j (qrPerm f) 0%nat) i * mget (qrQ f) i a))).
        + rewrite Rsum_swap. apply Rsum_0. intros i Hi. rewrite Rsum_scal_r.
          rewrite <- (PERM (fun r => w r * mget A r i)). rewrite (DEP i Hi). ring.
        + intros j Hj. pose proof (A_Q qr p QR j a Hj ltac:(fold A n; lia)) as AQ. fold A f n in AQ. rewrite <- AQ.
          rewrite <- Rsum_scal_r. apply Rsum_ext. intros i Hi. unfold v. ring. }
    destruct (qr_perm_onto _ _ QR r0 Hr0) as [j [Hj Ej]]. fold k in Hj. specialize (V0 j Hj). unfold v in V0. fold f in Ej.
    rewrite Ej in V0. contradiction.
  - unfold NS_Solve in E. cbn zeta in E. rewrite Hb, Nat.eqb_refl in E.
    destruct (Nat.ltb_spec 0 (mrows (qA p))); [|lia]. cbn [f_assert bind] in E.
    unfold ub_unless in E.
    repeat match type of E with context [if ?b then _ else _] => destruct b; cbn [bind] in E; try discriminate E end.
    all: destruct (llt _); discriminate E.
Qed.

(** ** The hypotheses are met by a concrete problem *)

(** minimise 1/2 (2 x0^2 + 5 x1^2) + x0 - 10 x1 subject to x0 - 3 = 0. *)
Definition ns_ex : QP R := {|
  qG := Mat 2 2 [[2; 0]; [0; 5]]; qc := [1; -10];
  qA := Mat 1 2 [[1; 0]]; qb := [-3]; qcons := [] |}.
Definition ns_ex_qr (_ : mat R) : QRResult R := {|
  qrQ := Mat 2 2 [[1; 0]; [0; 1]]; qrR := Mat 2 1 [[1]; [0]]; qrPerm := [0%nat]; qrRank := 1 |}.
Definition ns_ex_llt (H : mat R) : option (list R -> list R) :=
  if Rlt_dec 0 (mget H 0 0) then Some (fun b => [vget b 0 / mget H 0 0]) else None.

Lemma ns_ex_qr_ok : qr_ok (qA ns_ex) (ns_ex_qr (qA ns_ex)).
Proof.
  constructor; simpl.
  - intros a b Ha Hb. destruct a as [|[|a]]; try lia; destruct b as [|[|b]]; try lia; unfold mget, kd; simpl; lra.
  - intros a b Ha Hb. destruct a as [|[|a]]; try lia; destruct b as [|[|b]]; try lia; unfold mget, kd; simpl; lra.
  - intros i j Hi Hji Hj. destruct j as [|j]; try lia. destruct i as [|[|i]]; try lia. reflexivity.
  - reflexivity.
  - intros j Hj. destruct j; simpl; lia.
  - intros r Hr. exists 0%nat. split; [lia|]. simpl. lia.
  - intros j i Hj Hi. destruct j as [|j]; try lia. destruct i as [|[|i]]; try lia; unfold mget; simpl; lra.
  - lia.
  - intros j Hj. destruct j as [|j]; try lia. unfold mget; simpl. lra.
Qed.

Lemma ns_ex_llt_ok : forall H, mrows H = 1%nat -> llt_ok ns_ex_llt H.
Proof.
  intros H H1 m E E'. assert (m = 1%nat) by lia. subst m. unfold ns_ex_llt.
  destruct (Rlt_dec 0 (mget H 0 0)) as [HP|HP].
  - split.
    + intros t [i [Hi Hne]]. assert (i = 0%nat) by lia. subst i. rewrite H0. simpl. unfold sget; simpl.
      assert (0 < t 0%nat * t 0%nat) by nra. nra.
    + intros b Lb. split; [rewrite H0; reflexivity|]. intros i Hi. rewrite H0 in *. assert (i = 0%nat) by lia. subst i.
      simpl. unfold sget; simpl. unfold vget at 1. simpl. field. lra.
  - rewrite H0. intro PD. apply HP. specialize (PD (fun _ => 1)). simpl in PD. unfold sget in PD; simpl in PD.
    specialize (PD ltac:(exists 0%nat; split; [lia|lra])). lra.
Qed.

Example ns_ex_solves : NS_Solve ns_ex_qr ns_ex_llt ns_ex [] = Ok (NS_SUCCESS, [3; 2]).
Proof.
  unfold NS_Solve. cbn [qA qb qG qc ns_ex mrows mcols List.length Nat.ltb Nat.leb Nat.eqb f_assert ub_unless bind andb qrRank ns_ex_qr].
  unfold ns_ex_llt. destruct (Rlt_dec _ _) as [HP|HP].
  - apply f_equal. apply f_equal. unfold mkvec, ns_u, mkvec, q2col, mkvec, smvmul, srow, mkvec, sget, mget, vget, vadd; simpl.
    unfold mkvec, sget, mget, vget; simpl. unfold mget, vget; simpl.
    f_equal; [field; lra|]. f_equal. field.
  - exfalso. apply HP. unfold ns_Gred, mkmat, mkvec, q2col, mkvec, sget, mget; simpl. unfold mkvec, mget; simpl. lra.
Qed.

(** Hence (3, 2) is the minimiser. *)
Example C20_example : forall x', length x' = 2%nat -> eq_feasible ns_ex x' -> x' <> [3; 2] ->
  objective ns_ex [3; 2] < objective ns_ex x'.
Proof.
  apply (C20_null_space_minimiser ns_ex_qr ns_ex_llt ns_ex [] [3; 2]).
  - exact ns_ex_qr_ok.
  - apply ns_ex_llt_ok. reflexivity.
  - exact ns_ex_solves.
Qed.

(** With G = diag(2, -5) the same solver reports NOT_POSITIVE_DEFINITE and (0,1) is a direction of
    negative curvature. *)
Definition ns_ex_bad : QP R := {|
  qG := Mat 2 2 [[2; 0]; [0; -5]]; qc := [1; -10];
  qA := Mat 1 2 [[1; 0]]; qb := [-3]; qcons := [] |}.
Example ns_ex_bad_reports : NS_Solve ns_ex_qr ns_ex_llt ns_ex_bad [7; 7] = Ok (NOT_POSITIVE_DEFINITE, [7; 7]).
Proof.
  unfold NS_Solve. cbn [qA qb qG qc ns_ex_bad mrows mcols List.length Nat.ltb Nat.leb Nat.eqb f_assert ub_unless bind andb qrRank ns_ex_qr].
  unfold ns_ex_llt. destruct (Rlt_dec _ _) as [HP|HP]; [exfalso|reflexivity].
  revert HP. unfold ns_Gred, mkmat, mkvec, q2col, mkvec, sget, mget; simpl. unfold mkvec, mget; simpl. lra.
Qed.
