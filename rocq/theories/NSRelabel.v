(** C79, first part: the null space solver does not depend on the numbering of the variables and of the equality
    constraints, nor on which exact factorisations it uses. *)
From Coq Require Import String List Bool Arith ZArith QArith Reals Lra Lia Permutation.
From Verif Require Import Scalar Outcome LinAlg Structs Constraint QPModel NullSpace RInst Spec
  Props_Constraint QPBlocks QPAlgebra QPNewton QPAlpha QPStep QPTrace QPInit QPSolve QPPerm QPRelabel NSProps.
Import ListNotations.
Local Open Scope outcome_scope.
Local Open Scope string_scope.
Local Open Scope list_scope.
Local Open Scope R_scope.

(** ** Specification *)

(** The rows of [A] are linearly independent. *)
Definition rows_independent (A : mat R) : Prop := forall w : nat -> R,
  (forall j, (j < mcols A)%nat -> Rsum (mrows A) (fun r => w r * mget A r j) = 0) -> forall r, (r < mrows A)%nat -> w r = 0.

(** The rank reported by the QR factorisation is the number of rows if these are independent. *)
Definition rank_exact (A : mat R) (f : QRResult R) : Prop := rows_independent A -> qrRank f = mrows A.

(** ** Proof *)

(** The same outcome up to [Q]; if [MIS] is allowed, one of the two runs may end without a result. *)
Definition not_ok {A} (o : outcome A) : Prop := match o with Ok _ => False | _ => True end.
Definition orelN (MIS : Prop) {A B} (Q : A -> B -> Prop) (o : outcome A) (o' : outcome B) : Prop :=
  match o, o' with
  | Ok a, Ok b => Q a b
  | Throw e, Throw e' => e = e'
  | UB m, UB m' => m = m'
  | _, _ => False
  end \/ (MIS /\ (not_ok o \/ not_ok o')).

Lemma orelN_ok : forall MIS A B (Q : A -> B -> Prop) a b, Q a b -> orelN MIS Q (Ok a) (Ok b).
Proof. intros. left. assumption. Qed.

Lemma orelN_bind : forall MIS A B A' B' (Q : A -> A' -> Prop) (Q' : B -> B' -> Prop) o o' k k',
  orelN MIS Q o o' -> (forall a a', Q a a' -> orelN MIS Q' (k a) (k' a')) -> orelN MIS Q' (bind o k) (bind o' k').
Proof.
  intros MIS A B A' B' Q Q' o o' k k' [H|[M H]] K.
  - destruct o as [a|e|m]; destruct o' as [a'|e'|m']; try contradiction; cbn [bind].
    + apply K. exact H.
    + left. exact H.
    + left. exact H.
  - right. split; [exact M|]. destruct o as [a|e|m]; destruct o' as [a'|e'|m']; cbn [bind not_ok] in *; tauto.
Qed.

Lemma orelN_of_F : forall (MIS : Prop) A B (Q : A -> B -> Prop) o o', orelF MIS Q o o' -> orelN MIS Q o o'.
Proof. intros MIS A B Q o o' [H|[M [-> | ->]]]; [left; exact H|right|right]; (split; [exact M|]); cbn; auto. Qed.

Lemma orelN_impl : forall MIS A B (Q Q' : A -> B -> Prop) o o', (forall a b, Q a b -> Q' a b) -> orelN MIS Q o o' -> orelN MIS Q' o o'.
Proof. intros MIS A B Q Q' [a|e|m] [a'|e'|m'] K [H|H]; try contradiction; try (right; exact H); left; auto. Qed.

Lemma orelN_same : forall MIS A (o : outcome A), orelN MIS eq o o.
Proof. intros MIS A [a|e|m]; left; reflexivity. Qed.

Section Pair.
  Variables p p' : QP R.
  Variables sg tau : nat -> nat.
  Hypothesis RN : renumbered sg tau p p'.
  Let RX := rn_sg _ _ _ _ RN.
  Let RY := rn_tau _ _ _ _ RN.

  Lemma qform_relR : forall x x', (forall i, (i < nv p)%nat -> vget x' i = vget x (sg i)) -> qform p' x' = qform p x.
  Proof.
    intros x x' X. unfold qform. rewrite (rn_nv _ _ _ _ RN). apply (picks_sum (nv p) sg _ _ RX). intros i Hi.
    apply (picks_sum (nv p) sg _ _ RX). intros j Hj. rewrite (X i Hi), (X j Hj), (rn_G _ _ _ _ RN i j Hi Hj). reflexivity.
  Qed.

  Lemma linear_relR : forall x x', (forall i, (i < nv p)%nat -> vget x' i = vget x (sg i)) ->
    Rsum (nv p') (fun i => vget (qc p') i * vget x' i) = Rsum (nv p) (fun i => vget (qc p) i * vget x i).
  Proof.
    intros x x' X. rewrite (rn_nv _ _ _ _ RN). apply (picks_sum (nv p) sg _ _ RX). intros i Hi.
    rewrite (X i Hi), (rn_c _ _ _ _ RN i Hi). reflexivity.
  Qed.

  Lemma objective_relR : forall x x', picks (nv p) sg x x' -> objective p' x' = objective p x.
  Proof. intros x x' (_ & _ & X). unfold objective. rewrite (qform_relR x x' X), (linear_relR x x' X). reflexivity. Qed.

  Lemma kkt_eq_relR : forall x x' k, picks (nv p) sg x x' -> (k < neq p)%nat -> kkt_eq p' x' k = kkt_eq p x (tau k).
  Proof.
    intros x x' k (_ & _ & X) Hk. unfold kkt_eq. rewrite (rn_nv _ _ _ _ RN), (rn_b _ _ _ _ RN k Hk). f_equal.
    apply (picks_sum (nv p) sg _ _ RX). intros j Hj. rewrite (rn_A _ _ _ _ RN k j Hk Hj), (X j Hj). reflexivity.
  Qed.

  Lemma feasible_relR : forall x x', picks (nv p) sg x x' -> (eq_feasible p' x' <-> eq_feasible p x).
  Proof.
    intros x x' X. destruct (renumbering_inverse _ _ RY) as (g & [BG _] & FG & _). split; intros F k Hk.
    - rewrite <- (FG k Hk), <- (kkt_eq_relR x x' (g k) X (BG k Hk)). apply F. rewrite (rn_neq _ _ _ _ RN). apply BG. exact Hk.
    - rewrite (rn_neq _ _ _ _ RN) in Hk. rewrite (kkt_eq_relR x x' k X Hk). apply F. apply RY. exact Hk.
  Qed.

  Lemma bad_relR : (exists d, bad_direction p d) <-> (exists d, bad_direction p' d).
  Proof.
    destruct (renumbering_inverse _ _ RX) as (gx & [BX _] & FX & GX). destruct (renumbering_inverse _ _ RY) as (gy & [BY _] & FY & _).
    assert (K : forall d d' : nat -> R, (forall i, (i < nv p)%nat -> d' i = d (sg i)) ->
      (bad_direction p d <-> bad_direction p' d')).
    { intros d d' D. unfold bad_direction. rewrite (rn_nv _ _ _ _ RN), (rn_neq _ _ _ _ RN).
      assert (A : forall k, (k < neq p)%nat -> Rsum (nv p) (fun j => Ae p' k j * d' j) = Rsum (nv p) (fun j => Ae p (tau k) j * d j)).
      { intros k Hk. apply (picks_sum (nv p) sg _ _ RX). intros j Hj. rewrite (D j Hj), (rn_A _ _ _ _ RN k j Hk Hj). reflexivity. }
      assert (B : Rsum (nv p) (fun i => Rsum (nv p) (fun j => d' i * Gs p' i j * d' j)) =
                  Rsum (nv p) (fun i => Rsum (nv p) (fun j => d i * Gs p i j * d j))).
      { apply (picks_sum (nv p) sg _ _ RX). intros i Hi. apply (picks_sum (nv p) sg _ _ RX). intros j Hj.
        rewrite (D i Hi), (D j Hj), (rn_G _ _ _ _ RN i j Hi Hj). reflexivity. }
      rewrite B. split; intros ((i & Hi & NZ) & N & C); splits; auto.
      - exists (gx i). split; [apply BX; exact Hi|]. rewrite D by (apply BX; exact Hi). rewrite FX by exact Hi. exact NZ.
      - intros k Hk. rewrite (A k Hk). apply N. apply RY. exact Hk.
      - exists (sg i). split; [apply RX; exact Hi|]. rewrite <- D by exact Hi. exact NZ.
      - intros k Hk. rewrite <- (FY k Hk), <- A by (apply BY; exact Hk). apply N. apply BY. exact Hk. }
    split; intros [d Hd].
    - exists (fun i => d (sg i)). apply (K d). { intros; reflexivity. } exact Hd.
    - exists (fun i => d (gx i)). apply (K (fun i => d (gx i)) d). { intros i Hi. rewrite GX by exact Hi. reflexivity. } exact Hd.
  Qed.

  Lemma independent_relR : mrows (qA p) = neq p -> mrows (qA p') = neq p -> mcols (qA p) = nv p -> mcols (qA p') = nv p ->
    (rows_independent (qA p) <-> rows_independent (qA p')).
  Proof.
    intros R1 R2 C1 C2. unfold rows_independent. rewrite R1, R2, C1, C2.
    destruct (renumbering_inverse _ _ RX) as (gx & [BX _] & FX & GX). destruct (renumbering_inverse _ _ RY) as (gy & [BY _] & FY & GY).
    assert (S : forall (w : nat -> R) j, (j < nv p)%nat ->
      Rsum (neq p) (fun r => w (tau r) * mget (qA p') r j) = Rsum (neq p) (fun r => w r * mget (qA p) r (sg j))).
    { intros w j Hj. apply (picks_sum (neq p) tau _ _ RY). intros r Hr.
      pose proof (rn_A _ _ _ _ RN r j Hr Hj) as E. unfold Ae in E. rewrite E. reflexivity. }
    split; intros I w H r Hr.
    - rewrite <- (GY r Hr). apply (I (fun k => w (gy k))); [|apply RY; exact Hr].
      intros j Hj. rewrite <- (FX j Hj), <- (S (fun k => w (gy k)) (gx j) (BX j Hj)).
      rewrite <- (H (gx j) (BX j Hj)). apply Rsum_ext. intros k Hk. rewrite (GY k Hk). reflexivity.
    - rewrite <- (FY r Hr). apply (I (fun k => w (tau k))); [|apply BY; exact Hr].
      intros j Hj. rewrite S by exact Hj. apply H. apply RX. exact Hj.
  Qed.

  Variables qr qr' : mat R -> QRResult R.
  Variables llt llt' : mat R -> option (list R -> list R).
  Hypothesis QR : qr_ok (qA p) (qr (qA p)).
  Hypothesis QR' : qr_ok (qA p') (qr' (qA p')).
  Hypothesis LT : llt_ok llt (ns_Gred (qr (qA p)) (mcols (qA p)) (qG p)).
  Hypothesis LT' : llt_ok llt' (ns_Gred (qr' (qA p')) (mcols (qA p')) (qG p')).

  Lemma ns_both : forall x0 x0' t x t' x', picks (nv p) sg x0 x0' ->
    NS_Solve qr llt p x0 = Ok (t, x) -> NS_Solve qr' llt' p' x0' = Ok (t', x') ->
    t' = t /\ picks (nv p) sg x x'.
  Proof.
    intros x0 x0' t x t' x' X0 E E'.
    destruct (C21_termination_states _ _ _ _ _ _ QR LT E) as [S1 N1].
    destruct (C21_termination_states _ _ _ _ _ _ QR' LT' E') as [S2 N2].
    destruct t; destruct t'.
    - split; [reflexivity|].
      destruct (C20_null_space_minimiser _ _ _ _ _ QR LT E) as (L & F & M).
      destruct (C20_null_space_minimiser _ _ _ _ _ QR' LT' E') as (L' & F' & M').
      rewrite (rn_nv _ _ _ _ RN) in L', M'.
      destruct (renumbering_inverse _ _ RX) as (gx & [BX _] & FX & GX).
      set (y' := mkvec (nv p) (fun i => vget x (sg i))).
      set (y := mkvec (nv p) (fun i => vget x' (gx i))).
      assert (P1 : picks (nv p) sg x y').
      { apply picks_intro; [exact L|apply mkvec_length|]. intros i Hi. unfold y'. rewrite (vget_mkvec R R_ops) by exact Hi. reflexivity. }
      assert (P2 : picks (nv p) sg y x').
      { apply picks_intro; [apply mkvec_length|exact L'|]. intros i Hi. unfold y. rewrite (vget_mkvec R R_ops) by (apply RX; exact Hi).
        rewrite GX by exact Hi. reflexivity. }
      destruct (list_eq_dec Req_EM_T y' x') as [EY|NY]; [rewrite <- EY; exact P1|exfalso].
      pose proof (M' y' (proj1 (proj2 P1)) (proj2 (feasible_relR _ _ P1) F) NY) as B.
      rewrite (objective_relR _ _ P1), (objective_relR _ _ P2) in B.
      destruct (list_eq_dec Req_EM_T y x) as [EY|NY2]; [rewrite EY in B; lra|].
      pose proof (M y (proj1 P2) (proj1 (feasible_relR _ _ P2) F') NY2). lra.
    - exfalso. apply (S1 eq_refl). apply bad_relR. apply (N2 eq_refl).
    - exfalso. apply (S2 eq_refl). apply bad_relR. apply (N1 eq_refl).
    - split; [reflexivity|]. rewrite (proj1 (N1 eq_refl)), (proj1 (N2 eq_refl)). exact X0.
  Qed.

  Variable MIS : Prop.
  Hypothesis HM : (rank_exact (qA p) (qr (qA p)) /\ rank_exact (qA p') (qr' (qA p'))) \/ MIS.

  Lemma ns_relR : mrows (qG p) = nv p -> mcols (qG p) = nv p -> mrows (qA p) = neq p -> mcols (qA p) = nv p ->
    mrows (qG p') = nv p -> mcols (qG p') = nv p -> mrows (qA p') = neq p -> mcols (qA p') = nv p ->
    forall x0 x0', picks (nv p) sg x0 x0' ->
    orelN MIS (fun a a' => fst a' = fst a /\ picks (nv p) sg (snd a) (snd a'))
      (NS_Solve qr llt p x0) (NS_Solve qr' llt' p' x0').
  Proof.
    intros G1 G2 A1 A2 G1' G2' A1' A2' x0 x0' X0.
    assert (BOTH := ns_both x0 x0').
    assert (LB : length (qb p') = neq p) by (apply (rn_neq _ _ _ _ RN)).
    assert (LC : length (qc p') = nv p) by (apply (rn_nv _ _ _ _ RN)).
    pose proof (independent_relR A1 A1' A2 A2') as IND.
    assert (DEP : forall qr0 llt0 q x y, qr_ok (qA q) (qr0 (qA q)) -> NS_Solve qr0 llt0 q x = Ok y ->
      rows_independent (qA q)).
    { intros qr0 llt0 q x [t y] Q0 E w H r Hr. destruct (Req_EM_T (w r) 0) as [Z|Z]; [exact Z|exfalso].
      destruct (NS_Solve_inv _ _ _ _ _ _ E) as (K0 & B0 & _).
      destruct (C21_dependent_rows_undefined qr0 llt0 q x w Q0 K0 B0 (ex_intro _ r (conj Hr Z)) H) as [why U]. congruence. }
    assert (NF : forall qr0 llt0 (q : QP R) x0, mrows (qG q) = nv q -> mcols (qG q) = nv q -> mrows (qA q) = neq q -> mcols (qA q) = nv q ->
      NS_Solve qr0 llt0 q x0 =
        if (0 <? neq q)%nat then
          if (neq q <=? nv q)%nat then
            if (qrRank (qr0 (qA q)) =? neq q)%nat then NS_Solve qr0 llt0 q x0
            else UB "Q1 * (R_upper^T)^-1 ...: inner dimensions rank(A_eq) <> K"
          else UB "R.topRows(K) with K > R.rows()"
        else Throw (AssertFailed "Problem must have at least one equality constraint")).
    { intros qr0 llt0 q x H1 H2 H3 H4. unfold NS_Solve. rewrite H1, H2, H3, H4. unfold neq, nv. rewrite !Nat.eqb_refl.
      destruct (0 <? length (qb q))%nat; cbn [f_assert ub_unless bind andb]; [|reflexivity].
      destruct (length (qb q) <=? length (qc q))%nat; cbn [f_assert ub_unless bind andb]; [|reflexivity].
      destruct (qrRank (qr0 (qA q)) =? length (qb q))%nat; reflexivity. }
    assert (TOT : forall qr0 llt0 (q : QP R) x0, mrows (qG q) = nv q -> mcols (qG q) = nv q -> mrows (qA q) = neq q -> mcols (qA q) = nv q ->
      (0 < neq q)%nat -> (neq q <= nv q)%nat -> qrRank (qr0 (qA q)) = neq q -> exists y, NS_Solve qr0 llt0 q x0 = Ok y).
    { intros qr0 llt0 q x H1 H2 H3 H4 P1 P2 P3. unfold NS_Solve. rewrite H1, H2, H3, H4, P3. unfold neq, nv in *. rewrite !Nat.eqb_refl.
      replace (0 <? length (qb q))%nat with true by (symmetry; apply Nat.ltb_lt; exact P1).
      replace (length (qb q) <=? length (qc q))%nat with true by (symmetry; apply Nat.leb_le; exact P2).
      cbn [f_assert ub_unless bind andb]. destruct (llt0 _); eauto. }
    pose proof (NF qr llt p x0 G1 G2 A1 A2) as F1.
    assert (N' : nv p' = nv p) by exact LC. assert (K' : neq p' = neq p) by exact LB.
    pose proof (NF qr' llt' p' x0' ltac:(congruence) ltac:(congruence) ltac:(congruence) ltac:(congruence)) as F2. rewrite N', K' in F2.
    clear NF.
    destruct (Nat.ltb_spec 0 (neq p)) as [P0|P0]; [|left; rewrite F1, F2; reflexivity].
    destruct (Nat.leb_spec (neq p) (nv p)) as [P1|P1]; [|left; rewrite F1, F2; reflexivity].
    destruct (Nat.eqb_spec (qrRank (qr (qA p))) (neq p)) as [P2|P2]; destruct (Nat.eqb_spec (qrRank (qr' (qA p'))) (neq p)) as [P3|P3].
    - destruct (TOT qr llt p x0 G1 G2 A1 A2 P0 P1 P2) as [[t x] E].
      destruct (TOT qr' llt' p' x0' ltac:(congruence) ltac:(congruence) ltac:(congruence) ltac:(congruence) ltac:(lia) ltac:(lia) ltac:(congruence))
        as [[t' x'] E'].
      rewrite E, E'. apply orelN_ok. apply (BOTH t x t' x' X0 E E').
    - destruct HM as [[_ RE]|M].
      + exfalso. apply P3. rewrite RE; [exact A1'|]. apply IND.
        destruct (TOT qr llt p x0 G1 G2 A1 A2 P0 P1 P2) as [y E]. apply (DEP _ _ _ _ _ QR E).
      + right. split; [exact M|]. right. rewrite F2. exact I.
    - destruct HM as [[RE _]|M].
      + exfalso. apply P2. rewrite RE; [exact A1|]. apply IND.
        destruct (TOT qr' llt' p' x0' ltac:(congruence) ltac:(congruence) ltac:(congruence) ltac:(congruence) ltac:(lia) ltac:(lia) ltac:(congruence)) as [y E].
        apply (DEP _ _ _ _ _ QR' E).
      + right. split; [exact M|]. left. rewrite F1. exact I.
    - left. rewrite F1, F2. reflexivity.
  Qed.
End Pair.

(** ** Theorems *)

(** C79: two null space Solves of problems that differ only in the numbering of variables and equality constraints, with
    any factorisations that are exact, return the same termination state and the same variables up to the numbering. *)
Theorem C79_null_space_numbering_irrelevant : forall sg tau p p' qr qr' llt llt' x0 x0' t x t' x',
  renumbered sg tau p p' ->
  qr_ok (qA p) (qr (qA p)) -> qr_ok (qA p') (qr' (qA p')) ->
  llt_ok llt (ns_Gred (qr (qA p)) (mcols (qA p)) (qG p)) -> llt_ok llt' (ns_Gred (qr' (qA p')) (mcols (qA p')) (qG p')) ->
  picks (nv p) sg x0 x0' ->
  NS_Solve qr llt p x0 = Ok (t, x) -> NS_Solve qr' llt' p' x0' = Ok (t', x') ->
  t' = t /\ picks (nv p) sg x x'.
Proof. intros. eapply (ns_both p p' sg tau); eauto. Qed.

(** C79: the factorisations themselves leave no trace in the result of the null space solver. *)
Theorem C79_null_space_factorisation_irrelevant : forall p qr qr' llt llt' x0 t x t' x', length x0 = nv p ->
  qr_ok (qA p) (qr (qA p)) -> qr_ok (qA p) (qr' (qA p)) ->
  llt_ok llt (ns_Gred (qr (qA p)) (mcols (qA p)) (qG p)) -> llt_ok llt' (ns_Gred (qr' (qA p)) (mcols (qA p)) (qG p)) ->
  NS_Solve qr llt p x0 = Ok (t, x) -> NS_Solve qr' llt' p x0 = Ok (t', x') -> t' = t /\ x' = x.
Proof.
  intros p qr qr' llt llt' x0 t x t' x' L Q Q' T T' E E'.
  destruct (ns_both p p (fun i => i) (fun k => k) (renumbered_refl p) qr qr' llt llt' Q Q' T T' x0 x0 t x t' x') as [A B]; auto.
  - unfold picks. auto.
  - split; [exact A|]. apply (picks_id _ _ _ B).
Qed.
