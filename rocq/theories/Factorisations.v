(** C84: the factorisations that the theorems on exact arithmetic assume (an LDLT that fails only on singular matrices, a QR
    with orthogonal Q and an upper triangular R, an LLT that succeeds exactly on positive definite matrices) exist: one
    choice of the three works for all matrices of all sizes. Hence no theorem is empty because of them. *)
From Coq Require Import String List Bool Arith ZArith QArith Reals Lra Lia.
From Verif Require Import Scalar Outcome LinAlg Structs Constraint QPModel NullSpace Residual Nonlinear RInst Spec
  Props_Constraint QPBlocks QPAlgebra QPNewton ResProps LinProps LSProps NSProps NLSTrace NLSProps NLSReal NLSBox Penalty NLSTotal
  Optimality QPRegular NLSRate NLSConstrained.
Import ListNotations.
Local Open Scope outcome_scope.
Local Open Scope string_scope.
Local Open Scope list_scope.
Local Open Scope R_scope.

(** ** Specification *)

(** The rows of [A] are linearly independent. *)
Definition rows_independent (A : mat R) : Prop :=
  forall y : nat -> R, (forall j, (j < mcols A)%nat -> Rsum (mrows A) (fun k => mget A k j * y k) = 0) ->
  forall k, (k < mrows A)%nat -> y k = 0.

(** ** Orthogonal matrices, as functions *)

Definition orth (n : nat) (Q : nat -> nat -> R) : Prop :=
  (forall a b, (a < n)%nat -> (b < n)%nat -> Rsum n (fun i => Q i a * Q i b) = kd a b) /\
  (forall i j, (i < n)%nat -> (j < n)%nat -> Rsum n (fun a => Q i a * Q j a) = kd i j).

Definition fmulm (n : nat) (X Y : nat -> nat -> R) (i j : nat) : R := Rsum n (fun k => X i k * Y k j).
Definition ftr (X : nat -> nat -> R) (i j : nat) : R := X j i.

Lemma Rsum_kd_l : forall n f j, (j < n)%nat -> Rsum n (fun i => kd j i * f i) = f j.
Proof.
  intros n f j Hj. rewrite <- (Rsum_kd n f j Hj). apply Rsum_ext. intros i _. unfold kd. rewrite Nat.eqb_sym. ring.
Qed.

Lemma fmulm_assoc : forall n m X Y Z i j, fmulm m (fmulm n X Y) Z i j = fmulm n X (fmulm m Y Z) i j.
Proof.
  intros. unfold fmulm.
  rewrite (Rsum_ext m _ (fun k => Rsum n (fun a => X i a * Y a k * Z k j))) by (intros; rewrite <- Rsum_scal_r; reflexivity).
  rewrite Rsum_swap. apply Rsum_ext. intros a _. rewrite <- Rsum_scal_l. apply Rsum_ext. intros. ring.
Qed.
Lemma fmulm_ext : forall n X X' Y Y' i j, (forall k, (k < n)%nat -> X i k = X' i k) -> (forall k, (k < n)%nat -> Y k j = Y' k j) ->
  fmulm n X Y i j = fmulm n X' Y' i j.
Proof. intros. unfold fmulm. apply Rsum_ext. intros k Hk. rewrite H, H0 by assumption. reflexivity. Qed.
Lemma fmulm_id_l : forall n Y i j, (i < n)%nat -> fmulm n kd Y i j = Y i j.
Proof. intros n Y i j Hi. unfold fmulm. apply (Rsum_kd_l n (fun k => Y k j) i Hi). Qed.
Lemma fmulm_id_r : forall n X i j, (j < n)%nat -> fmulm n X kd i j = X i j.
Proof. intros n X i j Hj. unfold fmulm. apply (Rsum_kd n (fun k => X i k) j Hj). Qed.

Lemma orth_mul : forall n P Q, orth n P -> orth n Q -> orth n (fmulm n P Q).
Proof.
  intros n P Q [P1 P2] [Q1 Q2]. split.
  - intros a b Ha Hb. change (fmulm n (ftr (fmulm n P Q)) (fmulm n P Q) a b = kd a b).
    assert (T : forall i j, ftr (fmulm n P Q) i j = fmulm n (ftr Q) (ftr P) i j) by (intros; unfold ftr, fmulm; apply Rsum_ext; intros; ring).
    rewrite (fmulm_ext n _ (fmulm n (ftr Q) (ftr P)) _ (fmulm n P Q)) by (intros; auto).
    rewrite fmulm_assoc. rewrite <- (Q1 a b Ha Hb). unfold fmulm at 1. apply Rsum_ext. intros k Hk. unfold ftr at 1. f_equal.
    rewrite <- fmulm_assoc. rewrite (fmulm_ext n _ kd _ Q) by (intros; auto; unfold fmulm, ftr; apply P1; assumption). apply fmulm_id_l; assumption.
  - intros i j Hi Hj. change (fmulm n (fmulm n P Q) (ftr (fmulm n P Q)) i j = kd i j).
    assert (T : forall i j, ftr (fmulm n P Q) i j = fmulm n (ftr Q) (ftr P) i j) by (intros; unfold ftr, fmulm; apply Rsum_ext; intros; ring).
    rewrite (fmulm_ext n _ (fmulm n P Q) _ (fmulm n (ftr Q) (ftr P))) by (intros; auto).
    rewrite fmulm_assoc. rewrite <- (P2 i j Hi Hj). unfold fmulm at 1. apply Rsum_ext. intros k Hk. f_equal.
    rewrite <- fmulm_assoc. rewrite (fmulm_ext n _ kd _ (ftr P)) by (intros; auto; unfold fmulm, ftr; apply Q2; assumption).
    rewrite fmulm_id_l by assumption. reflexivity.
Qed.

Lemma orth_id : forall n, orth n kd.
Proof.
  intro n. split; intros a b Ha Hb.
  - rewrite (Rsum_kd n (fun i => kd i a) b Hb). unfold kd. rewrite Nat.eqb_sym. reflexivity.
  - rewrite (Rsum_kd_l n (fun i => kd b i) a Ha). unfold kd. rewrite Nat.eqb_sym. reflexivity.
Qed.

(** Q extended by a leading 1. *)
Definition bordered (Q : nat -> nat -> R) (i j : nat) : R :=
  match i, j with
  | 0%nat, 0%nat => 1
  | S i', S j' => Q i' j'
  | _, _ => 0
  end.
Lemma orth_bordered : forall n Q, orth n Q -> orth (S n) (bordered Q).
Proof.
  intros n Q [Q1 Q2]. split; intros a b Ha Hb; rewrite Rsum_S_first; destruct a as [|a], b as [|b]; cbn [bordered].
  all: try (rewrite Rsum_0 by (intros; ring); unfold kd; cbn [Nat.eqb]; ring).
  - rewrite Q1 by lia. unfold kd. cbn [Nat.eqb]. ring.
  - rewrite Q2 by lia. unfold kd. cbn [Nat.eqb]. ring.
Qed.

(** Householder: an orthogonal matrix that maps a vector to a multiple of the first unit vector. *)
Lemma householder : forall n (a : nat -> R), (0 < n)%nat ->
  { H | orth n H /\ forall i, (0 < i < n)%nat -> Rsum n (fun k => H k i * a k) = 0 }.
Proof.
  intros n a Hn. set (al := sqrt (Rsum n (fun k => a k * a k))).
  set (v := fun k => if (k =? 0)%nat then a k - al else a k).
  set (vv := Rsum n (fun k => v k * v k)).
  assert (SA : 0 <= Rsum n (fun k => a k * a k)) by (apply Rsum_nonneg; intros; apply Rle_0_sqr).
  assert (AA : al * al = Rsum n (fun k => a k * a k)) by (apply sqrt_sqrt; exact SA).
  destruct n as [|n]; [lia|].
  assert (V1 : Rsum (S n) (fun k => v k * a k) = al * al - al * a 0%nat).
  { rewrite AA, !Rsum_S_first. unfold v at 1. cbn [Nat.eqb]. rewrite (Rsum_ext n (fun i => v (S i) * a (S i)) (fun i => a (S i) * a (S i))) by reflexivity. ring. }
  assert (V2 : vv = 2 * (al * al - al * a 0%nat)).
  { unfold vv. transitivity (Rsum (S n) (fun k => a k * a k) + al * al - 2 * al * a 0%nat); [|rewrite <- AA; ring].
    rewrite !Rsum_S_first. unfold v at 1 2. cbn [Nat.eqb]. rewrite (Rsum_ext n (fun i => v (S i) * v (S i)) (fun i => a (S i) * a (S i))) by reflexivity. ring. }
  destruct (Req_EM_T vv 0) as [Z|NZ].
  - exists kd. split; [apply orth_id|]. intros i Hi.
    assert (VZ : forall k, (k < S n)%nat -> v k * v k = 0) by (apply Rsum_zero_terms; [intros; apply Rle_0_sqr|exact Z]).
    rewrite (Rsum_ext _ _ (fun k => a k * kd k i)) by (intros; ring). rewrite Rsum_kd by lia.
    specialize (VZ i ltac:(lia)). unfold v in VZ. destruct (Nat.eqb_spec i 0); [lia|]. destruct (Rmult_integral _ _ VZ); assumption.
  - exists (fun i j => kd i j - 2 / vv * (v i * v j)).
    assert (O1 : forall b c, (b < S n)%nat -> (c < S n)%nat ->
      Rsum (S n) (fun i => (kd i b - 2 / vv * (v i * v b)) * (kd i c - 2 / vv * (v i * v c))) = kd b c).
    { intros b c Hb Hc.
      rewrite (Rsum_ext _ _ (fun i => kd i b * kd i c - (2 / vv * v c) * (v i * kd i b) - (2 / vv * v b) * (v i * kd i c) +
                                      (2 / vv * v b) * (2 / vv * v c) * (v i * v i))) by (intros; ring).
      rewrite !Rsum_plus, !Rsum_minus, !Rsum_scal_l, !Rsum_kd by lia. fold vv. unfold kd. rewrite (Nat.eqb_sym c b). field. exact NZ. }
    split; [split; [exact O1|]|].
    + intros i j Hi Hj. rewrite <- (O1 i j Hi Hj). apply Rsum_ext. intros k Hk. unfold kd. rewrite (Nat.eqb_sym k i), (Nat.eqb_sym k j). ring.
    + intros i Hi. rewrite (Rsum_ext _ _ (fun k => a k * kd k i - 2 / vv * v i * (v k * a k))) by (intros; ring).
      rewrite Rsum_minus, Rsum_scal_l, Rsum_kd, V1 by lia.
      replace (al * al - al * a 0%nat) with (vv / 2) by lra. unfold v at 1. destruct (Nat.eqb_spec i 0); [lia|]. field. exact NZ.
Qed.

(** QR: an orthogonal Q with Q^T B upper triangular. *)
Lemma qr_exists : forall n (B : nat -> nat -> R),
  { Q | orth n Q /\ forall i j, (i < n)%nat -> (j < i)%nat -> fmulm n (ftr Q) B i j = 0 }.
Proof.
  induction n as [|n IH]; intro B.
  - exists kd. split; [apply orth_id|]. intros; lia.
  - destruct (householder (S n) (fun k => B k 0%nat) ltac:(lia)) as (H & OH & HZ).
    set (C := fmulm (S n) (ftr H) B).
    destruct (IH (fun i j => C (S i) (S j))) as (Q & OQ & UQ).
    exists (fmulm (S n) H (bordered Q)). split; [apply orth_mul; [exact OH|apply orth_bordered; exact OQ]|].
    intros i j Hi Hj.
    assert (T : forall k, ftr (fmulm (S n) H (bordered Q)) i k = fmulm (S n) (ftr (bordered Q)) (ftr H) i k)
      by (intros; unfold ftr, fmulm; apply Rsum_ext; intros; ring).
    rewrite (fmulm_ext _ _ (fmulm (S n) (ftr (bordered Q)) (ftr H)) _ B) by (intros; auto).
    rewrite fmulm_assoc. fold C. unfold fmulm at 1. rewrite Rsum_S_first. destruct i as [|i]; [lia|]. unfold ftr at 1 2. cbn [bordered].
    rewrite Rmult_0_l, Rplus_0_l. destruct j as [|j].
    + apply Rsum_0. intros k Hk. unfold C, fmulm, ftr. rewrite HZ by lia. ring.
    + apply (UQ i j); lia.
Qed.

(** ** Inverses *)
Lemma inverse_or_kernel : forall n (M : nat -> nat -> R),
  { X | forall i k, (i < n)%nat -> (k < n)%nat -> fmulm n M X i k = kd i k } +
  { exists v : nat -> R, (exists i, (i < n)%nat /\ v i <> 0) /\ forall i, (i < n)%nat -> Rsum n (fun j => M i j * v j) = 0 }.
Proof.
  induction n as [|n IH]; intro M.
  - left. exists kd. intros; lia.
  - destruct (householder (S n) (fun k => M k 0%nat) ltac:(lia)) as (H & [OH1 OH2] & HZ).
    set (N := fmulm (S n) (ftr H) M).
    assert (NZ : forall i, (i < n)%nat -> N (S i) 0%nat = 0) by (intros i Hi; unfold N, fmulm, ftr; apply HZ; lia).
    assert (HN : forall i j, (i < S n)%nat -> fmulm (S n) H N i j = M i j).
    { intros i j Hi. unfold N. rewrite <- fmulm_assoc. rewrite (fmulm_ext _ _ kd _ M) by (intros; auto; unfold fmulm, ftr; apply OH2; assumption).
      apply fmulm_id_l; assumption. }
    assert (KER : forall v, (forall i, (i < S n)%nat -> Rsum (S n) (fun j => N i j * v j) = 0) -> forall i, (i < S n)%nat -> Rsum (S n) (fun j => M i j * v j) = 0).
    { intros v HV i Hi. rewrite (Rsum_ext _ _ (fun j => fmulm (S n) H N i j * v j)) by (intros; rewrite HN by assumption; reflexivity).
      pose proof (fmulm_assoc (S n) (S n) H N (fun j _ => v j) i 0%nat) as X. unfold fmulm at 1 in X. rewrite X. unfold fmulm at 1.
      apply Rsum_0. intros k Hk. unfold fmulm. rewrite HV by assumption. ring. }
    destruct (Req_EM_T (N 0%nat 0%nat) 0) as [Z|P].
    { right. exists (fun i => kd i 0). split.
      - exists 0%nat. split; [lia|]. unfold kd. cbn. lra.
      - apply KER. intros i Hi. rewrite (Rsum_kd (S n) (fun j => N i j) 0) by lia. destruct i as [|i]; [exact Z|apply NZ; lia]. }
    set (p := N 0%nat 0%nat) in *.
    destruct (IH (fun i j => N (S i) (S j))) as [(X & HX)|K].
    + left. set (Y := fun i j => match i, j with
                          | 0%nat, 0%nat => / p
                          | 0%nat, S j' => - / p * Rsum n (fun k => N 0%nat (S k) * X k j')
                          | S _, 0%nat => 0
                          | S i', S j' => X i' j' end).
      assert (HY : forall i k, (i < S n)%nat -> (k < S n)%nat -> fmulm (S n) N Y i k = kd i k).
      { intros i k Hi Hk. unfold fmulm. rewrite Rsum_S_first. destruct i as [|i], k as [|k]; cbn [Y]; fold p.
        - rewrite Rsum_0 by (intros; cbn [Y]; ring). unfold kd. cbn. field. exact P.
        - change (Rsum n _) with (Rsum n (fun i => N 0%nat (S i) * X i k)) at 2. unfold kd. cbn [Nat.eqb]. field. exact P.
        - rewrite Rsum_0 by (intros; cbn [Y]; ring). rewrite NZ by lia. unfold kd. cbn. ring.
        - rewrite NZ by lia. unfold Y. specialize (HX i k ltac:(lia) ltac:(lia)). unfold fmulm in HX. rewrite HX. unfold kd. cbn. ring. }
      exists (fmulm (S n) Y (ftr H)). intros i k Hi Hk.
      rewrite (fmulm_ext _ M (fmulm (S n) H N) _ (fmulm (S n) Y (ftr H))) by (intros; auto; symmetry; apply HN; assumption).
      rewrite fmulm_assoc. rewrite <- (OH2 i k Hi Hk). unfold fmulm at 1. apply Rsum_ext. intros a Ha. f_equal.
      rewrite <- fmulm_assoc. rewrite (fmulm_ext _ _ kd _ (ftr H)) by (intros; auto). rewrite fmulm_id_l by assumption. reflexivity.
    + right. destruct K as (v & (i & Hi & NZi) & HV).
      exists (fun j => match j with 0%nat => - / p * Rsum n (fun k => N 0%nat (S k) * v k) | S j' => v j' end). split.
      * exists (S i). split; [lia|exact NZi].
      * apply KER. intros k Hk. rewrite Rsum_S_first. destruct k as [|k].
        -- fold p. field. exact P.
        -- rewrite NZ by lia. rewrite HV by lia. ring.
Qed.

(** ** Positive definite matrices *)
Definition pd (n : nat) (S : nat -> nat -> R) : Prop :=
  forall t : nat -> R, (exists i, (i < n)%nat /\ t i <> 0) -> 0 < Rsum n (fun i => Rsum n (fun j => t i * S i j * t j)).

Lemma pd_dec : forall n (M : nat -> nat -> R), (forall i j, M i j = M j i) -> { pd n M } + { ~ pd n M }.
Proof.
  induction n as [|n IH]; intros M SY.
  - left. intros t (i & Hi & _). lia.
  - set (p := M 0%nat 0%nat).
    destruct (Rlt_dec 0 p) as [P|NP].
    2:{ right. intro PD. specialize (PD (fun i => kd i 0) ltac:(exists 0%nat; split; [lia|unfold kd; cbn; lra])).
        rewrite (Rsum_ext _ _ (fun i => M i 0%nat * kd i 0)) in PD.
        - rewrite Rsum_kd in PD by lia. fold p in PD. lra.
        - intros i Hi. rewrite (Rsum_kd (S n) (fun j => kd i 0 * M i j) 0) by lia. ring. }
    set (M' := fun i j => M (S i) (S j) - M (S i) 0%nat * M 0%nat (S j) / p).
    assert (ID : forall t, Rsum (S n) (fun i => Rsum (S n) (fun j => t i * M i j * t j)) =
                 p * ((t 0%nat + Rsum n (fun j => M 0%nat (S j) * t (S j)) / p) * (t 0%nat + Rsum n (fun j => M 0%nat (S j) * t (S j)) / p)) +
                 Rsum n (fun i => Rsum n (fun j => t (S i) * M' i j * t (S j)))).
    { intro t. set (b := Rsum n (fun j => M 0%nat (S j) * t (S j))).
      assert (E0 : Rsum n (fun j => t 0%nat * M 0%nat (S j) * t (S j)) = t 0%nat * b).
      { unfold b. rewrite <- Rsum_scal_l. apply Rsum_ext. intros. ring. }
      assert (E1 : Rsum n (fun i => t (S i) * M (S i) 0%nat * t 0%nat) = t 0%nat * b).
      { unfold b. rewrite <- Rsum_scal_l. apply Rsum_ext. intros. rewrite (SY 0%nat (S i)). ring. }
      assert (E2 : Rsum n (fun i => Rsum n (fun j => t (S i) * M' i j * t (S j))) =
                   Rsum n (fun i => Rsum n (fun j => t (S i) * M (S i) (S j) * t (S j))) - b * b / p).
      { rewrite (Rsum_ext n (fun i => Rsum n (fun j => t (S i) * M' i j * t (S j)))
                   (fun i => Rsum n (fun j => t (S i) * M (S i) (S j) * t (S j)) - (M 0%nat (S i) * t (S i)) * (b / p))).
        - rewrite Rsum_minus, Rsum_scal_r. fold b. field. lra.
        - intros i Hi. rewrite (Rsum_ext n (fun j => t (S i) * M' i j * t (S j))
            (fun j => t (S i) * M (S i) (S j) * t (S j) - (M 0%nat (S i) * t (S i) / p) * (M 0%nat (S j) * t (S j)))).
          + rewrite Rsum_minus, Rsum_scal_l. fold b. field. lra.
          + intros j Hj. unfold M'. rewrite (SY (S i) 0%nat). field. lra. }
      rewrite Rsum_S_first. rewrite Rsum_S_first, E0. fold p.
      rewrite (Rsum_ext n _ (fun i => t (S i) * M (S i) 0%nat * t 0%nat + Rsum n (fun j => t (S i) * M (S i) (S j) * t (S j)))) by (intros; rewrite Rsum_S_first; reflexivity).
      rewrite Rsum_plus, E1, E2. field. lra. }
    assert (SY' : forall i j, M' i j = M' j i).
    { intros i j. unfold M'. rewrite (SY (S i) (S j)), (SY (S i) 0%nat), (SY 0%nat (S j)). field. lra. }
    destruct (IH M' SY') as [PD|NPD].
    + left. intros t HT. rewrite ID. set (w := t 0%nat + Rsum n (fun j => M 0%nat (S j) * t (S j)) / p).
      assert (W : 0 <= p * (w * w)) by (apply Rmult_le_pos; [lra|apply Rle_0_sqr]).
      destruct (Req_EM_T (Rsum n (fun i => t (S i) * t (S i))) 0) as [Z|NZ].
      * assert (TZ : forall i, (i < n)%nat -> t (S i) = 0).
        { intros i Hi. assert (X : t (S i) * t (S i) = 0).
          { apply (Rsum_zero_terms n (fun i => t (S i) * t (S i))); [intros; apply Rle_0_sqr|exact Z|exact Hi]. }
          destruct (Rmult_integral _ _ X); assumption. }
        assert (T0 : t 0%nat <> 0).
        { destruct HT as (i & Hi & HN). destruct i as [|i]; [exact HN|]. exfalso. apply HN, TZ. lia. }
        rewrite (Rsum_0 n (fun i => Rsum n _)).
        2:{ intros i Hi. apply Rsum_0. intros j Hj. rewrite (TZ i Hi). ring. }
        assert (WE : w = t 0%nat) by (unfold w; rewrite Rsum_0 by (intros j Hj; rewrite (TZ j Hj); ring); field; lra).
        rewrite WE. assert (0 < t 0%nat * t 0%nat) by (apply Rsqr_pos_lt; exact T0).
        assert (0 < p * (t 0%nat * t 0%nat)) by (apply Rmult_lt_0_compat; lra). lra.
      * assert (HT' : exists i, (i < n)%nat /\ t (S i) <> 0).
        { clear -NZ. induction n as [|n IHn]; [cbn in NZ; lra|]. cbn [Rsum] in NZ.
          destruct (Req_EM_T (t (S n)) 0) as [E|E].
          - rewrite E, Rmult_0_r, Rplus_0_r in NZ. destruct (IHn NZ) as (i & Hi & X). exists i. split; [lia|exact X].
          - exists n. split; [lia|exact E]. }
        specialize (PD (fun i => t (S i)) HT'). lra.
    + right. intro PD. apply NPD. intros t HT.
      set (t' := fun i => match i with 0%nat => - (Rsum n (fun j => M 0%nat (S j) * t j) / p) | S i' => t i' end).
      assert (X : 0 < Rsum (S n) (fun i => Rsum (S n) (fun j => t' i * M i j * t' j))).
      { apply PD. destruct HT as (i & Hi & HN). exists (S i). split; [lia|exact HN]. }
      rewrite ID in X. cbn [t'] in X. 
      replace (p * _) with 0 in X by (field; lra). lra.
Qed.

Lemma pd_no_kernel : forall n M, pd n M -> ~ exists v : nat -> R, (exists i, (i < n)%nat /\ v i <> 0) /\ forall i, (i < n)%nat -> Rsum n (fun j => M i j * v j) = 0.
Proof.
  intros n M PD (v & HV & HK). specialize (PD v HV).
  rewrite (Rsum_0 n (fun i => Rsum n _)) in PD; [lra|]. intros i Hi.
  rewrite (Rsum_ext n _ (fun j => v i * (M i j * v j))) by (intros; ring). rewrite Rsum_scal_l, HK by exact Hi. ring.
Qed.

(** ** The three factorisations *)
Definition sym_fun (H : mat R) (i j : nat) : R := sget H i j.
Lemma sget_sym : forall (H : mat R) i j, sget H i j = sget H j i.
Proof.
  intros. unfold sget. destruct (Nat.leb_spec j i), (Nat.leb_spec i j); auto; try lia. replace j with i by lia. reflexivity.
Qed.

Definition exact_ldlt (H : mat R) : option (mat R) :=
  match inverse_or_kernel (mrows H) (sym_fun H) with
  | inleft (exist _ X _) => Some (mkmat (mrows H) (mrows H) X)
  | inright _ => None
  end.

Definition exact_llt (H : mat R) : option (list R -> list R) :=
  if pd_dec (mrows H) (sym_fun H) (sget_sym H) then
    match inverse_or_kernel (mrows H) (sym_fun H) with
    | inleft (exist _ X _) => Some (fun b => mkvec (mrows H) (fun i => Rsum (mrows H) (fun j => X i j * vget b j)))
    | inright _ => None
    end
  else None.

(** The number of leading non-zero diagonal entries. *)
Fixpoint lead (f : nat -> R) (k : nat) : nat :=
  match k with
  | 0%nat => 0%nat
  | S k' => if Req_EM_T (f 0%nat) 0 then 0%nat else S (lead (fun i => f (S i)) k')
  end.
Lemma lead_le : forall k f, (lead f k <= k)%nat.
Proof. induction k as [|k IH]; intro f; cbn [lead]; [lia|]. destruct (Req_EM_T (f 0%nat) 0); [lia|]. specialize (IH (fun i => f (S i))). lia. Qed.
Lemma lead_nz : forall k f j, (j < lead f k)%nat -> f j <> 0.
Proof.
  induction k as [|k IH]; intros f j Hj; cbn [lead] in Hj; [lia|]. destruct (Req_EM_T (f 0%nat) 0); [lia|].
  destruct j as [|j]; [assumption|]. apply (IH (fun i => f (S i))). lia.
Qed.
Lemma lead_stop : forall k f, (lead f k < k)%nat -> f (lead f k) = 0.
Proof.
  induction k as [|k IH]; intros f Hj; [lia|]. cbn [lead] in *. destruct (Req_EM_T (f 0%nat) 0); [assumption|].
  apply (IH (fun i => f (S i))). lia.
Qed.

Definition exact_qr (A : mat R) : QRResult R :=
  match qr_exists (mcols A) (fun i j => mget A j i) with
  | exist _ Q _ =>
      let Rm := fmulm (mcols A) (ftr Q) (fun i j => mget A j i) in
      MkQR (mkmat (mcols A) (mcols A) Q) (mkmat (mcols A) (mrows A) Rm) (seq 0 (mrows A)) (lead (fun i => Rm i i) (Nat.min (mrows A) (mcols A)))
  end.

Lemma exact_ldlt_ok : forall n, ldlt_exact n exact_ldlt.
Proof.
  intros n H Hi HR HC E i k Hi' Hk. unfold exact_ldlt in E. rewrite HR in E.
  destruct (inverse_or_kernel n (sym_fun H)) as [[X HX]|]; [|discriminate]. injection E as <-.
  rewrite (Rsum_ext n _ (fun j => sget H i j * X j k)) by (intros; rewrite mget_mkmat by assumption; reflexivity).
  exact (HX i k Hi' Hk).
Qed.
Lemma exact_ldlt_fails : fails_only_if_singular exact_ldlt.
Proof.
  intros H n HR HC E NS. unfold exact_ldlt in E. rewrite HR in E.
  destruct (inverse_or_kernel n (sym_fun H)) as [[X HX]|K]; [discriminate|]. destruct K as (v & (i & Hi & NZ) & HV).
  apply NZ. apply (NS v HV i Hi).
Qed.

Lemma exact_llt_ok : forall H, llt_ok exact_llt H.
Proof.
  intros H m HR HC. unfold exact_llt. rewrite HR. destruct (pd_dec m (sym_fun H) (sget_sym H)) as [P|NP]; [|exact NP].
  destruct (inverse_or_kernel m (sym_fun H)) as [[X HX]|K].
  - split; [exact P|]. intros b LB. split; [unfold mkvec; rewrite map_length, seq_length; reflexivity|]. intros i Hi.
    rewrite (Rsum_ext m _ (fun j => Rsum m (fun k => sget H i j * X j k * vget b k))).
    + rewrite Rsum_swap. rewrite (Rsum_ext m _ (fun k => kd i k * vget b k)).
      * apply (Rsum_kd_l m (vget b) i Hi).
      * intros k Hk. rewrite Rsum_scal_r. f_equal. exact (HX i k Hi Hk).
    + intros j Hj. rewrite vget_mkvec by assumption. rewrite <- Rsum_scal_l. apply Rsum_ext. intros. ring.
  - exfalso. exact (pd_no_kernel m _ P K).
Qed.

Lemma exact_qr_ok : forall A, qr_ok A (exact_qr A) /\ (rows_independent A -> qrRank (exact_qr A) = mrows A).
Proof.
  intro A. unfold exact_qr. destruct (qr_exists (mcols A) (fun i j => mget A j i)) as (Q & [O1 O2] & UP).
  set (n := mcols A) in *. set (m := mrows A). set (B := fun i j => mget A j i) in *. set (Rm := fmulm n (ftr Q) B) in *.
  assert (FA : forall i j, (i < n)%nat -> fmulm n Q Rm i j = B i j).
  { intros i j Hi. unfold Rm. rewrite <- fmulm_assoc. rewrite (fmulm_ext n _ kd _ B) by (intros; auto; unfold fmulm, ftr; apply O2; assumption).
    apply fmulm_id_l; assumption. }
  split.
  - constructor; cbn [qrQ qrR qrPerm qrRank]; fold n m.
    + intros a b Ha Hb. rewrite (Rsum_ext n _ (fun i => Q i a * Q i b)) by (intros; rewrite !mget_mkmat by assumption; reflexivity). auto.
    + intros i j Hi Hj. rewrite (Rsum_ext n _ (fun a => Q i a * Q j a)) by (intros; rewrite !mget_mkmat by assumption; reflexivity). auto.
    + intros i j Hi Hj Hm. rewrite mget_mkmat by assumption. apply UP; assumption.
    + apply seq_length.
    + intros j Hj. rewrite seq_nth by assumption. exact Hj.
    + intros r Hr. exists r. split; [exact Hr|]. apply seq_nth. exact Hr.
    + intros j i Hj Hi. rewrite seq_nth by assumption. change (mget A (0 + j) i) with (B i j). rewrite <- (FA i j Hi). unfold fmulm.
      apply Rsum_ext. intros a Ha. rewrite !mget_mkmat by assumption. reflexivity.
    + pose proof (lead_le (Nat.min m n) (fun i => Rm i i)). lia.
    + intros j Hj. pose proof (lead_le (Nat.min m n) (fun i => Rm i i)). rewrite mget_mkmat by lia. apply (lead_nz _ (fun i => Rm i i) j Hj).
  - intro IND. cbn [qrRank]. set (k := lead (fun i => Rm i i) (Nat.min m n)).
    assert (KL : (k <= Nat.min m n)%nat) by apply lead_le.
    destruct (Nat.eq_dec k m) as [|NE]; [assumption|]. exfalso. assert (KM : (k < m)%nat) by lia.
    (* the columns 0..k of R live in the first k coordinates, hence are dependent *)
    assert (ROW : forall i j, (i < n)%nat -> (k <= i)%nat -> (j <= k)%nat -> Rm i j = 0).
    { intros i j Hi Hk Hj. destruct (Nat.eq_dec j i) as [->|]; [|apply UP; lia].
      assert (i = k) by lia. subst i. apply (lead_stop (Nat.min m n) (fun i => Rm i i)). fold k. lia. }
    destruct (inverse_or_kernel (S k) (fun i j => if (i <? k)%nat then Rm i j else 0)) as [(X & HX)|K].
    + specialize (HX k k ltac:(lia) ltac:(lia)). unfold fmulm in HX. rewrite Rsum_0 in HX.
      * unfold kd in HX. rewrite Nat.eqb_refl in HX. lra.
      * intros a _. rewrite Nat.ltb_irrefl. ring.
    + destruct K as (v & (i & Hi & NZ) & HV).
      assert (Y0 : forall q, (q < m)%nat -> (if (q <=? k)%nat then v q else 0) = 0).
      { apply IND. fold n m. intros j Hj.
        rewrite (Rsum_split m (S k)) by lia. rewrite (Rsum_0 (m - S k)).
        2:{ intros q Hq. destruct (Nat.leb_spec (S k + q) k); [lia|ring]. }
        rewrite (Rsum_ext (S k) _ (fun q => Rsum n (fun a => Q j a * (Rm a q * v q)))).
        - rewrite Rsum_swap. rewrite Rplus_0_r. apply Rsum_0. intros a Ha. rewrite Rsum_scal_l.
          destruct (Nat.ltb_spec a k) as [L|G].
          + specialize (HV a ltac:(lia)). destruct (Nat.ltb_spec a k); [|lia]. rewrite HV. ring.
          + rewrite Rsum_0; [ring|]. intros q Hq. rewrite ROW by lia. ring.
        - intros q Hq. destruct (Nat.leb_spec q k); [|lia]. change (mget A q j) with (B j q). rewrite <- (FA j q Hj). unfold fmulm.
          rewrite <- Rsum_scal_r. apply Rsum_ext. intros. ring. }
      apply NZ. specialize (Y0 i ltac:(lia)). destruct (Nat.leb_spec i k); [exact Y0|lia].
Qed.

(** ** C84 *)

(** Exact factorisations exist: one LDLT, one QR and one LLT, for all matrices of all sizes. *)
Theorem C84_exact_factorisations_exist : exists ldlt qr llt,
  (forall n, ldlt_exact n ldlt) /\ fails_only_if_singular ldlt /\
  (forall A, qr_ok A (qr A) /\ (rows_independent A -> qrRank (qr A) = mrows A)) /\
  (forall H, llt_ok llt H).
Proof.
  exists exact_ldlt, exact_qr, exact_llt. splits; [exact exact_ldlt_ok|exact exact_ldlt_fails|exact exact_qr_ok|exact exact_llt_ok].
Qed.

(** Hence they are exact for every problem in the sense the theorems on the nonlinear solver ask for. *)
Theorem C84_exact_for_every_problem : exists ldlt qr llt, forall pr : Problem R,
  exact_factorizations ldlt qr llt pr /\ ldlt_exact (pdim pr) ldlt /\ fails_only_if_singular ldlt /\ null_space_exact qr llt pr.
Proof.
  exists exact_ldlt, exact_qr, exact_llt. intro pr.
  assert (NS : null_space_exact exact_qr exact_llt pr) by (intros v lambda errs qp _; split; [apply exact_qr_ok|apply exact_llt_ok]).
  splits; [split; [intros _; apply exact_ldlt_ok|intros _; exact NS]|apply exact_ldlt_ok|exact exact_ldlt_fails|exact NS].
Qed.

(** C84 with C80: with exact factorisations every unconstrained problem is solved if min_lambda is positive or the quadratic
    model curves upwards. *)
Theorem C84_every_unconstrained_problem_solved : exists ldlt qr llt, forall eigs (pr : Problem R) g (pa : NLSParams R) vars,
  well_posed pa pr vars -> pr_ineq pr = [] -> pr_eq pr = [] -> distinct_indices pr -> derivatives_correct pr -> value_consistent pr ->
  0 < n_absolute_first_derivative_tol pa ->
  0 < n_relative_exit_tol pa -> 0 < n_lambda_failure_init pa ->
  0 < n_min_lambda pa \/
  (forall v lambda errs qp, length v = pdim pr -> n_min_lambda pa <= lambda -> LinearizeAndFillQP v lambda pr = Ok (errs, qp) ->
     curved_on_null_space qp) ->
  exists K, forall m, (K < m)%Z -> exists L, forall l, (L <= l)%Z ->
    exists r, NLS_Solve ldlt qr llt eigs None (@None (unit -> NLSIteration R -> unit * bool)) (with_ls l (with_max_iterations m pa)) pr g vars tt = Ok r /\
      satisfied (out_termination_state (res_out r)).
Proof.
  exists exact_ldlt, exact_qr, exact_llt. intros eigs pr g pa vars WP NI NE DI DC VC FT RT LF [ML|CU].
  - apply C80_damped_unconstrained_solve_satisfied; auto using exact_ldlt_ok, exact_ldlt_fails.
  - apply C80_unconstrained_solve_satisfied; auto using exact_ldlt_ok, exact_ldlt_fails.
Qed.

(** C84 with C83: and every equality constrained problem whose constraint rows are independent, whose objective curves upwards on
    their null space, and whose multipliers are bounded, at all points no worse than the initial guess. *)
Theorem C84_every_regular_equality_problem_solved : exists ldlt qr llt, forall eigs (pr : Problem R) g (pa : NLSParams R) vars Y,
  well_posed pa pr vars -> pr_ineq pr = [] -> pr_eq pr <> [] -> (0 < eq_rows pr <= pdim pr)%nat -> distinct_indices pr ->
  derivatives_correct pr -> value_consistent pr ->
  0 < n_equality_penalty_rho pa -> 0 < n_relative_exit_tol pa ->
  0 <= Y -> 1 / 4503599627370496 <= n_absolute_first_derivative_tol pa -> Y * (1 / 4503599627370496) < n_absolute_first_derivative_tol pa ->
  (forall v lambda errs qp, no_worse pr (n_equality_penalty_initial pa) (penalty_limit pa Y) vars v ->
     n_min_lambda pa <= lambda <= Rmax (n_lambda_initial pa) 0 -> LinearizeAndFillQP v lambda pr = Ok (errs, qp) ->
     rows_independent (qA qp) /\ curved_on_null_space qp /\ multipliers_within qp Y) ->
  exists K, forall m, (K < m)%Z -> exists L, forall l, (L <= l)%Z ->
    exists r, NLS_Solve ldlt qr llt eigs None (@None (unit -> NLSIteration R -> unit * bool)) (with_ls l (with_max_iterations m pa)) pr g vars tt = Ok r /\
      satisfied (out_termination_state (res_out r)).
Proof.
  exists exact_ldlt, exact_qr, exact_llt. intros eigs pr g pa vars Y WP NI NE ER DI DC VC RHO RT Y0 A1 A2 REG.
  assert (NS : null_space_exact exact_qr exact_llt pr) by (intros v lambda errs qp _; split; [apply exact_qr_ok|apply exact_llt_ok]).
  assert (REG' : forall v lambda errs qp, no_worse pr (n_equality_penalty_initial pa) (penalty_limit pa Y) vars v ->
     n_min_lambda pa <= lambda <= Rmax (n_lambda_initial pa) 0 -> LinearizeAndFillQP v lambda pr = Ok (errs, qp) ->
     qrRank (exact_qr (qA qp)) = mrows (qA qp) /\ curved_on_null_space qp /\ multipliers_within qp Y).
  { intros v lambda errs qp NW HLam HL. destruct (REG v lambda errs qp NW HLam HL) as (IR & CU & MW).
    splits; [apply exact_qr_ok; exact IR|exact CU|exact MW]. }
  destruct (C83_equality_constrained_solve_satisfied exact_ldlt exact_qr exact_llt eigs pr g pa vars Y WP NI NE ER DI NS DC VC RHO RT Y0 A1 A2 REG') as [K HK].
  exists K. intros m Hm. destruct (HK m Hm) as [L HL]. exists L. intros l Hl. destruct (HL l Hl) as (r & E & T & _). eauto.
Qed.
