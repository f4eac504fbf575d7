(** C78: the numbering of the variables and the order of the equality constraints do not matter to the interior point solver
    (exact arithmetic, any factorisation that is exact when it succeeds): two runs on problems that differ only in this
    numbering produce the same log, the same slacks and inequality multipliers, and the same x and y up to the renumbering. *)
From Coq Require Import String List Bool Arith ZArith QArith Reals Lra Lia Permutation FinFun.
From Verif Require Import Scalar Outcome LinAlg Structs Constraint QPModel RInst Spec
  Props_Constraint QPBlocks QPAlgebra QPNewton QPAlpha QPStep QPTrace QPInit QPSolve QPIter QPReuse QPPerm.
Import ListNotations.
Local Open Scope outcome_scope.
Local Open Scope string_scope.
Local Open Scope list_scope.
Local Open Scope R_scope.

(** ** Specification *)

(** [f] renumbers 0 .. n-1. *)
Definition renumbering (n : nat) (f : nat -> nat) : Prop :=
  (forall i, (i < n)%nat -> (f i < n)%nat) /\
  (forall i j, (i < n)%nat -> (j < n)%nat -> f i = f j -> i = j).

(** [u'] holds at place i what [u] holds at place [f i]. *)
Definition picks (n : nat) (f : nat -> nat) (u u' : list R) : Prop :=
  length u = n /\ length u' = n /\ forall i, (i < n)%nat -> vget u' i = vget u (f i).

(** [p'] is [p] with its variables renumbered by [sg] (variable i of p' is variable sg i of p) and its equality constraints
    listed in the order [tau]. The inequality constraints are listed in the same order. *)
Record renumbered (sg tau : nat -> nat) (p p' : QP R) : Prop := {
  rn_nv : nv p' = nv p;
  rn_neq : neq p' = neq p;
  rn_nineq : nineq p' = nineq p;
  rn_sg : renumbering (nv p) sg;
  rn_tau : renumbering (neq p) tau;
  rn_G : forall i j, (i < nv p)%nat -> (j < nv p)%nat -> Gs p' i j = Gs p (sg i) (sg j);
  rn_c : forall i, (i < nv p)%nat -> vget (qc p') i = vget (qc p) (sg i);
  rn_A : forall k j, (k < neq p)%nat -> (j < nv p)%nat -> Ae p' k j = Ae p (tau k) (sg j);
  rn_b : forall k, (k < neq p)%nat -> vget (qb p') k = vget (qb p) (tau k);
  rn_con : forall m, (m < nineq p)%nat -> ca p' m = ca p m /\ cb p' m = cb p m /\ sg (cv p' m) = cv p m }.

(** The symmetric matrix [H'] is [H] with its rows and columns renumbered. *)
Definition renumbered_matrix (n : nat) (H H' : mat R) : Prop :=
  mrows H = n /\ mcols H = n /\ mrows H' = n /\ mcols H' = n /\
  exists rho, renumbering n rho /\ forall i j, (i < n)%nat -> (j < n)%nat -> sget H' i j = sget H (rho i) (rho j).

(** Whether the factorisation is reported as failed does not depend on the numbering of the rows and columns. *)
Definition success_ignores_numbering (n : nat) (ldlt ldlt' : mat R -> option (mat R)) : Prop :=
  forall H H', renumbered_matrix n H H' -> (ldlt H = None <-> ldlt' H' = None).

Lemma renumbering_inverse : forall n f, renumbering n f -> exists g, renumbering n g /\
  (forall i, (i < n)%nat -> f (g i) = i) /\ (forall i, (i < n)%nat -> g (f i) = i).
Proof.
  intros n f [B I].
  assert (S : bSurjective n f) by (apply bInjective_bSurjective; [exact B|exact I]).
  destruct (bSurjective_bBijective B S) as (g & G1 & G2).
  exists g. splits.
  - split; [exact G1|]. intros i j Hi Hj E. rewrite <- (proj2 (G2 i Hi)), E. apply (proj2 (G2 j Hj)).
  - intros i Hi. apply (proj2 (G2 i Hi)).
  - intros i Hi. apply (proj1 (G2 i Hi)).
Qed.

(** ** Inverses of symmetric matrices *)

Lemma sget_sym : forall (H : mat R) i j, sget H i j = sget H j i.
Proof.
  intros H i j. unfold sget. destruct (Nat.leb_spec j i); destruct (Nat.leb_spec i j); try lia; try reflexivity.
  assert (i = j) by lia. subst. reflexivity.
Qed.

Lemma Rsum_pick : forall n i (f : nat -> R), (i < n)%nat ->
  Rsum n (fun k => (if (i =? k)%nat then 1 else 0) * f k) = f i.
Proof.
  intros n i f Hi. rewrite (Rsum_ext n _ (fun k => if (k =? i)%nat then f k else 0)).
  - apply (Rsum_delta n i f Hi).
  - intros k _. rewrite (Nat.eqb_sym k i). destruct (i =? k)%nat; ring.
Qed.

Lemma sym_inverse_transpose : forall n H A B, sym_right_inverse n H A -> sym_right_inverse n H B ->
  forall i l, (i < n)%nat -> (l < n)%nat -> mget A i l = mget B l i.
Proof.
  intros n H A B HA HB i l Hi Hl.
  transitivity (Rsum n (fun k => Rsum n (fun j => mget B j i * sget H j k * mget A k l))).
  - rewrite <- (Rsum_pick n i (fun k => mget A k l) Hi). apply Rsum_ext. intros k Hk.
    rewrite (Rsum_scal_r n (mget A k l) (fun j => mget B j i * sget H j k)). f_equal.
    rewrite (Nat.eqb_sym i k), <- (HB k i Hk Hi). apply Rsum_ext. intros j _. rewrite (sget_sym H k j). ring.
  - rewrite Rsum_swap. rewrite (Rsum_ext n _ (fun j => (if (l =? j)%nat then 1 else 0) * mget B j i)).
    + apply (Rsum_pick n l (fun j => mget B j i) Hl).
    + intros j Hj. rewrite (Nat.eqb_sym l j), <- (HA j l Hj Hl).
      rewrite (Rmult_comm _ (mget B j i)), <- Rsum_scal_l. apply Rsum_ext. intros k _. ring.
Qed.

Lemma sym_inverse_unique : forall n H A B, sym_right_inverse n H A -> sym_right_inverse n H B ->
  forall i l, (i < n)%nat -> (l < n)%nat -> mget A i l = mget B i l.
Proof.
  intros n H A B HA HB i l Hi Hl. rewrite (sym_inverse_transpose n H A B HA HB i l Hi Hl).
  apply (sym_inverse_transpose n H B B HB HB l i Hl Hi).
Qed.

Lemma sym_inverse_renumbered : forall n rho H H' Hi Hi', renumbering n rho ->
  (forall i j, (i < n)%nat -> (j < n)%nat -> sget H' i j = sget H (rho i) (rho j)) ->
  sym_right_inverse n H Hi -> sym_right_inverse n H' Hi' ->
  forall i k, (i < n)%nat -> (k < n)%nat -> mget Hi' i k = mget Hi (rho i) (rho k).
Proof.
  intros n rho H H' Hi Hi' [B I] E R1 R2 i k Hi0 Hk0.
  set (P := mkmat n n (fun i k => mget Hi (rho i) (rho k))).
  assert (RP : sym_right_inverse n H' P).
  { intros a c Ha Hc.
    rewrite (Rsum_ext n _ (fun j => (fun j => sget H (rho a) j * mget Hi j (rho c)) (rho j))).
    - rewrite (Rsum_reindex n rho (fun j => sget H (rho a) j * mget Hi j (rho c)) B I).
      rewrite (R1 (rho a) (rho c) (B a Ha) (B c Hc)).
      destruct (Nat.eqb_spec (rho a) (rho c)) as [X|X]; destruct (Nat.eqb_spec a c) as [Y|Y]; auto.
      + exfalso. apply Y. apply I; assumption.
      + exfalso. apply X. subst. reflexivity.
    - intros j Hj. rewrite (E a j Ha Hj). unfold P. rewrite (mget_mkmat R R_ops) by assumption. reflexivity. }
  rewrite (sym_inverse_unique n H' Hi' P R2 RP i k Hi0 Hk0). unfold P. rewrite (mget_mkmat R R_ops) by assumption. reflexivity.
Qed.

(** ** Vectors *)

Lemma picks_perm : forall n f u u', renumbering n f -> picks n f u u' -> Permutation u u'.
Proof.
  intros n f u u' [B I] (L & L' & H). apply (Permutation_nth u u' 0). rewrite L. split; [exact L'|].
  exists f. splits; [exact B|exact I|exact H].
Qed.

Lemma picks_sum : forall n f (g g' : nat -> R), renumbering n f -> (forall i, (i < n)%nat -> g' i = g (f i)) ->
  Rsum n g' = Rsum n g.
Proof. intros n f g g' [B I] H. rewrite (Rsum_ext n g' (fun i => g (f i)) H). apply Rsum_reindex; assumption. Qed.

Lemma picks_fnorm : forall n f u u', renumbering n f -> picks n f u u' -> fnorm u' = fnorm u.
Proof.
  intros n f u u' RN (L & L' & H). unfold fnorm, fsqnorm. change (@fdot R R_ops) with Rdot.
  rewrite !(Rdot_n n) by assumption. f_equal. apply (picks_sum n f _ _ RN). intros i Hi. rewrite (H i Hi). reflexivity.
Qed.

Lemma fold_min_comm : forall a b c, Rmin (Rmin a b) c = Rmin (Rmin a c) b.
Proof. intros. unfold Rmin. repeat destruct Rle_dec; lra. Qed.
Lemma fold_max_comm : forall a b c, Rmax (Rmax a b) c = Rmax (Rmax a c) b.
Proof. intros. unfold Rmax. repeat destruct Rle_dec; lra. Qed.

Lemma coeff_permutation : forall l l', Permutation l l' -> Rmincoeff l = Rmincoeff l' /\ Rmaxcoeff l = Rmaxcoeff l'.
Proof.
  intros l l' P. induction P as [|x l l' P IH|x y l|l1 l2 l3 P1 IH1 P2 IH2].
  - auto.
  - unfold Rmincoeff, Rmaxcoeff. split; apply (fold_left_permutation R R); auto; [apply fold_min_comm|apply fold_max_comm].
  - unfold Rmincoeff, Rmaxcoeff. cbn [fold_left]. rewrite (Rmin_comm y x), (Rmax_comm y x). auto.
  - destruct IH1, IH2. split; congruence.
Qed.

(** ** Outcomes *)
Section Outcomes.
  Variable MIS : Prop.

  (** The same outcome up to [Q]; if [MIS] is allowed, one of the two runs may report a failed factorisation. *)
  Definition orelF {A B} (Q : A -> B -> Prop) (o : outcome A) (o' : outcome B) : Prop :=
    match o, o' with
    | Ok a, Ok b => Q a b
    | Throw e, Throw e' => e = e'
    | UB m, UB m' => m = m'
    | _, _ => False
    end \/ (MIS /\ (o = Throw FailedFactorization \/ o' = Throw FailedFactorization)).

  Lemma orelF_ok : forall A B (Q : A -> B -> Prop) a b, Q a b -> orelF Q (Ok a) (Ok b).
  Proof. intros. left. assumption. Qed.

  Lemma orelF_bind : forall A B A' B' (Q : A -> A' -> Prop) (Q' : B -> B' -> Prop) o o' k k',
    orelF Q o o' -> (forall a a', Q a a' -> orelF Q' (k a) (k' a')) -> orelF Q' (bind o k) (bind o' k').
  Proof.
    intros A B A' B' Q Q' o o' k k' [H|[M H]] K.
    - destruct o as [a|e|m]; destruct o' as [a'|e'|m']; try contradiction; cbn [bind].
      + apply K. exact H.
      + left. exact H.
      + left. exact H.
    - right. split; [exact M|]. destruct H as [->| ->]; [left|right]; reflexivity.
  Qed.

  Lemma orelF_impl : forall A B (Q Q' : A -> B -> Prop) o o', (forall a b, Q a b -> Q' a b) -> orelF Q o o' -> orelF Q' o o'.
  Proof. intros A B Q Q' [a|e|m] [a'|e'|m'] K [H|H]; try contradiction; try (right; exact H); left; auto. Qed.

  (** The same computation on both sides. *)
  Lemma orelF_same : forall A (o : outcome A), orelF eq o o.
  Proof. intros A [a|e|m]; left; reflexivity. Qed.
End Outcomes.

(** ** Two solvers side by side *)
Section Relabel.
  Variables p p' : QP R.
  Variables sg tau : nat -> nat.
  Hypothesis W : wf_qp p.
  Hypothesis W' : wf_qp p'.
  Hypothesis RN : renumbered sg tau p p'.
  Variables ldlt ldlt' : mat R -> option (mat R).
  Hypothesis EX : ldlt_exact (nv p + neq p) ldlt.
  Hypothesis EX' : ldlt_exact (nv p + neq p) ldlt'.
  Variable MIS : Prop.
  Hypothesis HM : success_ignores_numbering (nv p + neq p) ldlt ldlt' \/ MIS.

  Let d := MkDims (nv p) (nineq p) (neq p).
  Let RX := rn_sg _ _ _ _ RN.
  Let RY := rn_tau _ _ _ _ RN.

  Lemma r_nv : nv p' = nv p. Proof. apply (rn_nv _ _ _ _ RN). Qed.
  Lemma r_ne : neq p' = neq p. Proof. apply (rn_neq _ _ _ _ RN). Qed.
  Lemma r_ni : nineq p' = nineq p. Proof. apply (rn_nineq _ _ _ _ RN). Qed.

  Lemma cv_eqb : forall m i, (m < nineq p)%nat -> (i < nv p)%nat -> (cv p' m =? i)%nat = (cv p m =? sg i)%nat.
  Proof.
    intros m i Hm Hi. destruct (rn_con _ _ _ _ RN m Hm) as (_ & _ & E). rewrite <- E.
    assert (L : (cv p' m < nv p)%nat) by (rewrite <- r_nv; apply cv_lt; [exact W'|rewrite r_ni; exact Hm]).
    destruct RX as [_ I].
    destruct (Nat.eqb_spec (cv p' m) i) as [X|X]; destruct (Nat.eqb_spec (sg (cv p' m)) (sg i)) as [Y|Y]; try reflexivity.
    - exfalso. apply Y. rewrite X. reflexivity.
    - exfalso. apply X. apply I; assumption.
  Qed.

  (** The per-variable sums over the inequality constraints. *)
  Lemma con_sum : forall (g g' : nat -> R) i, (i < nv p)%nat -> (forall m, (m < nineq p)%nat -> g' m = g m) ->
    Rsum (nineq p') (fun m => if (cv p' m =? i)%nat then g' m else 0) =
    Rsum (nineq p) (fun m => if (cv p m =? sg i)%nat then g m else 0).
  Proof.
    intros g g' i Hi E. rewrite r_ni. apply Rsum_ext. intros m Hm. rewrite (cv_eqb m i Hm Hi), (E m Hm). reflexivity.
  Qed.

  Record vrelR (v v' : list R) : Prop := {
    vR_l : length v = tsize d;
    vR_l' : length v' = tsize d;
    vR_x : picks (nv p) sg (xblk d v) (xblk d v');
    vR_y : picks (neq p) tau (yblk d v) (yblk d v');
    vR_s : sblk d v' = sblk d v;
    vR_z : zblk d v' = zblk d v }.

  Record srelR (st st' : ip_solver R) : Prop := {
    sR_rd : ready p st;
    sR_rd' : ready p' st';
    sR_v : vrelR (ip_vars st) (ip_vars st') }.

  Lemma sR_d : forall st st', ready p st -> ready p' st' -> ip_dims st = d /\ ip_dims st' = d.
  Proof.
    intros st st' R0 R0'. split; [apply (rd_dims _ _ R0)|].
    rewrite (rd_dims _ _ R0'). unfold d. rewrite r_nv, r_ne, r_ni. reflexivity.
  Qed.

  Lemma picks_intro : forall n f u u', length u = n -> length u' = n ->
    (forall i, (i < n)%nat -> vget u' i = vget u (f i)) -> picks n f u u'.
  Proof. intros. unfold picks. auto. Qed.

  (** *** Residuals *)
  Lemma dualR : forall x x' y y' z i, picks (nv p) sg x x' -> picks (neq p) tau y y' -> (i < nv p)%nat ->
    kkt_dual p' x' y' z i = kkt_dual p x y z (sg i).
  Proof.
    intros x x' y y' z i (_ & _ & X) (_ & _ & Y) Hi. unfold kkt_dual.
    rewrite (con_sum (fun m => ca p m * vget z m) (fun m => ca p' m * vget z m) i Hi)
      by (intros m Hm; destruct (rn_con _ _ _ _ RN m Hm) as (-> & _ & _); reflexivity).
    rewrite r_nv, r_ne, (rn_c _ _ _ _ RN i Hi). f_equal. f_equal; [f_equal|].
    - apply (picks_sum (nv p) sg _ _ RX). intros j Hj. rewrite (rn_G _ _ _ _ RN i j Hi Hj), (X j Hj). reflexivity.
    - apply (picks_sum (neq p) tau _ _ RY). intros k Hk. rewrite (rn_A _ _ _ _ RN k i Hk Hi), (Y k Hk). reflexivity.
  Qed.

  Lemma eqR : forall x x' k, picks (nv p) sg x x' -> (k < neq p)%nat -> kkt_eq p' x' k = kkt_eq p x (tau k).
  Proof.
    intros x x' k (_ & _ & X) Hk. unfold kkt_eq. rewrite r_nv, (rn_b _ _ _ _ RN k Hk). f_equal.
    apply (picks_sum (nv p) sg _ _ RX). intros j Hj. rewrite (rn_A _ _ _ _ RN k j Hk Hj), (X j Hj). reflexivity.
  Qed.

  Lemma at_con : forall x x' m, picks (nv p) sg x x' -> (m < nineq p)%nat ->
    ca p' m = ca p m /\ cb p' m = cb p m /\ vget x' (cv p' m) = vget x (cv p m).
  Proof.
    intros x x' m (_ & _ & X) Hm. destruct (rn_con _ _ _ _ RN m Hm) as (A & B & E). splits; [exact A|exact B|].
    rewrite X, E; [reflexivity|]. rewrite <- r_nv. apply cv_lt; [exact W'|rewrite r_ni; exact Hm].
  Qed.

  Lemma eval_relR : forall st st', srelR st st' ->
    vrelR (ip_r (EvaluateKKTConditions true p st)) (ip_r (EvaluateKKTConditions true p' st')) /\
    srelR (EvaluateKKTConditions true p st) (EvaluateKKTConditions true p' st').
  Proof.
    intros st st' [RD RD' V]. destruct (sR_d st st' RD RD') as [D D'].
    destruct (eval_r_blocks p st W RD) as (B1 & B2 & B3 & B4). destruct (eval_r_blocks p' st' W' RD') as (C1 & C2 & C3 & C4).
    rewrite r_nv, r_ne, r_ni in *. rewrite D, D' in *.
    pose proof (eval_ready p st RD) as R1. pose proof (eval_ready p' st' RD') as R1'.
    assert (L := rd_r _ _ R1). assert (L' := rd_r _ _ R1').
    change (ip_dims (EvaluateKKTConditions true p st)) with (ip_dims st) in L.
    change (ip_dims (EvaluateKKTConditions true p' st')) with (ip_dims st') in L'. rewrite D in L. rewrite D' in L'.
    destruct V as [vl vl' vx vy vs vz].
    split; [|constructor; [exact R1|exact R1'|constructor; assumption]].
    set (r := ip_r (EvaluateKKTConditions true p st)) in *. set (r' := ip_r (EvaluateKKTConditions true p' st')) in *.
    pose proof (xblk_length d r L) as Lx. pose proof (xblk_length d r' L') as Lx'.
    pose proof (yblk_length d r L) as Ly. pose proof (yblk_length d r' L') as Ly'.
    pose proof (sblk_length d r L) as Ls. pose proof (sblk_length d r' L') as Ls'.
    pose proof (zblk_length d r L) as Lz. pose proof (zblk_length d r' L') as Lz'.
    cbn [d dN dM dK] in Lx, Lx', Ly, Ly', Ls, Ls', Lz, Lz'.
    constructor; [exact L|exact L'| | | |].
    - apply picks_intro; auto. intros i Hi. rewrite (C1 i Hi), (B1 (sg i) (proj1 RX i Hi)). rewrite vz.
      apply dualR; assumption.
    - apply picks_intro; auto. intros k Hk. rewrite (C3 k Hk), (B3 (tau k) (proj1 RY k Hk)). apply eqR; assumption.
    - apply vec_eq; [congruence|]. intros m Hm. rewrite Ls' in Hm. rewrite (C2 m Hm), (B2 m Hm), vs, vz. reflexivity.
    - apply vec_eq; [congruence|]. intros m Hm. rewrite Lz' in Hm. rewrite (C4 m Hm), (B4 m Hm). unfold kkt_ineq.
      destruct (at_con _ _ m vx Hm) as (-> & -> & ->). rewrite vs. reflexivity.
  Qed.

  Lemma errors_relR : forall st st' mu, ip_dims st = d -> ip_dims st' = d -> vrelR (ip_r st) (ip_r st') ->
    ComputeErrors st' mu = ComputeErrors st mu.
  Proof.
    intros st st' mu D D' [l l' vx vy vs vz]. unfold ComputeErrors.
    rewrite D, D', vs, vz, (picks_fnorm _ _ _ _ RX vx), (picks_fnorm _ _ _ _ RY vy). reflexivity.
  Qed.

  Lemma mu_relR : forall st st', srelR st st' -> ComputeMu st' = ComputeMu st.
  Proof.
    intros st st' [R0 R0' [l l' vx vy vs vz]]. destruct (sR_d _ _ R0 R0') as [D D'].
    unfold ComputeMu. rewrite D, D', vs, vz. reflexivity.
  Qed.

  (** *** Factorisation *)
  Definition rho (i : nat) : nat := if (i <? nv p)%nat then sg i else (nv p + tau (i - nv p))%nat.

  Lemma rho_x : forall i, (i < nv p)%nat -> rho i = sg i.
  Proof. intros i Hi. unfold rho. destruct (Nat.ltb_spec i (nv p)); [reflexivity|lia]. Qed.
  Lemma rho_y : forall k, rho (nv p + k) = (nv p + tau k)%nat.
  Proof.
    intros k. unfold rho. destruct (Nat.ltb_spec (nv p + k) (nv p)); [lia|].
    replace (nv p + k - nv p)%nat with k by lia. reflexivity.
  Qed.
  Lemma rho_ren : renumbering (nv p + neq p) rho.
  Proof.
    destruct RX as [B I]. destruct RY as [B' I']. split.
    - intros i Hi. unfold rho. destruct (Nat.ltb_spec i (nv p)) as [L|L].
      + specialize (B i L). lia.
      + specialize (B' (i - nv p)%nat ltac:(lia)). lia.
    - intros i j Hi Hj. unfold rho.
      destruct (Nat.ltb_spec i (nv p)) as [L|L]; destruct (Nat.ltb_spec j (nv p)) as [K|K]; intro E.
      + apply I; assumption.
      + specialize (B i L). lia.
      + specialize (B j K). lia.
      + assert (i - nv p = j - nv p)%nat by (apply I'; lia). lia.
  Qed.

  Lemma reduced_renumbered : forall w (H H' : mat R), reduced_kkt p w H -> reduced_kkt p' w H' ->
    forall i j, (i < nv p + neq p)%nat -> (j < nv p + neq p)%nat -> sget H' i j = sget H (rho i) (rho j).
  Proof.
    intros w H H' (_ & _ & A1 & A2 & A3) (_ & _ & B1 & B2 & B3) i j Hi Hj. rewrite r_nv, r_ne in *.
    assert (SP : forall i, (i < nv p + neq p)%nat -> (i < nv p)%nat \/ exists k, (k < neq p)%nat /\ i = (nv p + k)%nat).
    { clear. intros i Hi. destruct (Nat.lt_ge_cases i (nv p)) as [|L]; [left; assumption|right].
      exists (i - nv p)%nat. lia. }
    destruct RX as [BX IX]. destruct RY as [BY IY].
    destruct (SP i Hi) as [Li|(k & Hk & ->)]; destruct (SP j Hj) as [Lj|(l & Hl & ->)]; rewrite ?rho_y, ?rho_x by assumption.
    - rewrite (B1 i j Li Lj), (A1 _ _ (BX i Li) (BX j Lj)), (rn_G _ _ _ _ RN i j Li Lj).
      f_equal. destruct (Nat.eqb_spec i j) as [X|X]; destruct (Nat.eqb_spec (sg i) (sg j)) as [Y|Y]; try reflexivity.
      + apply con_sum; [exact Li|]. intros m Hm. destruct (rn_con _ _ _ _ RN m Hm) as (-> & _ & _). reflexivity.
      + exfalso. apply Y. subst. reflexivity.
      + exfalso. apply X. apply IX; assumption.
    - destruct (B2 l i Hl Li) as [_ ->]. destruct (A2 (tau l) (sg i) (BY l Hl) (BX i Li)) as [_ ->].
      apply (rn_A _ _ _ _ RN l i Hl Li).
    - destruct (B2 k j Hk Lj) as [-> _]. destruct (A2 (tau k) (sg j) (BY k Hk) (BX j Lj)) as [-> _].
      apply (rn_A _ _ _ _ RN k j Hk Lj).
    - rewrite (B3 k l Hk Hl), (A3 _ _ (BY k Hk) (BY l Hl)). reflexivity.
  Qed.

  (** [Hi'] is [Hi] with rows and columns renumbered. *)
  Definition Hrel (Hi Hi' : mat R) : Prop :=
    forall i k, (i < nv p + neq p)%nat -> (k < nv p + neq p)%nat -> mget Hi' i k = mget Hi (rho i) (rho k).

  Lemma factor_rel : forall w (H H' : mat R), reduced_kkt p w H -> reduced_kkt p' w H' ->
    (exists Hi Hi', ldlt H = Some Hi /\ ldlt' H' = Some Hi' /\ Hrel Hi Hi') \/
    (ldlt H = None /\ ldlt' H' = None) \/ (MIS /\ (ldlt H = None \/ ldlt' H' = None)).
  Proof.
    intros w H H' K K'. pose proof (reduced_renumbered w H H' K K') as E.
    destruct K as (R1 & C1 & _). destruct K' as (R1' & C1' & _). rewrite r_nv, r_ne in *.
    assert (IFF : (ldlt H = None <-> ldlt' H' = None) \/ MIS).
    { destruct HM as [S|M]; [left|right; exact M]. apply S. unfold renumbered_matrix. splits; auto.
      exists rho. split; [apply rho_ren|exact E]. }
    destruct (ldlt H) as [Hi|] eqn:E1; destruct (ldlt' H') as [Hi'|] eqn:E2.
    - left. exists Hi, Hi'. splits; auto. unfold Hrel.
      apply (sym_inverse_renumbered (nv p + neq p) rho H H' Hi Hi' rho_ren E).
      + apply EX; assumption.
      + apply EX'; assumption.
    - right. right. destruct IFF as [[_ F]|M]; [discriminate (F eq_refl)|auto].
    - right. right. destruct IFF as [[F _]|M]; [discriminate (F eq_refl)|auto].
    - right. left. auto.
  Qed.

  Lemma solve_relR : forall Hi Hi' rd rd' re re', Hrel Hi Hi' ->
    picks (nv p) sg rd rd' -> picks (neq p) tau re re' ->
    picks (nv p) sg (solve_dx Hi d rd re) (solve_dx Hi' d rd' re') /\
    picks (neq p) tau (solve_dy Hi d rd re) (solve_dy Hi' d rd' re').
  Proof.
    intros Hi Hi' rd rd' re re' HH (L1 & L1' & E1) (L2 & L2' & E2).
    destruct RX as [BX IX]. destruct RY as [BY IY].
    split; apply picks_intro; try apply QPReuse.solve_dx_length; try apply QPReuse.solve_dy_length.
    - intros i Hn. rewrite (solve_dx_get d Hi' rd' re' L1' L2' i Hn), (solve_dx_get d Hi rd re L1 L2 (sg i) (BX i Hn)).
      cbn [d dN dK]. f_equal; [f_equal|].
      + apply (picks_sum (nv p) sg _ _ RX). intros j Hj. rewrite (E1 j Hj), HH, !rho_x by lia. reflexivity.
      + apply (picks_sum (neq p) tau _ _ RY). intros k Hk. rewrite (E2 k Hk), HH, rho_x, rho_y by lia. reflexivity.
    - intros k0 Hn. rewrite (solve_dy_get d Hi' rd' re' L1' L2' k0 Hn), (solve_dy_get d Hi rd re L1 L2 (tau k0) (BY k0 Hn)).
      cbn [d dN dK]. cbn [d dK] in Hn. f_equal.
      + apply (picks_sum (nv p) sg _ _ RX). intros j Hj. rewrite (E1 j Hj), HH, rho_y, rho_x by lia. reflexivity.
      + apply (picks_sum (neq p) tau _ _ RY). intros k Hk. rewrite (E2 k Hk), HH, !rho_y by lia. reflexivity.
  Qed.

  (** *** The Newton direction *)
  Record frelR (st st' : ip_solver R) : Prop := {
    fR_s : srelR st st';
    fR_r : vrelR (ip_r st) (ip_r st');
    fR_H : Hrel (ip_Hinv st) (ip_Hinv st');
    fR_a : vrelR (ip_delta_aff st) (ip_delta_aff st') }.

  Lemma upd_relR : forall mu st st', frelR st st' ->
    frelR (SolveForUpdate mu p st) (SolveForUpdate mu p' st') /\
    vrelR (ip_delta (SolveForUpdate mu p st)) (ip_delta (SolveForUpdate mu p' st')).
  Proof.
    intros mu st st' [S Rr HH AA]. destruct S as [RD RD' V]. destruct (sR_d _ _ RD RD') as [D D'].
    split.
    { constructor; [constructor; [apply upd_ready; assumption|apply upd_ready; assumption|exact V]|exact Rr|exact HH|exact AA]. }
    destruct (upd_blocks p st mu RD) as (B1 & B2 & B3 & B4 & BL).
    destruct (upd_blocks p' st' mu RD') as (C1 & C2 & C3 & C4 & CL).
    rewrite D in *. rewrite D' in *.
    destruct V as [vl vl' vx vy vs vz]. destruct Rr as [rl rl' rx ry rs rz]. destruct AA as [al al' ax ay as_ az].
    pose proof (fun i Hi => r_aug_get p st mu W RD i Hi) as RA.
    pose proof (fun i Hi => r_aug_get p' st' mu W' RD' i Hi) as RA'.
    pose proof (r_aug_len p st mu RD) as RL. pose proof (r_aug_len p' st' mu RD') as RL'.
    cbv zeta in RA, RA', RL, RL'. rewrite D in RA, RL. rewrite D' in RA', RL'.
    match type of RL with length ?a = _ => set (ra := a) in * end.
    match type of RL' with length ?a = _ => set (ra' := a) in * end.
    assert (EQ : picks (nv p) sg ra ra').
    { apply picks_intro; [exact RL|exact RL'|]. intros i Hi.
      rewrite RA' by (rewrite r_nv; exact Hi). rewrite RA by (apply (proj1 RX i Hi)). f_equal.
      - apply rx. exact Hi.
      - apply con_sum; [exact Hi|]. intros m Hm. destruct (rn_con _ _ _ _ RN m Hm) as (-> & _ & _).
        rewrite vs, vz, rs, rz, as_, az. reflexivity. }
    clearbody ra ra'.
    destruct (solve_relR _ _ _ _ _ _ HH EQ ry) as [XX YY]. rewrite <- B1, <- C1 in XX. rewrite <- B3, <- C3 in YY.
    pose proof (sblk_length d _ BL) as LS. pose proof (sblk_length d _ CL) as LS'.
    pose proof (zblk_length d _ BL) as LZ. pose proof (zblk_length d _ CL) as LZ'.
    assert (SS : sblk d (ip_delta (SolveForUpdate mu p' st')) = sblk d (ip_delta (SolveForUpdate mu p st))).
    { apply vec_eq; [congruence|]. intros m Hm. rewrite LS' in Hm. cbn [d dM] in Hm.
      pose proof (upd_ds p st mu RD m Hm) as E1.
      pose proof (upd_ds p' st' mu RD' m ltac:(rewrite r_ni; exact Hm)) as E2. rewrite D in E1. rewrite D' in E2.
      rewrite E1, E2. destruct (at_con _ _ m XX Hm) as (-> & _ & ->). rewrite rz. reflexivity. }
    constructor; [exact BL|exact CL|exact XX|exact YY|exact SS|].
    apply vec_eq; [congruence|]. intros m Hm. rewrite LZ' in Hm. cbn [d dM] in Hm.
    rewrite <- C2 in C4. rewrite <- B2 in B4. rewrite B4, C4.
    rewrite (vget_map_indexed R R_ops _ _ _ _ lic0) by (change (m < nineq p')%nat; rewrite r_ni; exact Hm).
    rewrite (vget_map_indexed R R_ops _ _ _ _ lic0) by exact Hm.
    cbn [fst snd]. rewrite SS, vs, vz, rs, as_, az. reflexivity.
  Qed.

  Lemma ComputeAlpha_relR : forall st st' ta, ip_dims st = d -> ip_dims st' = d ->
    vrelR (ip_vars st) (ip_vars st') -> vrelR (ip_delta st) (ip_delta st') ->
    ComputeAlpha st' ta = ComputeAlpha st ta.
  Proof.
    intros st st' ta D D' [_ _ _ _ vs vz] [_ _ _ _ ds dz]. unfold ComputeAlpha. rewrite D, D', vs, vz, ds, dz. reflexivity.
  Qed.

  Lemma muaff_relR : forall st st' mu ap, ip_dims st = d -> ip_dims st' = d ->
    vrelR (ip_vars st) (ip_vars st') -> vrelR (ip_delta_aff st) (ip_delta_aff st') ->
    ComputePredictorCorrectorMuAffine st' mu ap = ComputePredictorCorrectorMuAffine st mu ap.
  Proof.
    intros st st' mu ap D D' [_ _ _ _ vs vz] [_ _ _ _ ds dz]. unfold ComputePredictorCorrectorMuAffine.
    rewrite D, D', vs, vz, ds, dz. reflexivity.
  Qed.

  Lemma update_relR : forall st st' al, ip_dims st = d -> ip_dims st' = d ->
    vrelR (ip_vars st) (ip_vars st') -> vrelR (ip_delta st) (ip_delta st') ->
    vrelR (ip_vars (apply_update st al)) (ip_vars (apply_update st' al)).
  Proof.
    intros st st' al D D' V DV. destruct V as [l l' vx vy vs vz]. destruct DV as [k k' dx dy ds dz].
    destruct (apply_update_blocks st al) as (L & X & SS & Y & Z); [rewrite D; exact l|rewrite D; exact k|].
    destruct (apply_update_blocks st' al) as (L' & X' & SS' & Y' & Z'); [rewrite D'; exact l'|rewrite D'; exact k'|].
    rewrite D in *. rewrite D' in *.
    pose proof (xblk_length d _ L) as Lx. pose proof (xblk_length d _ L') as Lx'.
    pose proof (yblk_length d _ L) as Ly. pose proof (yblk_length d _ L') as Ly'.
    pose proof (sblk_length d _ L) as Ls. pose proof (sblk_length d _ L') as Ls'.
    pose proof (zblk_length d _ L) as Lz. pose proof (zblk_length d _ L') as Lz'.
    destruct vx as (_ & _ & vx). destruct vy as (_ & _ & vy). destruct dx as (_ & _ & dx). destruct dy as (_ & _ & dy).
    constructor; [exact L|exact L'| | | |].
    - apply picks_intro; [assumption|assumption|]. intros i Hi. rewrite X, X', (vx i Hi), (dx i Hi). reflexivity.
    - apply picks_intro; [assumption|assumption|]. intros i Hi. rewrite Y, Y', (vy i Hi), (dy i Hi). reflexivity.
    - apply vec_eq; [congruence|]. intros i _. rewrite SS, SS', vs, ds. reflexivity.
    - apply vec_eq; [congruence|]. intros i _. rewrite Z, Z', vz, dz. reflexivity.
  Qed.

  (** *** One iteration *)
  Lemma zero_picks : forall n f, picks n f (vzero n) (vzero (F:=R) n).
  Proof. intros n f. apply picks_intro; try apply vzero_length. intros i Hi. unfold vget, vzero. change (@f0 R R_ops) with 0. rewrite !nth_repeat. reflexivity. Qed.

  Lemma zero_relR : vrelR (vzero (tsize d)) (vzero (F:=R) (tsize d)).
  Proof.
    assert (LZ : length (vzero (F:=R) (tsize d)) = tsize d) by apply vzero_length.
    constructor; [exact LZ|exact LZ| | |reflexivity|reflexivity].
    - apply picks_intro; [apply (xblk_length d _ LZ)|apply (xblk_length d _ LZ)|]. intros i Hi. unfold xblk. rewrite !vseg_zero. reflexivity.
    - apply picks_intro; [apply (yblk_length d _ LZ)|apply (yblk_length d _ LZ)|]. intros i Hi. unfold yblk. rewrite !vseg_zero. reflexivity.
  Qed.

  Lemma ldlt_relR : forall st st', srelR st st' -> vrelR (ip_r st) (ip_r st') ->
    orelF MIS frelR (ComputeLDLT ldlt true p st) (ComputeLDLT ldlt' true p' st').
  Proof.
    intros st st' S RR. destruct S as [RD RD' V]. destruct (sR_d _ _ RD RD') as [D D']. unfold ComputeLDLT. rewrite D, D'.
    destruct V as [l l' vx vy vs vz]. rewrite vs, vz.
    destruct (negb true || forallb (fun v : R => fgtb v f0) (sblk d (ip_vars st)))%bool; cbn [f_assert bind]; [|left; reflexivity].
    set (s := sblk d (ip_vars st)). set (z := zblk d (ip_vars st)).
    destruct (factor_rel (fun m => vget z m / vget s m) (reduced_H true p d s z) (reduced_H true p' d s z)) as
      [(Hi & Hi' & -> & -> & HH)|[[-> ->]|[M F]]].
    - apply C08_reduced_matrix; [exact W|reflexivity|reflexivity].
    - apply C08_reduced_matrix; [exact W'|symmetry; exact r_nv|symmetry; exact r_ne].
    - apply orelF_ok.
      assert (EL : length (ip_delta_aff st) = tsize d) by (rewrite <- D; apply (rd_aff _ _ RD)).
      assert (EL' : length (ip_delta_aff st') = tsize d) by (rewrite <- D'; apply (rd_aff _ _ RD')).
      constructor.
      + constructor.
        * destruct RD. constructor; cbn [ip_p ip_dims ip_vars ip_r ip_delta ip_delta_aff]; rewrite ?vzero_length, <- ?D; auto.
        * destruct RD'. constructor; cbn [ip_p ip_dims ip_vars ip_r ip_delta ip_delta_aff]; rewrite ?vzero_length, <- ?D'; auto.
        * constructor; assumption.
      + exact RR.
      + exact HH.
      + cbn [ip_delta_aff]. rewrite EL, EL'. exact zero_relR.
    - left. reflexivity.
    - right. split; [exact M|]. destruct F as [->| ->]; [left|right]; reflexivity.
  Qed.

  Lemma iterate_relR : forall mu strat st st', srelR st st' ->
    orelF MIS (fun a a' => snd a = snd a' /\ srelR (fst a) (fst a')) (Iterate ldlt p mu strat st) (Iterate ldlt' p' mu strat st').
  Proof.
    intros mu strat st st' S. unfold Iterate.
    destruct (eval_relR st st' S) as [ER ES]. destruct (sR_d _ _ (sR_rd _ _ S) (sR_rd' _ _ S)) as [D D']. rewrite D, D'.
    apply (orelF_bind MIS _ _ _ _ frelR _ _ _ _ _ (ldlt_relR _ _ ES ER)). intros a a' FR.
    assert (FIN : forall mu0 mu1 probe muaff st2 st2', frelR st2 st2' ->
      orelF MIS (fun x x' => snd x = snd x' /\ srelR (fst x) (fst x'))
        (do al <- (if HasInequalityConstraints d then ComputeAlpha (SolveForUpdate mu0 p st2) (flit lit_0_995) else Ok default_alpha);
         Ok (apply_update (SolveForUpdate mu0 p st2) al, MkIPOut mu1 al probe muaff))
        (do al <- (if HasInequalityConstraints d then ComputeAlpha (SolveForUpdate mu0 p' st2') (flit lit_0_995) else Ok default_alpha);
         Ok (apply_update (SolveForUpdate mu0 p' st2') al, MkIPOut mu1 al probe muaff))).
    { intros mu0 mu1 probe muaff st2 st2' F2. destruct (upd_relR mu0 _ _ F2) as [F3 DV].
      destruct (fR_s _ _ F3) as [RD3 RD3' V3]. destruct (sR_d _ _ RD3 RD3') as [D3 D3'].
      rewrite (ComputeAlpha_relR _ _ (flit lit_0_995) D3 D3' V3 DV).
      destruct (if HasInequalityConstraints d then ComputeAlpha (SolveForUpdate mu0 p st2) (flit lit_0_995) else Ok default_alpha) as [al|e|b]; cbn [bind]; try (left; reflexivity).
      apply orelF_ok. split; [reflexivity|]. cbn [fst].
      pose proof (update_relR _ _ al D3 D3' V3 DV) as VV.
      destruct (apply_update_keeps R R_ops (SolveForUpdate mu0 p st2) al) as (K1 & K2 & K3 & K4 & K5 & K6).
      destruct (apply_update_keeps R R_ops (SolveForUpdate mu0 p' st2') al) as (J1 & J2 & J3 & J4 & J5 & J6).
      constructor; [| |exact VV].
      - pose proof (vR_l _ _ VV) as LL. destruct RD3. constructor; rewrite ?K1, ?K2, ?K3, ?K4, ?K5; auto. rewrite D3. exact LL.
      - pose proof (vR_l' _ _ VV) as LL. destruct RD3'. constructor; rewrite ?J1, ?J2, ?J3, ?J4, ?J5; auto. rewrite D3'. exact LL. }
    destruct (negb (HasInequalityConstraints d)); [cbn [bind]; apply FIN; exact FR|].
    destruct strat; [cbn [bind]; apply FIN; exact FR|cbn [bind]; apply FIN; exact FR|].
    destruct (upd_relR f0 _ _ FR) as [F3 DV]. destruct (fR_s _ _ F3) as [RD3 RD3' V3]. destruct (sR_d _ _ RD3 RD3') as [D3 D3'].
    rewrite (ComputeAlpha_relR _ _ f1 D3 D3' V3 DV).
    destruct (ComputeAlpha (SolveForUpdate f0 p a) f1) as [pr|e|b]; cbn [bind]; try (left; reflexivity).
    set (sb := with_aff (SolveForUpdate f0 p a) (ip_delta (SolveForUpdate f0 p a))).
    set (sb' := with_aff (SolveForUpdate f0 p' a') (ip_delta (SolveForUpdate f0 p' a'))).
    assert (FB : frelR sb sb').
    { destruct F3 as [_ R3 H3 A3]. constructor; [|exact R3|exact H3|exact DV].
      constructor; [| |exact V3]; [destruct RD3; constructor; auto|destruct RD3'; constructor; auto]. }
    rewrite (muaff_relR sb sb' mu pr D3 D3' V3 DV).
    apply FIN. exact FB.
  Qed.

  (** *** The loop *)
  Lemma lagrange_relR : forall st st', srelR st st' -> ComputeLagrangeMultiplierSummary st' = ComputeLagrangeMultiplierSummary st.
  Proof.
    intros st st' [R0 R0' [_ _ _ vy _ _]]. destruct (sR_d _ _ R0 R0') as [D D'].
    unfold ComputeLagrangeMultiplierSummary. rewrite D, D'. cbv zeta.
    pose proof (picks_perm _ _ _ _ RY vy) as P. rewrite <- (Permutation_length P).
    destruct (coeff_permutation _ _ P) as [E1 _].
    destruct (coeff_permutation _ _ (Permutation_map Rabs P)) as [_ E2].
    change (@fmincoeff R R_ops) with Rmincoeff. unfold flinf.
    change (@fmaxcoeff R R_ops) with Rmaxcoeff. change (@fabs R R_ops) with Rabs. rewrite E1, E2. reflexivity.
  Qed.

  Lemma loop_relR : forall n params mu its st st', srelR st st' -> vrelR (ip_r st) (ip_r st') ->
    orelF MIS (fun a a' => snd a = snd a' /\ srelR (fst a) (fst a')) (ip_loop ldlt n params p mu its st) (ip_loop ldlt' n params p' mu its st').
  Proof.
    intros n params. induction n as [|n IH]; intros mu its st st' S RR; cbn [ip_loop].
    - apply orelF_ok. cbn [fst snd]. rewrite (lagrange_relR _ _ S). auto.
    - destruct (sR_d _ _ (sR_rd _ _ S) (sR_rd' _ _ S)) as [D D']. rewrite (errors_relR st st' mu D D' RR).
      apply (orelF_bind MIS _ _ _ _ _ _ _ _ _ _ (iterate_relR mu (p_barrier_strategy params) st st' S)).
      intros [a o] [a' o'] [EO SA]. cbn [fst snd] in EO, SA. subst o'.
      destruct (eval_relR a a' SA) as [ER ES]. destruct (sR_d _ _ (sR_rd _ _ ES) (sR_rd' _ _ ES)) as [D2 D2'].
      rewrite (errors_relR _ _ mu D2 D2' ER), (mu_relR _ _ ES).
      match goal with |- context [if ?b then _ else _] => destruct b end.
      + apply orelF_ok. cbn [fst snd]. rewrite (lagrange_relR _ _ ES). auto.
      + replace (next_mu params (EvaluateKKTConditions true p' a') (ComputeErrors (EvaluateKKTConditions true p a) mu) mu)
          with (next_mu params (EvaluateKKTConditions true p a) (ComputeErrors (EvaluateKKTConditions true p a) mu) mu)
          by (unfold next_mu; rewrite (mu_relR _ _ ES); reflexivity).
        apply IH; assumption.
  Qed.

  (** *** The built-in initial guesses *)
  Record xyrelR (st st' : ip_solver R) : Prop := {
    xyR_rd : ready p st;
    xyR_rd' : ready p' st';
    xyR_x : picks (nv p) sg (xblk d (ip_vars st)) (xblk d (ip_vars st'));
    xyR_y : picks (neq p) tau (yblk d (ip_vars st)) (yblk d (ip_vars st')) }.

  Definition crelR (c c' : lic R) : Prop :=
    la c' = la c /\ lb c' = lb c /\ (0 <= lvar c)%Z /\ (0 <= lvar c')%Z /\ (cidx c < nv p)%nat /\ (cidx c' < nv p)%nat /\
    sg (cidx c') = cidx c.

  Lemma Forall2_nth_intro : forall A B (Q : A -> B -> Prop) d0 d0' l l', length l' = length l ->
    (forall i, (i < length l)%nat -> Q (nth i l d0) (nth i l' d0')) -> Forall2 Q l l'.
  Proof.
    intros A B Q d0 d0' l. induction l as [|a l IH]; intros [|b l'] L H; try discriminate; constructor.
    - apply (H 0%nat). cbn [length]. lia.
    - apply IH; [injection L; auto|]. intros i Hi. apply (H (S i)). cbn [length]. lia.
  Qed.

  Lemma cons_relR : Forall2 crelR (qcons p) (qcons p').
  Proof.
    apply (Forall2_nth_intro _ _ _ lic0 lic0).
    - exact r_ni.
    - intros m Hm. change (length (qcons p)) with (nineq p) in Hm. destruct (rn_con _ _ _ _ RN m Hm) as (A & B & C).
      assert (I1 : In (con p m) (qcons p)) by (apply nth_In; exact Hm).
      assert (I2 : In (con p' m) (qcons p')) by (apply nth_In; change (m < nineq p')%nat; rewrite r_ni; exact Hm).
      unfold crelR. splits; [exact A|exact B|apply (wf_idx p W _ I1)|apply (wf_idx p' W' _ I2)|apply cidx_lt; assumption| |exact C].
      rewrite <- r_nv. apply cidx_lt; assumption.
  Qed.

  Lemma clamp_relR : forall cs cs', Forall2 crelR cs cs' -> forall x x', picks (nv p) sg x x' ->
    orelF MIS (picks (nv p) sg) (ofold clamp_one cs x) (ofold clamp_one cs' x').
  Proof.
    intros cs cs' F. induction F as [|c c' cs cs' C F IH]; intros x x' X; cbn [ofold].
    - apply orelF_ok. exact X.
    - apply (orelF_bind MIS _ _ _ _ (picks (nv p) sg)); [|exact IH].
      destruct C as (A & B & N & N' & L & L' & E). destruct X as (LX & LX' & HX). unfold clamp_one.
      apply Z.leb_le in N, N'. rewrite N, N'. cbn [ub_unless bind]. rewrite (HX _ L'), E.
      assert (EC : forall v, ClampX c' v = ClampX c v) by (intro v; unfold ClampX; rewrite A, B; reflexivity). rewrite EC.
      destruct (ClampX c (vget x (cidx c))) as [u|e|b]; cbn [bind]; try (left; reflexivity).
      apply orelF_ok. apply picks_intro; [rewrite vupd_length; exact LX|rewrite vupd_length; exact LX'|].
      intros i Hi. rewrite !(vget_vupd R R_ops) by lia. rewrite <- E.
      destruct RX as [BX IX].
      repeat match goal with |- context [(?a =? ?b)%nat] => destruct (Nat.eqb_spec a b) as [?P|?P] end; try reflexivity.
      + exfalso. congruence.
      + exfalso. assert (cidx c' = i) by (apply IX; congruence). congruence.
      + apply HX. exact Hi.
  Qed.

  Definition finishR (q : QP R) (sa : ip_solver R) : outcome (ip_solver R) :=
    do x <- ofold clamp_one (qcons q) (xblk d (ip_vars sa)) ;
    let svals := map (fun c : lic R => fmax (flit lit_1em9) (fadd (fmul (la c) (vget x (cidx c))) (lb c))) (qcons q) in
    let zvals := map (fun s => fdiv f1 s) svals in
    Ok (with_vars sa (set_z d zvals (set_s d svals (set_x d x (ip_vars sa))))).

  Lemma finish_relR : forall sa sa', xyrelR sa sa' -> orelF MIS srelR (finishR p sa) (finishR p' sa').
  Proof.
    intros sa sa' [RD RD' XX YY]. unfold finishR. destruct (sR_d _ _ RD RD') as [D D'].
    pose proof (rd_vars _ _ RD) as LV. rewrite D in LV. pose proof (rd_vars _ _ RD') as LV'. rewrite D' in LV'.
    apply (orelF_bind MIS _ _ _ _ _ _ _ _ _ _ (clamp_relR _ _ cons_relR _ _ XX)). intros x x' X. apply orelF_ok.
    assert (ES : map (fun c : lic R => fmax (flit lit_1em9) (fadd (fmul (la c) (vget x' (cidx c))) (lb c))) (qcons p') =
                 map (fun c : lic R => fmax (flit lit_1em9) (fadd (fmul (la c) (vget x (cidx c))) (lb c))) (qcons p)).
    { pose proof cons_relR as F. revert F. generalize (qcons p) (qcons p'). intros cs cs' F.
      induction F as [|c c' cs cs' C F IH]; [reflexivity|]. cbn [map]. f_equal; [|exact IH].
      destruct C as (A & B & _ & _ & _ & L' & E). rewrite A, B, (proj2 (proj2 X) _ L'), E. reflexivity. }
    rewrite ES. destruct X as (LX & LX' & HX).
    set (sv := map _ (qcons p)) at 1 2 3 4.
    assert (L1 : length sv = dM d) by (unfold sv; rewrite map_length; reflexivity).
    set (zv := map (fun s => fdiv f1 s) sv).
    assert (L2 : length zv = dM d) by (unfold zv; rewrite map_length; exact L1). clearbody sv zv.
    assert (V : vrelR (set_z d zv (set_s d sv (set_x d x (ip_vars sa)))) (set_z d zv (set_s d sv (set_x d x' (ip_vars sa'))))).
    { pose proof (set_x_length d x _ LV LX) as A1. pose proof (set_x_length d x' _ LV' LX') as A1'.
      pose proof (set_s_length d sv _ A1 L1) as A2. pose proof (set_s_length d sv _ A1' L1) as A2'.
      pose proof (set_z_length d zv _ A2 L2) as A3. pose proof (set_z_length d zv _ A2' L2) as A3'.
      constructor; [exact A3|exact A3'| | | |].
      - rewrite !x_set_z, !x_set_s, !x_set_x by assumption. apply picks_intro; assumption.
      - rewrite !y_set_z, !y_set_s, !y_set_x by assumption. exact YY.
      - rewrite !s_set_z, !s_set_s by assumption. reflexivity.
      - rewrite !z_set_z by assumption. reflexivity. }
    constructor; [| |exact V].
    - pose proof (vR_l _ _ V) as LL. destruct RD. constructor; auto. cbn [with_vars ip_vars ip_dims]. rewrite D. exact LL.
    - pose proof (vR_l' _ _ V) as LL. destruct RD'. constructor; auto. cbn [with_vars ip_vars ip_dims]. rewrite D'. exact LL.
  Qed.

  Lemma guess_relR : forall params st st', ready p st -> ready p' st' ->
    p_initial_guess_method params <> USER_PROVIDED ->
    orelF MIS srelR (ComputeInitialGuess ldlt params p st) (ComputeInitialGuess ldlt' params p' st').
  Proof.
    intros params st st' RD RD' NU. unfold ComputeInitialGuess. destruct (sR_d _ _ RD RD') as [D D']. rewrite D, D'.
    set (v0 := set_y d (vzero (dK d)) (set_x d (vzero (dN d)) (ip_vars st))).
    set (v0' := set_y d (vzero (dK d)) (set_x d (vzero (dN d)) (ip_vars st'))).
    pose proof (rd_vars _ _ RD) as LV. rewrite D in LV. pose proof (rd_vars _ _ RD') as LV'. rewrite D' in LV'.
    assert (XY0 : forall x x' y y' v v' : list R, length v = tsize d -> length v' = tsize d ->
      picks (nv p) sg x x' -> picks (neq p) tau y y' ->
      length (set_y d y (set_x d x v)) = tsize d /\ length (set_y d y' (set_x d x' v')) = tsize d /\
      picks (nv p) sg (xblk d (set_y d y (set_x d x v))) (xblk d (set_y d y' (set_x d x' v'))) /\
      picks (neq p) tau (yblk d (set_y d y (set_x d x v))) (yblk d (set_y d y' (set_x d x' v')))).
    { intros x x' y y' v v' E1 E2 PX PY. assert (E3 := proj1 PX). assert (E3' := proj1 (proj2 PX)).
      assert (E4 := proj1 PY). assert (E4' := proj1 (proj2 PY)).
      pose proof (set_x_length d x _ E1 E3). pose proof (set_x_length d x' _ E2 E3').
      split; [apply set_y_length; assumption|]. split; [apply set_y_length; assumption|].
      rewrite !x_set_y, !y_set_y, !x_set_x by assumption. auto. }
    destruct (XY0 _ _ _ _ _ _ LV LV' (zero_picks (nv p) sg) (zero_picks (neq p) tau)) as (L0 & L0' & X0 & Y0).
    change (set_y d (vzero (neq p)) (set_x d (vzero (nv p)) (ip_vars st))) with v0 in *.
    change (set_y d (vzero (neq p)) (set_x d (vzero (nv p)) (ip_vars st'))) with v0' in *.
    assert (R0 : ready p (with_vars st v0)) by (destruct RD; constructor; auto; cbn [with_vars ip_vars ip_dims]; rewrite D; exact L0).
    assert (R0' : ready p' (with_vars st' v0')) by (destruct RD'; constructor; auto; cbn [with_vars ip_vars ip_dims]; rewrite D'; exact L0').
    destruct (p_initial_guess_method params) eqn:EM0; [| |congruence].
    - cbn [bind]. apply (finish_relR (with_vars st v0) (with_vars st' v0')). constructor; assumption.
    - unfold ComputeLDLT. cbn [negb orb f_assert bind].
      change (ip_dims (with_vars st v0)) with (ip_dims st). change (ip_dims (with_vars st' v0')) with (ip_dims st').
      rewrite D, D'.
      destruct (factor_rel (fun _ => 0)
                  (reduced_H false p d (sblk d (ip_vars (with_vars st v0))) (zblk d (ip_vars (with_vars st v0))))
                  (reduced_H false p' d (sblk d (ip_vars (with_vars st' v0'))) (zblk d (ip_vars (with_vars st' v0'))))) as
        [(Hi & Hi' & E1 & E2 & HH)|[[E1 E2]|[M F]]].
      { apply C08_reduced_matrix_no_inequalities; [exact W|reflexivity|reflexivity]. }
      { apply C08_reduced_matrix_no_inequalities; [exact W'|symmetry; exact r_nv|symmetry; exact r_ne]. }
      2: { rewrite E1, E2. left. reflexivity. }
      2: { right. split; [exact M|]. destruct F as [E1|E2]; [rewrite E1; left|rewrite E2; right]; reflexivity. }
      rewrite E1, E2. cbn [bind]. clear E1 E2.
      cbn [with_vars ip_p ip_vars ip_r ip_delta ip_delta_aff].
      match goal with |- context [EvaluateKKTConditions false p (MkIP (ip_p st) d v0 (ip_r st) Hi ?a ?b)] =>
        set (sb := MkIP (ip_p st) d v0 (ip_r st) Hi a b) end.
      match goal with |- context [EvaluateKKTConditions false p' (MkIP (ip_p st') d v0' (ip_r st') Hi' ?a ?b)] =>
        set (sb' := MkIP (ip_p st') d v0' (ip_r st') Hi' a b) end.
      pose proof (rd_r _ _ RD) as HR. pose proof (rd_r _ _ RD') as HR'. rewrite D in HR. rewrite D' in HR'.
      destruct (eval_false_xy p sb HR) as (R1 & R2 & R3).
      destruct (eval_false_xy p' sb' HR') as (R1' & R2' & R3').
      destruct (eval_pres false p sb) as (P1 & P2 & P3 & P4 & P5 & P6).
      destruct (eval_pres false p' sb') as (Q1 & Q2 & Q3 & Q4 & Q5 & Q6).
      change (ip_dims sb) with d in *. change (ip_dims sb') with d in *.
      change (ip_vars sb) with v0 in *. change (ip_vars sb') with v0' in *.
      assert (RX1 : picks (nv p) sg (xblk d (ip_r (EvaluateKKTConditions false p sb))) (xblk d (ip_r (EvaluateKKTConditions false p' sb')))).
      { apply picks_intro; [apply (xblk_length d _ R1)|apply (xblk_length d _ R1')|]. intros i Hi0.
        rewrite R2, R2'.
        pose proof (rd1_get p (with_vars st v0) W R0 (sg i) (proj1 RX i Hi0)) as G1.
        pose proof (rd1_get p' (with_vars st' v0') W' R0' i ltac:(rewrite r_nv; exact Hi0)) as G2. cbv zeta in G1, G2.
        change (ip_dims (with_vars st v0)) with (ip_dims st) in G1. change (ip_dims (with_vars st' v0')) with (ip_dims st') in G2.
        rewrite D in G1. rewrite D' in G2.
        change (ip_vars (with_vars st v0)) with v0 in G1. change (ip_vars (with_vars st' v0')) with v0' in G2.
        cbv zeta. rewrite G1, G2. rewrite r_nv, r_ne, (rn_c _ _ _ _ RN i Hi0). f_equal; [f_equal|].
        - apply (picks_sum (nv p) sg _ _ RX). intros j Hj. rewrite (rn_G _ _ _ _ RN i j Hi0 Hj), (proj2 (proj2 X0) j Hj). reflexivity.
        - apply (picks_sum (neq p) tau _ _ RY). intros k Hk. rewrite (rn_A _ _ _ _ RN k i Hk Hi0), (proj2 (proj2 Y0) k Hk). reflexivity. }
      assert (RY1 : picks (neq p) tau (yblk d (ip_r (EvaluateKKTConditions false p sb))) (yblk d (ip_r (EvaluateKKTConditions false p' sb')))).
      { apply picks_intro; [apply (yblk_length d _ R1)|apply (yblk_length d _ R1')|]. intros k Hk. rewrite R3, R3'.
        rewrite !(vget_mkvec R R_ops) by (cbn [d dK]; try exact Hk; apply (proj1 RY k Hk)).
        pose proof (eqR _ _ k X0 Hk) as E. unfold kkt_eq in E.
        rewrite (dot_mrowA p W (tau k) _ (proj1 RY k Hk)) by apply (proj1 X0).
        rewrite (dot_mrowA p' W' k) by (rewrite ?r_ne, ?r_nv; first [exact Hk|apply (proj1 (proj2 X0))]). exact E. }
      clear R2 R3 R2' R3'.
      set (se := EvaluateKKTConditions false p sb) in *. set (se' := EvaluateKKTConditions false p' sb') in *.
      clearbody se se'. unfold SolveForUpdateNoInequalities.
      rewrite P2, Q2, P4, Q4. change (ip_Hinv sb) with Hi. change (ip_Hinv sb') with Hi'.
      destruct (solve_relR _ _ _ _ _ _ HH RX1 RY1) as [NX NY].
      set (nx := solve_dx Hi d (xblk d (ip_r se)) (yblk d (ip_r se))) in *.
      set (ny := solve_dy Hi d (xblk d (ip_r se)) (yblk d (ip_r se))) in *.
      set (nx' := solve_dx Hi' d (xblk d (ip_r se')) (yblk d (ip_r se'))) in *.
      set (ny' := solve_dy Hi' d (xblk d (ip_r se')) (yblk d (ip_r se'))) in *.
      assert (LX : length nx = dN d) by apply QPReuse.solve_dx_length.
      assert (LY : length ny = dK d) by apply QPReuse.solve_dy_length.
      assert (LX' : length nx' = dN d) by apply QPReuse.solve_dx_length.
      assert (LY' : length ny' = dK d) by apply QPReuse.solve_dy_length.
      assert (LD : length (ip_delta se) = tsize d).
      { rewrite P5. unfold sb. cbn [ip_delta]. rewrite vzero_length. rewrite <- D. apply (rd_delta _ _ RD). }
      assert (LD' : length (ip_delta se') = tsize d).
      { rewrite Q5. unfold sb'. cbn [ip_delta]. rewrite vzero_length. rewrite <- D'. apply (rd_delta _ _ RD'). }
      clearbody nx ny nx' ny'.
      cbn [with_delta ip_delta ip_vars with_vars].
      pose proof (set_x_length d nx _ LD LX) as LD1. pose proof (set_x_length d nx' _ LD' LX') as LD1'.
      assert (B1 : xblk d (set_y d ny (set_x d nx (ip_delta se))) = nx) by (rewrite x_set_y, x_set_x by assumption; reflexivity).
      assert (B2 : yblk d (set_y d ny (set_x d nx (ip_delta se))) = ny) by (rewrite y_set_y by assumption; reflexivity).
      assert (B1' : xblk d (set_y d ny' (set_x d nx' (ip_delta se'))) = nx') by (rewrite x_set_y, x_set_x by assumption; reflexivity).
      assert (B2' : yblk d (set_y d ny' (set_x d nx' (ip_delta se'))) = ny') by (rewrite y_set_y by assumption; reflexivity).
      rewrite B1, B2, B1', B2'. rewrite P3, Q3.
      destruct (XY0 nx nx' ny ny' v0 v0' L0 L0' NX NY) as (L3 & L3' & X3 & Y3).
      apply (finish_relR (with_vars (with_delta se (set_y d ny (set_x d nx (ip_delta se)))) (set_y d ny (set_x d nx v0)))
               (with_vars (with_delta se' (set_y d ny' (set_x d nx' (ip_delta se')))) (set_y d ny' (set_x d nx' v0')))).
      constructor; [| |exact X3|exact Y3].
      + destruct RD. constructor; cbn [with_vars with_delta ip_p ip_dims ip_vars ip_r ip_delta ip_delta_aff]; rewrite ?P1, ?P2; auto.
        * apply set_y_length; assumption.
        * rewrite P6. unfold sb. cbn [ip_delta_aff]. rewrite vzero_length, <- D. exact rd_aff.
      + destruct RD'. constructor; cbn [with_vars with_delta ip_p ip_dims ip_vars ip_r ip_delta ip_delta_aff]; rewrite ?Q1, ?Q2; auto.
        * rewrite <- D'. exact rd_dims.
        * apply set_y_length; assumption.
        * rewrite Q6. unfold sb'. cbn [ip_delta_aff]. rewrite vzero_length, <- D'. exact rd_aff.
  Qed.

  (** *** Solve *)
  Lemma IP_solve_relR : forall params st st', ready p st -> ready p' st' ->
    (p_initial_guess_method params = USER_PROVIDED -> vrelR (ip_vars st) (ip_vars st')) ->
    orelF MIS (fun a a' => snd a = snd a' /\ srelR (fst a) (fst a')) (IP_Solve ldlt params st) (IP_Solve ldlt' params st').
  Proof.
    intros params st st' RD RD' HG. unfold IP_Solve. rewrite (rd_p _ _ RD), (rd_p _ _ RD').
    destruct (IP_CheckParams params) as [[]|e|b]; cbn [bind]; try (left; reflexivity).
    assert (U : forall q s, ready q s -> (dN (ip_dims s) + dM (ip_dims s) + dK (ip_dims s) <=? length (ip_vars s))%nat = true).
    { intros q s H. rewrite (rd_vars _ _ H). apply Nat.leb_le. unfold tsize. lia. }
    rewrite (U _ _ RD), (U _ _ RD'). cbn [ub_unless bind].
    assert (GR : orelF MIS srelR (ComputeInitialGuess ldlt params p st) (ComputeInitialGuess ldlt' params p' st')).
    { destruct (p_initial_guess_method params) eqn:EU.
      1,2: apply guess_relR; [assumption|assumption|congruence].
      unfold ComputeInitialGuess. rewrite EU. apply orelF_ok. constructor; auto. }
    apply (orelF_bind MIS _ _ _ _ _ _ _ _ _ _ GR). intros a a' S.
    assert (N1 : forall q, wf_qp q -> forallb (fun c : lic R => (0 <=? lvar c)%Z) (qcons q) = true).
    { intros q Wq. apply forallb_forall. intros c Hc. apply Z.leb_le. apply (wf_idx q Wq c Hc). }
    rewrite (N1 p W), (N1 p' W'). cbn [ub_unless bind].
    destruct (eval_relR _ _ S) as [ER ES]. rewrite (mu_relR _ _ ES).
    apply loop_relR; assumption.
  Qed.
End Relabel.

(** ** The theorems *)

(** What the caller can read off the solver after a Solve of the renumbered problem, compared with the original one. *)
Definition same_up_to_numbering (sg tau : nat -> nat) (p : QP R) (s s' : ip_solver R) : Prop :=
  picks (nv p) sg (x_block s) (x_block s') /\ picks (neq p) tau (y_block s) (y_block s') /\
  s_block s' = s_block s /\ z_block s' = z_block s.

Section Final.
  Variables p p' : QP R.
  Variables sg tau : nat -> nat.
  Variables ldlt ldlt' : mat R -> option (mat R).
  Hypothesis RN : renumbered sg tau p p'.
  Hypothesis NN : forall c, In c (qcons p) -> (0 <= lvar c)%Z.
  Hypothesis NN' : forall c, In c (qcons p') -> (0 <= lvar c)%Z.
  Hypothesis EX : ldlt_exact (nv p + neq p) ldlt.
  Hypothesis EX' : ldlt_exact (nv p + neq p) ldlt'.

  Lemma relabel_final : forall MIS params g g' st st' v v',
    success_ignores_numbering (nv p + neq p) ldlt ldlt' \/ MIS ->
    Setup g (Some p) = Ok st -> Setup g' (Some p') = Ok st' ->
    length v = (nv p + 2 * nineq p + neq p)%nat -> length v' = length v ->
    (p_initial_guess_method params = USER_PROVIDED ->
       same_up_to_numbering sg tau p (SetVariables st v) (SetVariables st' v')) ->
    orelF MIS (fun a a' => snd a' = snd a /\ same_up_to_numbering sg tau p (fst a) (fst a'))
      (IP_Solve ldlt params (SetVariables st v)) (IP_Solve ldlt' params (SetVariables st' v')).
  Proof.
    intros MIS params g g' st st' v v' HM ES ES' LV LV' HU.
    destruct (setup_ready g p st ES NN) as [W RD]. destruct (setup_ready g' p' st' ES' NN') as [W' RD'].
    assert (RDv : ready p (SetVariables st v)).
    { destruct RD. constructor; auto. cbn [SetVariables with_vars ip_vars ip_dims]. rewrite rd_dims, LV. unfold tsize. cbn [dN dM dK]. lia. }
    assert (RDv' : ready p' (SetVariables st' v')).
    { destruct RD'. constructor; auto. cbn [SetVariables with_vars ip_vars ip_dims].
      rewrite rd_dims, LV', LV, (rn_nv _ _ _ _ RN), (rn_neq _ _ _ _ RN), (rn_nineq _ _ _ _ RN). unfold tsize. cbn [dN dM dK]. lia. }
    pose proof (IP_solve_relR p p' sg tau W W' RN ldlt ldlt' EX EX' MIS HM params _ _ RDv RDv') as S.
    apply (orelF_impl MIS _ _ (fun a a' => snd a = snd a' /\ srelR p p' sg tau (fst a) (fst a'))).
    - intros [s o] [s' o']. cbn [fst snd]. intros [EO [R1 R1' [l l' vx vy vs vz]]].
      destruct (sR_d p p' sg tau RN _ _ R1 R1') as [D D'].
      split; [congruence|]. unfold same_up_to_numbering, x_block, y_block, s_block, z_block. rewrite D, D'. auto.
    - apply S. intro EU. destruct (HU EU) as (A & B & C & E).
      destruct (sR_d p p' sg tau RN _ _ RDv RDv') as [D D'].
      unfold x_block, y_block, s_block, z_block in A, B, C, E. rewrite D, D' in A, B, C, E.
      constructor; auto.
      + pose proof (rd_vars _ _ RDv) as L. rewrite D in L. exact L.
      + pose proof (rd_vars _ _ RDv') as L. rewrite D' in L. exact L.
  Qed.
End Final.

(** C78. [p'] is [p] with variables and equality constraints renumbered. If the factorisations are exact when they succeed,
    and their success does not depend on the numbering, then the two Solves fail with the same error or return the same
    outputs (iteration log, termination state, multiplier summary), the same slacks and inequality multipliers, and x and y
    up to the renumbering. The variables [v], [v'] set by the caller matter only to USER_PROVIDED; then they have to be
    renumbered as well. *)
Theorem C78_numbering_irrelevant : forall ldlt ldlt' params sg tau p p' g g' st st' v v',
  renumbered sg tau p p' ->
  (forall c, In c (qcons p) -> (0 <= lvar c)%Z) -> (forall c, In c (qcons p') -> (0 <= lvar c)%Z) ->
  ldlt_exact (nv p + neq p) ldlt -> ldlt_exact (nv p + neq p) ldlt' ->
  success_ignores_numbering (nv p + neq p) ldlt ldlt' ->
  Setup g (Some p) = Ok st -> Setup g' (Some p') = Ok st' ->
  length v = (nv p + 2 * nineq p + neq p)%nat -> length v' = length v ->
  (p_initial_guess_method params = USER_PROVIDED ->
     same_up_to_numbering sg tau p (SetVariables st v) (SetVariables st' v')) ->
  match IP_Solve ldlt params (SetVariables st v), IP_Solve ldlt' params (SetVariables st' v') with
  | Ok (s, o), Ok (s', o') => o' = o /\ same_up_to_numbering sg tau p s s'
  | Throw e, Throw e' => e = e'
  | UB m, UB m' => m = m'
  | _, _ => False
  end.
Proof.
  intros ldlt ldlt' params sg tau p p' g g' st st' v v' RN NN NN' EX EX' SU ES ES' LV LV' HU.
  destruct (relabel_final p p' sg tau ldlt ldlt' RN NN NN' EX EX' False params g g' st st' v v' (or_introl SU) ES ES' LV LV' HU)
    as [S|[[] _]].
  destruct (IP_Solve ldlt params (SetVariables st v)) as [[s o]|e|b];
    destruct (IP_Solve ldlt' params (SetVariables st' v')) as [[s' o']|e'|b']; exact S.
Qed.

(** C78, nothing assumed about when the factorisations fail: whenever neither Solve reports a failed factorisation, the
    results agree. In particular if both return. *)
Theorem C78_numbering_irrelevant_when_factorised : forall ldlt ldlt' params sg tau p p' g g' st st' v v',
  renumbered sg tau p p' ->
  (forall c, In c (qcons p) -> (0 <= lvar c)%Z) -> (forall c, In c (qcons p') -> (0 <= lvar c)%Z) ->
  ldlt_exact (nv p + neq p) ldlt -> ldlt_exact (nv p + neq p) ldlt' ->
  Setup g (Some p) = Ok st -> Setup g' (Some p') = Ok st' ->
  length v = (nv p + 2 * nineq p + neq p)%nat -> length v' = length v ->
  (p_initial_guess_method params = USER_PROVIDED ->
     same_up_to_numbering sg tau p (SetVariables st v) (SetVariables st' v')) ->
  IP_Solve ldlt params (SetVariables st v) <> Throw FailedFactorization ->
  IP_Solve ldlt' params (SetVariables st' v') <> Throw FailedFactorization ->
  match IP_Solve ldlt params (SetVariables st v), IP_Solve ldlt' params (SetVariables st' v') with
  | Ok (s, o), Ok (s', o') => o' = o /\ same_up_to_numbering sg tau p s s'
  | Throw e, Throw e' => e = e'
  | UB m, UB m' => m = m'
  | _, _ => False
  end.
Proof.
  intros ldlt ldlt' params sg tau p p' g g' st st' v v' RN NN NN' EX EX' ES ES' LV LV' HU N1 N2.
  destruct (relabel_final p p' sg tau ldlt ldlt' RN NN NN' EX EX' True params g g' st st' v v' (or_intror I) ES ES' LV LV' HU)
    as [S|[_ [S|S]]]; [|contradiction|contradiction].
  destruct (IP_Solve ldlt params (SetVariables st v)) as [[s o]|e|b];
    destruct (IP_Solve ldlt' params (SetVariables st' v')) as [[s' o']|e'|b']; exact S.
Qed.

Lemma renumbered_refl : forall p : QP R, renumbered (fun i => i) (fun k => k) p p.
Proof. intro p. constructor; auto; split; auto. Qed.

Lemma picks_id : forall n u u', picks n (fun i => i) u u' -> u' = u.
Proof. intros n u u' (L & L' & H). apply vec_eq; [congruence|]. intros i Hi. apply H. lia. Qed.

(** C78, consequence: which exact factorisation is used is irrelevant (pivoting order, for instance, leaves no trace in the
    result): two Solves of the same problem with different exact factorisations that both return agree on everything. *)
Theorem C78_factorisation_irrelevant : forall ldlt ldlt' params p g g' st st' v s o s' o',
  (forall c, In c (qcons p) -> (0 <= lvar c)%Z) ->
  ldlt_exact (nv p + neq p) ldlt -> ldlt_exact (nv p + neq p) ldlt' ->
  Setup g (Some p) = Ok st -> Setup g' (Some p) = Ok st' -> length v = (nv p + 2 * nineq p + neq p)%nat ->
  IP_Solve ldlt params (SetVariables st v) = Ok (s, o) -> IP_Solve ldlt' params (SetVariables st' v) = Ok (s', o') ->
  o' = o /\ x_block s' = x_block s /\ y_block s' = y_block s /\ s_block s' = s_block s /\ z_block s' = z_block s.
Proof.
  intros ldlt ldlt' params p g g' st st' v s o s' o' NN EX EX' ES ES' LV H H'.
  pose proof (C78_numbering_irrelevant_when_factorised ldlt ldlt' params (fun i => i) (fun k => k) p p g g' st st' v v
    (renumbered_refl p) NN NN EX EX' ES ES' LV eq_refl) as T. rewrite H, H' in T.
  destruct T as (EO & A & B & C & D); [|discriminate|discriminate|].
  - intros _. destruct (setup_ready g p st ES NN) as [W RD]. destruct (setup_ready g' p st' ES' NN) as [_ RD'].
    assert (ED : ip_dims st' = ip_dims st) by (rewrite (rd_dims _ _ RD), (rd_dims _ _ RD'); reflexivity).
    assert (L : length v = tsize (ip_dims st)) by (rewrite (rd_dims _ _ RD), LV; unfold tsize; cbn [dN dM dK]; lia).
    pose proof (xblk_length _ _ L) as LX. pose proof (yblk_length _ _ L) as LY. rewrite (dN_nv p st RD) in LX. rewrite (dK_ne p st RD) in LY.
    unfold same_up_to_numbering, x_block, y_block, s_block, z_block, SetVariables, with_vars. cbn [ip_dims ip_vars].
    rewrite ED. splits; auto; split; auto.
  - splits; auto; [apply (picks_id _ _ _ A)|apply (picks_id _ _ _ B)].
Qed.
