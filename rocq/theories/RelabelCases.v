(** C78: a factorisation that fails only on singular matrices fails independently of the numbering, and a concrete problem. *)
From Coq Require Import String List Bool Arith ZArith QArith Reals Lra Lia FinFun.
From Verif Require Import Scalar Outcome LinAlg Structs Constraint QPModel RInst Spec
  Props_Constraint QPBlocks QPAlgebra QPNewton QPAlpha QPStep QPTrace QPInit QPSolve QPIter QPReuse QPPerm QPRelabel QPRegular
  NLSBox Examples CasesQP.
Import ListNotations.
Local Open Scope outcome_scope.
Local Open Scope string_scope.
Local Open Scope list_scope.
Local Open Scope R_scope.

Lemma renumbered_matrix_sym : forall n H H', renumbered_matrix n H H' -> renumbered_matrix n H' H.
Proof.
  intros n H H' (A & B & C & D & f & RF & E). destruct (renumbering_inverse n f RF) as (g & RG & FG & GF).
  unfold renumbered_matrix. splits; auto. exists g. split; [exact RG|]. intros i j Hi Hj.
  rewrite E by (apply RG; assumption). rewrite !FG by assumption. reflexivity.
Qed.

Lemma inverse_nonsingular : forall n H Hi, sym_right_inverse n H Hi -> forall u : nat -> R,
  (forall i, (i < n)%nat -> Rsum n (fun j => sget H i j * u j) = 0) -> forall i, (i < n)%nat -> u i = 0.
Proof.
  intros n H Hi INV u Z i Hin.
  transitivity (Rsum n (fun k => Rsum n (fun j => mget Hi j i * sget H j k * u k))).
  - rewrite <- (Rsum_pick n i u Hin). apply Rsum_ext. intros k Hk.
    rewrite (Rsum_scal_r n (u k) (fun j => mget Hi j i * sget H j k)). f_equal.
    rewrite (Nat.eqb_sym i k), <- (INV k i Hk Hin). apply Rsum_ext. intros j _. rewrite (sget_sym H k j). ring.
  - rewrite Rsum_swap. apply Rsum_0. intros j Hj.
    rewrite (Rsum_ext n _ (fun k => mget Hi j i * (sget H j k * u k))) by (intros; ring).
    rewrite Rsum_scal_l, (Z j Hj). ring.
Qed.

(** Exact when it succeeds and failing only on singular matrices: then failure is independent of the numbering. *)
Theorem C78_singular_failure_ignores_numbering : forall n ldlt ldlt',
  ldlt_exact n ldlt -> ldlt_exact n ldlt' -> fails_only_if_singular ldlt -> fails_only_if_singular ldlt' ->
  success_ignores_numbering n ldlt ldlt'.
Proof.
  assert (K : forall n ldlt ldlt' H H', ldlt_exact n ldlt' -> fails_only_if_singular ldlt ->
    renumbered_matrix n H H' -> ldlt H = None -> ldlt' H' = None).
  { intros n ldlt ldlt' H H' EX' FS (A & B & C & D & f & [BF IF] & E) N.
    destruct (ldlt' H') as [Hi|] eqn:L; [exfalso|reflexivity].
    pose proof (EX' H' Hi C D L) as INV. destruct (renumbering_inverse n f (conj BF IF)) as (g & [BG _] & FG & _).
    apply (FS H n A B N). intros u Z i Hin.
    rewrite <- (FG i Hin). change (u (f (g i))) with ((fun k => u (f k)) (g i)).
    apply (inverse_nonsingular n H' Hi INV (fun k => u (f k))); [|apply BG; exact Hin].
    intros a Ha. rewrite <- (Z (f a) (BF a Ha)).
    rewrite <- (Rsum_reindex n f (fun j => sget H (f a) j * u j) BF IF). apply Rsum_ext. intros j Hj. rewrite (E a j Ha Hj). reflexivity. }
  intros n ldlt ldlt' EX EX' FS FS' H H' RM. split.
  - apply (K n ldlt ldlt' H H' EX' FS RM).
  - apply (K n ldlt' ldlt H' H EX FS' (renumbered_matrix_sym n H H' RM)).
Qed.

(** ** A problem with two variables, coupled by G, and an inequality on the first one; the same problem with the variables
    exchanged. *)
Definition ren_a : QP R := MkQP (Mat 2 2 [[2; 0]; [1; 3]]) [-1; 4] (Mat 0 2 []) [] [LIC 0%Z 1 (-1)].
Definition ren_b : QP R := MkQP (Mat 2 2 [[3; 0]; [1; 2]]) [4; -1] (Mat 0 2 []) [] [LIC 1%Z 1 (-1)].
Definition exchange (i : nat) : nat := (1 - i)%nat.

Lemma ren_renumbered : renumbered exchange (fun k => k) ren_a ren_b.
Proof.
  constructor; try reflexivity.
  - change (nv ren_a) with 2%nat. split; unfold exchange; intros; lia.
  - split; auto.
  - unfold nv, Gs, mget, exchange. cbn [ren_a ren_b qc qG mdata length]. intros i j Hi Hj.
    destruct i as [|[|i]]; [| |lia]; (destruct j as [|[|j]]; [| |lia]); reflexivity.
  - unfold nv, exchange. cbn [ren_a ren_b qc length]. intros i Hi. destruct i as [|[|i]]; [| |lia]; reflexivity.
  - unfold neq. cbn. lia.
  - unfold nineq. cbn [ren_a qcons length]. intros m Hm. destruct m as [|m]; [|lia]. splits; reflexivity.
Qed.

Lemma ldlt2_factors_ren : ~ bad_factorization ldlt2 ren_a.
Proof.
  intros (w & H & HW & RK & EL). destruct RK as (R1 & R2 & RX & _). unfold ldlt2 in EL. rewrite R1 in EL. cbn [nv neq ren_a qc qb length Nat.add Nat.eqb andb] in EL.
  destruct (Reqb_spec (det2 H) 0) as [Z|Z]; [|discriminate]. unfold det2 in Z.
  rewrite (RX 0%nat 0%nat), (RX 1%nat 1%nat), (RX 1%nat 0%nat) in Z by (unfold nv; simpl; lia).
  specialize (HW 0%nat ltac:(unfold nineq; simpl; lia)).
  unfold Gs, nineq, cv, ca, con in Z. cbn in Z. unfold mget in Z. cbn in Z. lra.
Qed.

(** Every strategy and both built-in guesses, every tolerance and number of iterations: both Solves return, and the first
    entry of the one answer is the second entry of the other. *)
Example C78_case : forall tol n strat guess g g' st st', 0 < tol -> (0 < n)%Z -> guess <> USER_PROVIDED ->
  Setup g (Some ren_a) = Ok st -> Setup g' (Some ren_b) = Ok st' ->
  exists s s' o, IP_Solve ldlt2 (ex_ip_params tol n strat guess) st = Ok (s, o) /\
    IP_Solve ldlt2 (ex_ip_params tol n strat guess) st' = Ok (s', o) /\
    vget (x_block s') 0 = vget (x_block s) 1 /\ vget (x_block s') 1 = vget (x_block s) 0 /\
    s_block s' = s_block s /\ z_block s' = z_block s.
Proof.
  intros tol n strat guess g g' st st' HT HN NU ES ES'.
  assert (NN : forall c, In c (qcons ren_a) -> (0 <= lvar c)%Z) by (intros c [<-|[]]; cbn; lia).
  assert (NN' : forall c, In c (qcons ren_b) -> (0 <= lvar c)%Z) by (intros c [<-|[]]; cbn; lia).
  destruct (setup_ready g ren_a st ES NN) as [W RD]. destruct (setup_ready g' ren_b st' ES' NN') as [W' RD'].
  destruct (C06_only_factorization_fails ldlt2 (ex_ip_params tol n strat guess) ren_a st W RD
              (ex_ip_params_valid tol n strat guess HT HN)) as [(s & o & E)|[_ B]].
  - left. split; [exact NU|]. intros c [<-|[]]. cbn. lra.
  - assert (LV : length (ip_vars st) = (nv ren_a + 2 * nineq ren_a + neq ren_a)%nat)
      by (rewrite (rd_vars _ _ RD), (rd_dims _ _ RD); reflexivity).
    assert (LV' : length (ip_vars st') = length (ip_vars st))
      by (rewrite (rd_vars _ _ RD'), (rd_dims _ _ RD'), LV; reflexivity).
    pose proof (C78_numbering_irrelevant ldlt2 ldlt2 (ex_ip_params tol n strat guess) exchange (fun k => k) ren_a ren_b g g' st st'
      (ip_vars st) (ip_vars st') ren_renumbered NN NN' ldlt2_inverse ldlt2_inverse
      (C78_singular_failure_ignores_numbering 2 ldlt2 ldlt2 ldlt2_inverse ldlt2_inverse ldlt2_singular ldlt2_singular)
      ES ES' LV LV') as T.
    replace (SetVariables st (ip_vars st)) with st in T by (destruct st; reflexivity).
    replace (SetVariables st' (ip_vars st')) with st' in T by (destruct st'; reflexivity).
    rewrite E in T. specialize (T ltac:(intro C; contradiction)).
    destruct (IP_Solve ldlt2 (ex_ip_params tol n strat guess) st') as [[s' o']|e|b]; try contradiction.
    destruct T as (-> & (_ & _ & X) & _ & S & Z). exists s, s', o. splits; auto.
    + apply (X 0%nat). unfold nv. cbn. lia.
    + apply (X 1%nat). unfold nv. cbn. lia.
  - destruct (ldlt2_factors_ren B).
Qed.
