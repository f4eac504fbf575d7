(** C79: factorisations that fail only when they must fail alike, and concrete problems with their variables exchanged. *)
From Coq Require Import String List Bool Arith ZArith QArith Reals Lra Lia Permutation.
From Verif Require Import Scalar Outcome LinAlg Structs Constraint QPModel NullSpace Residual Nonlinear RInst Spec
  Props_Constraint QPBlocks QPAlgebra QPNewton QPAlpha QPStep QPTrace QPInit QPSolve QPPerm QPRelabel NSProps NSRelabel
  ResProps LinProps MeritProps Penalty NLSTotal NLSSame NLSRelabel QPRegular NLSBox Examples Examples2 RelabelCases.
Import ListNotations.
Local Open Scope outcome_scope.
Local Open Scope string_scope.
Local Open Scope list_scope.
Local Open Scope R_scope.

(** C79: an LDLT that fails only on singular matrices and a QR that reports the exact rank meet [fail_alike]. *)
Theorem C79_exact_factorisations_fail_alike : forall ldlt ldlt' qr qr' llt llt' sg pr pr',
  renumbered_problem sg pr pr' -> indices_ok pr' -> exact_for ldlt qr llt pr -> exact_for ldlt' qr' llt' pr' ->
  fails_only_if_singular ldlt -> fails_only_if_singular ldlt' -> ranks_exact qr pr -> ranks_exact qr' pr' ->
  fail_alike ldlt ldlt' qr qr' pr pr'.
Proof.
  intros ldlt ldlt' qr qr' llt llt' sg pr pr' RP IO' [E _] [E' _] FS FS' RK RK'.
  destruct (renumbered_problem_model sg pr pr' IO' RP) as [tau RM].
  split; [|intros _ _; split; assumption]. intro H. apply C78_singular_failure_ignores_numbering; auto.
  assert (H' : pr_ineq pr' <> [] \/ pr_eq pr' = []).
  { destruct H as [H|H]; [left|right; apply (rm_eq _ _ _ _ RM); exact H]. pose proof (Forall2_len _ _ _ _ _ (rm_ineq _ _ _ _ RM)) as L.
    intro N. rewrite N in L. destruct (pr_ineq pr); [apply H; reflexivity|discriminate]. }
  specialize (E' H'). unfold pdim in E'. rewrite (rm_dim _ _ _ _ RM), (rm_rows _ _ _ _ RM) in E'. exact E'.
Qed.

(** ** The problems of Examples.v with their two variables exchanged *)
Definition ros_x : residual R := MkRes 2 [1; 0]%Z ros_f (fun p => (ros_f p, ros_J p)).
Definition fix1 : residual R := MkRes 1 [1]%Z (fun p => [vget p 0 - 1]) (fun p => ([vget p 0 - 1], Mat 1 1 [[1]])).
Definition ex_ip_x : Problem R := MkProblem 2%Z [ros_x] [Var_le 1%Z 2; Var_ge 0%Z (-1)] [].
Definition ex_ns_x : Problem R := MkProblem 2%Z [ros_x] [] [fix1].
Definition qr_x (_ : mat R) : QRResult R := {|
  qrQ := Mat 2 2 [[0; 1]; [1; 0]]; qrR := Mat 2 1 [[1]; [0]]; qrPerm := [0%nat]; qrRank := 1 |}.

Lemma exchange_ok : renumbering 2 exchange.
Proof. split; unfold exchange; intros; lia. Qed.
Lemma ros_renumbered : renumbered_residual exchange ros ros_x.
Proof. constructor; try reflexivity. repeat constructor. Qed.
Lemma fix_renumbered : renumbered_residual exchange fix0 fix1.
Proof. constructor; try reflexivity. repeat constructor. Qed.
Lemma ex_ip_renumbered : renumbered_problem exchange ex_ip ex_ip_x.
Proof.
  constructor; [reflexivity|exact exchange_ok| | |].
  - exists [ros]. split; [apply Permutation_refl|]. repeat constructor; exact ros_renumbered.
  - exists []. split; constructor.
  - repeat constructor.
Qed.
Lemma ex_ns_renumbered : renumbered_problem exchange ex_ns ex_ns_x.
Proof.
  constructor; [reflexivity|exact exchange_ok| | |constructor].
  - exists [ros]. split; [apply Permutation_refl|]. constructor; [exact ros_renumbered|constructor].
  - exists [fix0]. split; [apply Permutation_refl|]. constructor; [exact fix_renumbered|constructor].
Qed.

Lemma ros_x_nodup : NoDup (res_index ros_x).
Proof. cbn. constructor; [intros [E|[]]; discriminate|constructor; [intros []|constructor]]. Qed.
Lemma ex_indices : indices_ok ex_ip /\ indices_ok ex_ns.
Proof.
  split; constructor; try (cbn; lia).
  - exact ex_ip_distinct.
  - intros r [[<-|[]]|[]] i Hi. exact (ros_index i Hi).
  - intros c [<-|[<-|[]]]; cbn; lia.
  - exact ex_ns_distinct.
  - intros r [[<-|[]]|[<-|[]]] i Hi; [exact (ros_index i Hi)|]. destruct Hi as [<-|[]]. cbn. lia.
Qed.
Lemma ex_indices_x : indices_ok ex_ip_x /\ indices_ok ex_ns_x.
Proof.
  assert (RI : forall i, In i (res_index ros_x) -> (0 <= i < 2)%Z) by (intros i [<-|[<-|[]]]; lia).
  split; constructor; try (cbn; lia).
  - split; [intros r [<-|[]]; exact ros_x_nodup|intros r []].
  - intros r [[<-|[]]|[]] i Hi. exact (RI i Hi).
  - intros c [<-|[<-|[]]]; cbn; lia.
  - split; intros r [<-|[]]; [exact ros_x_nodup|]. constructor; [intros []|constructor].
  - intros r [[<-|[]]|[<-|[]]] i Hi; [exact (RI i Hi)|]. destruct Hi as [<-|[]]. cbn. lia.
Qed.

Lemma qr_x_ok : qr_ok (Mat 1 2 [[0; 1]]) (qr_x (Mat 1 2 [[0; 1]])).
Proof.
  constructor; simpl.
  - intros a b Ha Hb. destruct a as [|[|a]]; try lia; destruct b as [|[|b]]; try lia; unfold mget, kd; simpl; lra.
  - intros a b Ha Hb. destruct a as [|[|a]]; try lia; destruct b as [|[|b]]; try lia; unfold mget, kd; simpl; lra.
  - intros i j Hi Hji Hj. destruct j as [|j]; try lia. destruct i as [|[|i]]; try lia. reflexivity.
  - reflexivity.
  - intros j Hj. destruct j; simpl; lia.
  - intros r Hr. exists 0%nat. split; [lia|]. simpl. lia.
  - intros j i Hj Hi. destruct j as [|j]; try lia. destruct i as [|[|i]]; try lia; unfold mget; simpl; lra.
  - lia.
  - intros j Hj. destruct j as [|j]; try lia. unfold mget; simpl. lra.
Qed.

Lemma ex_ns_x_exact : null_space_exact qr_x ns_ex_llt ex_ns_x.
Proof.
  intros v lambda errs qp HL.
  assert (EA : qA qp = Mat 1 2 [[0; 1]]).
  { unfold LinearizeAndFillQP in HL. inv_bind HL. destruct a as [[? ?] ?]. inv_bind HL. destruct a as [[rows ?] ?]. inv_bind HL.
    apply Ok_inj in HL. apply pair_inj in HL. destruct HL as [_ <-]. cbn [qA].
    change (total_eq_size ex_ns_x) with 1%nat. change (pdim ex_ns_x) with 2%nat. f_equal.
    match goal with X : linearize_eq _ _ = _ |- _ => rename X into HE end.
    clear - HE. unfold linearize_eq in HE. cbn [pr_eq ex_ns_x ofold] in HE.
    apply bind_ok_inv in HE. destruct HE as (acc & HE & HO). apply Ok_inj in HO.
    apply bind_ok_inv in HE. destruct HE as (? & _ & HE).
    apply bind_ok_inv in HE. destruct HE as ([J br] & HJ & HE). apply Ok_inj in HE. rewrite HO in HE. inj_pairs HE.
    match goal with X : _ = rows |- _ => rewrite <- X end. cbn [app].
    unfold UpdateJacobian in HJ. apply bind_ok_inv in HJ. destruct HJ as (p & _ & HJ).
    apply bind_ok_inv in HJ. destruct HJ as (Jo & HJ & HP). apply Ok_inj in HP. apply pair_inj in HP. destruct HP as [<- _].
    cbn [res_index fix1 length seq ofold] in HJ. apply bind_ok_inv in HJ. destruct HJ as (J1 & HJ & HO'). apply Ok_inj in HO'.
    apply bind_ok_inv in HJ. destruct HJ as (? & _ & HJ). apply Ok_inj in HJ. rewrite <- HO', <- HJ.
    reflexivity. }
  rewrite EA. split; [exact qr_x_ok|]. apply ns_ex_llt_ok. reflexivity.
Qed.

Lemma one_row_ranks : forall qr pr, total_eq_size pr = 1%nat -> (forall A, qrRank (qr A) = 1%nat) -> ranks_exact qr pr.
Proof.
  intros qr pr T Q v lambda errs qp HL _. rewrite Q. unfold LinearizeAndFillQP in HL.
  do 3 (inv_bind HL; try destruct a as [[? ?] ?]; try destruct a0 as [[? ?] ?]).
  apply Ok_inj in HL. apply pair_inj in HL. destruct HL as [_ <-]. symmetry. exact T.
Qed.

(** From every starting point, with every callback: with inequality constraints (interior point method) and with an equality
    constraint (null space method, a different QR factorisation for each), the two Solves return the same outputs, and the
    first variable of the one result is the second of the other. *)
Example C79_case : forall (S : Type) (cb : option (S -> NLSIteration R -> S * bool)) eigs g g' a b cs,
  (exists r r', NLS_Solve ldlt2 ns_ex_qr ns_ex_llt eigs None cb default_NLSParams ex_ip g [a; b] cs = Ok r /\
    NLS_Solve ldlt2 ns_ex_qr ns_ex_llt eigs None cb default_NLSParams ex_ip_x g' [b; a] cs = Ok r' /\
    res_out r' = res_out r /\ vget (res_vars r') 0 = vget (res_vars r) 1 /\ vget (res_vars r') 1 = vget (res_vars r) 0) /\
  (exists r r', NLS_Solve ldlt2 ns_ex_qr ns_ex_llt eigs None cb default_NLSParams ex_ns g [a; b] cs = Ok r /\
    NLS_Solve ldlt2 qr_x ns_ex_llt eigs None cb default_NLSParams ex_ns_x g' [b; a] cs = Ok r' /\
    res_out r' = res_out r /\ vget (res_vars r') 0 = vget (res_vars r) 1 /\ vget (res_vars r') 1 = vget (res_vars r) 0).
Proof.
  intros S cb eigs g g' a b cs.
  assert (PV : picks 2 exchange [a; b] [b; a]).
  { unfold picks. split; [reflexivity|]. split; [reflexivity|]. intros i Hi. destruct i as [|[|i]]; [reflexivity|reflexivity|lia]. }
  destruct ex_indices as [II IN]. destruct ex_indices_x as [II' IN'].
  assert (EI : exact_for ldlt2 ns_ex_qr ns_ex_llt ex_ip) by (split; [intros _; exact ldlt2_inverse|intro E; discriminate]).
  assert (EI' : exact_for ldlt2 ns_ex_qr ns_ex_llt ex_ip_x) by (split; [intros _; exact ldlt2_inverse|intro E; discriminate]).
  assert (EN : exact_for ldlt2 ns_ex_qr ns_ex_llt ex_ns) by (split; [intros [E|E]; [destruct (E eq_refl)|discriminate]|intros _ _; exact ex_ns_exact]).
  assert (EN' : exact_for ldlt2 qr_x ns_ex_llt ex_ns_x) by (split; [intros [E|E]; [destruct (E eq_refl)|discriminate]|intros _ _; exact ex_ns_x_exact]).
  split.
  - destruct (ex_ip_solved cb eigs g [a; b] cs eq_refl) as [r E]. exists r.
    assert (FA : fail_alike ldlt2 ldlt2 ns_ex_qr ns_ex_qr ex_ip ex_ip_x).
    { split; [intros _|intro F; discriminate].
      exact (C78_singular_failure_ignores_numbering 2 ldlt2 ldlt2 ldlt2_inverse ldlt2_inverse ldlt2_singular ldlt2_singular). }
    pose proof (C79_numbering_irrelevant ldlt2 ldlt2 ns_ex_qr ns_ex_qr ns_ex_llt ns_ex_llt eigs eigs None None S cb exchange ex_ip ex_ip_x
      default_NLSParams g g' [a; b] [b; a] cs ex_ip_renumbered II II' EI EI' FA I (or_introl eq_refl) PV) as T.
    rewrite E in T.
    destruct (NLS_Solve ldlt2 ns_ex_qr ns_ex_llt eigs None cb default_NLSParams ex_ip_x g' [b; a] cs) as [r'|e|m]; try contradiction.
    exists r'. destruct T as (A & (_ & _ & X) & _). splits; auto; [apply (X 0%nat)|apply (X 1%nat)]; change (pdim ex_ip) with 2%nat; lia.
  - destruct (ex_ns_solved cb eigs g [a; b] cs eq_refl) as [r E]. exists r.
    assert (FA : fail_alike ldlt2 ldlt2 ns_ex_qr qr_x ex_ns ex_ns_x).
    { apply (C79_exact_factorisations_fail_alike _ _ _ _ _ _ exchange _ _ ex_ns_renumbered IN' EN EN' ldlt2_singular ldlt2_singular);
        apply one_row_ranks; reflexivity. }
    pose proof (C79_numbering_irrelevant ldlt2 ldlt2 ns_ex_qr qr_x ns_ex_llt ns_ex_llt eigs eigs None None S cb exchange ex_ns ex_ns_x
      default_NLSParams g g' [a; b] [b; a] cs ex_ns_renumbered IN IN' EN EN' FA I (or_introl eq_refl) PV) as T.
    rewrite E in T.
    destruct (NLS_Solve ldlt2 qr_x ns_ex_llt eigs None cb default_NLSParams ex_ns_x g' [b; a] cs) as [r'|e|m]; try contradiction.
    exists r'. destruct T as (A & (_ & _ & X) & _). splits; auto; [apply (X 0%nat)|apply (X 1%nat)]; change (pdim ex_ns) with 2%nat; lia.
Qed.
