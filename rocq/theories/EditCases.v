(** Concrete cases for C77 and for C59 across edits of the problem (NLSEdit.v, NLSHistory.v). *)
From Coq Require Import String List Bool Arith ZArith QArith Reals Lra Lia.
From Flocq Require Import Core BinarySingleNaN.
From Verif Require Import Scalar Outcome LinAlg Structs Constraint QPModel NullSpace Residual Nonlinear NLSObject RInst Spec NSProps
  NLSObjectProps NLSHistory NLSEdit Budget FloatInst FloatRun HistoryCases.
Import ListNotations.
Local Open Scope list_scope.
Local Open Scope nat_scope.

(** ** Allowed: TestRosenbrock interrupted by an exception, then an inequality constraint x0 <= 1/2 is added and one cost
    replaced by two smaller ones; the next Solve is that of an object constructed with the edited problem. *)
Definition ros_a : residual double := MkRes 1 [0]%Z (fun p => [fsub f1 (vget p 0)]) (fun p => ([fsub f1 (vget p 0)], Mat 1 1 [[fneg f1]])).
Definition ros_b : residual double :=
  MkRes 1 [0; 1]%Z (fun p => [fmul (d 10) (fsub (vget p 1) (fmul (vget p 0) (vget p 0)))])
    (fun p => ([fmul (d 10) (fsub (vget p 1) (fmul (vget p 0) (vget p 0)))], Mat 1 2 [[fmul (fmul (fneg (d 2)) (vget p 0)) (d 10); d 10]])).
Definition ros_edited : Problem double := MkProblem 2%Z [ros_a; ros_b] [LIC 0%Z (fneg f1) (d (1 # 2))] [].
Definition pa_more : NLSParams double := params 20 10 5 (d lit_1em6).
Definition edited_again := Solve_o inverse qr_d llt_d eig_d None never g_d ros_edited cb_count pa_more (pt 0 (1 # 5)) (fst interrupted).
Definition edited_fresh := Solve_o inverse qr_d llt_d eig_d None never g_d ros_edited cb_count pa_more (pt 0 (1 # 5))
  (construct ros_edited (MkQP (Mat 0 0 []) [] (Mat 0 0 []) [] []) [] [] [] 1).

Example edited_history : editable ros_pr ros_edited /\ history inverse qr_d llt_d eig_d None ros_pr (fst edited_again).
Proof.
  assert (E : editable ros_pr ros_edited).
  { constructor; [reflexivity|reflexivity|]. intros r [[<-|[<-|[]]]|[]]; right; exists ros_res; (split; [left; left; reflexivity|cbn; lia]). }
  split; [exact E|]. unfold edited_again. apply h_solve; [exact E|]. unfold interrupted, call. apply h_solve; [apply editable_same|].
  unfold new_object. apply h_construct.
Qed.
Example C59_edited_case :
  match snd edited_again, snd edited_fresh with
  | Ret a, Ret b => satisfied (out_termination_state a) && Nat.leb 2 (length (out_iterations a)) &&
                    Nat.eqb (length (out_iterations a)) (length (out_iterations b))
  | _, _ => false
  end && same (o_vars (fst edited_again)) (o_vars (fst edited_fresh)) && near (o_vars (fst edited_again)) (pt (1 # 2) (1 # 4)) (d (1 # 100)) = true.
Proof. vm_compute. reflexivity. Qed.

(** ** Not allowed: constructed with the two one row costs, then given the two row cost. The call is undefined. *)
Definition small_pr : Problem double := MkProblem 2%Z [ros_a; ros_b] [] [].
Example C77_outgrown_case : forall o, history (S := nat) inverse qr_d llt_d eig_d None small_pr o ->
  (exists w, snd (EvaluateNonlinearErrors_o never ros_pr (pt 1 1) o) = Undef w) /\
  (forall out, snd (Solve_o inverse qr_d llt_d eig_d None never g_d ros_pr cb_count pa_ros (pt 1 1) o) = Ret out -> out = MkNLSOut QP_INDEFINITE []).
Proof.
  intros o HH.
  assert (OG : outgrown small_pr ros_pr).
  { exists ros_res. split; [left; reflexivity|]. split; [cbn; lia|]. intros r0 [<-|[<-|[]]]; cbn; lia. }
  split.
  - apply (C77_outgrown_evaluate inverse qr_d llt_d eig_d None small_pr ros_pr o never (pt 1 1) HH OG); [reflexivity|].
    intros r i [<-|[]] [<-|[<-|[]]]; cbn; lia.
  - intros out. apply (C77_outgrown_solve inverse qr_d llt_d eig_d None small_pr ros_pr o never g_d cb_count pa_ros (pt 1 1) out HH OG);
      [vm_compute; reflexivity|reflexivity].
Qed.
Example C77_outgrown_run :
  match snd (Solve_o inverse qr_d llt_d eig_d None never g_d ros_pr cb_count pa_ros (pt 1 1)
    (construct small_pr (MkQP (Mat 0 0 []) [] (Mat 0 0 []) [] []) [] [] [] 0)) with Undef _ => true | _ => false end = true.
Proof. vm_compute. reflexivity. Qed.

(** Another number of variables, or one more equality constraint. *)
Example C77_dimension_case : forall o, history (S := nat) inverse qr_d llt_d eig_d None ros_pr o ->
  exists o' w, Solve_o inverse qr_d llt_d eig_d None never g_d (MkProblem 3%Z [ros_res] [] []) cb_count pa_ros (pt 1 1 ++ [f0]) o = (o', LibExn (AssertFailed w)).
Proof.
  intros o HH.
  destruct (C77_dimension_changed inverse qr_d llt_d eig_d None ros_pr (MkProblem 3%Z [ros_res] [] []) o never g_d cb_count pa_ros (pt 1 1 ++ [f0]) HH)
    as (o' & w & E & _); [reflexivity|discriminate|vm_compute; reflexivity|reflexivity|]. eauto.
Qed.
Example C77_more_rows_case : forall o out, history (S := nat) inverse qr_d llt_d eig_d None ros_pr o ->
  snd (Solve_o inverse qr_d llt_d eig_d None never g_d (MkProblem 2%Z [ros_res] [] [ros_a]) cb_count pa_ros (pt 1 1) o) <> Ret out.
Proof. intros o out HH. apply (C77_more_rows inverse qr_d llt_d eig_d None ros_pr _ o never g_d cb_count pa_ros (pt 1 1) out HH); [cbn; lia|vm_compute; reflexivity|reflexivity]. Qed.

(** ** Not allowed: one of two equality constraints removed. *)
Section Removed.
  Local Open Scope R_scope.
  Definition fix0 : residual R := MkRes 1 [0]%Z (fun p => [vget p 0 - 1]) (fun p => ([vget p 0 - 1], Mat 1 1 [[1]])).
  Definition fix1 : residual R := MkRes 1 [1]%Z (fun p => [vget p 0 - 2]) (fun p => ([vget p 0 - 2], Mat 1 1 [[1]])).
  Definition two : Problem R := MkProblem 2%Z [fix0] [] [fix0; fix1].
  Definition one : Problem R := MkProblem 2%Z [fix0] [] [fix0].

  (** The QR decomposition of the transpose of a 2x2 matrix whose second row is zero. *)
  Definition qr2 (A : mat R) : QRResult R :=
    let a := mget A 0 0 in let b := mget A 0 1 in let r := sqrt (a * a + b * b) in
    if Req_EM_T (a * a + b * b) 0
    then MkQR (Mat 2 2 [[1; 0]; [0; 1]]) (Mat 2 2 [[0; 0]; [0; 0]]) [0; 1]%nat 0
    else MkQR (Mat 2 2 [[a / r; - b / r]; [b / r; a / r]]) (Mat 2 2 [[r; 0]; [0; 0]]) [0; 1]%nat 1.
  Lemma qr2_ok : forall A, mrows A = 2%nat -> mcols A = 2%nat -> (forall i j, (1 <= i)%nat -> mget A i j = 0) -> qr_ok A (qr2 A).
  Proof.
    intros A HR HC HZ. unfold qr2. set (a := mget A 0 0). set (b := mget A 0 1). cbv zeta.
    destruct (Req_EM_T (a * a + b * b) 0) as [Z|NZ].
    - assert (A0 : a = 0) by nra. assert (B0 : b = 0) by nra.
      constructor; rewrite ?HR, ?HC; cbn [qrQ qrR qrPerm qrRank].
      + intros i j Hi Hj. destruct i as [|[|i]]; [| |lia]; (destruct j as [|[|j]]; [| |lia]); unfold mget, kd; simpl; lra.
      + intros i j Hi Hj. destruct i as [|[|i]]; [| |lia]; (destruct j as [|[|j]]; [| |lia]); unfold mget, kd; simpl; lra.
      + intros i j Hi Hji Hj. destruct i as [|[|i]]; [lia| |lia]. destruct j; [reflexivity|lia].
      + reflexivity.
      + intros j Hj. destruct j as [|[|j]]; simpl; lia.
      + intros r Hr. exists r. split; [exact Hr|]. destruct r as [|[|r]]; simpl; lia.
      + intros j i Hj Hi. destruct j as [|[|j]]; [| |lia].
        * simpl (nth 0 [0; 1] 0)%nat. destruct i as [|[|i]]; [fold a; rewrite A0|fold b; rewrite B0|lia]; unfold mget; simpl; lra.
        * simpl (nth 1 [0; 1] 0)%nat. rewrite HZ by lia. destruct i as [|[|i]]; [| |lia]; unfold mget; simpl; lra.
      + lia.
      + intros j Hj. lia.
    - set (r := sqrt (a * a + b * b)).
      assert (RR : r * r = a * a + b * b) by (apply sqrt_sqrt; nra).
      assert (RN : r <> 0) by (intro E; rewrite E in RR; lra).
      constructor; rewrite ?HR, ?HC; cbn [qrQ qrR qrPerm qrRank].
      + intros i j Hi Hj. destruct i as [|[|i]]; [| |lia]; (destruct j as [|[|j]]; [| |lia]); unfold mget, kd; simpl.
        * transitivity ((a * a + b * b) / (r * r)); [field; exact RN|]. rewrite <- RR. field. exact RN.
        * field. exact RN.
        * field. exact RN.
        * transitivity ((a * a + b * b) / (r * r)); [field; exact RN|]. rewrite <- RR. field. exact RN.
      + intros i j Hi Hj. destruct i as [|[|i]]; [| |lia]; (destruct j as [|[|j]]; [| |lia]); unfold mget, kd; simpl.
        * transitivity ((a * a + b * b) / (r * r)); [field; exact RN|]. rewrite <- RR. field. exact RN.
        * field. exact RN.
        * field. exact RN.
        * transitivity ((a * a + b * b) / (r * r)); [field; exact RN|]. rewrite <- RR. field. exact RN.
      + intros i j Hi Hji Hj. destruct i as [|[|i]]; [lia| |lia]. destruct j; [reflexivity|lia].
      + reflexivity.
      + intros j Hj. destruct j as [|[|j]]; simpl; lia.
      + intros k Hk. exists k. split; [exact Hk|]. destruct k as [|[|k]]; simpl; lia.
      + intros j i Hj Hi. destruct j as [|[|j]]; [| |lia].
        * simpl (nth 0 [0; 1] 0)%nat. destruct i as [|[|i]]; [fold a|fold b|lia]; unfold mget; simpl; field; exact RN.
        * simpl (nth 1 [0; 1] 0)%nat. rewrite HZ by lia. destruct i as [|[|i]]; [| |lia]; unfold mget; simpl; lra.
      + lia.
      + intros j Hj. destruct j as [|j]; [|lia]. unfold mget; simpl. exact RN.
  Qed.

  Example C77_fewer_rows_case : forall ldlt llt eigs retract (o : nls_object R nat) throws junk cb vars out,
    history ldlt qr2 llt eigs retract two o ->
    snd (Solve_o ldlt qr2 llt eigs retract throws junk one cb default_NLSParams vars o) <> Ret out.
  Proof.
    intros ldlt llt eigs retract o throws junk cb vars out HH.
    apply (C77_fewer_rows ldlt qr2 llt eigs retract two one o throws junk cb default_NLSParams vars out HH).
    - cbn. lia.
    - reflexivity.
    - discriminate.
    - intros A HA HB HZ. apply qr2_ok; assumption.
    - exact (proj1 C67_defaults_accepted).
    - reflexivity.
  Qed.
End Removed.
