(** C77: what may and what must not be changed in a Problem while a ConstrainedNonlinearLeastSquares refers to it.
    The allowed edits are [editable] of NLSHistory.v; C59-C62 hold across them. This file: the other edits. *)
From Coq Require Import String List Bool ZArith Arith QArith Reals Lra Lia.
From Verif Require Import Scalar Outcome LinAlg Structs Constraint QPModel NullSpace Residual Nonlinear NLSObject
  ResProps LinProps NLSTrace RInst Spec NSProps NLSTotal NLSObjectProps NLSHistory.
Import ListNotations.
Local Open Scope string_scope.
Local Open Scope list_scope.
Local Open Scope nat_scope.

Section Edit.
  Context {F : Type} {O : Ops F} {S : Type}.
  Variable ldlt : mat F -> option (mat F).
  Variable qr : mat F -> QRResult F.
  Variable llt : mat F -> option (list F -> list F).
  Variable eigs : mat F -> QPEigenvalues F.
  Variable retract : option (list F -> list F -> F -> list F).
  Variable pr0 pr : Problem F.
  Notation obj := (nls_object F S).
  Notation solve throws junk cb pa vars := (Solve_o ldlt qr llt eigs retract throws junk pr cb pa vars).
  Notation history := (history (S := S) ldlt qr llt eigs retract pr0).

  (** Number of equality constraint rows and size of the largest residual of a problem. *)
  Definition rows_of (p : Problem F) : nat := list_sum (map res_dim (pr_eq p)).
  Definition members (p : Problem F) : list (residual F) := pr_costs p ++ pr_eq p.

  (** Partial correctness of a step. *)
  Definition hoare {A : Type} (P : obj -> Prop) (m : M (F:=F) (S:=S) A) (Q : A -> obj -> Prop) : Prop :=
    forall o, P o -> match m o with (o', Ret a) => Q a o' | _ => True end.

  Lemma h_bind : forall A B (P : obj -> Prop) (m : M A) (k : A -> M B) (Q : A -> obj -> Prop) (Q' : B -> obj -> Prop),
    hoare P m Q -> (forall a, hoare (Q a) (k a) Q') -> hoare P (mbind m k) Q'.
  Proof.
    intros A B P m k Q Q' H K o HP. unfold mbind. specialize (H o HP). destruct (m o) as [o' [a|?|?|?]]; auto. apply K. exact H.
  Qed.
  Lemma h_scope : forall A (P : obj -> Prop) n (m : M A) (Q : A -> obj -> Prop),
    hoare P m (fun a o => Q a (push_trace n o)) -> hoare P (scope n m) Q.
  Proof. intros A P n m Q H o HP. unfold scope. specialize (H o HP). destruct (m o) as [o' [a|?|?|?]]; auto. Qed.
  Lemma h_get : forall A B (P : obj -> Prop) (f : obj -> A) (k : A -> M B) (Q : B -> obj -> Prop),
    (forall o, P o -> match k (f o) o with (o', Ret a) => Q a o' | _ => True end) -> hoare P (mbind (get f) k) Q.
  Proof. intros A B P f k Q H o HP. unfold mbind, get. apply H. exact HP. Qed.
  Lemma h_lift : forall A (x : outcome A) (P : obj -> Prop), hoare P (lift x) (fun a o => x = Ok a /\ P o).
  Proof. intros A x P o HP. unfold lift. destruct x; cbn [embed]; auto. Qed.
  Lemma h_modify : forall (f : obj -> obj) (P : obj -> Prop) (Q : unit -> obj -> Prop),
    (forall o, P o -> Q tt (f o)) -> hoare P (modify f) Q.
  Proof. intros f P Q H o HP. unfold modify. apply H. exact HP. Qed.
  Lemma h_ret : forall A (a : A) (P : obj -> Prop) (Q : A -> obj -> Prop), (forall o, P o -> Q a o) -> hoare P (mret a) Q.
  Proof. intros A a P Q H o HP. unfold mret. apply H. exact HP. Qed.
  Lemma h_user : forall throws (P : obj -> Prop) (Q : unit -> obj -> Prop),
    (forall o, P o -> Q tt (count_call o)) -> hoare P (user_call throws) Q.
  Proof. intros throws P Q H o HP. unfold user_call. destruct (throws (o_calls o)); auto. Qed.
  Lemma h_fold : forall A B (f : A -> B -> M A) (I : list B -> A -> obj -> Prop) l,
    (forall done x rest a, l = done ++ x :: rest -> hoare (I done a) (f a x) (I (done ++ [x]))) ->
    forall a, hoare (I [] a) (mfold f l a) (I l).
  Proof.
    intros A B f I l H.
    assert (G : forall rest done a, l = done ++ rest -> hoare (I done a) (mfold f rest a) (I l)).
    { induction rest as [|x rest IH]; intros done a El; cbn [mfold].
      - apply h_ret. rewrite app_nil_r in El. subst. auto.
      - eapply h_bind; [apply (H done x rest a El)|]. intro a'. apply IH. rewrite <- app_assoc. exact El. }
    intro a. apply (G l []). reflexivity.
  Qed.
  Lemma h_weaken : forall A (P P' : obj -> Prop) (m : M A) (Q Q' : A -> obj -> Prop),
    hoare P m Q -> (forall o, P' o -> P o) -> (forall a o, Q a o -> Q' a o) -> hoare P' m Q'.
  Proof. intros A P P' m Q Q' H HP HQ o Ho. specialize (H o (HP o Ho)). destruct (m o) as [o' [a|?|?|?]]; auto. Qed.

  (** A_eq of the object has [k] rows and [n] columns, all zero from row [z] on. *)
  Definition zero_below (k n z : nat) (o : obj) : Prop :=
    mrows (qA (o_qp o)) = k /\ mcols (qA (o_qp o)) = n /\ length (mdata (qA (o_qp o))) = k /\ length (qb (o_qp o)) = k /\ z <= k /\
    forall i j, z <= i -> mget (qA (o_qp o)) i j = f0.

  Lemma jacobian_rows : forall throws r vars row k n,
    hoare (fun o => zero_below k n row o /\ row + res_dim r <= k) (UpdateJacobian_o throws r vars row)
          (fun _ => zero_below k n (row + res_dim r)).
  Proof.
    intros throws r vars row k n. unfold UpdateJacobian_o.
    eapply h_bind; [apply h_lift|]. intro p.
    eapply h_bind; [apply h_user with (Q := fun _ o => zero_below k n row o /\ row + res_dim r <= k); intros o (_ & H & L); split; [exact H|exact L]|].
    intros []. apply h_get. intros o ((D1 & D2 & D3 & D4 & D5 & D6) & L). cbv zeta.
    unfold mbind at 1. unfold lift. destruct (scatter_columns r (res_J r p) _) as [b|e|w] eqn:SC; cbn [embed]; auto.
    unfold mbind, modify, mret.
    assert (LB : length (mdata b) = res_dim r).
    { apply (scatter_dims _ _ _ _ SC). cbn [mkmat mdata]. apply mkvec_length. }
    assert (LE : length (res_errJ r p) = res_dim r) by (unfold res_errJ, fixv; apply mkvec_length).
    unfold zero_below, set_qp. cbn [o_qp qA qb mrows mcols mdata]. splits; auto.
    - rewrite !app_length, firstn_length, skipn_length, D3, LB. lia.
    - rewrite !app_length, firstn_length, skipn_length, D4, LE. lia.
    - intros i j Hi. unfold mget. cbn [mdata]. rewrite app_nth2; rewrite firstn_length, D3, Nat.min_l by lia; [|lia].
      rewrite app_nth2; rewrite LB; [|lia].
      assert (NS : forall (l : list (list F)) a b, nth a (skipn b l) [] = nth (b + a) l []).
      { intros l a b0. revert l. induction b0 as [|b0 IH]; intro l; [reflexivity|]. destruct l as [|x l]; [destruct a; reflexivity|]. cbn [skipn Nat.add nth]. apply IH. }
      rewrite NS. replace (row + res_dim r + (i - row - res_dim r)) with i by lia. apply (D6 i j). lia.
  Qed.

  Lemma zero_below_frame : forall k n z o o', qA (o_qp o') = qA (o_qp o) -> qb (o_qp o') = qb (o_qp o) -> zero_below k n z o -> zero_below k n z o'.
  Proof. intros k n z o o' E1 E2 H. unfold zero_below in *. rewrite E1, E2. exact H. Qed.

  (** Whatever the object held, a linearisation that returns has at least as many rows as the constraints need, and zeros
      in the others. *)
  Lemma linearise_rows : forall throws lambda k n,
    hoare (fun o => mrows (qA (o_qp o)) = k /\ mcols (qA (o_qp o)) = n /\ length (qb (o_qp o)) = k) (LinearizeAndFillQP_o throws pr lambda)
          (fun _ => zero_below k n (rows_of pr)).
  Proof.
    intros throws lambda k n. unfold LinearizeAndFillQP_o. apply h_scope.
    set (P := fun o : obj => mrows (qA (o_qp o)) = k /\ mcols (qA (o_qp o)) = n /\ length (qb (o_qp o)) = k).
    assert (LP : forall A (x : outcome A), hoare P (lift x) (fun _ => P)).
    { intros A x. apply (h_weaken _ P P _ (fun a o => x = Ok a /\ P o)); [apply h_lift|auto|]. intros a o [_ H]. exact H. }
    apply h_get. intros o HP.
    match goal with |- context [mbind ?m ?kk o] => enough (HH : hoare P (mbind m kk) (fun _ o' => zero_below k n (rows_of pr) (push_trace "LinearizeAndFillQP" o'))) by exact (HH o HP) end.
    do 4 (eapply h_bind; [apply LP|]; intros []).
    apply h_get. intros o2 HP2. generalize (o_vars o2). intro vars.
    match goal with |- context [mbind ?m ?kk o2] => enough (HH : hoare P (mbind m kk) (fun _ o' => zero_below k n (rows_of pr) (push_trace "LinearizeAndFillQP" o'))) by exact (HH o2 HP2) end.
    eapply h_bind with (Q := fun _ => P); [apply h_modify; intros o3 H3; exact H3|]. intros [].
    eapply h_bind with (Q := fun _ => P).
    { apply (h_fold _ _ _ (fun _ _ => P)). intros done r rest a _.
      eapply h_bind with (Q := fun _ => P); [|intro e; apply h_ret; auto].
      unfold UpdateHessian_o. apply h_get. intros o3 H3.
      match goal with |- context [mbind ?m ?kk o3] => enough (HH : hoare (fun o => o_qp o = o_qp o3) (mbind m kk) (fun _ => P)) by exact (HH o3 eq_refl) end.
      eapply h_bind with (Q := fun _ o => o_qp o = o_qp o3).
      { eapply h_weaken with (P := fun o => o_qp o = o_qp o3); [apply h_lift|auto|]. intros ? ? [_ H]; exact H. }
      intros []. eapply h_bind with (Q := fun _ o => o_qp o = o_qp o3); [apply h_user; auto|]. intros [].
      eapply h_bind with (Q := fun _ o => o_qp o = o_qp o3).
      { eapply h_weaken with (P := fun o => o_qp o = o_qp o3); [apply h_lift|auto|]. intros ? ? [_ H]; exact H. }
      intros [[G' c'] e]. eapply h_bind with (Q := fun _ => P); [apply h_modify; intros; exact H3|]. intros []. apply h_ret; auto. }
    intro f. eapply h_bind with (Q := fun _ => P); [apply h_modify; intros o3 H3; destruct (fgtb lambda f0); exact H3|]. intros [].
    eapply h_bind with (Q := fun _ => zero_below k n 0).
    { apply h_modify. intros o3 (D1 & D2 & D3). unfold zero_below, set_qp. cbn [o_qp qA qb mzero mrows mcols mdata].
      unfold vzero. rewrite !repeat_length. splits; auto; try lia. intros i j _. exact (mget_app_zero [] (mrows (qA (o_qp o3))) (mcols (qA (o_qp o3))) (mrows (qA (o_qp o3))) i j). }
    intros []. eapply h_bind with (Q := fun (a : nat * F) => zero_below k n (rows_of pr)).
    { eapply h_weaken; [apply (h_fold _ _ _ (fun done (a : nat * F) o => fst a = list_sum (map res_dim done) /\ zero_below k n (fst a) o))| |].
      - intros done r rest [row e] _. apply h_get. intros o3 [E3 H3]. cbn [fst] in *.
        match goal with |- context [mbind ?m ?kk o3] => enough (HH : hoare (fun o => zero_below k n row o) (mbind m kk) (fun a o => fst a = list_sum (map res_dim (done ++ [r])) /\ zero_below k n (fst a) o)) by exact (HH o3 H3) end.
        eapply h_bind; [apply h_lift|]. intros [].
        eapply h_bind with (Q := fun _ => zero_below k n (row + res_dim r)).
        + eapply h_weaken; [apply (jacobian_rows throws r vars row k n)| |auto].
          intros o4 [A4 H4]. split; [exact H4|]. apply f_assert_ok_inv in A4. apply Nat.leb_le in A4.
          destruct H3 as (D1 & _). rewrite D1 in A4. exact A4.
        + intro br. apply h_ret. intros o4 H4. cbn [fst]. split; [|exact H4]. rewrite map_app, list_sum_app, E3. cbn. lia.
      - intros o3 H3. split; [reflexivity|exact H3].
      - intros [row e] o3 [E3 H3]. cbn [fst] in *. subst row. exact H3. }
    intros [row e]. eapply h_bind with (Q := fun _ => zero_below k n (rows_of pr)).
    { apply h_modify. intros o3 H3. exact H3. }
    intros []. eapply h_bind with (Q := fun _ => zero_below k n (rows_of pr)).
    { apply (h_fold _ _ _ (fun _ _ => zero_below k n (rows_of pr))). intros done c rest [] _.
      eapply h_bind; [apply h_lift|]. intro c'. apply h_modify. intros o3 [_ H3]. exact H3. }
    intros []. apply h_ret. auto.
  Qed.

  (** ** The size of error_buffer_ *)
  Definition keeps {A : Type} (m : M (F:=F) (S:=S) A) : Prop := forall o, o_errbuf (fst (m o)) = o_errbuf o.
  Lemma k_bind : forall A B (m : M A) (k : A -> M B), keeps m -> (forall a, keeps (k a)) -> keeps (mbind m k).
  Proof.
    intros A B m k H K o. unfold mbind. specialize (H o). destruct (m o) as [o' [a|?|?|?]]; cbn [fst] in *; auto. rewrite K. exact H.
  Qed.
  Lemma k_scope : forall A n (m : M A), keeps m -> keeps (scope n m).
  Proof. intros A n m H o. unfold scope. specialize (H o). destruct (m o) as [o' [a|?|?|?]]; auto. Qed.
  Lemma k_fold : forall A B (f : A -> B -> M A) l, (forall a b, keeps (f a b)) -> forall a, keeps (mfold f l a).
  Proof. intros A B f l H. induction l as [|b l IH]; intro a; cbn [mfold]; [intro; reflexivity|]. apply k_bind; [apply H|]. exact IH. Qed.
  Lemma k_simple : forall A (m : M A), (forall o, o_errbuf (fst (m o)) = o_errbuf o) -> keeps m.
  Proof. auto. Qed.
  Ltac ksimple := apply k_simple; intro; reflexivity.

  Lemma k_linearise : forall throws lambda, keeps (LinearizeAndFillQP_o throws pr lambda).
  Proof.
    intros throws lambda. unfold LinearizeAndFillQP_o. apply k_scope.
    repeat (apply k_bind; [ksimple|]; intro). apply k_bind.
    { apply k_fold. intros f r. apply k_bind; [|intro; ksimple]. unfold UpdateHessian_o.
      do 3 (apply k_bind; [ksimple|]; intro). apply k_bind; [ksimple|]. intros [[? ?] ?]. apply k_bind; [ksimple|]. intro. ksimple. }
    intro. apply k_bind; [apply k_simple; intro; unfold modify; cbn [fst]; destruct (fgtb lambda f0); reflexivity|]. intro.
    apply k_bind; [ksimple|]. intro. apply k_bind.
    { apply k_fold. intros [row e] r. repeat (apply k_bind; [ksimple|]; intro).
      apply k_bind; [|intro; ksimple]. unfold UpdateJacobian_o. repeat (apply k_bind; [ksimple|]; intro). ksimple. }
    intros [row e]. apply k_bind; [ksimple|]. intro. apply k_bind.
    { apply k_fold. intros [] c. apply k_bind; [ksimple|]. intro. ksimple. }
    intro. ksimple.
  Qed.

  Lemma linearise_solver : forall throws lambda (o : obj), o_solver (fst (LinearizeAndFillQP_o throws pr lambda o)) = o_solver o.
  Proof.
    intros throws lambda.
    pose (ks := fun A (m : M (F:=F) (S:=S) A) => forall o : obj, o_solver (fst (m o)) = o_solver o).
    assert (KB : forall A B (m : M A) (k : A -> M B), ks A m -> (forall a, ks B (k a)) -> ks B (mbind m k)).
    { intros A B m k H K o. unfold mbind. specialize (H o). destruct (m o) as [o' [a|?|?|?]]; cbn [fst] in *; auto. rewrite K. exact H. }
    assert (KF : forall A B (f : A -> B -> M A) l, (forall a b, ks A (f a b)) -> forall a, ks A (mfold f l a)).
    { intros A B f l H. induction l as [|b l IH]; intro a; cbn [mfold]; [intro; reflexivity|]. apply KB; [apply H|]. exact IH. }
    change (ks _ (LinearizeAndFillQP_o throws pr lambda)).
    unfold LinearizeAndFillQP_o. match goal with |- ks _ (scope _ ?m) => enough (KM : ks _ m) end.
    { intro o. unfold scope. specialize (KM o). match goal with |- context [let (_, _) := ?m o in _] => destruct (m o) as [o' [a|?|?|?]] end; exact KM. }
    repeat (apply KB; [intro; reflexivity|]; intro). apply KB.
    { apply KF. intros f r. apply KB; [|intro; intro; reflexivity]. unfold UpdateHessian_o.
      do 3 (apply KB; [intro; reflexivity|]; intro). apply KB; [intro; reflexivity|]. intros [[? ?] ?]. apply KB; [intro; reflexivity|]. intro. intro; reflexivity. }
    intro. apply KB; [intro; unfold modify; cbn [fst]; destruct (fgtb lambda f0); reflexivity|]. intro.
    apply KB; [intro; reflexivity|]. intro. apply KB.
    { apply KF. intros [row e] r. repeat (apply KB; [intro; reflexivity|]; intro).
      apply KB; [|intro; intro; reflexivity]. unfold UpdateJacobian_o. repeat (apply KB; [intro; reflexivity|]; intro). intro; reflexivity. }
    intros [row e]. apply KB; [intro; reflexivity|]. intro. apply KB.
    { apply KF. intros [] c. apply KB; [intro; reflexivity|]. intro. intro; reflexivity. }
    intro. intro; reflexivity.
  Qed.

  Lemma k_direction : forall junk pa, keeps (ComputeStepDirection_o ldlt qr llt junk pr pa).
  Proof.
    intros junk pa. unfold ComputeStepDirection_o. apply k_scope. apply k_bind; [ksimple|]. intro.
    apply k_bind; [ksimple|]. intros s. apply k_bind; [ksimple|]. intro. destruct s as [|x].
    - do 2 (apply k_bind; [ksimple|]; intro). apply k_bind; [ksimple|]. intros [? ?]. apply k_bind; [ksimple|]. intro. ksimple.
    - apply k_bind; [ksimple|]. intros [t x']. apply k_bind; [ksimple|]. intro. apply k_bind; [|intro; ksimple].
      apply k_simple. intro. unfold modify. cbn [fst]. destruct t; reflexivity.
  Qed.

  Lemma k_hoare : forall A (m : M A) k, keeps m -> hoare (fun o => length (o_errbuf o) = k) m (fun _ o => length (o_errbuf o) = k).
  Proof. intros A m k H o HL. specialize (H o). destruct (m o) as [o' [a|?|?|?]]; auto. cbn [fst] in H. rewrite H. exact HL. Qed.

  Lemma eval_residual_fits : forall throws r vars k,
    hoare (fun o => length (o_errbuf o) = k) (eval_residual_o throws r vars) (fun _ o => res_dim r <= k /\ length (o_errbuf o) = k).
  Proof.
    intros throws r vars k. unfold eval_residual_o. apply h_get. intros o HO.
    match goal with |- context [mbind ?m ?kk o] => enough (HH : hoare (fun o => length (o_errbuf o) = k) (mbind m kk) (fun _ o' => res_dim r <= k /\ length (o_errbuf o') = k)) by exact (HH o HO) end.
    eapply h_bind; [apply h_lift|]. intros [].
    eapply h_bind with (Q := fun _ o => res_dim r <= k /\ length (o_errbuf o) = k).
    { intros o1 [HU H1]. unfold lift. apply ub_unless_ok_inv in HU. apply Nat.leb_le in HU. rewrite HO in HU.
      destruct (bind _ _); cbn [embed]; auto. }
    intros []. eapply h_bind with (Q := fun _ o => res_dim r <= k /\ length (o_errbuf o) = k); [apply h_user; auto|]. intros [].
    eapply h_bind; [apply h_lift|]. intro e.
    eapply h_bind with (Q := fun _ o => res_dim r <= k /\ length (o_errbuf o) = k).
    { apply h_modify. intros o1 [HE [HD HL]]. split; [exact HD|]. unfold set_errbuf. cbn [o_errbuf]. rewrite app_length, skipn_length, HL.
      unfold ErrorVector in HE. apply bind_ok_inv in HE. destruct HE as (? & _ & HE). apply bind_ok_inv in HE. destruct HE as (p & _ & HE).
      apply Ok_inj in HE. subst e. unfold res_err, fixv. rewrite mkvec_length. lia. }
    intros [] o1 H1. unfold get. exact H1.
  Qed.

  Lemma evaluate_fits : forall throws vars k,
    hoare (fun o => length (o_errbuf o) = k) (EvaluateNonlinearErrors_o throws pr vars)
          (fun _ o => length (o_errbuf o) = k /\ forall r, In r (members pr) -> res_dim r <= k).
  Proof.
    intros throws vars k. unfold EvaluateNonlinearErrors_o. apply h_scope.
    assert (FOLD : forall (h : list F -> F) l f,
      hoare (fun o => length (o_errbuf o) = k) (mfold (fun f r => mbind (eval_residual_o throws r vars) (fun e => mret (fadd f (h e)))) l f)
            (fun _ o => length (o_errbuf o) = k /\ forall r, In r l -> res_dim r <= k)).
    { intros h l f. eapply h_weaken; [apply (h_fold _ _ _ (fun done (_ : F) o => length (o_errbuf o) = k /\ forall r, In r done -> res_dim r <= k))| |].
      - intros done r rest a _. intros o [HL HD]. unfold mbind. pose proof (eval_residual_fits throws r vars k o HL) as X.
        destruct (eval_residual_o throws r vars o) as [o' [e|?|?|?]]; auto. unfold mret. destruct X as [X1 X2].
        split; [exact X2|]. intros r' Hr. apply in_app_or in Hr. destruct Hr as [Hr|[<-|[]]]; auto.
      - intros o H. split; [exact H|intros r []].
      - intros a o H. exact H. }
    intros o HL. unfold mbind at 1.
    pose proof (FOLD (fun e => fmul (flit lit_half) (fsqnorm e)) (pr_costs pr) f0 o HL) as X1.
    destruct (mfold _ (pr_costs pr) f0 o) as [o1 [f|?|?|?]]; auto. destruct X1 as [L1 D1].
    unfold mbind at 1. pose proof (FOLD fl1 (pr_eq pr) f0 o1 L1) as X2.
    destruct (mfold _ (pr_eq pr) f0 o1) as [o2 [q|?|?|?]]; auto. destruct X2 as [L2 D2].
    unfold mret. split; [exact L2|]. intros r Hr. apply in_app_or in Hr. destruct Hr; auto.
  Qed.

  Lemma gather_total : forall (vars : list F) idx, (forall i, In i idx -> (0 <= i < Z.of_nat (length vars))%Z) -> exists p, GatherValues vars idx = Ok p.
  Proof.
    intros vars idx. unfold GatherValues. generalize (@nil F) at 2.
    induction idx as [|i l IH]; intros acc IX; cbn [ofold]; [eauto|].
    destruct (IX i (or_introl eq_refl)) as [A B]. rewrite (proj2 (Z.leb_le _ _) A), (proj2 (Z.ltb_lt _ _) B). cbn [f_assert bind andb ub_unless].
    apply IH. intros j Hj. apply IX. right. exact Hj.
  Qed.

  (** Some residual of the problem as it is now is larger than all those at construction. *)
  Definition outgrown : Prop := exists r, In r (members pr) /\ 0 < res_dim r /\ forall r0, In r0 (members pr0) -> res_dim r0 < res_dim r.

  Lemma outgrown_size : outgrown -> exists r, In r (members pr) /\ max_error_size pr0 < res_dim r.
  Proof.
    intros (r & HI & HP & H). exists r. split; [exact HI|].
    enough (max_error_size pr0 <= res_dim r - 1) by lia.
    unfold max_error_size. apply fold_max_le; [apply fold_max_le; [lia|]|].
    - intros r0 H0. specialize (H r0 (in_or_app _ _ _ (or_intror H0))). lia.
    - intros r0 H0. specialize (H r0 (in_or_app _ _ _ (or_introl H0))). lia.
  Qed.

  Lemma history_sizes : forall o, history o -> length (o_errbuf o) = max_error_size pr0 /\
    mrows (qG (o_qp o)) = pdim pr0 /\ mrows (qA (o_qp o)) = rows_of pr0 /\ mcols (qA (o_qp o)) = pdim pr0 /\ length (qb (o_qp o)) = rows_of pr0.
  Proof.
    intros o H. destruct (history_sized0 ldlt qr llt eigs retract pr0 o H) as [Z1 Z2 Z3 Z4 Z5 Z6 Z7].
    assert (E : total_eq_size pr0 = rows_of pr0) by (unfold total_eq_size; rewrite fold_dims; reflexivity).
    rewrite <- E. splits; assumption.
  Qed.

  (** *** Evaluating the errors *)

  (** C77: a residual that is larger than all those the solver was constructed with does not fit into the shared buffer:
      EvaluateNonlinearErrors never returns; unless an earlier index check or user function throws, the access is undefined. *)
  Theorem C77_outgrown_evaluate : forall o throws vars, history o -> outgrown ->
    (forall e, snd (EvaluateNonlinearErrors_o throws pr vars o) <> Ret e) /\
    ((forall k, throws k = false) -> (forall r i, In r (members pr) -> In i (res_index r) -> (0 <= i < Z.of_nat (length vars))%Z) ->
     exists w, snd (EvaluateNonlinearErrors_o throws pr vars o) = Undef w).
  Proof.
    intros o throws vars HH OG. destruct (outgrown_size OG) as (r & HI & HS). destruct (history_sizes o HH) as (LE & _).
    assert (NR : forall e, snd (EvaluateNonlinearErrors_o throws pr vars o) <> Ret e).
    { intros e HE. pose proof (evaluate_fits throws vars (max_error_size pr0) o LE) as X.
      destruct (EvaluateNonlinearErrors_o throws pr vars o) as [o' [a|?|?|?]]; try discriminate HE.
      destruct X as [_ X]. specialize (X r HI). lia. }
    split; [exact NR|]. intros NT IX.
    assert (GV : forall r0, In r0 (members pr) -> exists p, GatherValues vars (res_index r0) = Ok p).
    { intros r0 H0. apply gather_total. intros i Hi. exact (IX r0 i H0 Hi). }
    (* every step either returns or is undefined *)
    pose (fine := fun A (m : M (F:=F) (S:=S) A) => forall o, match snd (m o) with Ret _ | Undef _ => True | _ => False end).
    assert (FB : forall A B (m : M A) (k : A -> M B), fine A m -> (forall a, fine B (k a)) -> fine B (mbind m k)).
    { intros A B m k H K o1. unfold mbind. specialize (H o1). destruct (m o1) as [o2 [a|?|?|?]]; cbn [snd] in *; auto; try contradiction. apply K. }
    assert (FF : forall A B (f : A -> B -> M A) l, (forall a b, In b l -> fine A (f a b)) -> forall a, fine A (mfold f l a)).
    { intros A B f l. induction l as [|b l IH]; intros H a; cbn [mfold]; [intro; exact I|]. apply FB; [apply H; left; reflexivity|].
      intro a'. apply IH. intros a0 b0 Hb. apply H. right. exact Hb. }
    assert (FE : forall r0, In r0 (members pr) -> fine _ (eval_residual_o throws r0 vars)).
    { intros r0 H0. destruct (GV r0 H0) as [p Hp]. unfold eval_residual_o.
      apply FB; [intro; exact I|]. intro buf. apply FB.
      { intro o1. unfold lift, ub_unless. destruct (res_dim r0 <=? length buf); exact I. }
      intro. apply FB; [intro; unfold lift; rewrite Hp; exact I|]. intro.
      apply FB; [intro o1; unfold user_call; rewrite NT; exact I|]. intro.
      apply FB; [intro; unfold lift, ErrorVector; rewrite Nat.eqb_refl; cbn [f_assert bind]; rewrite Hp; exact I|]. intro.
      apply FB; [intro; exact I|]. intro. intro; exact I. }
    assert (FV : fine _ (EvaluateNonlinearErrors_o throws pr vars)).
    { unfold EvaluateNonlinearErrors_o. intro o1. unfold scope.
      match goal with |- context [let (_, _) := ?m o1 in _] => assert (K : fine _ m) end.
      { apply FB; [apply FF; intros a b Hb; apply FB; [apply FE, in_or_app; left; exact Hb|intros; intro; exact I]|]. intro.
        apply FB; [apply FF; intros a0 b Hb; apply FB; [apply FE, in_or_app; right; exact Hb|intros; intro; exact I]|]. intros; intro; exact I. }
      specialize (K o1). match goal with |- context [let (_, _) := ?m o1 in _] => destruct (m o1) as [o2 [?|?|?|?]] end; exact K. }
    specialize (FV o). destruct (snd (EvaluateNonlinearErrors_o throws pr vars o)) as [e|?|?|w]; try contradiction; [exfalso; exact (NR e eq_refl)|eauto].
  Qed.

  (** *** Solving *)
  Lemma solve_enters : forall throws junk (cb : option (S -> NLSIteration F -> S * bool)) pa vars (o : obj), NLS_CheckParams pa = Ok tt -> (0 < n_max_iterations pa)%Z ->
    exists o1 n, o_qp o1 = o_qp o /\ o_errbuf o1 = o_errbuf o /\ o_vars o1 = vars /\ o_calls o1 = o_calls o /\
      solver_selected pr (o_solver o1) /\
      solve throws junk cb pa vars o =
      scope (S := S) "Solve" (fun _ => loop_o ldlt qr llt eigs retract throws junk pr cb (Datatypes.S n) pa 0 (n_lambda_initial pa) (n_equality_penalty_initial pa) [] o1) o.
  Proof.
    intros throws junk cb pa vars o CP MX. unfold Solve_o.
    exists (select_solver pr (set_state NOMINAL (set_vars_cand vars (o_cand o) o))), (Z.to_nat (n_max_iterations pa) - 1).
    replace (Datatypes.S (Z.to_nat (n_max_iterations pa) - 1)) with (Z.to_nat (n_max_iterations pa)) by lia.
    unfold scope, lift, mbind, modify. rewrite CP. cbn [embed].
    unfold select_solver, solver_selected. destruct (use_null_space pr) eqn:U;
      destruct (o_solver (set_state NOMINAL (set_vars_cand vars (o_cand o) o))) eqn:ES; splits; try reflexivity; rewrite ?ES; auto.
  Qed.

  (** C77: with another number of variables Solve throws before any user function is invoked. *)
  Theorem C77_dimension_changed : forall o throws junk cb pa vars, history o ->
    (0 < pr_dimension pr0)%Z -> pr_dimension pr <> pr_dimension pr0 ->
    NLS_CheckParams pa = Ok tt -> (0 < n_max_iterations pa)%Z ->
    exists o' w, solve throws junk cb pa vars o = (o', LibExn (AssertFailed w)) /\ o_vars o' = vars /\ o_calls o' = o_calls o.
  Proof.
    intros o throws junk cb pa vars HH D0 DN CP MX. destruct (history_sizes o HH) as (_ & ZG & _).
    destruct (solve_enters throws junk cb pa vars o CP MX) as (o1 & n & E1 & E2 & E3 & E4 & _ & ->).
    assert (NE : (mrows (qG (o_qp o1)) =? pdim pr) = false).
    { apply Nat.eqb_neq. rewrite E1, ZG. unfold pdim. lia. }
    exists o1. eexists. unfold scope, loop_o, LinearizeAndFillQP_o, scope, mbind, get, lift. rewrite NE. cbn [f_assert embed].
    splits; auto.
  Qed.

  (** C77: with more equality constraint rows than at construction Solve never returns normally. *)
  Theorem C77_more_rows : forall o throws junk cb pa vars out, history o ->
    rows_of pr0 < rows_of pr -> NLS_CheckParams pa = Ok tt -> (0 < n_max_iterations pa)%Z ->
    snd (solve throws junk cb pa vars o) <> Ret out.
  Proof.
    intros o throws junk cb pa vars out HH MR CP MX. destruct (history_sizes o HH) as (_ & _ & ZR & ZC & ZB).
    destruct (solve_enters throws junk cb pa vars o CP MX) as (o1 & n & E1 & _ & _ & _ & _ & ->).
    unfold scope. cbn [loop_o]. unfold mbind at 1.
    pose proof (linearise_rows throws (n_lambda_initial pa) (rows_of pr0) (pdim pr0) o1) as X.
    destruct (LinearizeAndFillQP_o throws pr (n_lambda_initial pa) o1) as [o2 [e|?|?|?]]; cbn [snd]; try discriminate.
    rewrite E1 in X. destruct (X ltac:(auto)) as (_ & _ & _ & _ & Z & _). lia.
  Qed.

  Lemma k_retract : forall throws alpha, keeps (RetractCandidateVars_o (S := S) retract throws alpha).
  Proof.
    intros throws alpha. unfold RetractCandidateVars_o. apply k_bind; [ksimple|]. intro. destruct retract.
    - apply k_bind; [ksimple|]. intro. ksimple.
    - repeat (apply k_bind; [ksimple|]; intro). ksimple.
  Qed.

  Lemma first_step_fits : forall throws n tol ep dd penalty c1 strat tau k,
    hoare (fun o => length (o_errbuf o) = k) (ls_loop_o retract throws pr (Datatypes.S n) 0 f1 tol ep dd penalty c1 strat tau)
          (fun _ _ => forall r, In r (members pr) -> res_dim r <= k).
  Proof.
    intros throws n tol ep dd penalty c1 strat tau k o HL. cbn [ls_loop_o]. unfold mbind at 1, get at 1.
    unfold mbind at 1, lift. unfold next_alpha. rewrite Nat.eqb_refl. cbn [embed].
    unfold mbind at 1. pose proof (k_retract throws f1 o) as K. destruct (RetractCandidateVars_o retract throws f1 o) as [o2 [[]|?|?|?]]; auto.
    cbn [fst] in K. unfold mbind at 1, get at 1. unfold mbind at 1.
    assert (L2 : length (o_errbuf o2) = k) by (rewrite K; exact HL).
    pose proof (evaluate_fits throws (o_cand o2) k o2 L2) as X.
    destruct (EvaluateNonlinearErrors_o throws pr (o_cand o2) o2) as [o3 [es|?|?|?]]; auto. destruct X as [_ X].
    match goal with |- match ?m with _ => _ end => destruct m as [? [?|?|?|?]]; auto end.
  Qed.

  (** C77: with a residual that outgrew the buffer, a Solve that returns has found its first QP indefinite. *)
  Theorem C77_outgrown_solve : forall o throws junk cb pa vars out, history o -> outgrown ->
    NLS_CheckParams pa = Ok tt -> (0 < n_max_iterations pa)%Z ->
    snd (solve throws junk cb pa vars o) = Ret out -> out = MkNLSOut QP_INDEFINITE [].
  Proof.
    intros o throws junk cb pa vars out HH OG CP MX. destruct (history_sizes o HH) as (LE & _).
    destruct (outgrown_size OG) as (r & HI & HS).
    destruct (solve_enters throws junk cb pa vars o CP MX) as (o1 & n & _ & E1 & _ & _ & _ & ->).
    assert (ML : (0 <= n_max_line_search_iterations pa)%Z).
    { unfold NLS_CheckParams in CP. do 4 (apply bind_ok_inv in CP; destruct CP as (? & _ & CP)).
      apply bind_ok_inv in CP. destruct CP as (? & E & _). apply f_assert_ok_inv in E. lia. }
    unfold scope. cbn [loop_o]. unfold mbind at 1.
    pose proof (k_linearise throws (n_lambda_initial pa) o1) as K1.
    destruct (LinearizeAndFillQP_o throws pr (n_lambda_initial pa) o1) as [o2 [ep|?|?|?]]; cbn [snd]; try discriminate. cbn [fst] in K1.
    unfold mbind at 1. pose proof (k_direction junk pa o2) as K2.
    destruct (ComputeStepDirection_o ldlt qr llt junk pr pa o2) as [o3 [qpo|?|?|?]]; cbn [snd]; try discriminate. cbn [fst] in K2.
    destruct (QPWasIndefinite qpo); [intro H; injection H as <-; reflexivity|].
    unfold mbind at 1, get at 1. unfold mbind at 1, get at 1. unfold mbind at 1. unfold scope at 1, lift at 1.
    destruct (ComputeQPCostDerivative (o_qp o3) (o_dx o3)) as [dd|?|?]; cbn [embed snd]; try discriminate.
    unfold mbind at 1. unfold SelectStepSize_o, scope at 1. unfold mbind at 1, lift at 1.
    match goal with |- context [f_assert ?b "penalty > 0"] => destruct b; cbn [f_assert embed snd]; try discriminate end.
    unfold mbind at 1, lift at 1.
    match goal with |- context [f_assert ?b "errors_pre is finite"] => destruct b; cbn [f_assert embed snd]; try discriminate end.
    unfold mbind at 1, modify at 1.
    replace (Z.to_nat (n_max_line_search_iterations pa + 1)) with (Datatypes.S (Z.to_nat (n_max_line_search_iterations pa))) by lia.
    pose proof (first_step_fits throws (Z.to_nat (n_max_line_search_iterations pa)) (n_absolute_first_derivative_tol pa) ep dd
      (update_penalty pa pr (o_qp o3) (o_dx o3) qpo (n_equality_penalty_initial pa)) (flit lit_1em4) (n_line_search_strategy pa)
      (n_armijo_search_tau pa) (max_error_size pr0) (set_steps [] (push_trace "ComputeQPCostDerivative" o3))) as X.
    match type of X with _ -> match ?m with _ => _ end => destruct m as [o4 [sr|?|?|?]]; cbn [snd]; try discriminate end.
    exfalso. assert (LE3 : length (o_errbuf (set_steps [] (push_trace "ComputeQPCostDerivative" o3))) = max_error_size pr0).
    { unfold set_steps, push_trace. cbn [o_errbuf]. rewrite K2, K1, E1. exact LE. }
    specialize (X LE3 r HI). lia.
  Qed.
End Edit.

(** ** Fewer equality constraint rows, over the reals *)
Section Removed.
  Local Open Scope R_scope.
  Context {S : Type}.
  Variable ldlt : mat R -> option (mat R).
  Variable qr : mat R -> QRResult R.
  Variable llt : mat R -> option (list R -> list R).
  Variable eigs : mat R -> QPEigenvalues R.
  Variable retract : option (list R -> list R -> R -> list R).
  Variable pr0 pr : Problem R.

  (** C77: the rows of the equality constraints that were removed stay in the linearised problem as 0 = 0. The null space
      solver cannot handle such rows (C21): Solve never returns normally. *)
  Theorem C77_fewer_rows : forall (o : nls_object R S) throws junk cb pa vars out,
    history ldlt qr llt eigs retract pr0 o ->
    (rows_of pr < rows_of pr0)%nat -> pr_ineq pr = [] -> pr_eq pr <> [] ->
    (forall A, mrows A = rows_of pr0 -> mcols A = pdim pr0 -> (forall i j, (rows_of pr <= i)%nat -> mget A i j = 0) -> qr_ok A (qr A)) ->
    NLS_CheckParams pa = Ok tt -> (0 < n_max_iterations pa)%Z ->
    snd (Solve_o ldlt qr llt eigs retract throws junk pr cb pa vars o) <> Ret out.
  Proof.
    intros o throws junk cb pa vars out HH LT NI NE QR CP MX.
    destruct (history_sizes ldlt qr llt eigs retract pr0 o HH) as (_ & _ & ZR & ZC & ZB).
    destruct (solve_enters ldlt qr llt eigs retract pr throws junk cb pa vars o CP MX) as (o1 & n & E1 & _ & _ & _ & SS & ->).
    unfold scope. cbn [loop_o]. unfold mbind at 1.
    pose proof (linearise_rows pr throws (n_lambda_initial pa) (rows_of pr0) (pdim pr0) o1) as X.
    pose proof (linearise_solver pr throws (n_lambda_initial pa) o1) as KS.
    destruct (LinearizeAndFillQP_o throws pr (n_lambda_initial pa) o1) as [o2 [e|?|?|?]]; cbn [snd]; try discriminate. cbn [fst] in KS.
    rewrite E1 in X. destruct (X ltac:(auto)) as (D1 & D2 & _ & D4 & _ & D6). clear X.
    rewrite <- KS in SS. unfold mbind at 1, ComputeStepDirection_o, scope at 1. unfold mbind at 1, modify at 1. unfold mbind at 1, get at 1.
    unfold mbind at 1, get at 1. unfold solver_selected in SS.
    change (o_solver (set_dx (vzero (length (o_dx o2))) o2)) with (o_solver o2).
    destruct (o_solver o2) as [|x].
    { exfalso. revert SS. unfold use_null_space. rewrite NI. destruct (pr_eq pr); [congruence|discriminate]. }
    change (o_qp (set_dx (vzero (length (o_dx o2))) o2)) with (o_qp o2).
    destruct (C21_dependent_rows_undefined qr llt (o_qp o2) x (fun r => if (r =? rows_of pr)%nat then 1 else 0)) as [why EU].
    - apply QR; auto.
    - lia.
    - congruence.
    - exists (rows_of pr). split; [lia|]. rewrite Nat.eqb_refl. lra.
    - intros j Hj. apply Rsum_0.
      intros r Hr. destruct (Nat.eqb_spec r (rows_of pr)) as [->|]; [|lra]. rewrite D6 by lia. cbn. lra.
    - unfold mbind at 1, lift at 1. rewrite EU. cbn [embed snd]. discriminate.
  Qed.
End Removed.
