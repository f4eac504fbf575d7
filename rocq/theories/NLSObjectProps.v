(** C59-C62: the optimizer as a reusable object. Its members are overwritten before they are read, so that Solve on an
    object with any history computes NLS_Solve; what an exception leaves behind; which trace events and how many user
    function invocations a Solve makes. *)
From Coq Require Import String List Bool ZArith Arith QArith Lia.
From Verif Require Import Scalar Outcome LinAlg Structs Constraint QPModel NullSpace Residual Nonlinear NLSObject
  ResProps QPReuse LinProps NLSTrace.
Import ListNotations.
Local Open Scope string_scope.
Local Open Scope list_scope.
Local Open Scope nat_scope.

Section Proofs.
  Context {F : Type} {O : Ops F} {S : Type}.
  Variable ldlt : mat F -> option (mat F).
  Variable qr : mat F -> QRResult F.
  Variable llt : mat F -> option (list F -> list F).
  Variable eigs : mat F -> QPEigenvalues F.
  Variable retract : option (list F -> list F -> F -> list F).
  Variable throws : nat -> bool.
  Variable junk : nat -> garbage F.
  Variable pr : Problem F.
  (** The size of error_buffer_. *)
  Variable esz : nat.
  Notation obj := (nls_object F S).

  (** What stays true of an object from its construction on. *)
  Record sized (o : obj) : Prop := {
    sz_Gr : mrows (qG (o_qp o)) = pdim pr;
    sz_Gc : mcols (qG (o_qp o)) = pdim pr;
    sz_c : length (qc (o_qp o)) = pdim pr;
    sz_Ar : mrows (qA (o_qp o)) = total_eq_size pr;
    sz_Ac : mcols (qA (o_qp o)) = pdim pr;
    sz_b : length (qb (o_qp o)) = total_eq_size pr;
    sz_err : length (o_errbuf o) = esz }.

  (** [m] started in [o] computes what [x] computes, or stops because a user function threw. *)
  Definition sim {A B : Type} (m : M (F:=F) (S:=S) A) (o : obj) (x : outcome B) (Q : A -> B -> obj -> Prop) (E : obj -> Prop) : Prop :=
    match m o with
    | (o', Ret a) => exists b, x = Ok b /\ Q a b o'
    | (o', LibExn e) => x = Throw e /\ E o'
    | (o', Undef w) => x = UB w /\ E o'
    | (o', UserExn k) => throws k = true /\ E o'
    end.

  Lemma sim_bind : forall A B A' B' (m : M A) (k : A -> M A') o (x : outcome B) (y : B -> outcome B') Q Q' E,
    sim m o x Q E ->
    (forall a b o', x = Ok b -> Q a b o' -> sim (k a) o' (y b) Q' E) ->
    sim (mbind m k) o (bind x y) Q' E.
  Proof.
    intros A B A' B' m k o x y Q Q' E H K. unfold sim, mbind in *. destruct (m o) as [o' [a|e|n|w]].
    - destruct H as (b & -> & HQ). cbn [bind]. exact (K a b o' eq_refl HQ).
    - destruct H as (-> & HE). cbn [bind]. auto.
    - exact H.
    - destruct H as (-> & HE). cbn [bind]. auto.
  Qed.

  Lemma sim_bind1 : forall A B A' (m : M A) (k : A -> M A') o (x : outcome B) Q Q' E,
    sim m o x Q E ->
    (forall a b o', x = Ok b -> Q a b o' -> sim (k a) o' (Ok b) Q' E) ->
    sim (mbind m k) o x Q' E.
  Proof.
    intros A B A' m k o x Q Q' E H K. replace x with (bind x (fun b => Ok b)) by (destruct x; reflexivity).
    eapply sim_bind; eauto.
  Qed.

  Lemma sim_fun : forall A B (m m' : M A) o (x : outcome B) Q E, m o = m' o -> sim m' o x Q E -> sim m o x Q E.
  Proof. intros A B m m' o x Q E H. unfold sim. rewrite H. auto. Qed.

  Lemma mbind_assoc : forall A B C (m : M (F:=F) (S:=S) A) (f : A -> M B) (h : B -> M C) o,
    mbind (mbind m f) h o = mbind m (fun a => mbind (f a) h) o.
  Proof. intros. unfold mbind. destruct (m o) as [o' [a|e|k|w]]; reflexivity. Qed.

  Lemma mbind_ext : forall A B (m : M (F:=F) (S:=S) A) (f h : A -> M B) o,
    (forall a o', f a o' = h a o') -> mbind m f o = mbind m h o.
  Proof. intros A B m f h o H. unfold mbind. destruct (m o) as [o' [a|e|k|w]]; auto. Qed.

  Lemma sim_eq : forall A B (m : M A) o (x y : outcome B) Q E, x = y -> sim m o y Q E -> sim m o x Q E.
  Proof. intros A B m o x y Q E ->. auto. Qed.

  Lemma sim_weaken : forall A B (m : M A) o (x : outcome B) (Q Q' : A -> B -> obj -> Prop) (E E' : obj -> Prop),
    sim m o x Q E -> (forall a b o', x = Ok b -> Q a b o' -> Q' a b o') -> (forall o', E o' -> E' o') -> sim m o x Q' E'.
  Proof.
    intros A B m o x Q Q' E E' H HQ HE. unfold sim in *. destruct (m o) as [o' [a|e|n|w]].
    - destruct H as (b & X & H). eauto.
    - destruct H; auto.
    - destruct H; auto.
    - destruct H; auto.
  Qed.

  (** Steps of the object that the function does not have. *)
  Lemma sim_step : forall A A' B (m : M A) (k : A -> M A') o o1 a (x : outcome B) Q E,
    m o = (o1, Ret a) -> sim (k a) o1 x Q E -> sim (mbind m k) o x Q E.
  Proof. intros A A' B m k o o1 a x Q E H K. unfold sim, mbind in *. rewrite H. exact K. Qed.

  Lemma sim_ret : forall A B (a : A) (b : B) o (Q : A -> B -> obj -> Prop) E, Q a b o -> sim (mret a) o (Ok b) Q E.
  Proof. intros. unfold sim, mret. eauto. Qed.

  Lemma sim_lift : forall A (x : outcome A) o (E : obj -> Prop), E o ->
    sim (lift x) o x (fun a b o' => a = b /\ o' = o) E.
  Proof. intros A x o E H. unfold sim, lift. destruct x; cbn [embed]; eauto. Qed.

  Lemma sim_get : forall A A' B (f : obj -> A) (k : A -> M A') o (x : outcome B) Q E,
    sim (k (f o)) o x Q E -> sim (mbind (get f) k) o x Q E.
  Proof. intros. eapply sim_step; [reflexivity|assumption]. Qed.

  Lemma sim_modify : forall A' B (f : obj -> obj) (k : unit -> M A') o (x : outcome B) Q E,
    sim (k tt) (f o) x Q E -> sim (mbind (modify f) k) o x Q E.
  Proof. intros. eapply sim_step; [reflexivity|assumption]. Qed.

  Lemma sim_user : forall A' B (k : unit -> M A') o (x : outcome B) Q (E : obj -> Prop),
    E (count_call o) -> sim (k tt) (count_call o) x Q E -> sim (mbind (user_call throws) k) o x Q E.
  Proof.
    intros A' B k o x Q E HE K. unfold sim, mbind, user_call in *. destruct (throws (o_calls o)) eqn:T; auto.
  Qed.

  Lemma sim_scope : forall A B name (m : M A) o (x : outcome B) Q E,
    sim m o x (fun a b o' => Q a b (push_trace name o')) E -> sim (scope name m) o x Q E.
  Proof. intros A B name m o x Q E H. unfold sim, scope in *. destruct (m o) as [o' [a|e|n|w]]; exact H. Qed.

  Lemma sim_fold : forall A B X (f : A -> X -> M A) (g : B -> X -> outcome B) (J : list X -> A -> B -> obj -> Prop) E l,
    (forall done x rest a b o, l = done ++ x :: rest -> J done a b o -> sim (f a x) o (g b x) (J (done ++ [x])) E) ->
    forall a b o, J [] a b o -> sim (mfold f l a) o (ofold g l b) (J l) E.
  Proof.
    intros A B X f g J E l H.
    assert (G : forall rest done a b o, l = done ++ rest -> J done a b o -> sim (mfold f rest a) o (ofold g rest b) (J l) E).
    { induction rest as [|x rest IH]; intros done a b o El HJ; cbn [mfold ofold].
      - apply sim_ret. rewrite app_nil_r in El. subst. exact HJ.
      - eapply sim_bind; [apply (H done x rest a b o El HJ)|].
        intros a' b' o' _ HJ'. apply (IH (done ++ [x])); [|exact HJ']. rewrite <- app_assoc. exact El. }
    intros a b o HJ. apply (G l []); auto.
  Qed.

  (** ** One residual *)

  (** The object after [n] more user calls, with another QP. *)
  Definition after (o : obj) (q : QP F) (n : nat) (e : list F) : obj :=
    MkObj q (o_solver o) (o_vars o) (o_cand o) (o_dx o) e (o_steps o) (o_state o) (o_cs o) (o_calls o + n) (o_trace o) (o_seen o).

  (** What an exception leaves: sizes, variables(), and a trace to which only events of inner scopes were added. *)
  Definition left_behind (v : list F) (t0 : list string) (o : obj) : Prop :=
    sized o /\ o_vars o = v /\ exists t, o_trace o = t0 ++ t /\ ~ In "Solve" t.

  Lemma after_after : forall o q1 n1 e1 q2 n2 e2, after (after o q1 n1 e1) q2 n2 e2 = after o q2 (n1 + n2) e2.
  Proof. intros. unfold after. cbn [o_qp o_solver o_vars o_cand o_dx o_errbuf o_steps o_state o_cs o_calls o_trace o_seen]. rewrite Nat.add_assoc. reflexivity. Qed.

  Lemma bind_assoc : forall A B C (x : outcome A) (f : A -> outcome B) (g : B -> outcome C),
    bind (bind x f) g = bind x (fun a => bind (f a) g).
  Proof. intros A B C [a|e|w] f g; reflexivity. Qed.

  Lemma hess_row_dims : forall (J : mat F) index row h,
    mrows (hess_row J index row h) = mrows h /\ mcols (hess_row J index row h) = mcols h.
  Proof.
    intros J index row. unfold hess_row. induction (seq 0 (Datatypes.S row)) as [|y l IH]; intro h; [auto|].
    cbn [fold_left]. cbv zeta. match goal with |- context [fold_left ?f l ?h'] => destruct (IH h') as [A B]; cbv zeta in A, B; rewrite A, B end.
    destruct (_ <=? _); auto.
  Qed.

  Lemma UpdateHessian_dims : forall (r : residual F) vars H b H' b' e,
    UpdateHessian r vars H b = Ok (H', b', e) -> mrows H' = mrows H /\ mcols H' = mcols H /\ length b' = length b.
  Proof.
    intros r vars H b H' b' e E. unfold UpdateHessian in E. inv_bind E. inv_bind E. inv_bind E. cbv zeta in E. inv_bind E.
    destruct a2 as [h bb]. apply Ok_inj in E. apply pair_inj in E. destruct E as [E _]. apply pair_inj in E. destruct E as [<- <-].
    eapply (ofold_invariant _ _ _ (fun _ (hb : mat F * list F) =>
      mrows (fst hb) = mrows H /\ mcols (fst hb) = mcols H /\ length (snd hb) = length b)) in Hm2; [exact Hm2|auto|].
    intros done x [h1 b1] [h2 b2] _ (I1 & I2 & I3) E2. inv_bind E2. apply Ok_inj in E2. apply pair_inj in E2.
    destruct E2 as [<- <-]. cbn [fst snd] in *. rewrite vupd_length.
    destruct (hess_row_dims (res_J r a1) (res_index r) x h1) as [X1 X2]. rewrite X1, X2. auto.
  Qed.

  Lemma UpdateHessian_sim : forall (r : residual F) vars o (E : obj -> Prop),
    E o -> E (count_call o) ->
    sim (UpdateHessian_o throws r vars) o (UpdateHessian r vars (qG (o_qp o)) (qc (o_qp o)))
      (fun e x o' => e = snd x /\
         o' = after o (MkQP (fst (fst x)) (snd (fst x)) (qA (o_qp o)) (qb (o_qp o)) (qcons (o_qp o))) 1 (o_errbuf o)) E.
  Proof.
    intros r vars o E E1 E2. unfold UpdateHessian_o. apply sim_get.
    set (G := qG (o_qp o)). set (c := qc (o_qp o)).
    set (pre := bind (f_assert (mrows G =? mcols G) "H->rows() == H->cols()") (fun _ =>
          bind (f_assert (List.length c =? mrows G) "b->rows() == H->rows()") (fun _ =>
          bind (GatherValues vars (res_index r)) (fun _ => Ok tt)))).
    assert (EP : UpdateHessian r vars G c = bind pre (fun _ => UpdateHessian r vars G c)).
    { unfold pre, UpdateHessian. destruct (f_assert (mrows G =? mcols G) "H->rows() == H->cols()"); cbn [bind]; auto.
      destruct (f_assert (length c =? mrows G) "b->rows() == H->rows()"); cbn [bind]; auto.
      destruct (GatherValues vars (res_index r)); cbn [bind]; auto. }
    eapply sim_eq; [exact EP|]. eapply sim_bind; [apply sim_lift; exact E1|]. intros [] [] o' _ [_ ->].
    apply sim_user; [exact E2|].
    eapply sim_bind1; [apply sim_lift; exact E2|]. intros a [[G' c'] e] o' _ [-> ->].
    apply sim_modify. apply sim_ret. cbn [fst snd]. split; reflexivity.
  Qed.

  Lemma mkmat_zero : forall r c (f : nat -> nat -> F), (forall i j, i < r -> j < c -> f i j = f0) -> mkmat r c f = mzero r c.
  Proof.
    intros r c f H. rewrite (mkmat_ext _ r c f (fun _ _ => f0)) by exact H. unfold mkmat, mzero. f_equal.
    assert (X : forall A n (x : A), mkvec n (fun _ => x) = repeat x n).
    { intros A n x. unfold mkvec. generalize 0. induction n as [|n IH]; intro k; cbn; [reflexivity|]. f_equal. apply IH. }
    rewrite <- X. unfold mkvec at 1. unfold mkvec at 1. apply map_ext. intros. apply X.
  Qed.

  Lemma scatter_dims : forall (r : residual F) J Jo J', scatter_columns r J Jo = Ok J' ->
    length (mdata Jo) = res_dim r -> length (mdata J') = res_dim r.
  Proof.
    intros r J Jo J' H L. unfold scatter_columns in H.
    eapply (ofold_invariant _ _ _ (fun _ (m : mat F) => length (mdata m) = res_dim r)) in H; [exact H|exact L|].
    intros done x a a1 _ _ E. inv_bind E. apply Ok_inj in E. subst a1. cbn [mkmat mdata]. apply mkvec_length.
  Qed.

  (** The zero rows below the rows written so far. *)
  Definition zero_rows (n k : nat) : list (list F) := repeat (repeat f0 n) k.

  Lemma mget_app_zero : forall (rows : list (list F)) t n k i j,
    mget (Mat t n (rows ++ zero_rows n k)) (length rows + i) j = f0.
  Proof.
    intros. unfold mget, zero_rows. cbn [mdata]. rewrite app_nth2 by lia.
    replace (length rows + i - length rows) with i by lia.
    destruct (lt_dec i k) as [L|L].
    - rewrite (nth_indep _ [] (repeat f0 n)) by (rewrite repeat_length; exact L). rewrite nth_repeat. apply nth_repeat.
    - rewrite (nth_overflow (repeat (repeat f0 n) k)) by (rewrite repeat_length; lia). destruct j; reflexivity.
  Qed.

  Lemma firstn_app_exact : forall A (l1 l2 : list A) n, n = length l1 -> firstn n (l1 ++ l2) = l1.
  Proof. intros A l1 l2 n ->. rewrite firstn_app, Nat.sub_diag, firstn_all. cbn. apply app_nil_r. Qed.
  Lemma skipn_app_more : forall A (l1 l2 : list A) n m, n = length l1 -> skipn (n + m) (l1 ++ l2) = skipn m l2.
  Proof. intros A l1 l2 n m ->. rewrite skipn_app, skipn_all2 by lia. cbn. f_equal. lia. Qed.
  Lemma skipn_repeat : forall A (x : A) n m, skipn m (repeat x n) = repeat x (n - m).
  Proof. intros A x n. induction n as [|n IH]; intros [|m]; cbn; auto. Qed.

  (** UpdateJacobian on a block of A_eq that was zeroed writes what UpdateJacobian returns. *)
  Lemma UpdateJacobian_sim : forall (r : residual F) vars o t n rows b (E : obj -> Prop),
    length b = length rows ->
    mrows (qA (o_qp o)) = t -> mcols (qA (o_qp o)) = n ->
    mdata (qA (o_qp o)) = rows ++ zero_rows n (t - length rows) ->
    qb (o_qp o) = b ++ repeat f0 (t - length rows) ->
    E o -> E (count_call o) ->
    sim (UpdateJacobian_o throws r vars (length rows)) o (UpdateJacobian r vars n)
      (fun br x o' => br = snd x /\ length (mdata (fst x)) = res_dim r /\ length (snd x) = res_dim r /\
         o' = after o (MkQP (qG (o_qp o)) (qc (o_qp o))
                (Mat t n (rows ++ mdata (fst x) ++ zero_rows n (t - (length rows + res_dim r))))
                (b ++ snd x ++ repeat f0 (t - (length rows + res_dim r))) (qcons (o_qp o))) 1 (o_errbuf o)) E.
  Proof.
    intros r vars o t n rows b E LB RA CA DA BB E1 E2. unfold UpdateJacobian_o, UpdateJacobian.
    eapply sim_bind; [apply sim_lift; exact E1|]. intros a p o' _ [-> ->]. cbv zeta.
    apply sim_user; [exact E2|]. apply sim_get.
    change (o_qp (count_call o)) with (o_qp o). rewrite CA, RA.
    assert (EB : mkmat (res_dim r) n (fun i j => mget (qA (o_qp o)) (length rows + i) j) = mzero (res_dim r) n).
    { apply mkmat_zero. intros i j _ _. rewrite <- (mget_app_zero rows t n (t - length rows) i j).
      unfold mget. rewrite DA. reflexivity. }
    rewrite EB. eapply sim_bind; [apply sim_lift; exact E2|]. intros Jo J o' HJ [-> ->].
    apply sim_modify. apply sim_ret. cbn [fst snd].
    assert (LJ : length (mdata J) = res_dim r).
    { apply (scatter_dims r (res_J r p) (mzero (res_dim r) n) J HJ). cbn. apply repeat_length. }
    splits; auto.
    - unfold res_errJ, fixv. apply mkvec_length.
    - unfold set_qp, after, count_call. cbn [o_qp o_solver o_vars o_cand o_dx o_errbuf o_steps o_state o_cs o_calls o_trace o_seen].
      rewrite DA, BB. rewrite !(firstn_app_exact _ rows _ (length rows)) by reflexivity.
      rewrite (firstn_app_exact _ b _ (length rows)) by (symmetry; exact LB).
      rewrite (skipn_app_more _ rows) by reflexivity. rewrite (skipn_app_more _ b) by (symmetry; exact LB).
      unfold zero_rows. rewrite !skipn_repeat. rewrite !Nat.sub_add_distr. reflexivity.
  Qed.

  (** ** LinearizeAndFillQP *)
  Definition eq_dims (l : list (residual F)) : nat := fold_left (fun n r => n + res_dim r) l 0.
  Lemma eq_dims_app : forall l r, eq_dims (l ++ [r]) = eq_dims l + res_dim r.
  Proof. intros. unfold eq_dims. rewrite fold_left_app. reflexivity. Qed.

  Lemma fold_dims_shift : forall (l : list (residual F)) a,
    fold_left (fun n r => n + res_dim r) l a = a + fold_left (fun n r => n + res_dim r) l 0.
  Proof.
    induction l as [|r l IH]; intro a; cbn [fold_left]; [lia|]. rewrite IH, (IH (0 + res_dim r)). lia.
  Qed.

  Definition nres : nat := length (pr_costs pr) + length (pr_eq pr).

  Lemma linearize_sim : forall lambda o v t0,
    sized o -> o_vars o = v -> (exists t, o_trace o = t0 ++ t /\ ~ In "Solve" t) ->
    sim (LinearizeAndFillQP_o throws pr lambda) o (LinearizeAndFillQP v lambda pr)
      (fun errs x o' => errs = fst x /\
         o' = push_trace "LinearizeAndFillQP" (after o (snd x) nres (o_errbuf o)) /\ sized o')
      (left_behind v t0).
  Proof.
    intros lambda o v t0 SZ EV HT. destruct SZ as [Z1 Z2 Z3 Z4 Z5 Z6 Z7].
    unfold LinearizeAndFillQP_o. apply sim_scope.
    assert (LBq : forall q n, mrows (qG q) = pdim pr -> mcols (qG q) = pdim pr -> length (qc q) = pdim pr ->
              mrows (qA q) = total_eq_size pr -> mcols (qA q) = pdim pr -> length (qb q) = total_eq_size pr ->
              left_behind v t0 (after o q n (o_errbuf o))).
    { intros q n Y1 Y2 Y3 Y4 Y5 Y6. split; [|split; [exact EV|exact HT]]. constructor; assumption. }
    set (n := pdim pr) in *. set (tot := total_eq_size pr) in *.
    apply sim_get.
    eapply sim_step; [unfold lift; rewrite Z1, Nat.eqb_refl; reflexivity|].
    eapply sim_step; [unfold lift; rewrite Z2, Nat.eqb_refl; reflexivity|].
    eapply sim_step; [unfold lift; rewrite Z3, Nat.eqb_refl; reflexivity|].
    eapply sim_step; [unfold lift; rewrite Z4, Z6, Nat.eqb_refl; reflexivity|].
    apply sim_get. rewrite EV. apply sim_modify.
    unfold LinearizeAndFillQP, linearize_costs. fold n tot.
    (* costs *)
    set (o1 := set_qp _ o).
    assert (E1 : o1 = after o (MkQP (mzero n n) (vzero n) (qA (o_qp o)) (qb (o_qp o)) (qcons (o_qp o))) 0 (o_errbuf o)).
    { unfold o1, set_qp, after. rewrite Z1, Z2, Z3, Nat.add_0_r. reflexivity. }
    rewrite E1. clear o1 E1.
    eapply sim_eq; [apply bind_assoc|].
    set (qc1 := fun (G : mat F) (c : list F) => MkQP G c (qA (o_qp o)) (qb (o_qp o)) (qcons (o_qp o))).
    eapply sim_bind.
    { apply (sim_fold _ _ _ _ _ (fun done f (x : mat F * list F * F) o' =>
        f = snd x /\ o' = after o (qc1 (fst (fst x)) (snd (fst x))) (length done) (o_errbuf o) /\
        mrows (fst (fst x)) = n /\ mcols (fst (fst x)) = n /\ length (snd (fst x)) = n)).
      - intros done r rest f [[G c] f'] o' _ (Ef & -> & D1 & D2 & D3). cbn [fst snd] in *. subst f'.
        eapply sim_bind; [apply UpdateHessian_sim|].
        + apply LBq; assumption.
        + change (count_call (after o (qc1 G c) (length done) (o_errbuf o))) with
            (after (after o (qc1 G c) (length done) (o_errbuf o)) (qc1 G c) 1 (o_errbuf o)).
          rewrite after_after. apply LBq; assumption.
        + intros e [[G' c'] e'] o' HU [He ->]. cbn [snd fst] in *. subst e'.
          change (qG (o_qp (after o (qc1 G c) (length done) (o_errbuf o)))) with G in *.
          change (qc (o_qp (after o (qc1 G c) (length done) (o_errbuf o)))) with c in *.
          destruct (UpdateHessian_dims _ _ _ _ _ _ _ HU) as (X1 & X2 & X3).
          apply sim_ret. cbn [fst snd]. rewrite after_after, app_length. cbn [length]. splits; try congruence. reflexivity.
      - cbn [fst snd length]. splits; auto; apply repeat_length. }
    intros f [[G c] f'] o' _ (Ef & -> & D1 & D2 & D3). cbn [fst snd] in *. subst f'. cbn [bind].
    apply sim_modify.
    set (G' := if fgtb lambda f0 then mkmat n n (fun i j => if i =? j then fadd (mget G i j) lambda else mget G i j) else G).
    assert (D1' : mrows G' = n) by (unfold G'; destruct (fgtb lambda f0); auto).
    assert (D2' : mcols G' = n) by (unfold G'; destruct (fgtb lambda f0); auto).
    set (o1 := if fgtb lambda f0 then _ else _).
    assert (E1 : o1 = after o (qc1 G' c) (length (pr_costs pr)) (o_errbuf o)).
    { unfold o1, G'. destruct (fgtb lambda f0); [|reflexivity]. unfold set_qp, after, qc1. cbn [o_qp qG qc qA qb qcons]. rewrite D1, D2. reflexivity. }
    rewrite E1. clear o1 E1.
    apply sim_modify.
    (* equality constraints *)
    set (nc := length (pr_costs pr)).
    set (qe := fun rows b => MkQP G' c (Mat tot n (rows ++ zero_rows n (tot - length rows))) (b ++ repeat f0 (tot - length rows)) (qcons (o_qp o))).
    set (o1 := set_qp _ (after o (qc1 G' c) nc (o_errbuf o))).
    assert (E1 : o1 = after o (qe [] []) nc (o_errbuf o)).
    { unfold o1, set_qp, after, qe, qc1. cbn [o_qp qG qc qA qb qcons o_solver o_vars o_cand o_dx o_errbuf o_steps o_state o_cs o_calls o_trace o_seen].
      rewrite Z4, Z5, Z6. cbn [app length]. rewrite Nat.sub_0_r. reflexivity. }
    rewrite E1. clear o1 E1.
    assert (LBe : forall rows b k, length b = length rows -> length rows <= tot -> left_behind v t0 (after o (qe rows b) k (o_errbuf o))).
    { intros rows b k L1 L2. apply LBq; auto. cbn [qe qb]. rewrite app_length, repeat_length. lia. }
    eapply sim_bind.
    { unfold linearize_eq. fold n tot.
      apply (sim_fold _ _ _ _ _ (fun done (a : nat * F) (x : list (list F) * list F * F) o' =>
        fst a = length (fst (fst x)) /\ snd a = snd x /\ length (snd (fst x)) = length (fst (fst x)) /\
        length (fst (fst x)) = eq_dims done /\ length (fst (fst x)) <= tot /\
        o' = after o (qe (fst (fst x)) (snd (fst x))) (nc + length done) (o_errbuf o))).
      - intros done r rest [row e] [[rows b] e'] o' _ (I1 & I2 & I3 & I4 & I5 & ->). cbn [fst snd] in *. subst row e'.
        apply sim_get. change (mrows (qA (o_qp (after o (qe rows b) (nc + length done) (o_errbuf o))))) with tot.
        eapply sim_bind; [apply sim_lift; apply LBe; assumption|]. intros [] [] o' HA [_ ->].
        apply f_assert_ok_inv in HA. apply Nat.leb_le in HA.
        eapply sim_bind; [apply (UpdateJacobian_sim r v (after o (qe rows b) (nc + length done) (o_errbuf o)) tot n rows b)|];
          try reflexivity; auto.
        + change (count_call (after o (qe rows b) (nc + length done) (o_errbuf o))) with
            (after (after o (qe rows b) (nc + length done) (o_errbuf o)) (qe rows b) 1 (o_errbuf o)).
          rewrite after_after. apply LBe; assumption.
        + intros br [J br'] o' _ (E1 & L1 & L2 & ->). cbn [fst snd] in *. subst br.
          apply sim_ret. cbn [fst snd]. rewrite !app_length, L1, L2, eq_dims_app, after_after. cbn [length].
          splits; auto; try lia.
          unfold qe. rewrite !app_length, L1, <- !app_assoc. f_equal. lia.
      - cbn [fst snd length]. splits; auto; try lia. rewrite Nat.add_0_r. reflexivity. }
    intros [row e] [[rows b] e'] o' _ (I1 & I2 & I3 & I4 & I5 & ->). cbn [fst snd] in *. subst row e'.
    assert (LT : length rows = tot) by exact I4.
    assert (EQe : qe rows b = MkQP G' c (Mat tot n rows) b (qcons (o_qp o))).
    { unfold qe. rewrite LT, Nat.sub_diag. cbn [repeat zero_rows]. rewrite !app_nil_r. reflexivity. }
    rewrite EQe. clear qe LBe EQe I4 I5.
    apply sim_modify.
    set (qi := fun cons => MkQP G' c (Mat tot n rows) b cons).
    set (k1 := nc + length (pr_eq pr)).
    set (o1 := set_qp _ (after o _ k1 (o_errbuf o))).
    assert (E1 : o1 = after o (qi []) k1 (o_errbuf o)) by reflexivity. rewrite E1. clear o1 E1.
    eapply sim_bind.
    { apply (sim_fold _ _ _ _ _ (fun done (a : unit) (x : list (lic F)) o' => o' = after o (qi x) k1 (o_errbuf o))).
      - intros done ci rest [] x o' _ ->. eapply sim_bind.
        + apply sim_lift. apply LBq; auto. cbn. lia.
        + intros a c' o' _ [-> ->]. unfold sim, modify. exists (x ++ [c']). split; reflexivity.
      - reflexivity. }
    intros [] cons o' _ ->. apply sim_ret. cbn [fst snd].
    split; [reflexivity|]. split; [reflexivity|].
    constructor; cbn; auto; lia.
  Qed.

  (** ** ComputeStepDirection *)
  Definition solver_selected (s : qp_solver F) : Prop :=
    match s with HoldsNullSpace _ => use_null_space pr = true | HoldsInteriorPoint => use_null_space pr = false end.

  Lemma left_behind_frame : forall v t0 o o', left_behind v t0 o -> o_qp o' = o_qp o -> o_vars o' = o_vars o ->
    o_errbuf o' = o_errbuf o -> o_trace o' = o_trace o -> left_behind v t0 o'.
  Proof.
    intros v t0 o o' ([Z1 Z2 Z3 Z4 Z5 Z6 Z7] & V & T) E1 E2 E3 E4. split; [|split; [congruence|rewrite E4; exact T]].
    constructor; rewrite ?E1, ?E3; assumption.
  Qed.

  Lemma NS_Solve_old : forall (qp : QP F) x1 x2,
    NS_Solve qr llt qp x1 =
    bind (NS_Solve qr llt qp x2) (fun tx => Ok (fst tx, match fst tx with NS_SUCCESS => snd tx | NOT_POSITIVE_DEFINITE => x1 end)).
  Proof.
    intros qp x1 x2. unfold NS_Solve.
    repeat (rewrite bind_assoc; match goal with |- bind ?a _ = bind ?a _ => destruct a; cbn [bind]; [|reflexivity|reflexivity] end).
    destruct (llt _); reflexivity.
  Qed.

  Lemma step_direction_sim : forall pa g o v t0, left_behind v t0 o -> solver_selected (o_solver o) ->
    sim (ComputeStepDirection_o ldlt qr llt junk pr pa) o (ComputeStepDirection ldlt qr llt g pa pr (o_qp o))
      (fun qpo x o' => qpo = fst x /\ exists s d, solver_selected s /\ (QPWasIndefinite qpo = false -> d = snd x) /\
         o' = push_trace "ComputeStepDirection" (set_solver s (set_dx d o)))
      (left_behind v t0).
  Proof.
    intros pa g o v t0 LB SS. unfold ComputeStepDirection_o. apply sim_scope. apply sim_modify. apply sim_get. apply sim_get.
    set (o1 := set_dx _ o). change (o_solver o1) with (o_solver o). change (o_qp o1) with (o_qp o).
    assert (LB1 : left_behind v t0 o1) by (apply (left_behind_frame _ _ _ _ LB); reflexivity).
    destruct (o_solver o) as [|x] eqn:ES; cbn [solver_selected] in SS.
    - eapply sim_eq; [apply (step_direction_storage ldlt qr llt g (junk (o_calls o)))|].
      unfold ComputeStepDirection. rewrite SS. apply sim_get. change (o_calls o1) with (o_calls o).
      eapply sim_bind; [apply sim_lift; exact LB1|]. intros st ? o' _ [<- ->].
      eapply sim_bind; [apply sim_lift; exact LB1|]. intros [st' outs] ? o' _ [<- ->].
      apply sim_modify. apply sim_ret. cbn [fst snd]. split; [reflexivity|].
      exists HoldsInteriorPoint, (x_block st'). splits; auto.
      unfold o1, set_dx, set_solver, push_trace. cbn [o_qp o_solver o_vars o_cand o_dx o_errbuf o_steps o_state o_cs o_calls o_trace o_seen].
      rewrite ES. reflexivity.
    - unfold ComputeStepDirection. rewrite SS. rewrite (NS_Solve_old (o_qp o) x (vzero (pdim pr))).
      pose proof (NS_Solve_old (o_qp o) (vzero (pdim pr)) (vzero (pdim pr))) as _.
      destruct (NS_Solve qr llt (o_qp o) (vzero (pdim pr))) as [[t x0]|e|w]; cbn [bind fst snd].
      + eapply sim_step; [reflexivity|]. apply sim_modify. apply sim_modify.
        destruct t; apply sim_ret; cbn [fst snd]; (split; [reflexivity|]).
        * exists (HoldsNullSpace x0), x0. splits; auto.
        * exists (HoldsNullSpace x), (vzero (length (o_dx (set_solver (HoldsNullSpace x) o1)))). splits; auto. discriminate.
      + unfold sim, mbind, lift. cbn [embed]. auto.
      + unfold sim, mbind, lift. cbn [embed]. auto.
  Qed.

  (** ** EvaluateNonlinearErrors *)
  Lemma fold_max_ge : forall (l : list (residual F)) a, a <= fold_left (fun m r => Nat.max m (res_dim r)) l a.
  Proof. induction l as [|r l IH]; intro a; cbn [fold_left]; [lia|]. specialize (IH (Nat.max a (res_dim r))). lia. Qed.
  Lemma fold_max_in : forall (l : list (residual F)) a r, In r l -> res_dim r <= fold_left (fun m r => Nat.max m (res_dim r)) l a.
  Proof.
    induction l as [|r0 l IH]; intros a r []; cbn [fold_left].
    - subst. pose proof (fold_max_ge l (Nat.max a (res_dim r))). lia.
    - apply IH. assumption.
  Qed.
  Hypothesis FITS : max_error_size pr <= esz.
  Lemma buffer_fits : forall r, In r (pr_costs pr) \/ In r (pr_eq pr) -> res_dim r <= esz.
  Proof.
    intros r H0. eapply Nat.le_trans; [|exact FITS]. destruct H0 as [H|H]; unfold max_error_size.
    - apply fold_max_in. exact H.
    - pose proof (fold_max_in (pr_eq pr) 0 r H). pose proof (fold_max_ge (pr_costs pr) (fold_left (fun m r => Nat.max m (res_dim r)) (pr_eq pr) 0)). lia.
  Qed.

  (** The object after [n] more user calls, with other contents of error_buffer_. *)
  Lemma after_self : forall o, after o (o_qp o) 0 (o_errbuf o) = o.
  Proof. intros [x1 x2 x3 x4 x5 x6 x7 x8 x9 x10 x11 x12]. unfold after. cbn [o_qp o_solver o_vars o_cand o_dx o_errbuf o_steps o_state o_cs o_calls o_trace o_seen]. rewrite Nat.add_0_r. reflexivity. Qed.

  Lemma left_behind_buf : forall v t0 o n e, left_behind v t0 o -> length e = esz ->
    left_behind v t0 (after o (o_qp o) n e).
  Proof.
    intros v t0 o n e ([Z1 Z2 Z3 Z4 Z5 Z6 Z7] & V & T) L. split; [|split; [exact V|exact T]].
    constructor; assumption.
  Qed.

  Lemma eval_residual_sim : forall r vars o v t0, In r (pr_costs pr) \/ In r (pr_eq pr) -> left_behind v t0 o ->
    sim (eval_residual_o throws r vars) o (ErrorVector r vars (res_dim r))
      (fun e x o' => e = x /\ exists buf, length buf = esz /\ o' = after o (o_qp o) 1 buf)
      (left_behind v t0).
  Proof.
    intros r vars o v t0 HI LB. assert (LE : length (o_errbuf o) = esz) by apply LB.
    pose proof (buffer_fits r HI) as HF. unfold eval_residual_o. apply sim_get.
    eapply sim_step; [unfold lift; rewrite (proj2 (Nat.leb_le _ _)) by lia; reflexivity|].
    unfold ErrorVector at 2. rewrite Nat.eqb_refl. cbn [f_assert bind].
    eapply sim_eq with (y := bind (bind (GatherValues vars (res_index r)) (fun _ => Ok tt)) (fun _ => ErrorVector r vars (res_dim r))).
    { rewrite bind_assoc. unfold ErrorVector. rewrite Nat.eqb_refl. cbn [f_assert bind]. destruct (GatherValues vars (res_index r)); reflexivity. }
    eapply sim_bind; [apply sim_lift; exact LB|]. intros [] [] o' _ [_ ->].
    assert (LB1 : left_behind v t0 (count_call o)) by (apply (left_behind_buf _ _ _ 1 (o_errbuf o) LB LE)).
    apply sim_user; [exact LB1|].
    eapply sim_bind1; [apply sim_lift; exact LB1|]. intros e ? o' HE [<- ->].
    assert (Le : length e = res_dim r).
    { unfold ErrorVector in HE. inv_bind HE. inv_bind HE. apply Ok_inj in HE. subst e. unfold res_err, fixv. apply mkvec_length. }
    apply sim_modify. unfold sim, get. exists e. split; [reflexivity|].
    change (o_errbuf (set_errbuf ?b _)) with b. split; [apply firstn_app_exact; congruence|].
    exists (e ++ skipn (res_dim r) (o_errbuf o)). split; [|reflexivity].
    rewrite app_length, skipn_length. lia.
  Qed.

  Lemma evaluate_sim : forall vars o v t0, left_behind v t0 o ->
    sim (EvaluateNonlinearErrors_o throws pr vars) o (EvaluateNonlinearErrors pr vars)
      (fun e x o' => e = x /\ exists buf, length buf = esz /\
         o' = push_trace "EvaluateNonlinearErrors" (after o (o_qp o) nres buf))
      (left_behind v t0).
  Proof.
    intros vars o v t0 LB. assert (LE : length (o_errbuf o) = esz) by apply LB.
    unfold EvaluateNonlinearErrors_o, EvaluateNonlinearErrors. apply sim_scope.
    assert (FOLD : forall (op : F -> list F -> F) l base o0,
      (forall r, In r l -> In r (pr_costs pr) \/ In r (pr_eq pr)) ->
      (exists buf, length buf = esz /\ o0 = after o (o_qp o) base buf) ->
      forall a, sim (mfold (fun f r => mbind (eval_residual_o throws r vars) (fun e => mret (op f e))) l a) o0
        (ofold (fun f r => bind (ErrorVector r vars (res_dim r)) (fun e => Ok (op f e))) l a)
        (fun e x o' => e = x /\ exists buf, length buf = esz /\ o' = after o (o_qp o) (base + length l) buf)
        (left_behind v t0)).
    { intros op l base o0 HI HB a.
      apply (sim_fold _ _ _ _ _ (fun done e x o' => e = x /\ exists buf, length buf = esz /\ o' = after o (o_qp o) (base + length done) buf)).
      - intros done r rest f ? o' El (<- & buf & Lb & ->).
        assert (HL : left_behind v t0 (after o (o_qp o) (base + length done) buf)) by (apply left_behind_buf; assumption).
        eapply sim_bind; [apply eval_residual_sim; [|exact HL]|].
        + apply HI. rewrite El. apply in_or_app. right. left. reflexivity.
        + intros e ? o' _ (<- & buf' & Lb' & ->). apply sim_ret. split; [reflexivity|]. exists buf'. split; [exact Lb'|].
          rewrite after_after, app_length. cbn [length]. f_equal. lia.
      - split; [reflexivity|]. cbn [length]. rewrite Nat.add_0_r. exact HB. }
    eapply sim_bind.
    { apply (FOLD (fun f e => fadd f (fmul (flit lit_half) (fsqnorm e))) (pr_costs pr) 0 o); [auto|].
      exists (o_errbuf o). split; [exact LE|]. symmetry. apply after_self. }
    intros f ? o' _ (<- & HB). eapply sim_bind.
    { apply (FOLD (fun f e => fadd f (fl1 e)) (pr_eq pr) (0 + length (pr_costs pr)) o'); [auto|exact HB]. }
    intros q ? o'' _ (<- & buf & Lb & ->). apply sim_ret. split; [reflexivity|]. exists buf. split; [exact Lb|]. reflexivity.
  Qed.

  (** ** SelectStepSize *)

  (** User function invocations made by one step of the line search. *)
  Definition step_calls : nat := nres + match retract with Some _ => 1 | None => 0 end.

  (** The object during a line search that has tried [n] steps. *)
  Definition searching (o : obj) (steps : list (LineSearchStep F)) (cand : list F) (buf : list F) : obj :=
    MkObj (o_qp o) (o_solver o) (o_vars o) cand (o_dx o) buf steps (o_state o) (o_cs o)
      (o_calls o + length steps * step_calls) (o_trace o ++ repeat "EvaluateNonlinearErrors" (length steps)) (o_seen o).

  Lemma not_solve_app : forall t (x : list string), ~ In "Solve" t -> ~ In "Solve" x -> ~ In "Solve" (t ++ x).
  Proof. intros t x A B H. apply in_app_or in H. tauto. Qed.
  Lemma not_solve_repeat : forall s n, s <> "Solve" -> ~ In "Solve" (repeat s n).
  Proof. intros s n H X. apply repeat_spec in X. congruence. Qed.

  Lemma left_behind_gen : forall v t0 o o' t, left_behind v t0 o -> o_qp o' = o_qp o -> o_vars o' = o_vars o ->
    length (o_errbuf o') = esz -> o_trace o' = o_trace o ++ t -> ~ In "Solve" t -> left_behind v t0 o'.
  Proof.
    intros v t0 o o' t ([Z1 Z2 Z3 Z4 Z5 Z6 Z7] & V & (tt & T & N)) E1 E2 E3 E4 NT. split; [|split; [congruence|]].
    - constructor; rewrite ?E1; assumption.
    - exists (tt ++ t). rewrite E4, T, app_assoc. split; [reflexivity|]. apply not_solve_app; assumption.
  Qed.

  Lemma retract_sim : forall a o v t0, left_behind v t0 o ->
    sim (RetractCandidateVars_o retract throws a) o (RetractCandidateVars retract (o_vars o) (o_dx o) a)
      (fun _ x o' => o' = MkObj (o_qp o) (o_solver o) (o_vars o) x (o_dx o) (o_errbuf o) (o_steps o) (o_state o) (o_cs o)
                           (o_calls o + match retract with Some _ => 1 | None => 0 end) (o_trace o) (o_seen o))
      (left_behind v t0).
  Proof.
    intros a o v t0 LB. unfold RetractCandidateVars_o, RetractCandidateVars. apply sim_modify.
    assert (LB1 : left_behind v t0 (set_vars_cand (o_vars o) (o_vars o) o)) by (apply (left_behind_frame _ _ _ _ LB); reflexivity).
    destruct retract as [f|].
    - apply sim_user; [apply (left_behind_frame _ _ _ _ LB1); reflexivity|]. unfold sim, modify. eexists. split; reflexivity.
    - apply sim_get. apply sim_get. eapply sim_bind; [apply sim_lift; exact LB1|]. intros [] [] o' _ [_ ->].
      unfold sim, modify. eexists. split; [reflexivity|]. cbn [set_vars_cand o_qp o_solver o_vars o_cand o_dx o_errbuf o_steps o_state o_cs o_calls o_trace o_seen].
      rewrite Nat.add_0_r. reflexivity.
  Qed.

  Lemma ls_loop_sim : forall n iter alpha steps cand cand0 buf o v t0 abs_tol ep dd pen c1 strat tau,
    left_behind v t0 o -> length buf = esz ->
    sim (ls_loop_o retract throws pr n iter alpha abs_tol ep dd pen c1 strat tau) (searching o steps cand buf)
      (ls_loop retract n iter alpha steps cand0 pr (o_vars o) (o_dx o) abs_tol ep dd pen c1 strat tau)
      (fun sr x o' => sr = fst (fst x) /\ exists buf' cand', length buf' = esz /\
         (sr = SS_SUCCESS -> cand' = snd x) /\ o' = searching o (snd (fst x)) cand' buf')
      (left_behind v t0).
  Proof.
    induction n as [|n IH]; intros iter alpha steps cand cand0 buf o v t0 abs_tol ep dd pen c1 strat tau LB LBf.
    { cbn [ls_loop ls_loop_o]. apply sim_ret. cbn [fst snd]. split; [reflexivity|]. exists buf, cand. splits; auto. discriminate. }
    cbn [ls_loop ls_loop_o]. apply sim_get. change (o_steps (searching o steps cand buf)) with steps.
    assert (LS : left_behind v t0 (searching o steps cand buf)).
    { apply (left_behind_gen _ _ _ _ (repeat "EvaluateNonlinearErrors" (length steps)) LB); try reflexivity; [exact LBf|].
      apply not_solve_repeat. discriminate. }
    eapply sim_bind; [apply sim_lift; exact LS|]. intros ? oa o' _ [-> ->].
    destruct oa as [a|]; [|apply sim_ret; cbn [fst snd]; split; [reflexivity|]; exists buf, cand; splits; auto; discriminate].
    eapply sim_bind; [exact (retract_sim a (searching o steps cand buf) v t0 LS)|]. intros [] cand' o' _ ->.
    apply sim_get. set (o1 := MkObj _ _ _ _ _ _ _ _ _ _ _ _). change (o_cand o1) with cand'.
    eapply sim_bind.
    { apply (evaluate_sim cand' o1 v t0). apply (left_behind_frame _ _ _ _ LS); reflexivity. }
    intros ? es o' _ (-> & buf' & LB' & ->). apply sim_modify. cbv zeta.
    set (o2 := set_steps _ _).
    assert (E2 : o2 = searching o (steps ++ [MkStep a es]) cand' buf').
    { unfold o2, o1, set_steps, push_trace, after, searching.
      cbn [o_qp o_solver o_vars o_cand o_dx o_errbuf o_steps o_state o_cs o_calls o_trace o_seen].
      f_equal.
      - rewrite app_length. cbn [length]. unfold step_calls. lia.
      - rewrite app_length. cbn [length]. rewrite Nat.add_1_r. rewrite <- app_assoc. f_equal. symmetry. apply repeat_cons. }
    rewrite E2. clear o2 E2.
    assert (DONE : forall sr, sim (mret sr) (searching o (steps ++ [MkStep a es]) cand' buf') (Ok (sr, steps ++ [MkStep a es], cand'))
      (fun sr x o' => sr = fst (fst x) /\ exists buf' cand', length buf' = esz /\
         (sr = SS_SUCCESS -> cand' = snd x) /\ o' = searching o (snd (fst x)) cand' buf')
      (left_behind v t0)) by (intro sr; apply sim_ret; cbn [fst snd]; split; [reflexivity|]; exists buf', cand'; splits; auto).
    destruct (Errors_ContainsInvalidValues es); [apply DONE|].
    destruct (fltb (DD_LInfinity dd) abs_tol); [apply DONE|].
    destruct (fgtb (DD_Total dd pen) f0); [apply DONE|].
    match goal with |- context [if ?c then mret SS_SUCCESS else _] => destruct c end; [apply DONE|].
    apply IH; assumption.
  Qed.

  Lemma step_size_sim : forall mi abs_tol ep dd pen c1 strat tau o v t0, left_behind v t0 o ->
    sim (SelectStepSize_o retract throws pr mi abs_tol ep dd pen c1 strat tau) o
      (SelectStepSize retract mi abs_tol pr (o_vars o) (o_dx o) ep dd pen c1 strat tau)
      (fun sr x o' => sr = fst (fst x) /\ exists buf cand, length buf = esz /\
         (sr = SS_SUCCESS -> cand = snd x) /\
         o' = push_trace "SelectStepSize" (searching o (snd (fst x)) cand buf))
      (left_behind v t0).
  Proof.
    intros mi abs_tol ep dd pen c1 strat tau o v t0 LB. unfold SelectStepSize_o, SelectStepSize. apply sim_scope.
    eapply sim_bind; [apply sim_lift; exact LB|]. intros [] [] o' _ [_ ->].
    eapply sim_bind; [apply sim_lift; exact LB|]. intros [] [] o' _ [_ ->].
    apply sim_modify.
    assert (E : set_steps [] o = searching o [] (o_cand o) (o_errbuf o)).
    { unfold set_steps, searching. cbn [length repeat]. rewrite app_nil_r, Nat.add_0_r. reflexivity. }
    rewrite E. eapply sim_weaken; [apply (ls_loop_sim _ _ _ _ _ _ _ _ v t0); [exact LB|apply LB]| |auto].
    intros sr x o' _ (-> & buf & cand & L & C & ->). split; [reflexivity|]. exists buf, cand. auto.
  Qed.

  (** ** UpdateLambdaAndCheckExitConditions *)
  Lemma update_lambda_sim : forall pa sr ep pen lambda cand o v t0, left_behind v t0 o ->
    (sr = SS_SUCCESS -> o_cand o = cand) ->
    sim (UpdateLambda_o pa sr ep pen lambda) o
      (UpdateLambdaAndCheckExitConditions pa sr ep pen (o_steps o) cand (o_vars o) lambda (o_state o))
      (fun a x o' => fst a = fst x /\ snd a = ns_lambda (snd x) /\ ns_penalty (snd x) = pen /\
         exists c, o' = set_state (ns_opt (snd x)) (set_vars_cand (ns_vars (snd x)) c o))
      (left_behind v t0).
  Proof.
    intros pa sr ep pen lambda cand o v t0 LB HC. unfold UpdateLambda_o, UpdateLambdaAndCheckExitConditions.
    assert (SELF : o = set_state (o_state o) (set_vars_cand (o_vars o) (o_cand o) o)) by (destruct o; reflexivity).
    destruct sr.
    - apply sim_get. eapply sim_bind; [apply sim_lift; exact LB|]. intros [] [] o' _ [_ ->].
      apply sim_modify. apply sim_get. apply sim_modify. cbv zeta.
      change (o_state (set_vars_cand (o_cand o) (o_vars o) o)) with (o_state o). rewrite HC by reflexivity.
      match goal with |- context [if ?c then mret (Some SATISFIED_ABSOLUTE_TOL, _) else _] => destruct c end.
      { apply sim_ret. cbn [fst snd ns_lambda ns_penalty ns_opt ns_vars]. splits; auto. eauto. }
      match goal with |- context [if ?c then mret (Some SATISFIED_RELATIVE_TOL, _) else _] => destruct c end;
        apply sim_ret; cbn [fst snd ns_lambda ns_penalty ns_opt ns_vars]; splits; auto; eauto.
    - apply sim_get. apply sim_modify. cbv zeta.
      match goal with |- context [if ?c then mret (Some MAX_LAMBDA, _) else _] => destruct c end;
        apply sim_ret; cbn [fst snd ns_lambda ns_penalty ns_opt ns_vars]; splits; auto; exists (o_cand o); destruct o; reflexivity.
    - apply sim_ret. cbn [fst snd ns_lambda ns_penalty ns_opt ns_vars]. splits; auto. exists (o_cand o). exact SELF.
    - apply sim_get. apply sim_modify. cbv zeta.
      match goal with |- context [if ?c then mret (Some MAX_LAMBDA, _) else _] => destruct c end;
        apply sim_ret; cbn [fst snd ns_lambda ns_penalty ns_opt ns_vars]; splits; auto; exists (o_cand o); destruct o; reflexivity.
    - apply sim_ret. cbn [fst snd ns_lambda ns_penalty ns_opt ns_vars]. splits; auto. exists (o_cand o). exact SELF.
    - apply sim_ret. cbn [fst snd ns_lambda ns_penalty ns_opt ns_vars]. splits; auto. exists (o_cand o). exact SELF.
  Qed.

  Lemma sz_transfer : forall o o', sized o -> o_qp o' = o_qp o -> o_errbuf o' = o_errbuf o -> sized o'.
  Proof. intros o o' [Z1 Z2 Z3 Z4 Z5 Z6 Z7] E1 E2. constructor; rewrite ?E1, ?E2; assumption. Qed.

  Lemma sim_scope_lift : forall name v t0 o A (x : outcome A), left_behind v t0 o ->
    sim (scope name (lift x)) o x (fun a b o' => a = b /\ o' = push_trace name o) (left_behind v t0).
  Proof.
    intros. apply sim_scope. eapply sim_weaken; [apply sim_lift; eassumption| |auto].
    intros a b o' _ [-> ->]. auto.
  Qed.

  (** ** One iteration *)

  (** The scopes that end during the iteration logged as [info], in the order in which they end. *)
  Definition iteration_scopes (info : NLSIteration F) : list string :=
    ["LinearizeAndFillQP"; "ComputeStepDirection"; "ComputeQPCostDerivative"] ++
    repeat "EvaluateNonlinearErrors" (length (it_line_search_steps info)) ++ ["SelectStepSize"].

  (** The invocations of residuals and of the retraction during that iteration. *)
  Definition iteration_calls (info : NLSIteration F) : nat :=
    nres + length (it_line_search_steps info) * step_calls.

  (** The part of the loop body up to the callback. *)
  Definition body_o (pa : NLSParams F) (iter : nat) (lambda penalty : F)
    : M (S:=S) (option (option NLSTerminationState * F * F * NLSIteration F)) :=
    mbind (LinearizeAndFillQP_o throws pr lambda) (fun errors_pre =>
    mbind (ComputeStepDirection_o ldlt qr llt junk pr pa) (fun qpo =>
    if QPWasIndefinite qpo then mret None
    else
      mbind (get o_qp) (fun qp =>
      mbind (get o_dx) (fun dx =>
      mbind (scope "ComputeQPCostDerivative" (lift (ComputeQPCostDerivative qp dx))) (fun dd =>
      let penalty' := update_penalty pa pr qp dx qpo penalty in
      mbind (SelectStepSize_o retract throws pr (n_max_line_search_iterations pa) (n_absolute_first_derivative_tol pa) errors_pre dd
                    penalty' (flit lit_1em4) (n_line_search_strategy pa) (n_armijo_search_tau pa)) (fun sr =>
      mbind (UpdateLambda_o pa sr errors_pre penalty' lambda) (fun x => match x with (maybe_exit, lambda') =>
      mbind (get o_state) (fun s =>
      mbind (get o_steps) (fun steps =>
      mbind (modify (set_steps [])) (fun _ =>
      mret (Some (maybe_exit, lambda', penalty',
        MkNLSIter (Z.of_nat iter) s lambda errors_pre qpo
          (if n_log_qp_eigenvalues pa then Some (eigs (qG qp)) else None) dd penalty' sr steps))))) end))))))).

  Lemma body_sim : forall pa g iter lambda penalty o v t0,
    left_behind v t0 o -> solver_selected (o_solver o) ->
    sim (body_o pa iter lambda penalty) o
      (nls_iterate ldlt qr llt eigs retract pa pr g (Z.of_nat iter) (MkNS v lambda penalty (o_state o)))
      (fun a x o' =>
         sized o' /\ solver_selected (o_solver o') /\ o_cs o' = o_cs o /\ o_seen o' = o_seen o /\
         match x with
         | IterIndefinite => a = None /\ o_vars o' = v /\
             o_trace o' = o_trace o ++ ["LinearizeAndFillQP"; "ComputeStepDirection"] /\ o_calls o' = o_calls o + nres
         | IterDone st' info ex =>
             a = Some (ex, ns_lambda st', ns_penalty st', info) /\ o_vars o' = ns_vars st' /\ o_state o' = ns_opt st' /\
             o_trace o' = o_trace o ++ iteration_scopes info /\ o_calls o' = o_calls o + iteration_calls info
         end)
      (left_behind v t0).
  Proof.
    intros pa g iter lambda penalty o v t0 LB SS. destruct LB as (SZ & EV & HT).
    unfold body_o, nls_iterate. cbn [ns_vars ns_lambda ns_penalty ns_opt].
    eapply sim_bind; [apply (linearize_sim lambda o v t0 SZ EV HT)|].
    intros ? [ep qp] o1 _ (-> & E1 & SZ1). cbn [fst snd] in *.
    assert (V1 : o_vars o1 = v) by (rewrite E1; exact EV).
    assert (T1 : o_trace o1 = o_trace o ++ ["LinearizeAndFillQP"]) by (rewrite E1; reflexivity).
    assert (LB1 : left_behind v t0 o1).
    { split; [exact SZ1|]. split; [exact V1|]. destruct HT as (t & Ht & Nt). exists (t ++ ["LinearizeAndFillQP"]).
      rewrite T1, Ht, app_assoc. split; [reflexivity|]. apply not_solve_app; [exact Nt|]. intros [X|[]]; discriminate. }
    assert (Q1 : o_qp o1 = qp) by (rewrite E1; reflexivity).
    assert (S1 : solver_selected (o_solver o1)) by (rewrite E1; exact SS).
    pose proof (step_direction_sim pa g o1 v t0 LB1 S1) as HD. rewrite Q1 in HD.
    eapply sim_bind; [exact HD|]. clear HD.
    intros qpo [qpo' dx] o2 _ (-> & s & d & SS2 & Hd & E2). cbn [fst snd] in *.
    assert (LB2 : left_behind v t0 o2).
    { apply (left_behind_gen _ _ _ _ ["ComputeStepDirection"] LB1); try (rewrite E2; reflexivity); [rewrite E2; apply LB1|intros [X|[]]; discriminate]. }
    destruct (QPWasIndefinite qpo') eqn:QI.
    - apply sim_ret. rewrite E2. cbn [push_trace set_solver set_dx o_qp o_solver o_vars o_cand o_dx o_errbuf o_steps o_state o_cs o_calls o_trace o_seen].
      splits; auto.
      + apply (sz_transfer o1); auto.
      + rewrite E1; reflexivity.
      + rewrite E1; reflexivity.
      + rewrite T1, <- app_assoc. reflexivity.
      + rewrite E1; reflexivity.
    - specialize (Hd eq_refl). subst d.
      apply sim_get. apply sim_get.
      assert (Q2 : o_qp o2 = qp) by (rewrite E2; exact Q1). assert (D2 : o_dx o2 = dx) by (rewrite E2; reflexivity). rewrite Q2, D2.
      eapply sim_bind; [apply (sim_scope_lift _ _ _ _ _ _ LB2)|].
      intros dd ? o3 _ (<- & E3). cbv zeta.
      set (pen := update_penalty pa pr qp dx qpo' penalty).
      assert (LB3 : left_behind v t0 o3).
      { apply (left_behind_gen _ _ _ _ ["ComputeQPCostDerivative"] LB2); try (rewrite E3; reflexivity); [rewrite E3; apply LB2|intros [X|[]]; discriminate]. }
      assert (V3 : o_vars o3 = v) by (rewrite E3, E2; exact V1). assert (D3 : o_dx o3 = dx) by (rewrite E3; exact D2).
      pose proof (step_size_sim (n_max_line_search_iterations pa) (n_absolute_first_derivative_tol pa) ep dd pen (flit lit_1em4)
        (n_line_search_strategy pa) (n_armijo_search_tau pa) o3 v t0 LB3) as HS. rewrite V3, D3 in HS.
      eapply sim_bind; [exact HS|]. clear HS.
      intros ? [[sr steps] cand] o4 _ (-> & buf & cand' & LBuf & HC & E4). cbn [fst snd] in *.
      assert (LB4 : left_behind v t0 o4).
      { apply (left_behind_gen _ _ _ _ (repeat "EvaluateNonlinearErrors" (length steps) ++ ["SelectStepSize"]) LB3); try (rewrite E4; reflexivity).
        - rewrite E4. exact LBuf.
        - rewrite E4. cbn [push_trace searching o_trace]. rewrite app_assoc. reflexivity.
        - apply not_solve_app; [apply not_solve_repeat; discriminate|intros [X|[]]; discriminate]. }
      assert (ST4 : o_state o4 = o_state o) by (rewrite E4, E3, E2, E1; reflexivity).
      assert (V4 : o_vars o4 = v) by (rewrite E4; exact V3).
      assert (SP4 : o_steps o4 = steps) by (rewrite E4; reflexivity).
      assert (HC4 : sr = SS_SUCCESS -> o_cand o4 = cand) by (intro X; rewrite E4; exact (HC X)).
      pose proof (update_lambda_sim pa sr ep pen lambda cand o4 v t0 LB4 HC4) as HU. rewrite SP4, V4, ST4 in HU.
      eapply sim_bind; [exact HU|]. clear HU.
      intros [ex' lam'] [ex st'] o5 _ (X1 & X2 & HP & c & E5). cbn [fst snd] in *. subst ex' lam'.
      apply sim_get. apply sim_get. apply sim_modify. apply sim_ret.
      assert (S5 : o_state o5 = ns_opt st') by (rewrite E5; reflexivity).
      assert (SP5 : o_steps o5 = steps) by (rewrite E5; exact SP4). rewrite S5, SP5.
      cbn [set_steps o_qp o_solver o_vars o_cand o_dx o_errbuf o_steps o_state o_cs o_calls o_trace o_seen it_line_search_steps].
      splits; auto.
      + apply (sz_transfer o4); [apply LB4| |]; rewrite E5; reflexivity.
      + rewrite E5, E4, E3, E2. exact SS2.
      + rewrite E5, E4, E3, E2, E1. reflexivity.
      + rewrite E5, E4, E3, E2, E1. reflexivity.
      + rewrite HP. reflexivity.
      + rewrite E5. reflexivity.
      + rewrite E5, E4, E3, E2. cbn [push_trace searching set_state set_vars_cand set_solver set_dx o_trace]. rewrite T1.
        unfold iteration_scopes. cbn [it_line_search_steps]. rewrite <- !app_assoc. reflexivity.
      + rewrite E5, E4, E3, E2, E1. cbn [push_trace searching set_state set_vars_cand set_solver set_dx after o_calls].
        unfold iteration_calls. cbn [it_line_search_steps]. lia.
  Qed.

  (** ** The main loop *)
  Variable cb : option (S -> NLSIteration F -> S * bool).
  Variable pa : NLSParams F.
  Variable g : nat -> garbage F.

  (** The loop of the functional model, with or without the callback. *)
  Notation pure cb := (nls_loop ldlt qr llt eigs retract cb).

  Definition after_body (n : nat) (iter : nat) (iterations : list (NLSIteration F))
    (x : option (option NLSTerminationState * F * F * NLSIteration F)) : M (S:=S) (NLSSolverOutputs F) :=
    match x with
    | None => mret (MkNLSOut QP_INDEFINITE iterations)
    | Some (maybe_exit, lambda', penalty', info) =>
      mbind (call_cb_o throws cb info) (fun proceed =>
      match maybe_exit with
      | Some t => mret (MkNLSOut t (iterations ++ [info]))
      | None =>
        if proceed then loop_o ldlt qr llt eigs retract throws junk pr cb n pa (Datatypes.S iter) lambda' penalty' (iterations ++ [info])
        else mret (MkNLSOut USER_CALLBACK (iterations ++ [info]))
      end)
    end.

  Lemma loop_body : forall n iter lambda penalty its o,
    loop_o ldlt qr llt eigs retract throws junk pr cb (Datatypes.S n) pa iter lambda penalty its o =
    mbind (body_o pa iter lambda penalty) (after_body n iter its) o.
  Proof.
    intros. cbn [loop_o]. unfold body_o.
    Local Ltac nxt := rewrite mbind_assoc; apply mbind_ext; intros.
    nxt. nxt. destruct (QPWasIndefinite a0); [reflexivity|]. do 4 nxt.
    rewrite mbind_assoc. apply mbind_ext. intros [ex lam'] o9. do 3 nxt. reflexivity.
  Qed.

  Definition cb_calls : nat := match cb with Some _ => 1 | None => 0 end.
  Definition last_scopes (t : NLSTerminationState) : list string :=
    match t with QP_INDEFINITE => ["LinearizeAndFillQP"; "ComputeStepDirection"] | _ => [] end.
  Definition last_calls (t : NLSTerminationState) : nat := match t with QP_INDEFINITE => nres | _ => 0 end.

  Lemma call_cb_sim : forall info o (E : obj -> Prop),
    E (count_call (note_seen o)) ->
    sim (call_cb_o throws cb info) o (Ok (call_cb cb (o_cs o) info))
      (fun p x o' => p = snd x /\ o_cs o' = fst x /\ o_qp o' = o_qp o /\ o_solver o' = o_solver o /\ o_vars o' = o_vars o /\
         o_errbuf o' = o_errbuf o /\ o_state o' = o_state o /\ o_trace o' = o_trace o /\
         o_calls o' = o_calls o + cb_calls /\
         o_seen o' = o_seen o ++ match cb with Some _ => [o_vars o] | None => [] end) E.
  Proof.
    intros info o E HE. unfold call_cb_o, call_cb, cb_calls. destruct cb as [f|].
    - apply sim_modify. apply sim_user; [exact HE|]. apply sim_get.
      change (o_cs (count_call (note_seen o))) with (o_cs o). destruct (f (o_cs o) info) as [cs' p] eqn:EF.
      apply sim_modify. apply sim_ret. cbn [fst snd]. splits; reflexivity.
    - apply sim_ret. cbn [fst snd]. rewrite Nat.add_0_r, app_nil_r. splits; reflexivity.
  Qed.

  (** Without a callback the state of the callback object plays no part. *)
  Lemma pure_cs : forall n iter its st (cs cs' : S) r, pure None n pa pr g iter its st cs = Ok r ->
    exists r', pure None n pa pr g iter its st cs' = Ok r' /\ res_vars r' = res_vars r.
  Proof.
    induction n as [|n IH]; intros iter its st cs cs' r H; cbn [nls_loop] in *.
    - apply Ok_inj in H. subst r. eauto.
    - inv_bind H. rewrite Hm. cbn [bind] in *. destruct a as [|st' info ex]; [apply Ok_inj in H; subst r; eauto|].
      cbn [call_cb] in *. destruct ex; [apply Ok_inj in H; subst r; eauto|]. eapply IH. exact H.
  Qed.

  Lemma loop_sim : forall n iter lambda penalty its o t0,
    sized o -> solver_selected (o_solver o) -> (exists t, o_trace o = t0 ++ t /\ ~ In "Solve" t) ->
    let st := MkNS (o_vars o) lambda penalty (o_state o) in
    sim (loop_o ldlt qr llt eigs retract throws junk pr cb n pa iter lambda penalty its) o
      (pure cb n pa pr g iter its st (o_cs o))
      (fun out x o' => out = res_out x /\ o_vars o' = res_vars x /\ o_cs o' = res_cb x /\ sized o' /\
         exists new sn, out_iterations out = its ++ new /\
           o_trace o' = o_trace o ++ flat_map iteration_scopes new ++ last_scopes (out_termination_state out) /\
           o_calls o' = o_calls o + list_sum (map (fun i => iteration_calls i + cb_calls) new) + last_calls (out_termination_state out) /\
           o_seen o' = o_seen o ++ sn /\ (cb = None -> sn = []) /\ (cb <> None -> length sn = length new) /\
           forall k w, nth_error sn k = Some w ->
             exists r, pure None (Datatypes.S k) pa pr g iter its st (o_cs o) = Ok r /\ res_vars r = w)
      (fun o' => sized o' /\ (exists t, o_trace o' = t0 ++ t /\ ~ In "Solve" t) /\
         exists j r, j <= n /\ pure None j pa pr g iter its st (o_cs o) = Ok r /\ res_vars r = o_vars o').
  Proof.
    induction n as [|n IH]; intros iter lambda penalty its o t0 SZ SS HT st.
    - cbn [loop_o nls_loop]. apply sim_ret. cbn [res_out res_vars res_cb out_iterations out_termination_state]. splits; auto.
      exists [], []. cbn [flat_map last_scopes list_sum map fold_right last_calls app length]. rewrite !app_nil_r. splits; auto; try lia.
      intros [|k] w; discriminate.
    - eapply sim_fun; [apply loop_body|]. cbn [nls_loop].
      assert (LB : left_behind (o_vars o) t0 o) by (split; [exact SZ|split; [reflexivity|exact HT]]).
      pose proof (body_sim pa (g iter) iter lambda penalty o (o_vars o) t0 LB SS) as HB.
      eapply sim_bind.
      { eapply sim_weaken; [exact HB|intros a b o' _ H; exact H|].
        intros o' (L1 & L2 & L3). split; [exact L1|]. split; [exact L3|].
        exists 0. eexists. split; [lia|]. split; [reflexivity|]. cbn [res_vars]. auto. }
      clear HB. intros a x o1 HX (SZ1 & SS1 & CS1 & SN1 & HM). fold st in HX.
      destruct x as [|st' info ex].
      { destruct HM as (-> & V1 & T1 & C1). cbn [after_body]. apply sim_ret.
        cbn [res_out res_vars res_cb out_iterations out_termination_state last_scopes last_calls]. splits; auto.
        exists [], []. cbn [flat_map list_sum map fold_right app length]. rewrite !app_nil_r. splits; auto; try lia.
        intros [|k] w; discriminate. }
      destruct HM as (-> & V1 & ST1 & T1 & C1). cbn [after_body]. cbv zeta.
      assert (HT1 : exists t, o_trace o1 = t0 ++ t /\ ~ In "Solve" t).
      { destruct HT as (t & Ht & Nt). exists (t ++ iteration_scopes info). rewrite T1, Ht, app_assoc. split; [reflexivity|].
        apply not_solve_app; [exact Nt|]. unfold iteration_scopes. apply not_solve_app; [|apply not_solve_app].
        - intros [X|[X|[X|[]]]]; discriminate.
        - apply not_solve_repeat. discriminate.
        - intros [X|[]]; discriminate. }
      assert (P1 : exists r, pure None 1 pa pr g iter its st (o_cs o) = Ok r /\ res_vars r = ns_vars st').
      { cbn [nls_loop]. rewrite HX. cbn [bind call_cb]. destruct ex; eexists; (split; [reflexivity|reflexivity]). }
      assert (PS : forall j r, ex = None -> pure None j pa pr g (Datatypes.S iter) (its ++ [info]) st' (fst (call_cb cb (o_cs o) info)) = Ok r ->
                exists r', pure None (Datatypes.S j) pa pr g iter its st (o_cs o) = Ok r' /\ res_vars r' = res_vars r).
      { intros j r -> HR. cbn [nls_loop]. rewrite HX. cbn [bind call_cb].
        destruct (pure_cs j (Datatypes.S iter) (its ++ [info]) st' _ (o_cs o) r HR) as (r' & HR' & HV). eauto. }
      match goal with |- sim _ _ (let (cs', proceed) := call_cb cb (o_cs o) info in @?K cs' proceed) _ _ =>
        apply (sim_eq _ _ _ _ _ (bind (Ok (call_cb cb (o_cs o1) info)) (fun x => let (cs', proceed) := x in K cs' proceed)));
        [rewrite CS1; reflexivity|] end.
      eapply sim_bind.
      { apply call_cb_sim. split; [apply (sz_transfer o1); auto|]. split; [exact HT1|].
        destruct P1 as (r & HP & HV). exists 1, r. split; [lia|]. split; [exact HP|]. rewrite HV. symmetry. exact V1. }
      rewrite CS1. intros p [cs' proceed] o2 HC (-> & CS2 & Q2 & SO2 & V2 & EB2 & ST2 & T2 & C2 & SN2). cbn [fst snd] in *.
      apply Ok_inj in HC. rewrite HC in PS. cbn [fst] in PS.
      assert (SZ2 : sized o2) by (apply (sz_transfer o1); auto).
      assert (SEEN1 : forall k w, nth_error (match cb with Some _ => [o_vars o1] | None => [] end) k = Some w ->
                exists r, pure None (Datatypes.S k) pa pr g iter its st (o_cs o) = Ok r /\ res_vars r = w).
      { intros k w. destruct cb; [|destruct k; discriminate]. destruct k as [|[|k]]; try discriminate.
        intro X. injection X as <-. destruct P1 as (r & HP & HV). exists r. split; [exact HP|]. congruence. }
      assert (LAST : forall t, t <> QP_INDEFINITE ->
        sim (mret (MkNLSOut t (its ++ [info]))) o2 (Ok (MkNLSResult (MkNLSOut t (its ++ [info])) (ns_vars st') cs'))
          (fun out x o' => out = res_out x /\ o_vars o' = res_vars x /\ o_cs o' = res_cb x /\ sized o' /\
             exists new sn, out_iterations out = its ++ new /\
               o_trace o' = o_trace o ++ flat_map iteration_scopes new ++ last_scopes (out_termination_state out) /\
               o_calls o' = o_calls o + list_sum (map (fun i => iteration_calls i + cb_calls) new) + last_calls (out_termination_state out) /\
               o_seen o' = o_seen o ++ sn /\ (cb = None -> sn = []) /\ (cb <> None -> length sn = length new) /\
               forall k w, nth_error sn k = Some w ->
                 exists r, pure None (Datatypes.S k) pa pr g iter its st (o_cs o) = Ok r /\ res_vars r = w)
          (fun o' => sized o' /\ (exists t, o_trace o' = t0 ++ t /\ ~ In "Solve" t) /\
             exists j r, j <= Datatypes.S n /\ pure None j pa pr g iter its st (o_cs o) = Ok r /\ res_vars r = o_vars o')).
      { intros t NT. apply sim_ret. cbn [res_out res_vars res_cb out_iterations out_termination_state].
        splits; auto; try congruence.
        exists [info], (match cb with Some _ => [o_vars o1] | None => [] end).
        assert (X1 : last_scopes t = []) by (destruct t; try reflexivity; contradiction).
        assert (X2 : last_calls t = 0) by (destruct t; try reflexivity; contradiction).
        rewrite X1, X2. cbn [flat_map map list_sum fold_right]. rewrite !app_nil_r.
        splits; auto; try congruence; try lia.
        - intro X. rewrite X. reflexivity.
        - intro X. destruct cb; [reflexivity|contradiction]. }
      destruct ex as [t|].
      { apply LAST. intros ->. destruct (exit_states _ _ _ _ _ _ _ _ _ _ _ _ _ HX) as [X|[X|[X|X]]]; discriminate. }
      destruct proceed; [|apply LAST; discriminate].
      pose proof (IH (Datatypes.S iter) (ns_lambda st') (ns_penalty st') (its ++ [info]) o2 t0 SZ2) as HI.
      rewrite SO2, T2 in HI. specialize (HI SS1 HT1). cbv zeta in HI.
      assert (ES : MkNS (o_vars o2) (ns_lambda st') (ns_penalty st') (o_state o2) = st').
      { rewrite V2, ST2, V1, ST1. destruct st'; reflexivity. }
      rewrite ES, CS2 in HI.
      eapply sim_weaken; [exact HI| |].
      + intros out x o' _ (Eo & Ev & Ec & SZ' & new & sn & I1 & I2 & I3 & I4 & I5 & I6 & I7).
        splits; auto. exists (info :: new), (match cb with Some _ => [o_vars o1] | None => [] end ++ sn).
        cbn [flat_map map list_sum fold_right]. change (fold_right Nat.add 0) with list_sum.
        splits.
        * rewrite I1, <- app_assoc. reflexivity.
        * rewrite I2, T1, <- !app_assoc. reflexivity.
        * rewrite I3, C2, C1. lia.
        * rewrite I4, SN2, SN1, <- app_assoc. reflexivity.
        * intro X. rewrite X, (I5 X). reflexivity.
        * intro X. cbn [length]. rewrite app_length, (I6 X). destruct cb; [reflexivity|contradiction].
        * intros k w HN. destruct cb as [f|] eqn:ECB.
          -- destruct k as [|k]; [apply SEEN1; exact HN|]. cbn [app nth_error] in HN.
             destruct (I7 k w HN) as (r & HR & HV). destruct (PS _ _ eq_refl HR) as (r' & HR' & HV'). exists r'. split; [exact HR'|]. congruence.
          -- rewrite (I5 eq_refl) in HN. destruct k; discriminate.
      + intros o' (Sz & Ht & j & r & Lj & HR & HV). split; [exact Sz|]. split; [exact Ht|].
        destruct (PS _ _ eq_refl HR) as (r' & HR' & HV'). exists (Datatypes.S j), r'. split; [lia|]. split; [exact HR'|]. congruence.
  Qed.

  (** The same parameters with another iteration limit. *)
  Definition with_max (k : Z) : NLSParams F :=
    MkNLSParams k (n_max_qp_iterations pa) (n_termination_kkt_tolerance pa) (n_absolute_exit_tol pa) (n_relative_exit_tol pa)
      (n_absolute_first_derivative_tol pa) (n_max_line_search_iterations pa) (n_line_search_strategy pa)
      (n_armijo_search_tau pa) (n_equality_penalty_initial pa) (n_equality_penalty_scale_factor pa)
      (n_equality_penalty_rho pa) (n_lambda_initial pa) (n_lambda_failure_init pa) (n_lambda_decrease_on_success pa)
      (n_lambda_decrease_on_restore pa) (n_max_lambda pa) (n_min_lambda pa) (n_log_qp_eigenvalues pa).

  Lemma with_max_loop : forall k n iter its st (cs : S),
    nls_loop ldlt qr llt eigs retract None n (with_max k) pr g iter its st cs = pure None n pa pr g iter its st cs.
  Proof.
    intros k. induction n as [|n IH]; intros iter its st cs; cbn [nls_loop]; [reflexivity|].
    change (nls_iterate ldlt qr llt eigs retract (with_max k) pr) with (nls_iterate ldlt qr llt eigs retract pa pr).
    destruct (nls_iterate ldlt qr llt eigs retract pa pr (g iter) (Z.of_nat iter) st) as [[|st' info ex]|e|w]; cbn [bind call_cb]; auto.
    destruct ex; [reflexivity|]. apply IH.
  Qed.

  Lemma with_max_accepted : forall k, NLS_CheckParams pa = Ok tt -> NLS_CheckParams (with_max (Z.of_nat k)) = Ok tt.
  Proof.
    intros k H. unfold NLS_CheckParams in *. apply bind_ok_inv in H. destruct H as (u & _ & H).
    change (n_max_iterations (with_max (Z.of_nat k))) with (Z.of_nat k).
    rewrite (proj2 (Z.leb_le 0 (Z.of_nat k))) by lia. exact H.
  Qed.

  (** Everything the simulation gives about one call of Solve. *)
  Lemma solve_sim : forall vars o, sized o ->
    let run k cs := NLS_Solve ldlt qr llt eigs retract None (with_max (Z.of_nat k)) pr g vars cs in
    sim (Solve_o ldlt qr llt eigs retract throws junk pr cb pa vars) o
      (NLS_Solve ldlt qr llt eigs retract cb pa pr g vars (o_cs o))
      (fun out x o' => out = res_out x /\ o_vars o' = res_vars x /\ o_cs o' = res_cb x /\ sized o' /\
         o_trace o' = o_trace o ++ flat_map iteration_scopes (out_iterations out) ++ last_scopes (out_termination_state out) ++ ["Solve"] /\
         o_calls o' = o_calls o + list_sum (map (fun i => iteration_calls i + cb_calls) (out_iterations out)) + last_calls (out_termination_state out) /\
         exists sn, o_seen o' = o_seen o ++ sn /\ (cb = None -> sn = []) /\ (cb <> None -> length sn = length (out_iterations out)) /\
           forall k w, nth_error sn k = Some w -> exists r, run (Datatypes.S k) (o_cs o) = Ok r /\ res_vars r = w)
      (fun o' => sized o' /\ (exists t, o_trace o' = o_trace o ++ t /\ ~ In "Solve" t) /\
         ((exists e, NLS_CheckParams pa = Throw e /\ o' = o) \/
          exists j r, (Z.of_nat j <= n_max_iterations pa)%Z /\ run j (o_cs o) = Ok r /\ res_vars r = o_vars o')).
  Proof.
    intros vars o SZ run. unfold Solve_o, NLS_Solve. apply sim_scope.
    assert (T0 : exists t, o_trace o = o_trace o ++ t /\ ~ In "Solve" t) by (exists []; rewrite app_nil_r; split; [reflexivity|intros []]).
    destruct (NLS_CheckParams pa) as [[]|e|w] eqn:CP.
    2:{ unfold sim, mbind, lift. cbn [embed bind]. splits; auto. left. eauto. }
    2:{ exfalso. revert CP. clear. unfold NLS_CheckParams.
        repeat match goal with |- context [bind (f_assert ?c ?m) _] => destruct c; cbn [f_assert bind]; [|discriminate] end.
        destruct (fltb _ _); discriminate. }
    eapply sim_step; [reflexivity|]. cbn [bind]. do 3 apply sim_modify.
    set (o1 := select_solver pr _).
    assert (MX : (0 <= n_max_iterations pa)%Z).
    { unfold NLS_CheckParams in CP. apply bind_ok_inv in CP. destruct CP as (u & E & _). apply f_assert_ok_inv in E. lia. }
    assert (FR : o_qp o1 = o_qp o /\ o_errbuf o1 = o_errbuf o /\ o_vars o1 = vars /\ o_state o1 = NOMINAL /\ o_cs o1 = o_cs o /\
                 o_trace o1 = o_trace o /\ o_calls o1 = o_calls o /\ o_seen o1 = o_seen o /\ solver_selected (o_solver o1)).
    { unfold o1, select_solver, solver_selected. destruct (use_null_space pr) eqn:U.
      - destruct (o_solver (set_state NOMINAL (set_vars_cand vars (o_cand o) o))) eqn:ES; splits; try reflexivity; rewrite ?ES; auto.
      - destruct (o_solver (set_state NOMINAL (set_vars_cand vars (o_cand o) o))) eqn:ES; splits; try reflexivity; rewrite ?ES; auto. }
    destruct FR as (F1 & F2 & F3 & F4 & F5 & F6 & F7 & F8 & F9).
    assert (SZ1 : sized o1) by (apply (sz_transfer o); auto).
    rewrite <- F6 in T0.
    pose proof (loop_sim (Z.to_nat (n_max_iterations pa)) 0 (n_lambda_initial pa) (n_equality_penalty_initial pa) [] o1 (o_trace o1) SZ1 F9 T0) as HL.
    cbv zeta in HL. rewrite F3, F4, F5 in HL.
    assert (RUN : forall k cs r, pure None k pa pr g 0 [] (MkNS vars (n_lambda_initial pa) (n_equality_penalty_initial pa) NOMINAL) cs = Ok r ->
              run k cs = Ok r).
    { intros k cs r HR. unfold run, NLS_Solve. rewrite (with_max_accepted k CP). cbn [bind]. rewrite with_max_loop.
      change (n_max_iterations (with_max (Z.of_nat k))) with (Z.of_nat k). rewrite Nat2Z.id. exact HR. }
    eapply sim_weaken; [exact HL| |].
    - intros out x o' _ (E1 & E2 & E3 & SZ' & new & sn & I1 & I2 & I3 & I4 & I5 & I6 & I7). cbn [app] in I1. subst new.
      cbn [push_trace o_vars o_cs o_trace o_calls o_seen]. splits; auto.
      + apply (sz_transfer o'); auto.
      + rewrite I2, F6, <- !app_assoc. reflexivity.
      + rewrite I3, F7. reflexivity.
      + exists sn. rewrite I4, F8. splits; auto. intros k w HN. destruct (I7 k w HN) as (r & HR & HV). exists r. split; [apply RUN; exact HR|exact HV].
    - intros o' (SZ' & HT & j & r & Lj & HR & HV). split; [exact SZ'|]. split; [rewrite <- F6; exact HT|]. right.
      exists j, r. split; [lia|]. split; [apply RUN; exact HR|exact HV].
  Qed.
End Proofs.
