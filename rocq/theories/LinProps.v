(** C24, C25: linearisation of the nonlinear problem. *)
From Coq Require Import String List Bool Arith ZArith Reals Lra Lia.
From Verif Require Import Scalar Outcome LinAlg Structs Constraint QPModel NullSpace Residual Nonlinear RInst
  Props_Constraint Spec QPStep ResProps.
Import ListNotations.
Local Open Scope string_scope.
Local Open Scope list_scope.
Local Open Scope R_scope.

(** ** Specification vocabulary *)

(** Component k of the linearised residual e + J dx at [vars]; dx is given in full coordinates. *)
Definition lin_residual (r : residual R) (vars : list R) (dx : nat -> R) (k : nat) : R :=
  vget (fst (res_fJ r (gathered r vars))) k +
  Rsum (length (res_index r)) (fun a => mget (snd (res_fJ r (gathered r vars))) k a * dx (gidx r a)).

(** Sum over the costs of 1/2 |e + J dx|^2. *)
Definition lin_cost (pr : Problem R) (vars : list R) (dx : nat -> R) : R :=
  Rlsum (map (fun r => / 2 * Rsum (res_dim r) (fun k => lin_residual r vars dx k ^ 2)) (pr_costs pr)).
(** Sum over the costs of |J dx|^2. *)
Definition lin_curvature (pr : Problem R) (vars : list R) (dx : nat -> R) : R :=
  Rlsum (map (fun r => Rsum (res_dim r) (fun k => (lin_residual r vars dx k - lin_residual r vars (fun _ => 0%R) k) ^ 2)) (pr_costs pr)).
(** All linearised equality constraints c + J dx, stacked in order. *)
Definition lin_equalities (pr : Problem R) (vars : list R) (dx : nat -> R) : list R :=
  flat_map (fun r => mkvec (res_dim r) (lin_residual r vars dx)) (pr_eq pr).

(** No residual lists the same variable twice. *)
Definition distinct_indices {F} (pr : Problem F) : Prop :=
  (forall r, In r (pr_costs pr) -> NoDup (res_index r)) /\ (forall r, In r (pr_eq pr) -> NoDup (res_index r)).

Lemma lin_residual_0 : forall r vars k, lin_residual r vars (fun _ => 0%R) k = vget (fst (res_fJ r (gathered r vars))) k.
Proof. intros. unfold lin_residual. rewrite Rsum_0; [ring|]. intros; ring. Qed.

Lemma lin_residual_diff : forall r vars dx k,
  lin_residual r vars dx k - lin_residual r vars (fun _ => 0%R) k =
  Rsum (length (res_index r)) (fun a => mget (snd (res_fJ r (gathered r vars))) k a * dx (gidx r a)).
Proof. intros. rewrite lin_residual_0. unfold lin_residual. ring. Qed.

Lemma mzero_wf : forall F (O : Ops F) r c, wf_mat (mzero r c : mat F).
Proof.
  intros. split; simpl; [apply repeat_length|]. apply Forall_forall. intros x H. apply repeat_spec in H. subst x.
  apply repeat_length.
Qed.

Lemma mget_mzero : forall r c i j, mget (mzero r c : mat R) i j = 0.
Proof.
  intros. unfold mget, mzero; simpl. destruct (Nat.lt_ge_cases i r).
  - rewrite (nth_indep _ [] (repeat 0 c)) by (rewrite repeat_length; assumption). rewrite nth_repeat.
    destruct (Nat.lt_ge_cases j c).
    + apply nth_repeat.
    + apply nth_overflow. rewrite repeat_length. assumption.
  - rewrite (nth_overflow (repeat (repeat 0 c) r)) by (rewrite repeat_length; assumption). destruct j; reflexivity.
Qed.

Lemma sym_form_zero : forall r c n x, sym_form (mzero r c) n x = 0.
Proof.
  intros. unfold sym_form. apply Rsum_0. intros i Hi. apply Rsum_0. intros j Hj. unfold sget.
  destruct (j <=? i)%nat; rewrite mget_mzero; ring.
Qed.

Lemma Rlsum_app : forall u v, Rlsum (u ++ v) = Rlsum u + Rlsum v.
Proof. induction u; intro v; simpl; [ring|]. rewrite IHu. ring. Qed.

(** The cost part, any residuals with distinct indices. *)
Lemma linearize_costs_spec : forall vars lambda (pr : Problem R) G c f,
  (forall r, In r (pr_costs pr) -> NoDup (res_index r)) ->
  linearize_costs vars lambda pr = Ok (G, c, f) ->
  let n := pdim pr in
  wf_mat G /\ mrows G = n /\ mcols G = n /\ length c = n /\
  (forall r, In r (pr_costs pr) -> idx_ok r (length vars) /\ idx_ok r n) /\
  (forall x, sym_form G n x = Rlsum (map (fun r => Jdx_sq r (gathered r vars) x) (pr_costs pr))
                              + Rmax lambda 0 * Rsum n (fun i => x i ^ 2)) /\
  (forall x, Rsum n (fun i => vget c i * x i) = Rlsum (map (fun r => Jdx_dot_e r (gathered r vars) x) (pr_costs pr))) /\
  f = Rlsum (map (fun r => / 2 * Rsum (res_dim r) (fun k => vget (fst (res_fJ r (gathered r vars))) k ^ 2)) (pr_costs pr)).
Proof.
  intros vars lambda pr G c f ND E n. unfold linearize_costs in E. fold n in E.
  inv_bind E. match goal with X : (mat R * list R * R)%type |- _ => destruct X as [[G0 c0] f0'] end.
  apply Ok_inj in E. apply pair_inj in E. destruct E as [E <-]. apply pair_inj in E. destruct E as [<- <-].
  set (Inv := fun (dn : list (residual R)) (acc : mat R * list R * R) =>
    let '(G, c, f) := acc in
    wf_mat G /\ mrows G = n /\ mcols G = n /\ length c = n /\
    (forall r, In r dn -> idx_ok r (length vars) /\ idx_ok r n) /\
    (forall x, sym_form G n x = Rlsum (map (fun r => Jdx_sq r (gathered r vars) x) dn)) /\
    (forall x, Rsum n (fun i => vget c i * x i) = Rlsum (map (fun r => Jdx_dot_e r (gathered r vars) x) dn)) /\
    f = Rlsum (map (fun r => / 2 * Rsum (res_dim r) (fun k => vget (fst (res_fJ r (gathered r vars))) k ^ 2)) dn)).
  assert (HI : Inv (pr_costs pr) (G0, c0, f0')).
  { eapply ofold_invariant with (P := Inv); [exact Hm| |].
    - unfold Inv. splits; auto using mzero_wf, vzero_length.
      + intros r [].
      + intro x. simpl. apply sym_form_zero.
      + intro x. simpl. apply Rsum_0. intros i Hi. rewrite vzero_get. ring.
    - intros dn r [[Ga ca] fa] [[Gb cb] fb] [rest HR] (IW & IR & IC & IL & II & IS & IV & IF) HS.
      inv_bind HS. match goal with X : (mat R * list R * R)%type |- _ => destruct X as [[Gx cx] ex] end.
      apply Ok_inj in HS. apply pair_inj in HS. destruct HS as [HS <-]. apply pair_inj in HS. destruct HS as [<- <-].
      assert (NDr : NoDup (res_index r)) by (apply ND; rewrite HR; apply in_elt).
      destruct (UpdateHessian_raw _ _ _ _ _ _ _ IW Hm0) as (W' & R' & C' & L' & _ & _ & I1 & I2 & _).
      destruct (C22_UpdateHessian_entries _ _ _ _ _ _ _ IW NDr Hm0) as (_ & _ & EC).
      unfold Inv. splits; try congruence; auto.
      + intros r' Hin. apply in_app_iff in Hin. destruct Hin as [Hin|[<-|[]]]; [apply II; exact Hin|].
        split; [exact I1|rewrite <- IR; exact I2].
      + intro x. destruct (C22_UpdateHessian_gauss_newton _ _ _ _ _ _ _ IW NDr Hm0 x) as (QF & _ & _).
        rewrite IR in QF. rewrite QF, IS, map_app, Rlsum_app. simpl. ring.
      + intro x. destruct (C22_UpdateHessian_gauss_newton _ _ _ _ _ _ _ IW NDr Hm0 x) as (_ & LF & _).
        rewrite IR in LF. rewrite LF, IV, map_app, Rlsum_app. simpl. ring.
      + rewrite map_app, Rlsum_app, <- IF, EC. simpl. ring. }
  destruct HI as (IW & IR & IC & IL & II & IS & IV & IF).
  destruct (R_fgtb lambda f0) as [HL|HL]; simpl in HL.
  - splits; auto using mkmat_wf.
    + intro x. rewrite Rmax_left by lra. rewrite <- IS. unfold sym_form.
      rewrite <- Rsum_scal_l, <- Rsum_plus. apply Rsum_ext. intros i Hi.
      transitivity (Rsum n (fun j => x i * sget G0 i j * x j + (if (j =? i)%nat then lambda * x i * x j else 0))).
      * apply Rsum_ext. intros j Hj. unfold sget. destruct (Nat.leb_spec j i).
        -- rewrite mget_mkmat by assumption. destruct (Nat.eqb_spec i j); destruct (Nat.eqb_spec j i); try lia; cbn [fadd R_ops]; ring.
        -- rewrite mget_mkmat by assumption. destruct (Nat.eqb_spec j i); try lia; ring.
      * rewrite Rsum_plus. f_equal. rewrite (Rsum_delta n i (fun j => lambda * x i * x j) Hi). ring.
  - splits; auto. intro x. rewrite Rmax_right by lra. rewrite IS. ring.
Qed.

(** The stacked equality rows. *)
Lemma linearize_eq_spec : forall vars (pr : Problem R) rows b e,
  (forall r, In r (pr_eq pr) -> NoDup (res_index r)) ->
  linearize_eq vars pr = Ok (rows, b, e) ->
  let n := pdim pr in
  length rows = length b /\ length b = list_sum (map res_dim (pr_eq pr)) /\
  Forall (fun row => length row = n) rows /\
  (forall r, In r (pr_eq pr) -> idx_ok r (length vars) /\ idx_ok r n) /\
  (forall x, map (fun i => Rsum n (fun j => nth j (nth i rows []) 0 * x j) + vget b i) (seq 0 (length b))
             = lin_equalities pr vars x) /\
  e = Rlsum (map Rabs b).
Proof.
  intros vars pr rows b e ND E n. unfold linearize_eq in E. fold n in E.
  set (Inv := fun (dn : list (residual R)) (acc : list (list R) * list R * R) =>
    let '(rows, b, e) := acc in
    length rows = length b /\ length b = list_sum (map res_dim dn) /\ Forall (fun row => length row = n) rows /\
    (forall r, In r dn -> idx_ok r (length vars) /\ idx_ok r n) /\
    (forall x, map (fun i => Rsum n (fun j => nth j (nth i rows []) 0 * x j) + vget b i) (seq 0 (length b))
               = flat_map (fun r => mkvec (res_dim r) (lin_residual r vars x)) dn) /\
    e = Rlsum (map Rabs b)).
  assert (HI : Inv (pr_eq pr) (rows, b, e)); [|exact HI].
  eapply ofold_invariant with (P := Inv); [exact E| |].
  - unfold Inv; simpl. splits; auto. intros r [].
  - intros dn r [[rw bb] ee] [[rw' bb'] ee'] [rest HR] (IL & IB & IW & II & IX & IE) HS.
    inv_bind HS. clear Hm. inv_bind HS. match goal with X : (mat R * list R)%type |- _ => destruct X as [J br] end.
    apply Ok_inj in HS. apply pair_inj in HS. destruct HS as [HS <-]. apply pair_inj in HS. destruct HS as [<- <-].
    assert (NDr : NoDup (res_index r)) by (apply ND; rewrite HR; apply in_elt).
    destruct (C22_UpdateJacobian _ _ _ _ _ NDr Hm) as (JR & JC & Ebr & _ & _ & JX).
    assert (WJ : wf_mat J /\ idx_ok r (length vars) /\ idx_ok r n).
    { unfold UpdateJacobian in Hm. inv_bind Hm. apply GatherValues_inv in Hm0. destruct Hm0 as [I ->].
      cbv zeta in Hm. inv_bind Hm. apply Ok_inj in Hm. apply pair_inj in Hm. destruct Hm as [-> _].
      set (P := fun (d : list nat) (M : mat R) => wf_mat M /\
         forall a, (a < length d)%nat -> (nth a (res_index r) 0 < Z.of_nat n)%Z).
      assert (HP : P (seq 0 (length (res_index r))) J).
      { eapply ofold_invariant with (P := P); [exact Hm0| |].
        - split; [apply mzero_wf|]. simpl. intros; lia.
        - intros d x0 M M' [rs HQ] [IP1 IP2] HSS. destruct (seq_split_pos _ _ _ _ HQ) as (Hx & _ & Hlt). subst x0.
          inv_bind HSS. apply f_assert_ok_inv in Hm. apply Z.ltb_lt in Hm. apply Ok_inj in HSS. subst M'.
          split; [apply mkmat_wf|]. intros a' Ha'. rewrite app_length in Ha'. simpl in Ha'.
          destruct (Nat.eq_dec a' (length d)) as [->|]; [exact Hm|apply IP2; lia]. }
      destruct HP as [HP1 HP2]. rewrite seq_length in HP2. split; [exact HP1|]. split; [exact I|].
      intros i Hi. split; [apply I; exact Hi|]. destruct (In_nth _ _ 0%Z Hi) as [a9 [Ha <-]]. apply HP2. exact Ha. }
    destruct WJ as ([WL WF] & I1 & I2).
    assert (Lbr : length br = res_dim r) by (rewrite Ebr; apply mkvec_length).
    unfold Inv. splits.
    + rewrite !app_length. lia.
    + rewrite app_length, map_app, list_sum_app, IB, Lbr. simpl. lia.
    + apply Forall_app. split; [exact IW|]. rewrite JC in WF. exact WF.
    + intros r' Hin. apply in_app_iff in Hin. destruct Hin as [Hin|[<-|[]]]; [apply II; exact Hin|]. split; assumption.
    + intro x. rewrite app_length, seq_app, map_app, flat_map_app. f_equal.
      * rewrite <- IX. apply map_ext_in. intros i Hi. apply in_seq in Hi. f_equal.
        -- apply Rsum_ext. intros j Hj. rewrite app_nth1 by lia. reflexivity.
        -- unfold vget. rewrite app_nth1 by lia. reflexivity.
      * cbn [flat_map]. rewrite app_nil_r. simpl.
        apply (nth_ext _ _ 0 0); [rewrite map_length, seq_length, mkvec_length; exact Lbr|].
        intros k Hk. rewrite map_length, seq_length in Hk. rewrite mkvec_nth by lia.
        rewrite (nth_indep _ 0 ((fun i => Rsum n (fun j => nth j (nth i (rw ++ mdata J) []) 0 * x j) + vget (bb ++ br) i) 0%nat))
          by (rewrite map_length, seq_length; exact Hk).
        rewrite (map_nth (fun i => Rsum n (fun j => nth j (nth i (rw ++ mdata J) []) 0 * x j) + vget (bb ++ br) i)), seq_nth by exact Hk.
        unfold lin_residual.
        rewrite <- (JX k x) by lia. unfold vget. rewrite !app_nth2 by lia. replace (length bb + k - length rw)%nat with k by lia.
        replace (length bb + k - length bb)%nat with k by lia. rewrite Ebr. unfold res_errJ, fixv. rewrite mkvec_nth by lia.
        rewrite Rplus_comm. reflexivity.
    + rewrite map_app, Rlsum_app, <- IE. reflexivity.
Qed.

Lemma fold_total_eq : forall (l : list (residual R)) k, fold_left (fun n r => (n + res_dim r)%nat) l k = (k + list_sum (map res_dim l))%nat.
Proof. induction l; intro k; simpl; [lia|]. rewrite IHl. lia. Qed.

(** The constraints are shifted one by one. *)
Lemma shift_spec : forall (vars : list R) l out,
  ofold (fun acc c => bind (ShiftToVec c vars) (fun c' => Ok (acc ++ [c']))) l [] = Ok out ->
  Forall2 (fun c c' => (0 <= lvar c < Z.of_nat (length vars))%Z /\ c' = ShiftTo c (vget vars (Z.to_nat (lvar c)))) l out.
Proof.
  intros vars l out H.
  eapply (ofold_invariant _ _ _ (fun dn o => Forall2 (fun c c' => (0 <= lvar c < Z.of_nat (length vars))%Z /\ c' = ShiftTo c (vget vars (Z.to_nat (lvar c)))) dn o)); [exact H|constructor|].
  intros dn c a a1 _ IH HS. inv_bind HS. apply Ok_inj in HS. subst a1. apply Forall2_app; [exact IH|].
  constructor; [|constructor]. unfold ShiftToVec in Hm. inv_bind Hm. apply f_assert_ok_inv in Hm0. apply Z.ltb_lt in Hm0.
  inv_bind Hm. apply ub_unless_ok_inv in Hm1. apply Z.leb_le in Hm1. apply Ok_inj in Hm. split; [lia|]. auto.
Qed.

(** C24: the QP built at each nonlinear iteration is the damped Gauss-Newton approximation of the
    problem at [vars]. *)
Theorem C24_linearised_qp : forall vars lambda (pr : Problem R) errs qp,
  distinct_indices pr -> LinearizeAndFillQP vars lambda pr = Ok (errs, qp) ->
  let n := Z.to_nat (pr_dimension pr) in
  (* dimensions *)
  (mrows (qG qp) = n /\ mcols (qG qp) = n /\ length (qc qp) = n /\ mcols (qA qp) = n /\
   mrows (qA qp) = length (qb qp)) /\
  (* objective: cost model plus damping *)
  (forall dx, err_f errs + objective qp dx =
     lin_cost pr vars (vget dx) + / 2 * Rmax lambda 0 * Rsum n (fun i => vget dx i ^ 2)) /\
  err_f errs = lin_cost pr vars (fun _ => 0%R) /\
  (forall dx, qform qp dx = lin_curvature pr vars (vget dx) + Rmax lambda 0 * Rsum n (fun i => vget dx i ^ 2)) /\
  (* equality constraints *)
  (forall dx, mkvec (length (qb qp)) (fun k => kkt_eq qp dx k) = lin_equalities pr vars (vget dx)) /\
  err_equality errs = Rlsum (map Rabs (lin_equalities pr vars (fun _ => 0%R))) /\
  (* inequality constraints *)
  Forall2 (fun c c' => lvar c' = lvar c /\
     forall d, IsFeasible c' d = IsFeasible c (vget vars (Z.to_nat (lvar c)) + d)) (pr_ineq pr) (qcons qp).
Proof.
  intros vars lambda pr errs qp [ND1 ND2] E n. unfold LinearizeAndFillQP in E.
  inv_bind E. match goal with X : (mat R * list R * R)%type |- _ => destruct X as [[G c] f] end.
  inv_bind E. match goal with X : (list (list R) * list R * R)%type |- _ => destruct X as [[rows b] e] end.
  inv_bind E. match goal with X : list (lic R) |- _ => rename X into cons end.
  apply Ok_inj in E. apply pair_inj in E. destruct E as [<- <-].
  destruct (linearize_costs_spec _ _ _ _ _ _ ND1 Hm) as (GW & GR & GC & CL & _ & GQ & GL & GF).
  destruct (linearize_eq_spec _ _ _ _ _ ND2 Hm0) as (RL & BL & RW & _ & RX & RE).
  apply shift_spec in Hm1. fold (pdim pr) in n. fold n in GW, GR, GC, CL, GQ, GL, RW, RX.
  set (qp := MkQP G c (Mat (total_eq_size pr) (pdim pr) rows) b cons).
  assert (NV : nv qp = n) by exact CL.
  assert (QF : forall dx, qform qp dx = lin_curvature pr vars (vget dx) + Rmax lambda 0 * Rsum n (fun i => vget dx i ^ 2)).
  { intro dx. transitivity (sym_form G n (vget dx)).
    - unfold qform, sym_form. rewrite NV. reflexivity.
    - rewrite GQ. f_equal. unfold lin_curvature. f_equal. apply map_ext. intro r. unfold Jdx_sq. apply Rsum_ext.
      intros k Hk. rewrite lin_residual_diff. reflexivity. }
  assert (EF : f = lin_cost pr vars (fun _ => 0%R)).
  { rewrite GF. unfold lin_cost. f_equal. apply map_ext. intro r. f_equal. apply Rsum_ext. intros k Hk. rewrite lin_residual_0. reflexivity. }
  assert (EQ : forall dx, mkvec (length b) (fun k => kkt_eq qp dx k) = lin_equalities pr vars (vget dx)).
  { intro dx. rewrite <- RX. unfold mkvec. apply map_ext_in. intros k Hk. unfold kkt_eq, Ae. rewrite NV. reflexivity. }
  splits; cbn [qG qc qA qb qcons mrows mcols err_f err_equality qp].
  - exact GR.
  - exact GC.
  - exact CL.
  - reflexivity.
  - unfold total_eq_size. rewrite fold_total_eq. simpl. auto.
  - intro dx. unfold objective. rewrite QF, NV. cbn [qc qp].
    rewrite GL, GF. unfold lin_curvature, lin_cost.
    assert (A : forall l, Rlsum (map (fun r => / 2 * Rsum (res_dim r) (fun k => lin_residual r vars (vget dx) k ^ 2)) l) =
      Rlsum (map (fun r => / 2 * Rsum (res_dim r) (fun k => vget (fst (res_fJ r (gathered r vars))) k ^ 2)) l) +
      Rlsum (map (fun r => Jdx_dot_e r (gathered r vars) (vget dx)) l) +
      / 2 * Rlsum (map (fun r => Rsum (res_dim r) (fun k => (lin_residual r vars (vget dx) k - lin_residual r vars (fun _ => 0%R) k) ^ 2)) l)).
    { induction l as [|r l IH]; cbn [map Rlsum]; [lra|]. rewrite IH.
      assert (B : Rsum (res_dim r) (fun k => lin_residual r vars (vget dx) k ^ 2) =
        Rsum (res_dim r) (fun k => vget (fst (res_fJ r (gathered r vars))) k ^ 2) + 2 * Jdx_dot_e r (gathered r vars) (vget dx) +
        Rsum (res_dim r) (fun k => (lin_residual r vars (vget dx) k - lin_residual r vars (fun _ => 0%R) k) ^ 2)).
      { unfold Jdx_dot_e. rewrite <- Rsum_scal_l, <- !Rsum_plus. apply Rsum_ext. intros k Hk. rewrite lin_residual_diff.
        unfold lin_residual. ring. }
      rewrite B. lra. }
    rewrite A. lra.
  - exact EF.
  - exact QF.
  - exact EQ.
  - rewrite RE. f_equal. specialize (EQ (vzero n)).
    assert (Z0 : lin_equalities pr vars (fun _ => 0%R) = b).
    { transitivity (lin_equalities pr vars (vget (vzero n))).
      - unfold lin_equalities. apply flat_map_ext. intro r. apply mkvec_ext. intros k Hk. unfold lin_residual. f_equal.
        apply Rsum_ext. intros a' Ha'. rewrite vzero_get. ring.
      - rewrite <- EQ. transitivity (mkvec (length b) (vget b)); [|apply mkvec_vget]. apply mkvec_ext. intros k Hk. unfold kkt_eq. cbn [qb qp].
        rewrite Rsum_0; [ring|]. intros j Hj. rewrite vzero_get. ring. }
    rewrite Z0. reflexivity.
  - clear - Hm1. induction Hm1 as [|c0 c' l l' [HV ->] _ IH]; [constructor|]. constructor; [|exact IH]. split; [reflexivity|]. intro d.
    destruct (IsFeasible c0 (vget vars (Z.to_nat (lvar c0)) + d)) eqn:E1.
    + apply (proj2 (C03_ShiftTo c0 _ d)). exact E1.
    + destruct (IsFeasible (ShiftTo c0 _) d) eqn:E2; [|reflexivity]. apply (proj2 (C03_ShiftTo c0 _ d)) in E2. congruence.
Qed.

Lemma Rlsum_nonneg : forall l, (forall x, In x l -> 0 <= x) -> 0 <= Rlsum l.
Proof.
  induction l; intro H; simpl; [lra|]. assert (0 <= a) by (apply H; left; reflexivity).
  assert (0 <= Rlsum l) by (apply IHl; intros; apply H; right; assumption). lra.
Qed.

(** C24: so the QP is always convex, and strictly convex when lambda > 0. *)
Theorem C24_convex : forall vars lambda (pr : Problem R) errs qp,
  distinct_indices pr -> LinearizeAndFillQP vars lambda pr = Ok (errs, qp) ->
  psd qp /\
  (0 < lambda -> forall dx, (exists i, (i < nv qp)%nat /\ vget dx i <> 0) -> 0 < qform qp dx).
Proof.
  intros vars lambda pr errs qp D E.
  destruct (C24_linearised_qp _ _ _ _ _ D E) as ((_ & _ & CL & _) & _ & _ & QF & _).
  assert (P : forall dx, 0 <= lin_curvature pr vars dx).
  { intro dx. apply Rlsum_nonneg. intros x Hx. apply in_map_iff in Hx. destruct Hx as [r [<- _]].
    apply Rsum_nonneg. intros. apply pow2_ge_0. }
  assert (S : forall dx, 0 <= Rsum (Z.to_nat (pr_dimension pr)) (fun i => vget dx i ^ 2))
    by (intro; apply Rsum_nonneg; intros; apply pow2_ge_0).
  split.
  - intro dx. rewrite QF. specialize (P (vget dx)). specialize (S dx). pose proof (Rmax_r lambda 0). nra.
  - intros HL dx [i [Hi Hne]]. rewrite QF. specialize (P (vget dx)). rewrite Rmax_left by lra.
    assert (0 < Rsum (Z.to_nat (pr_dimension pr)) (fun i => vget dx i ^ 2)).
    { unfold nv in Hi. rewrite CL in Hi.
      assert (0 < vget dx i ^ 2) by (simpl; rewrite Rmult_1_r; nra).
      pose proof (Rsum_pos_term _ (fun i => vget dx i ^ 2) i (fun j _ => pow2_ge_0 _) Hi). simpl in *. lra. }
    nra.
Qed.

(** ** C25: the errors computed while linearising are those of EvaluateNonlinearErrors; any arithmetic *)

(** The user functions return the same value whether or not a Jacobian is requested. *)
Definition value_consistent {F} (pr : Problem F) : Prop :=
  forall r, In r (pr_costs pr) \/ In r (pr_eq pr) -> forall p, fst (res_fJ r p) = res_f r p.

Section AnyArith.
  Context {F : Type} {O : Ops F}.

  Lemma UpdateHessian_cost : forall (r : residual F) vars H b H' b' e,
    (forall p, fst (res_fJ r p) = res_f r p) ->
    UpdateHessian r vars H b = Ok (H', b', e) ->
    bind (ErrorVector r vars (res_dim r)) (fun v => Ok (fmul (flit lit_half) (fsqnorm v))) = Ok e.
  Proof.
    intros r vars H b H' b' e C E. unfold UpdateHessian in E. inv_bind E. inv_bind E. inv_bind E.
    apply GatherValues_inv in Hm1. destruct Hm1 as [I ->]. cbv zeta in E. inv_bind E.
    match goal with X : (mat F * list F)%type |- _ => destruct X as [h bb] end.
    apply Ok_inj in E. apply pair_inj in E. destruct E as [_ <-].
    rewrite (proj1 (C23_ErrorVector r vars (res_dim r)) (conj eq_refl I)). cbn [bind].
    unfold res_err, res_errJ. rewrite C. reflexivity.
  Qed.

  (** C22: the cost returned by UpdateHessian is what QuadraticError computes, when the user function returns the
      same value with and without a Jacobian; any arithmetic. *)
  Theorem C22_QuadraticError_is_cost : forall (r : residual F) vars H b H' b' e,
    (forall p, fst (res_fJ r p) = res_f r p) ->
    UpdateHessian r vars H b = Ok (H', b', e) -> QuadraticError r vars = Ok e.
  Proof. exact UpdateHessian_cost. Qed.

  Lemma UpdateJacobian_err : forall (r : residual F) vars cols J e,
    (forall p, fst (res_fJ r p) = res_f r p) ->
    UpdateJacobian r vars cols = Ok (J, e) -> ErrorVector r vars (res_dim r) = Ok e.
  Proof.
    intros r vars cols J e C E. unfold UpdateJacobian in E. inv_bind E.
    apply GatherValues_inv in Hm. destruct Hm as [I ->]. cbv zeta in E. inv_bind E.
    apply Ok_inj in E. apply pair_inj in E. destruct E as [_ <-].
    rewrite (proj1 (C23_ErrorVector r vars (res_dim r)) (conj eq_refl I)).
    unfold res_err, res_errJ. rewrite C. reflexivity.
  Qed.

  Theorem C25_linearisation_errors : forall vars lambda (pr : Problem F) errs qp,
    value_consistent pr -> LinearizeAndFillQP vars lambda pr = Ok (errs, qp) ->
    EvaluateNonlinearErrors pr vars = Ok errs.
  Proof.
    intros vars lambda pr errs qp C E. unfold LinearizeAndFillQP in E.
    inv_bind E. match goal with X : (mat F * list F * F)%type |- _ => destruct X as [[G c] f] end.
    inv_bind E. match goal with X : (list (list F) * list F * F)%type |- _ => destruct X as [[rows b] e] end.
    inv_bind E. apply Ok_inj in E. apply pair_inj in E. destruct E as [<- _]. clear Hm1.
    unfold linearize_costs in Hm. inv_bind Hm. match goal with X : (mat F * list F * F)%type |- _ => destruct X as [[G0 c0] f00] end.
    apply Ok_inj in Hm. apply pair_inj in Hm. destruct Hm as [_ ->].
    unfold EvaluateNonlinearErrors.
    assert (A : forall l G c f G' c' f', (forall r, In r l -> forall p, fst (res_fJ r p) = res_f r p) ->
      ofold (fun (acc : mat F * list F * F) (r : residual F) =>
        let '(G, c, f) := acc in
        bind (UpdateHessian r vars G c) (fun x => match x with (G', c', e) => Ok (G', c', fadd f e) end)) l (G, c, f) = Ok (G', c', f') ->
      ofold (fun f r => bind (ErrorVector r vars (res_dim r)) (fun e => Ok (fadd f (fmul (flit lit_half) (fsqnorm e))))) l f = Ok f').
    { induction l as [|r l IH]; intros Ga ca fa Gb cb fb Cl H; simpl in *.
      - apply Ok_inj in H. apply pair_inj in H. destruct H as [_ ->]. reflexivity.
      - inv_bind H. inv_bind Hm. match goal with X : (mat F * list F * F)%type, Y : UpdateHessian _ _ _ _ = Ok ?X' |- _ => destruct X' as [[Gx cx] ex] end.
        apply Ok_inj in Hm. match type of Hm with _ = ?z => subst z end.
        pose proof (UpdateHessian_cost _ _ _ _ _ _ _ (Cl r (or_introl eq_refl)) Hm2) as UH.
        destruct (ErrorVector r vars (res_dim r)) as [v|x|x]; cbn [bind] in *; try discriminate.
        apply Ok_inj in UH. rewrite UH. eapply IH; [|exact H]. intros; apply Cl; auto. }
    assert (B : forall l rows b e rows' b' e', (forall r, In r l -> forall p, fst (res_fJ r p) = res_f r p) ->
      ofold (fun (acc : list (list F) * list F * F) (r : residual F) =>
      let '(rows, b, e) := acc in
      bind (f_assert (List.length rows + res_dim r <=? total_eq_size pr)%nat "row + dim <= A_eq.rows()") (fun _ =>
      bind (UpdateJacobian r vars (pdim pr)) (fun x => match x with (J, br) =>
      Ok (rows ++ mdata J, b ++ br, fadd e (fl1 br)) end))) l (rows, b, e) = Ok (rows', b', e') ->
      ofold (fun q r => bind (ErrorVector r vars (res_dim r)) (fun e => Ok (fadd q (fl1 e)))) l e = Ok e').
    { induction l as [|r l IH]; intros Ra ba ea Rb bb eb Cl H; simpl in *.
      - apply Ok_inj in H. apply pair_inj in H. destruct H as [_ ->]. reflexivity.
      - inv_bind H. inv_bind Hm. inv_bind Hm. match goal with Y : UpdateJacobian _ _ _ = Ok ?X' |- _ => destruct X' as [Jx bx] end.
        apply Ok_inj in Hm. match type of Hm with _ = ?z => subst z end.
        rewrite (UpdateJacobian_err _ _ _ _ _ (Cl r (or_introl eq_refl)) Hm3). cbn [bind].
        eapply IH; [|exact H]. intros; apply Cl; auto. }
    rewrite (A _ _ _ _ _ _ _ (fun r Hr => C r (or_introl Hr)) Hm1). cbn [bind].
    unfold linearize_eq in Hm0. rewrite (B _ _ _ _ _ _ _ (fun r Hr => C r (or_intror Hr)) Hm0). reflexivity.
  Qed.
End AnyArith.
