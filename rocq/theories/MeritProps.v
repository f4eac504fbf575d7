(** C26: the logged directional derivatives are derivatives of the merit function. *)
From Coq Require Import String List Bool Arith ZArith Reals Lra Lia.
From Verif Require Import Scalar Outcome LinAlg Structs Constraint QPModel NullSpace Residual Nonlinear RInst
  Props_Constraint Spec QPStep ResProps LinProps.
Import ListNotations.
Local Open Scope string_scope.
Local Open Scope list_scope.
Local Open Scope R_scope.

(** ** Specification vocabulary *)

(** L is the right derivative of phi at 0. *)
Definition right_derivative (phi : R -> R) (L : R) : Prop :=
  forall eps, 0 < eps -> exists delta, 0 < delta /\
    forall t, 0 < t < delta -> Rabs ((phi t - phi 0) / t - L) < eps.

(** (J dx)_k for the Jacobian the user function returns at [vars]. *)
Definition jac_dx (r : residual R) (vars dx : list R) (k : nat) : R :=
  Rsum (length (res_index r)) (fun a => mget (snd (res_fJ r (gathered r vars))) k a * vget dx (gidx r a)).

(** The user function of [r] returns, when asked for a Jacobian at [vars], its value and its derivative in
    the direction [dx]. *)
Definition jac_correct (r : residual R) (vars dx : list R) : Prop :=
  forall k, (k < res_dim r)%nat ->
    vget (fst (res_fJ r (gathered r vars))) k = vget (res_f r (gathered r vars)) k /\
    derivable_pt_lim (fun t => vget (res_f r (gathered r (vadd vars (vscale dx t)))) k) 0 (jac_dx r vars dx k).

(** The part of the right derivative of |c|_1 that comes from constraints with value exactly 0. *)
Definition kink (pr : Problem R) (vars dx : list R) : R :=
  Rlsum (map (fun r => Rsum (res_dim r) (fun k =>
    if Req_EM_T (vget (res_f r (gathered r vars)) k) 0 then Rabs (jac_dx r vars dx k) else 0)) (pr_eq pr)).

(** ** Calculus of right derivatives *)

Lemma rd_unique : forall phi L L', right_derivative phi L -> right_derivative phi L' -> L = L'.
Proof.
  intros phi L L' H H'. destruct (Req_dec L L') as [|NE]; [assumption|exfalso].
  set (e := Rabs (L - L') / 2). assert (He : 0 < e) by (unfold e; assert (0 < Rabs (L - L')) by (apply Rabs_pos_lt; lra); lra).
  destruct (H e He) as [d [Hd HD]]. destruct (H' e He) as [d' [Hd' HD']].
  set (t := Rmin d d' / 2). assert (0 < Rmin d d') by (apply Rmin_pos; assumption).
  pose proof (Rmin_l d d'). pose proof (Rmin_r d d').
  specialize (HD t ltac:(unfold t; lra)). specialize (HD' t ltac:(unfold t; lra)).
  set (q := (phi t - phi 0) / t) in *.
  assert (Rabs (L - L') <= Rabs (q - L) + Rabs (q - L')).
  { replace (L - L') with ((q - L') - (q - L)) by ring. eapply Rle_trans; [apply Rabs_triang|]. rewrite Rabs_Ropp. lra. }
  unfold e in *. lra.
Qed.

Lemma rd_of_derivable : forall phi L, derivable_pt_lim phi 0 L -> right_derivative phi L.
Proof.
  intros phi L H eps He. destruct (H eps He) as [d HD]. exists d. split; [apply cond_pos|].
  intros t Ht. specialize (HD t ltac:(lra) ltac:(rewrite Rabs_pos_eq; lra)). rewrite Rplus_0_l in HD. exact HD.
Qed.

Lemma rd_ext : forall phi psi L, (forall t, 0 <= t -> phi t = psi t) -> right_derivative phi L -> right_derivative psi L.
Proof.
  intros phi psi L E H eps He. destruct (H eps He) as [d [Hd HD]]. exists d. split; [exact Hd|]. intros t Ht.
  rewrite <- !E by lra. apply HD. exact Ht.
Qed.

Lemma rd_const : forall c, right_derivative (fun _ => c) 0.
Proof.
  intros c eps He. exists 1. split; [lra|]. intros t Ht. replace ((c - c) / t - 0) with 0 by (field; lra).
  rewrite Rabs_R0. exact He.
Qed.

Lemma rd_plus : forall phi psi L M, right_derivative phi L -> right_derivative psi M ->
  right_derivative (fun t => phi t + psi t) (L + M).
Proof.
  intros phi psi L M H H' eps He. destruct (H (eps / 2) ltac:(lra)) as [d [Hd HD]]. destruct (H' (eps / 2) ltac:(lra)) as [d' [Hd' HD']].
  exists (Rmin d d'). split; [apply Rmin_pos; assumption|]. intros t Ht.
  pose proof (Rmin_l d d'). pose proof (Rmin_r d d').
  specialize (HD t ltac:(lra)). specialize (HD' t ltac:(lra)).
  replace ((phi t + psi t - (phi 0 + psi 0)) / t - (L + M)) with (((phi t - phi 0) / t - L) + ((psi t - psi 0) / t - M)) by (field; lra).
  eapply Rle_lt_trans; [apply Rabs_triang|]. lra.
Qed.

Lemma rd_scal : forall phi L c, right_derivative phi L -> right_derivative (fun t => c * phi t) (c * L).
Proof.
  intros phi L c H eps He. destruct (Req_dec c 0) as [->|NE].
  - exists 1. split; [lra|]. intros t Ht. replace ((0 * phi t - 0 * phi 0) / t - 0 * L) with 0 by (field; lra).
    rewrite Rabs_R0. exact He.
  - assert (0 < Rabs c) by (apply Rabs_pos_lt; exact NE).
    destruct (H (eps / Rabs c) ltac:(apply Rdiv_lt_0_compat; assumption)) as [d [Hd HD]].
    exists d. split; [exact Hd|]. intros t Ht. specialize (HD t Ht).
    replace ((c * phi t - c * phi 0) / t - c * L) with (c * ((phi t - phi 0) / t - L)) by (field; lra).
    rewrite Rabs_mult. apply (Rmult_lt_compat_l (Rabs c)) in HD; [|assumption].
    replace (Rabs c * (eps / Rabs c)) with eps in HD by (field; lra). exact HD.
Qed.

Lemma rd_Rsum : forall n (phi : nat -> R -> R) (L : nat -> R),
  (forall k, (k < n)%nat -> right_derivative (phi k) (L k)) ->
  right_derivative (fun t => Rsum n (fun k => phi k t)) (Rsum n L).
Proof.
  induction n; intros phi L H; cbn [Rsum]; [apply rd_const|].
  apply (rd_plus (fun t => Rsum n (fun k => phi k t)) (phi n)); [apply IHn; intros; apply H; lia|apply H; lia].
Qed.

Lemma rd_lsum : forall A (l : list A) (phi : A -> R -> R) (L : A -> R),
  (forall a, In a l -> right_derivative (phi a) (L a)) ->
  right_derivative (fun t => Rlsum (map (fun a => phi a t) l)) (Rlsum (map L l)).
Proof.
  induction l; intros phi L H; cbn [map Rlsum]; [apply rd_const|].
  apply (rd_plus (phi a) (fun t => Rlsum (map (fun a => phi a t) l))); [apply H; left; reflexivity|apply IHl; intros; apply H; right; assumption].
Qed.

Lemma rd_abs : forall c l, derivable_pt_lim c 0 l ->
  right_derivative (fun t => Rabs (c t)) (Sign (c 0) * l + (if Req_EM_T (c 0) 0 then Rabs l else 0)).
Proof.
  intros c l H. unfold Sign. cbn [f0 f1 fneg R_ops].
  destruct (R_fgtb (c 0) 0) as [HP|HP]; cbn [f0 f1 fneg R_ops] in *.
  - destruct (Req_EM_T (c 0) 0); [lra|].
    replace (1 * l + 0) with (1 * l) by ring. apply rd_of_derivable.
    apply (derivable_pt_lim_comp c Rabs 0 l 1); [exact H|apply Rabs_derive_1; lra].
  - destruct (R_fltb (c 0) 0) as [HN|HN]; cbn [f0 f1 fneg R_ops] in *.
    + destruct (Req_EM_T (c 0) 0); [lra|].
      replace (- (1) * l + 0) with (- (1) * l) by ring. apply rd_of_derivable.
      apply (derivable_pt_lim_comp c Rabs 0 l (-(1))); [exact H|apply Rabs_derive_2; lra].
    + destruct (Req_EM_T (c 0) 0) as [E|]; [|lra].
      replace (0 * l + Rabs l) with (Rabs l) by ring.
      intros eps He. destruct (rd_of_derivable _ _ H eps He) as [d [Hd HD]]. exists d. split; [exact Hd|].
      intros t Ht. specialize (HD t Ht). rewrite E in *. rewrite Rabs_R0, !Rminus_0_r in *.
      replace (Rabs (c t) / t) with (Rabs (c t / t)).
      * eapply Rle_lt_trans; [apply Rabs_triang_inv2|]. exact HD.
      * unfold Rdiv. rewrite Rabs_mult. f_equal. apply Rabs_pos_eq. left. apply Rinv_0_lt_compat. lra.
Qed.

(** ** Closed form of EvaluateNonlinearErrors *)

Definition cost_at (pr : Problem R) (v : list R) : R :=
  Rlsum (map (fun r => / 2 * Rsum (res_dim r) (fun k => vget (res_f r (gathered r v)) k ^ 2)) (pr_costs pr)).
Definition eq_l1_at (pr : Problem R) (v : list R) : R :=
  Rlsum (map (fun r => Rsum (res_dim r) (fun k => Rabs (vget (res_f r (gathered r v)) k))) (pr_eq pr)).

Lemma half_sq : forall (r : residual R) p,
  fmul (flit lit_half) (fsqnorm (res_err r p)) = / 2 * Rsum (res_dim r) (fun k => vget (res_f r p) k ^ 2).
Proof.
  intros. unfold fsqnorm. cbn [fmul flit fdot R_ops]. rewrite (Rdot_n (res_dim r)) by apply mkvec_length.
  f_equal; [unfold Q2R; simpl; lra|]. apply Rsum_ext. intros k Hk. unfold res_err, fixv. rewrite vget_mkvec by exact Hk. ring.
Qed.

(** C22: QuadraticError is half the squared norm of the error vector, or an assertion when an index is out of
    range. *)
Theorem C22_QuadraticError : forall (r : residual R) vars,
  (idx_ok r (length vars) ->
     QuadraticError r vars = Ok (/ 2 * Rsum (res_dim r) (fun k => vget (res_f r (gathered r vars)) k ^ 2))) /\
  (~ idx_ok r (length vars) -> exists w, QuadraticError r vars = Throw (AssertFailed w)).
Proof.
  intros r vars. destruct (C23_ErrorVector r vars (res_dim r)) as [A B]. unfold QuadraticError. split; intro I.
  - rewrite A by auto. cbn [bind]. rewrite half_sq. reflexivity.
  - destruct B as [w ->]; [tauto|]. cbn [bind]. eauto.
Qed.

Lemma l1_R : forall (r : residual R) p, fl1 (res_err r p) = Rsum (res_dim r) (fun k => Rabs (vget (res_f r p) k)).
Proof.
  intros. unfold fl1. cbn [fsum fabs R_ops]. rewrite Rlsum_Rsum, map_length. unfold res_err, fixv at 1. rewrite mkvec_length.
  apply Rsum_ext. intros k Hk. unfold vget at 1.
  rewrite (nth_indep _ f0 (Rabs 0)) by (rewrite map_length; unfold fixv; rewrite mkvec_length; exact Hk).
  rewrite map_nth. f_equal. unfold fixv. apply mkvec_nth. exact Hk.
Qed.

Lemma eval_errors_R : forall (pr : Problem R) v,
  (forall r, In r (pr_costs pr) \/ In r (pr_eq pr) -> idx_ok r (length v)) ->
  EvaluateNonlinearErrors pr v = Ok (MkErrors (cost_at pr v) (eq_l1_at pr v)).
Proof.
  intros pr v H. unfold EvaluateNonlinearErrors, cost_at, eq_l1_at.
  assert (A : forall l f, (forall r, In r l -> idx_ok r (length v)) ->
    ofold (fun f r => bind (ErrorVector r v (res_dim r)) (fun e => Ok (fadd f (fmul (flit lit_half) (fsqnorm e))))) l f =
    Ok (f + Rlsum (map (fun r => / 2 * Rsum (res_dim r) (fun k => vget (res_f r (gathered r v)) k ^ 2)) l))).
  { induction l as [|r l IH]; intros f Hl; cbn [ofold map Rlsum]; [rewrite Rplus_0_r; reflexivity|].
    rewrite (proj1 (C23_ErrorVector r v (res_dim r)) (conj eq_refl (Hl r (or_introl eq_refl)))). cbn [bind].
    rewrite IH by (intros; apply Hl; right; assumption). rewrite half_sq. cbn [fadd R_ops]. f_equal. ring. }
  assert (B : forall l f, (forall r, In r l -> idx_ok r (length v)) ->
    ofold (fun q r => bind (ErrorVector r v (res_dim r)) (fun e => Ok (fadd q (fl1 e)))) l f =
    Ok (f + Rlsum (map (fun r => Rsum (res_dim r) (fun k => Rabs (vget (res_f r (gathered r v)) k))) l))).
  { induction l as [|r l IH]; intros f Hl; cbn [ofold map Rlsum]; [rewrite Rplus_0_r; reflexivity|].
    rewrite (proj1 (C23_ErrorVector r v (res_dim r)) (conj eq_refl (Hl r (or_introl eq_refl)))). cbn [bind].
    rewrite IH by (intros; apply Hl; right; assumption). rewrite l1_R. cbn [fadd R_ops]. f_equal. ring. }
  rewrite A by (intros; apply H; auto). cbn [bind]. rewrite B by (intros; apply H; auto). cbn [bind f0 R_ops].
  rewrite !Rplus_0_l. reflexivity.
Qed.

(** ** The stacked list of equality values and linearised values *)

Lemma combine_app' : forall A B (a b : list A) (c d : list B), length a = length c ->
  combine (a ++ b) (c ++ d) = combine a c ++ combine b d.
Proof. induction a; intros b [|y c] d H; simpl in *; try discriminate; [reflexivity|]. rewrite IHa by congruence. reflexivity. Qed.

Lemma combine_flat_map : forall A B C (f : A -> list B) (g : A -> list C) l,
  (forall a, length (f a) = length (g a)) ->
  combine (flat_map f l) (flat_map g l) = flat_map (fun a => combine (f a) (g a)) l.
Proof. induction l; intro H; simpl; [reflexivity|]. rewrite combine_app' by apply H. rewrite IHl by exact H. reflexivity. Qed.

Lemma combine_map : forall A B C (f : A -> B) (g : A -> C) l, combine (map f l) (map g l) = map (fun a => (f a, g a)) l.
Proof. induction l; simpl; congruence. Qed.

Lemma Rlsum_flat_map : forall A B (f : A -> list B) (g : B -> R) l,
  Rlsum (map g (flat_map f l)) = Rlsum (map (fun a => Rlsum (map g (f a))) l).
Proof. induction l; simpl; [reflexivity|]. rewrite map_app, Rlsum_app, IHl. reflexivity. Qed.

Lemma Rlsum_seq : forall n (f : nat -> R), Rlsum (map f (seq 0 n)) = Rsum n f.
Proof.
  induction n; intro f; [reflexivity|]. rewrite seq_S, map_app, Rlsum_app, IHn. simpl. ring.
Qed.

(** Any function of (value, linear change) summed over the rows of A_eq, b_eq equals the sum over the
    constraints of the problem. *)
Lemma eq_rows_sum : forall vars lambda (pr : Problem R) errs qp dx (g : R -> R -> R),
  distinct_indices pr -> LinearizeAndFillQP vars lambda pr = Ok (errs, qp) ->
  Rsum (length (qb qp)) (fun i => g (vget (qb qp) i) (Rsum (nv qp) (fun j => Ae qp i j * vget dx j))) =
  Rlsum (map (fun r => Rsum (res_dim r) (fun k => g (vget (fst (res_fJ r (gathered r vars))) k) (jac_dx r vars dx k))) (pr_eq pr)).
Proof.
  intros vars lambda pr errs qp dx g D E.
  destruct (C24_linearised_qp _ _ _ _ _ D E) as (_ & _ & _ & _ & EQ & _).
  pose proof (EQ dx) as E1. pose proof (EQ []) as E0.
  set (h := fun pq : R * R => g (fst pq) (snd pq - fst pq)).
  assert (L : Rlsum (map h (combine (mkvec (length (qb qp)) (fun k => kkt_eq qp [] k)) (mkvec (length (qb qp)) (fun k => kkt_eq qp dx k)))) =
              Rlsum (map h (combine (lin_equalities pr vars (vget [])) (lin_equalities pr vars (vget dx))))) by (rewrite E1, E0; reflexivity).
  assert (V0 : forall j, vget ([] : list R) j = 0) by (intros [|j]; reflexivity).
  unfold mkvec in L at 1 2. rewrite combine_map, map_map, Rlsum_seq in L.
  unfold lin_equalities in L. rewrite combine_flat_map in L by (intro; rewrite !mkvec_length; reflexivity).
  rewrite Rlsum_flat_map in L.
  transitivity (Rsum (length (qb qp)) (fun x => h (kkt_eq qp [] x, kkt_eq qp dx x))).
  - apply Rsum_ext. intros i Hi. unfold h; cbn [fst snd]. unfold kkt_eq.
    rewrite (Rsum_0 _ (fun j => Ae qp i j * vget [] j)) by (intros; rewrite V0; ring). f_equal; ring.
  - rewrite L. f_equal. apply map_ext. intro r. unfold mkvec. rewrite combine_map, map_map, Rlsum_seq.
    apply Rsum_ext. intros k Hk. unfold h; cbn [fst snd]. unfold lin_residual.
    rewrite (Rsum_0 _ (fun a => mget (snd (res_fJ r (gathered r vars))) k a * vget [] (gidx r a))) by (intros; rewrite V0; ring).
    unfold jac_dx. f_equal; ring.
Qed.

Lemma fold_add_Rsum : forall (f : nat -> R) n a, fold_left (fun acc i => fadd acc (f i)) (seq 0 n) a = a + Rsum n f.
Proof.
  intros f n. induction n; intro a; [simpl; ring|]. rewrite seq_S, fold_left_app, IHn. simpl. ring.
Qed.

(** ** C26 *)

(** With the default retraction the errors along the search direction exist for every step size; the
    derivative of the cost is d_f, and the right derivative of the merit function f + penalty |c|_1 is
    the logged total plus a contribution of the constraints whose value is exactly 0. *)
Theorem C26_directional_derivative : forall vars lambda (pr : Problem R) errs qp dx dd penalty,
  distinct_indices pr -> length vars = length dx ->
  LinearizeAndFillQP vars lambda pr = Ok (errs, qp) ->
  ComputeQPCostDerivative qp dx = Ok dd ->
  (forall r, In r (pr_costs pr) \/ In r (pr_eq pr) -> jac_correct r vars dx) ->
  exists phi : R -> Errors R,
    (forall t, bind (RetractCandidateVars None vars dx t) (EvaluateNonlinearErrors pr) = Ok (phi t)) /\
    derivable_pt_lim (fun t => err_f (phi t)) 0 (d_f dd) /\
    right_derivative (fun t => Errors_Total (phi t) penalty) (DD_Total dd penalty + penalty * kink pr vars dx).
Proof.
  intros vars lambda pr errs qp dx dd penalty D LV E ED JC.
  set (w := fun t => vadd vars (vscale dx t)).
  assert (LW : forall t, length (w t) = length vars) by (intro t; unfold w; rewrite vadd_length, vscale_length; lia).
  assert (W0 : w 0 = vars).
  { apply (vget_ext R R_ops); [apply LW|]. intros i Hi. unfold w. rewrite vadd_get by (rewrite vscale_length; exact LV).
    rewrite vscale_get. ring. }
  pose proof (C24_linearised_qp _ _ _ _ _ D E) as ((GR & GC & CL & AC & AR) & _).
  (* index ranges and the cost gradient *)
  pose proof E as E'. unfold LinearizeAndFillQP in E'.
  inv_bind E'. match goal with X : (mat R * list R * R)%type |- _ => destruct X as [[G c] f] end.
  inv_bind E'. match goal with X : (list (list R) * list R * R)%type |- _ => destruct X as [[rows b] e] end.
  inv_bind E'. match goal with X : list (lic R) |- _ => rename X into cons end.
  apply Ok_inj in E'. apply pair_inj in E'. destruct E' as [_ E'].
  destruct (linearize_costs_spec _ _ _ _ _ _ (proj1 D) Hm) as (_ & _ & _ & _ & I1 & _ & GL & _).
  destruct (linearize_eq_spec _ _ _ _ _ (proj2 D) Hm0) as (_ & _ & _ & I2 & _ & _).
  assert (IDX : forall t r, In r (pr_costs pr) \/ In r (pr_eq pr) -> idx_ok r (length (w t))).
  { intros t r [Hr|Hr]; rewrite LW; [apply I1|apply I2]; exact Hr. }
  unfold ComputeQPCostDerivative in ED. inv_bind ED. apply f_assert_ok_inv in Hm2. apply Nat.eqb_eq in Hm2.
  inv_bind ED. apply f_assert_ok_inv in Hm3. apply Nat.eqb_eq in Hm3. apply Ok_inj in ED.
  assert (DF : d_f dd = Rlsum (map (fun r => Rsum (res_dim r) (fun k => vget (res_f r (gathered r vars)) k * jac_dx r vars dx k)) (pr_costs pr))).
  { rewrite <- ED. cbn [d_f fdot R_ops]. rewrite (Rdot_n (length dx)) by (try exact Hm2; reflexivity).
    fold (pdim pr) in CL. rewrite <- Hm2, CL.
    replace (qc qp) with c by (rewrite <- E'; reflexivity). rewrite GL. f_equal. apply map_ext_in. intros r Hr.
    unfold Jdx_dot_e. apply Rsum_ext. intros k Hk. destruct (JC r (or_introl Hr) k Hk) as [-> _]. reflexivity. }
  assert (DE : d_equality dd = Rlsum (map (fun r => Rsum (res_dim r) (fun k => Sign (vget (res_f r (gathered r vars)) k) * jac_dx r vars dx k)) (pr_eq pr))).
  { rewrite <- ED. cbn [d_equality]. rewrite fold_add_Rsum. cbn [f0 R_ops]. rewrite Rplus_0_l, AR.
    rewrite (Rsum_ext _ _ (fun i => Sign (vget (qb qp) i) * Rsum (nv qp) (fun j => Ae qp i j * vget dx j))).
    - rewrite (eq_rows_sum vars lambda pr errs qp dx (fun b v => Sign b * v) D E). f_equal. apply map_ext_in. intros r Hr.
      apply Rsum_ext. intros k Hk. destruct (JC r (or_intror Hr) k Hk) as [-> _]. reflexivity.
    - intros i Hi. cbn [fmul fdot R_ops]. f_equal. unfold mrow. rewrite Hm3. rewrite (Rdot_n (length dx)) by (auto using mkvec_length).
      unfold nv. rewrite Hm2. apply Rsum_ext. intros j Hj. rewrite vget_mkvec by exact Hj. reflexivity. }
  exists (fun t => MkErrors (cost_at pr (w t)) (eq_l1_at pr (w t))). splits.
  - intro t. unfold RetractCandidateVars. rewrite LV, Nat.eqb_refl. cbn [ub_unless bind]. fold (w t).
    apply eval_errors_R. apply IDX.
  - cbn [err_f]. rewrite DF. unfold cost_at. clear - JC W0.
    assert (A : forall l, (forall r, In r l -> jac_correct r vars dx) ->
      derivable_pt_lim (fun t => Rlsum (map (fun r => / 2 * Rsum (res_dim r) (fun k => vget (res_f r (gathered r (w t))) k ^ 2)) l)) 0
        (Rlsum (map (fun r => Rsum (res_dim r) (fun k => vget (res_f r (gathered r vars)) k * jac_dx r vars dx k)) l))).
    { induction l as [|r l IH]; intro Hl; cbn [map Rlsum]; [apply derivable_pt_lim_const|].
      apply (derivable_pt_lim_plus (fun t => / 2 * Rsum (res_dim r) (fun k => vget (res_f r (gathered r (w t))) k ^ 2))
        (fun t => Rlsum (map (fun r => / 2 * Rsum (res_dim r) (fun k => vget (res_f r (gathered r (w t))) k ^ 2)) l)));
        [|apply IH; intros; apply Hl; right; assumption].
      assert (B : forall n, (n <= res_dim r)%nat -> derivable_pt_lim (fun t => Rsum n (fun k => vget (res_f r (gathered r (w t))) k ^ 2)) 0
          (2 * Rsum n (fun k => vget (res_f r (gathered r vars)) k * jac_dx r vars dx k))).
      { induction n; intro Hn; cbn [Rsum].
        - rewrite Rmult_0_r. apply derivable_pt_lim_const.
        - rewrite Rmult_plus_distr_l.
          apply (derivable_pt_lim_plus (fun t => Rsum n (fun k => vget (res_f r (gathered r (w t))) k ^ 2)) (fun t => vget (res_f r (gathered r (w t))) n ^ 2));
            [apply IHn; lia|].
          destruct (Hl r (or_introl eq_refl) n ltac:(lia)) as [_ DV]. fold w in DV.
          set (c := fun t => vget (res_f r (gathered r (w t))) n) in *.
          pose proof (derivable_pt_lim_mult c c 0 _ _ DV DV) as M.
          replace (2 * (vget (res_f r (gathered r vars)) n * jac_dx r vars dx n))
            with (jac_dx r vars dx n * c 0 + c 0 * jac_dx r vars dx n) by (unfold c; rewrite W0; ring).
          intros eps He. destruct (M eps He) as [dl HD]. exists dl. intros hh Hh0 Hh. specialize (HD hh Hh0 Hh).
          unfold mult_fct in HD. unfold c in *. simpl. rewrite !Rmult_1_r. exact HD. }
      replace (Rsum (res_dim r) (fun k => vget (res_f r (gathered r vars)) k * jac_dx r vars dx k))
        with (/ 2 * (2 * Rsum (res_dim r) (fun k => vget (res_f r (gathered r vars)) k * jac_dx r vars dx k))) by lra.
      apply (derivable_pt_lim_scal (fun t => Rsum (res_dim r) (fun k => vget (res_f r (gathered r (w t))) k ^ 2))). apply B. lia. }
    apply A. intros; apply JC; auto.
  - unfold Errors_Total, DD_Total. cbn [err_f err_equality fadd fmul R_ops].
    replace (d_f dd + penalty * d_equality dd + penalty * kink pr vars dx) with (d_f dd + penalty * (d_equality dd + kink pr vars dx)) by ring.
    apply (rd_plus (fun t => cost_at pr (w t)) (fun t => penalty * eq_l1_at pr (w t))).
    + rewrite DF. unfold cost_at. apply rd_lsum. intros r Hr.
      replace (Rsum (res_dim r) (fun k => vget (res_f r (gathered r vars)) k * jac_dx r vars dx k))
        with (/ 2 * Rsum (res_dim r) (fun k => 2 * (vget (res_f r (gathered r vars)) k * jac_dx r vars dx k))) by (rewrite Rsum_scal_l; lra).
      apply (rd_scal (fun t => Rsum (res_dim r) (fun k => vget (res_f r (gathered r (w t))) k ^ 2))).
      apply (rd_Rsum (res_dim r) (fun k t => vget (res_f r (gathered r (w t))) k ^ 2)). intros k Hk.
      destruct (JC r (or_introl Hr) k Hk) as [_ DV]. fold w in DV. set (c0 := fun t => vget (res_f r (gathered r (w t))) k) in *.
      pose proof (derivable_pt_lim_mult c0 c0 0 _ _ DV DV) as M. apply rd_of_derivable in M.
      replace (2 * (vget (res_f r (gathered r vars)) k * jac_dx r vars dx k))
        with (jac_dx r vars dx k * c0 0 + c0 0 * jac_dx r vars dx k) by (unfold c0; rewrite W0; ring).
      eapply rd_ext; [|exact M]. intros t _. unfold mult_fct, c0. ring.
    + apply rd_scal. rewrite DE. unfold kink, eq_l1_at.
      assert (SP : forall l (f g : residual R -> R), Rlsum (map f l) + Rlsum (map g l) = Rlsum (map (fun r => f r + g r) l)).
      { induction l; intros; simpl; [ring|]. rewrite <- IHl. ring. }
      rewrite SP. apply rd_lsum. intros r Hr. rewrite <- Rsum_plus.
      apply (rd_Rsum (res_dim r) (fun k t => Rabs (vget (res_f r (gathered r (w t))) k))). intros k Hk.
      destruct (JC r (or_intror Hr) k Hk) as [_ DV]. fold w in DV.
      pose proof (rd_abs _ _ DV) as RA. cbv beta in RA. change (vadd vars (vscale dx 0)) with (w 0) in RA. rewrite W0 in RA. exact RA.
Qed.

(** C26: for steps that satisfy the linearised equality constraints - the steps of both QP solvers when
    they are exact - the logged total is the right derivative of the merit function. *)
Theorem C26_merit_derivative : forall vars lambda (pr : Problem R) errs qp dx dd penalty,
  distinct_indices pr -> length vars = length dx ->
  LinearizeAndFillQP vars lambda pr = Ok (errs, qp) ->
  ComputeQPCostDerivative qp dx = Ok dd ->
  (forall r, In r (pr_costs pr) \/ In r (pr_eq pr) -> jac_correct r vars dx) ->
  eq_feasible qp dx ->
  exists phi : R -> Errors R,
    (forall t, bind (RetractCandidateVars None vars dx t) (EvaluateNonlinearErrors pr) = Ok (phi t)) /\
    right_derivative (fun t => Errors_Total (phi t) penalty) (DD_Total dd penalty).
Proof.
  intros vars lambda pr errs qp dx dd penalty D LV E ED JC FE.
  destruct (C26_directional_derivative vars lambda pr errs qp dx dd penalty D LV E ED JC) as (phi & P1 & _ & P2).
  exists phi. split; [exact P1|].
  replace (kink pr vars dx) with 0 in P2; [rewrite Rmult_0_r, Rplus_0_r in P2; exact P2|].
  symmetry. unfold kink.
  set (g := fun b v : R => if Req_EM_T b 0 then Rabs v else 0).
  transitivity (Rlsum (map (fun r => Rsum (res_dim r) (fun k => g (vget (fst (res_fJ r (gathered r vars))) k) (jac_dx r vars dx k))) (pr_eq pr))).
  - f_equal. apply map_ext_in. intros r Hr. apply Rsum_ext. intros k Hk. destruct (JC r (or_intror Hr) k Hk) as [-> _]. reflexivity.
  - rewrite <- (eq_rows_sum vars lambda pr errs qp dx g D E). apply Rsum_0. intros i Hi. unfold g.
    specialize (FE i Hi). unfold kkt_eq in FE. destruct (Req_EM_T (vget (qb qp) i) 0) as [Z|]; [|reflexivity].
    rewrite Z, Rplus_0_r in FE. rewrite FE. apply Rabs_R0.
Qed.

(** C26 finding: for a step that does not satisfy the linearised constraints the logged value can miss
    the kink: constraint c(x) = x at x = 0, step 1. The merit function is penalty * t, but the logged
    total derivative is 0. *)
Definition kink_pr : Problem R :=
  MkProblem 1%Z [] [] [MkRes 1 [0%Z] (fun p => [vget p 0]) (fun p => ([vget p 0], Mat 1 1 [[1]]))].
Theorem C26_kink_missed_refuted : exists errs qp dd,
  LinearizeAndFillQP [0] 0 kink_pr = Ok (errs, qp) /\ ComputeQPCostDerivative qp [1] = Ok dd /\
  exists phi, (forall t, bind (RetractCandidateVars None [0] [1] t) (EvaluateNonlinearErrors kink_pr) = Ok (phi t)) /\
    forall penalty, 0 < penalty -> ~ right_derivative (fun t => Errors_Total (phi t) penalty) (DD_Total dd penalty).
Proof.
  do 3 eexists. split; [|split].
  - unfold LinearizeAndFillQP, linearize_costs. cbn [pr_costs kink_pr ofold bind]. reflexivity.
  - reflexivity.
  - eexists. split.
    + intro t. cbn [RetractCandidateVars List.length Nat.eqb ub_unless bind]. unfold EvaluateNonlinearErrors.
      cbn [pr_costs pr_eq kink_pr ofold bind]. reflexivity.
    + intros penalty HP RD. unfold Errors_Total, DD_Total in RD. cbn [err_f err_equality d_f d_equality] in RD.
      assert (RD2 : right_derivative (fun t => penalty * t) penalty).
      { intros eps He. exists 1. split; [lra|]. intros t Ht. replace ((penalty * t - penalty * 0) / t - penalty) with 0 by (field; lra).
        rewrite Rabs_R0. exact He. }
      assert (Z : penalty = 0); [|lra]. 
      eapply rd_unique; [exact RD2|]. eapply rd_ext; [|refine (eq_rect _ (fun L => right_derivative _ L) RD _ _)].
      * intros t Ht. cbn -[Rabs]. unfold fl1, vget; cbn -[Rabs]. unfold vget; cbn -[Rabs].
        rewrite Rabs_pos_eq by lra. ring.
      * unfold Sign, mrow, mkvec, mget, vget; cbn -[Rabs]. unfold mget, vget, fgtb; cbn -[Rabs].
        destruct (Rltb_spec 0 0); [lra|]. change (Pos.to_nat 1) with 1%nat. cbn [seq map nth repeat Nat.eqb Rdot]. ring.
Qed.
