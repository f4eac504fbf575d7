(** C69: the order of the inequality constraints does not matter to the interior point solver (exact arithmetic, any
    factorisation): two runs on problems whose constraint lists are permutations of each other produce the same log, the
    same x and y, and the same slack and multiplier for each constraint. *)
From Coq Require Import String List Bool Arith ZArith QArith Reals Lra Lia Permutation.
From Verif Require Import Scalar Outcome LinAlg Structs Constraint QPModel RInst Spec
  Props_Constraint QPBlocks QPAlgebra QPNewton QPAlpha QPStep QPTrace QPInit QPSolve QPIter QPReuse.
Import ListNotations.
Local Open Scope outcome_scope.
Local Open Scope string_scope.
Local Open Scope list_scope.
Local Open Scope R_scope.

(** ** Sums and folds under permutations *)

Lemma Rlsum_permutation : forall l l' : list R, Permutation l l' -> Rlsum l = Rlsum l'.
Proof. intros l l' P. induction P; cbn [Rlsum]; lra. Qed.

Lemma Rsum_Rlsum_map : forall n (f : nat -> R), Rsum n f = Rlsum (map f (seq 0 n)).
Proof.
  intros n f. rewrite Rlsum_Rsum, map_length, seq_length. apply Rsum_ext. intros i Hi.
  rewrite (vget_map_R _ f (seq 0 n) i 0%nat) by (rewrite seq_length; exact Hi). rewrite seq_nth by exact Hi. reflexivity.
Qed.

Lemma Rsum_reindex : forall n pi (f : nat -> R),
  (forall i, (i < n)%nat -> (pi i < n)%nat) ->
  (forall i j, (i < n)%nat -> (j < n)%nat -> pi i = pi j -> i = j) ->
  Rsum n (fun i => f (pi i)) = Rsum n f.
Proof.
  intros n pi f HB HI. rewrite !Rsum_Rlsum_map. apply Rlsum_permutation.
  rewrite <- (map_map pi f). apply Permutation_map.
  apply NoDup_Permutation_bis.
  - apply (NoDup_nth _ 0%nat). rewrite map_length, seq_length. intros i j Hi Hj E.
    rewrite !(nth_indep _ 0%nat (pi 0%nat)) in E by (rewrite map_length, seq_length; assumption).
    rewrite !map_nth, !seq_nth in E by assumption. apply HI; assumption.
  - rewrite map_length. lia.
  - intros k Hk. apply in_map_iff in Hk. destruct Hk as (i & <- & Hi). apply in_seq in Hi. apply in_seq.
    specialize (HB i ltac:(lia)). lia.
Qed.

Lemma fold_left_permutation : forall A B (f : A -> B -> A), (forall a b c, f (f a b) c = f (f a c) b) ->
  forall l l', Permutation l l' -> forall a, fold_left f l a = fold_left f l' a.
Proof.
  intros A B f C l l' P. induction P; intro a; cbn [fold_left]; auto.
  - rewrite C. reflexivity.
  - rewrite IHP1. apply IHP2.
Qed.

Lemma alpha_step_comm : forall tau (a : R) b c,
  alpha_step tau (alpha_step tau a b) c = alpha_step tau (alpha_step tau a c) b.
Proof.
  intros tau a [v dv] [w dw]. unfold alpha_step.
  destruct (fleb (fadd v dv) f0 && fgtb (fabs dv) f0); destruct (fleb (fadd w dw) f0 && fgtb (fabs dw) f0); auto.
  set (c1 := fdiv (fmul (fneg tau) v) dv). set (c2 := fdiv (fmul (fneg tau) w) dw). clearbody c1 c2.
  cbv zeta.
  destruct (R_fltb c1 a); destruct (R_fltb c2 a);
    repeat match goal with |- context [fltb ?x ?y] => destruct (R_fltb x y) end; lra.
Qed.

(** ** Clamping in a different order *)

Lemma ClampX_formula : forall (c : lic R) v,
  ClampX c v = if Req_EM_T (la c) 0 then Throw (AssertFailed "ClampX: a cannot be zero")
               else if Rlt_dec (la c) 0 then Ok (Rmin v (lb c / - la c)) else Ok (Rmax v (- lb c / la c)).
Proof.
  intros c v. unfold ClampX.
  destruct (R_feqb (la c) f0) as [Z|Z]; destruct (Req_EM_T (la c) 0) as [Y|Y]; try (exfalso; apply Z; exact Y);
    try (exfalso; apply Y; exact Z); [reflexivity|]. cbn [negb f_assert bind].
  destruct (R_fltb (la c) f0) as [N|N]; destruct (Rlt_dec (la c) 0) as [M|M]; try (exfalso; apply M; exact N);
    try (exfalso; apply N; exact M); rewrite ?R_fmin, ?R_fmax; reflexivity.
Qed.

Lemma ClampX_commute : forall (c c' : lic R) v w,
  la c * w + lb c >= 0 -> la c' * w + lb c' >= 0 ->
  (do u <- ClampX c v ; ClampX c' u) = (do u <- ClampX c' v ; ClampX c u).
Proof.
  intros c c' v w F F'. rewrite (ClampX_formula c v), (ClampX_formula c' v).
  assert (UB : forall k : lic R, la k <> 0 -> la k < 0 -> la k * w + lb k >= 0 -> w <= lb k / - la k).
  { intros k H0 H1 H2. assert (E : (lb k / - la k) * - la k = lb k) by (field; lra).
    apply Rmult_le_reg_r with (- la k); lra. }
  assert (LB : forall k : lic R, la k <> 0 -> ~ la k < 0 -> la k * w + lb k >= 0 -> - lb k / la k <= w).
  { intros k H0 H1 H2. assert (0 < la k) by (destruct (Rtotal_order (la k) 0) as [|[|]]; lra).
    assert (E : (- lb k / la k) * la k = - lb k) by (field; lra). apply Rmult_le_reg_r with (la k); lra. }
  destruct (Req_EM_T (la c) 0) as [E|E]; destruct (Req_EM_T (la c') 0) as [E'|E']; cbn [bind].
  - reflexivity.
  - destruct (Rlt_dec (la c') 0); cbn [bind]; rewrite ClampX_formula; destruct (Req_EM_T (la c) 0); congruence.
  - destruct (Rlt_dec (la c) 0); cbn [bind]; rewrite ClampX_formula; destruct (Req_EM_T (la c') 0); congruence.
  - destruct (Rlt_dec (la c) 0) as [N|N]; destruct (Rlt_dec (la c') 0) as [N'|N']; cbn [bind]; rewrite !ClampX_formula;
      destruct (Req_EM_T (la c) 0); try contradiction; destruct (Req_EM_T (la c') 0); try contradiction;
      destruct (Rlt_dec (la c) 0); try contradiction; destruct (Rlt_dec (la c') 0); try contradiction; f_equal.
    + set (a := lb c / - la c). set (b := lb c' / - la c'). clearbody a b. unfold Rmin. repeat destruct Rle_dec; lra.
    + pose proof (UB c E N F) as U. pose proof (LB c' E' N' F') as L.
      set (a := lb c / - la c) in *. set (b := - lb c' / la c') in *. clearbody a b. unfold Rmin, Rmax. repeat destruct Rle_dec; lra.
    + pose proof (UB c' E' N' F') as U. pose proof (LB c E N F) as L.
      set (a := lb c' / - la c') in *. set (b := - lb c / la c) in *. clearbody a b. unfold Rmin, Rmax. repeat destruct Rle_dec; lra.
    + set (a := - lb c / la c). set (b := - lb c' / la c'). clearbody a b. unfold Rmax. repeat destruct Rle_dec; lra.
Qed.

Lemma vupd_comm : forall A i j (f g : A -> A) (v : list A), i <> j -> vupd i f (vupd j g v) = vupd j g (vupd i f v).
Proof.
  intros A i j f g v. revert i j. induction v as [|a v IH]; intros [|i] [|j] H; cbn [vupd]; try reflexivity; try congruence.
  f_equal. apply IH. congruence.
Qed.

Lemma clamp_one_commute : forall (x : list R) c c' w,
  (cidx c < length x)%nat -> (cidx c' < length x)%nat ->
  (0 <= lvar c)%Z -> (0 <= lvar c')%Z -> feas c w -> feas c' w ->
  (do y <- clamp_one x c ; clamp_one y c') = (do y <- clamp_one x c' ; clamp_one y c).
Proof.
  intros x c c' w L L' V V' F F'. unfold clamp_one. apply Z.leb_le in V, V'. rewrite V, V'. cbn [ub_unless bind].
  destruct (Nat.eq_dec (cidx c) (cidx c')) as [E|E].
  - unfold feas in F, F'. rewrite <- E in F'. pose proof (ClampX_commute c c' (vget x (cidx c)) (vget w (cidx c)) F F') as CC.
    rewrite <- E.
    destruct (ClampX c (vget x (cidx c))) as [u|e|b] eqn:E1; destruct (ClampX c' (vget x (cidx c))) as [u'|e'|b'] eqn:E2; cbn [bind] in *;
      rewrite ?(vget_vupd R R_ops) by assumption; rewrite ?Nat.eqb_refl.
    + rewrite CC. destruct (ClampX c u') as [t|t|t]; cbn [bind]; try reflexivity. rewrite !vupd_vupd. reflexivity.
    + rewrite CC. reflexivity.
    + rewrite CC. reflexivity.
    + rewrite <- CC. reflexivity.
    + exact (f_equal (fun o => match o with Ok _ => Ok x | Throw t => Throw t | UB t => UB t end) CC).
    + discriminate.
    + rewrite <- CC. reflexivity.
    + discriminate.
    + exact (f_equal (fun o => match o with Ok _ => Ok x | Throw t => Throw t | UB t => UB t end) CC).
  - destruct (ClampX c (vget x (cidx c))) as [u|e|b] eqn:E1; destruct (ClampX c' (vget x (cidx c'))) as [u'|e'|b'] eqn:E2; cbn [bind];
      rewrite ?(vget_vupd R R_ops) by assumption;
      repeat (match goal with |- context [(?a =? ?b)%nat] => destruct (Nat.eqb_spec a b); try congruence end);
      rewrite ?E1, ?E2; cbn [bind]; try reflexivity.
    + rewrite vupd_comm by congruence. reflexivity.
    + rewrite ClampX_formula in E1, E2. repeat match goal with H : context [Req_EM_T ?a ?b] |- _ => destruct (Req_EM_T a b) | H : context [Rlt_dec ?a ?b] |- _ => destruct (Rlt_dec a b) end; congruence.
    + exfalso. rewrite ClampX_formula in E2. repeat match goal with H : context [Req_EM_T ?a ?b] |- _ => destruct (Req_EM_T a b) | H : context [Rlt_dec ?a ?b] |- _ => destruct (Rlt_dec a b) end; congruence.
    + exfalso. rewrite ClampX_formula in E1. repeat match goal with H : context [Req_EM_T ?a ?b] |- _ => destruct (Req_EM_T a b) | H : context [Rlt_dec ?a ?b] |- _ => destruct (Rlt_dec a b) end; congruence.
    + exfalso. rewrite ClampX_formula in E1. repeat match goal with H : context [Req_EM_T ?a ?b] |- _ => destruct (Req_EM_T a b) | H : context [Rlt_dec ?a ?b] |- _ => destruct (Rlt_dec a b) end; congruence.
Qed.

Lemma clamp_fold_order : forall cs cs', Permutation cs cs' -> forall (x w : list R),
  (forall c, In c cs -> (0 <= lvar c)%Z /\ (cidx c < length x)%nat /\ feas c w) ->
  ofold clamp_one cs x = ofold clamp_one cs' x.
Proof.
  intros cs cs' P. induction P as [|c cs cs' P IH|c c' cs|cs1 cs2 cs3 P1 IH1 P2 IH2]; intros x w H; cbn [ofold].
  - reflexivity.
  - destruct (clamp_one x c) as [y|e|b] eqn:E; cbn [bind]; try reflexivity.
    apply (IH y w). intros d Hd. destruct (H d (or_intror Hd)) as (A & B & C).
    destruct (clamp_one_inv _ _ _ E) as (_ & _ & L & _); [apply (H c (or_introl eq_refl))|]. rewrite L. auto.
  - destruct (H c (or_intror (or_introl eq_refl))) as (A & B & C). destruct (H c' (or_introl eq_refl)) as (A' & B' & C').
    pose proof (clamp_one_commute x c' c w B' B A' A C' C) as CC.
    destruct (clamp_one x c') as [y|e|b]; destruct (clamp_one x c) as [y'|e'|b']; cbn [bind] in *.
    + rewrite CC. reflexivity.
    + rewrite CC. reflexivity.
    + rewrite CC. reflexivity.
    + rewrite <- CC. reflexivity.
    + exact (f_equal (fun o => match o with Ok _ => Ok x | Throw t => Throw t | UB t => UB t end) CC).
    + discriminate.
    + rewrite <- CC. reflexivity.
    + discriminate.
    + exact (f_equal (fun o => match o with Ok _ => Ok x | Throw t => Throw t | UB t => UB t end) CC).
  - rewrite (IH1 x w H). apply (IH2 x w). intros c Hc. apply H. apply (Permutation_in _ (Permutation_sym P1) Hc).
Qed.

(** ** Two solvers side by side *)
Section Perm.
  Variables p p' : QP R.
  Variable pi : nat -> nat.
  Hypothesis W : wf_qp p.
  Hypothesis W' : wf_qp p'.
  Hypothesis EG : qG p' = qG p.
  Hypothesis Ec : qc p' = qc p.
  Hypothesis EA : qA p' = qA p.
  Hypothesis Eb : qb p' = qb p.
  Hypothesis EM : nineq p' = nineq p.
  Hypothesis PB : forall i, (i < nineq p)%nat -> (pi i < nineq p)%nat.
  Hypothesis PI : forall i j, (i < nineq p)%nat -> (j < nineq p)%nat -> pi i = pi j -> i = j.
  Hypothesis PC : forall m, (m < nineq p)%nat -> con p' m = con p (pi m).

  Lemma Env : nv p' = nv p. Proof. unfold nv. rewrite Ec. reflexivity. Qed.
  Lemma Ene : neq p' = neq p. Proof. unfold neq. rewrite Eb. reflexivity. Qed.

  Let d := MkDims (nv p) (nineq p) (neq p).

  (** The slack or multiplier of constraint m of the second problem is that of constraint pi m of the first. *)
  Definition moved (u u' : list R) : Prop := length u = nineq p /\ length u' = nineq p /\
    forall m, (m < nineq p)%nat -> vget u' m = vget u (pi m).

  Record vrel (v v' : list R) : Prop := {
    vr_l : length v = tsize d;
    vr_l' : length v' = tsize d;
    vr_x : xblk d v' = xblk d v;
    vr_y : yblk d v' = yblk d v;
    vr_s : moved (sblk d v) (sblk d v');
    vr_z : moved (zblk d v) (zblk d v') }.

  Record srel (st st' : ip_solver R) : Prop := {
    sr_rd : ready p st;
    sr_rd' : ready p' st';
    sr_v : vrel (ip_vars st) (ip_vars st') }.

  Lemma sr_d : forall st st', srel st st' -> ip_dims st = d /\ ip_dims st' = d.
  Proof.
    intros st st' S. split; [apply (rd_dims _ _ (sr_rd _ _ S))|].
    rewrite (rd_dims _ _ (sr_rd' _ _ S)). unfold d. rewrite Env, Ene, EM. reflexivity.
  Qed.

  Lemma moved_perm : forall u u', moved u u' -> Permutation u u'.
  Proof.
    intros u u' (L & L' & H). apply (Permutation_nth u u' 0). rewrite L. split; [exact L'|].
    exists pi. splits; [exact PB|exact PI|exact H].
  Qed.
  Lemma moved_perm2 : forall u u' v v', moved u u' -> moved v v' -> Permutation (combine u v) (combine u' v').
  Proof.
    intros u u' v v' (L & L' & H) (K & K' & G). apply (Permutation_nth _ _ (0, 0)).
    rewrite !combine_length, L, L', K, K', !Nat.min_id. split; [reflexivity|]. exists pi. splits; [exact PB|exact PI|].
    intros m Hm. rewrite !combine_nth by congruence. f_equal; [apply (H m Hm)|apply (G m Hm)].
  Qed.
  Lemma moved_sum : forall f g, (forall m, (m < nineq p)%nat -> g m = f (pi m)) -> Rsum (nineq p) g = Rsum (nineq p) f.
  Proof. intros f g H. rewrite (Rsum_ext _ g (fun m => f (pi m))) by exact H. apply Rsum_reindex; assumption. Qed.
  Lemma moved_dot : forall u u' v v', moved u u' -> moved v v' -> Rdot u' v' = Rdot u v.
  Proof.
    intros u u' v v' (L & L' & H) (K & K' & G). rewrite !(Rdot_n (nineq p)) by assumption.
    apply moved_sum. intros m Hm. rewrite (H m Hm), (G m Hm). reflexivity.
  Qed.
  Lemma moved_ca : forall m, (m < nineq p)%nat -> ca p' m = ca p (pi m) /\ cb p' m = cb p (pi m) /\ cv p' m = cv p (pi m).
  Proof. intros m Hm. unfold ca, cb, cv. rewrite (PC m Hm). auto. Qed.
  Lemma moved_intro : forall u u', length u = nineq p -> length u' = nineq p ->
    (forall m, (m < nineq p)%nat -> vget u' m = vget u (pi m)) -> moved u u'.
  Proof. intros. unfold moved. auto. Qed.

  Lemma vec_eq : forall (u v : list R), length u = length v -> (forall i, (i < length u)%nat -> vget u i = vget v i) -> u = v.
  Proof. intros u v L H. apply (nth_ext u v 0 0 L). exact H. Qed.

  (** *** Residuals and errors *)
  Lemma dual_same : forall x y z z' i, moved z z' -> (i < nv p)%nat -> kkt_dual p' x y z' i = kkt_dual p x y z i.
  Proof.
    intros x y z z' i (_ & _ & Z) Hi. unfold kkt_dual, Gs, Ae. rewrite Env, Ene, EM, EG, Ec, EA. f_equal.
    apply moved_sum. intros m Hm. destruct (moved_ca m Hm) as (-> & _ & ->). rewrite (Z m Hm). reflexivity.
  Qed.

  Lemma eval_rel : forall st st', srel st st' ->
    vrel (ip_r (EvaluateKKTConditions true p st)) (ip_r (EvaluateKKTConditions true p' st')) /\
    srel (EvaluateKKTConditions true p st) (EvaluateKKTConditions true p' st').
  Proof.
    intros st st' S. destruct S as [RD RD' V]. destruct (sr_d st st' {| sr_rd := RD; sr_rd' := RD'; sr_v := V |}) as [D D'].
    destruct (eval_r_blocks p st W RD) as (B1 & B2 & B3 & B4). destruct (eval_r_blocks p' st' W' RD') as (C1 & C2 & C3 & C4).
    rewrite Env, Ene, EM in *. rewrite D, D' in *.
    pose proof (eval_ready p st RD) as R1. pose proof (eval_ready p' st' RD') as R1'.
    assert (L := rd_r _ _ R1). assert (L' := rd_r _ _ R1').
    change (ip_dims (EvaluateKKTConditions true p st)) with (ip_dims st) in L.
    change (ip_dims (EvaluateKKTConditions true p' st')) with (ip_dims st') in L'. rewrite D in L. rewrite D' in L'.
    destruct V as [vl vl' vx vy vs vz]. rewrite vx, vy in C1. rewrite vx in C3, C4.
    split; [|constructor; [exact R1|exact R1'|constructor; assumption]].
    set (r := ip_r (EvaluateKKTConditions true p st)) in *. set (r' := ip_r (EvaluateKKTConditions true p' st')) in *.
    pose proof (xblk_length d r L) as Lx. pose proof (xblk_length d r' L') as Lx'.
    pose proof (yblk_length d r L) as Ly. pose proof (yblk_length d r' L') as Ly'.
    pose proof (sblk_length d r L) as Ls. pose proof (sblk_length d r' L') as Ls'.
    pose proof (zblk_length d r L) as Lz. pose proof (zblk_length d r' L') as Lz'.
    cbn [d dN dM dK] in Lx, Lx', Ly, Ly', Ls, Ls', Lz, Lz'.
    constructor; [exact L|exact L'| | | |].
    - apply vec_eq; [congruence|]. intros i Hi. rewrite Lx' in Hi. rewrite (C1 i Hi), (B1 i Hi).
      apply dual_same; assumption.
    - apply vec_eq; [congruence|]. intros i Hi. rewrite Ly' in Hi. rewrite (C3 i Hi), (B3 i Hi).
      unfold kkt_eq, Ae. rewrite Env, EA, Eb. reflexivity.
    - apply moved_intro; auto. intros m Hm. rewrite (C2 m Hm), (B2 (pi m) (PB m Hm)). unfold kkt_comp.
      destruct vs as (_ & _ & vs). destruct vz as (_ & _ & vz). rewrite (vs m Hm), (vz m Hm). reflexivity.
    - apply moved_intro; auto. intros m Hm. rewrite (C4 m Hm), (B4 (pi m) (PB m Hm)). unfold kkt_ineq.
      destruct vs as (_ & _ & vs). rewrite (vs m Hm). destruct (moved_ca m Hm) as (-> & -> & ->). reflexivity.
  Qed.

  Lemma moved_fnorm : forall u u', moved u u' -> fnorm u' = fnorm u.
  Proof. intros u u' M. unfold fnorm, fsqnorm. change (@fdot R R_ops) with Rdot. rewrite (moved_dot u u' u u' M M). reflexivity. Qed.

  Lemma errors_rel : forall st st' mu, ip_dims st = d -> ip_dims st' = d -> vrel (ip_r st) (ip_r st') ->
    ComputeErrors st' mu = ComputeErrors st mu.
  Proof.
    intros st st' mu D D' [l l' vx vy vs vz]. unfold ComputeErrors. rewrite D, D', vx, vy, (moved_fnorm _ _ vz).
    unfold fsqnorm. change (@fdot R R_ops) with Rdot. change (@fsum R R_ops) with Rlsum.
    rewrite (moved_dot _ _ _ _ vs vs), (Rlsum_permutation _ _ (moved_perm _ _ vs)). reflexivity.
  Qed.

  Lemma mu_rel : forall st st', srel st st' -> ComputeMu st' = ComputeMu st.
  Proof.
    intros st st' S. destruct (sr_d _ _ S) as [D D']. destruct (sr_v _ _ S) as [l l' vx vy vs vz].
    unfold ComputeMu. rewrite D, D'. change (@fdot R R_ops) with Rdot. rewrite (moved_dot _ _ _ _ vs vz). reflexivity.
  Qed.

  (** *** Factorisation *)
  Lemma reduced_rel : forall b s s' z z', moved s s' -> moved z z' -> reduced_H b p' d s' z' = reduced_H b p d s z.
  Proof.
    intros b s s' z z' (_ & _ & MS) (_ & _ & MZ).
    assert (E : forall i, (i < nv p)%nat ->
      vget (fold_left (fun acc (ic : nat * lic R) =>
                       vupd (cidx (snd ic))
                            (fun v => fadd v (fmul (fmul (la (snd ic))
                                        (fdiv (vget z' (fst ic)) (vget s' (fst ic)))) (la (snd ic)))) acc)
                     (indexed (qcons p')) (mkvec (dN d) (fun i => mget (qG p') i i))) i =
      vget (fold_left (fun acc (ic : nat * lic R) =>
                       vupd (cidx (snd ic))
                            (fun v => fadd v (fmul (fmul (la (snd ic))
                                        (fdiv (vget z (fst ic)) (vget s (fst ic)))) (la (snd ic)))) acc)
                     (indexed (qcons p)) (mkvec (dN d) (fun i => mget (qG p) i i))) i).
    { intros i Hi. rewrite (reduced_diag p' d s' z' W' (eq_sym Env) i) by (rewrite Env; exact Hi).
      rewrite (reduced_diag p d s z W eq_refl i Hi). rewrite EG, EM. f_equal. apply moved_sum. intros m Hm.
      destruct (moved_ca m Hm) as (-> & _ & ->). rewrite (MS m Hm), (MZ m Hm). reflexivity. }
    unfold reduced_H.
    apply mkmat_ext. intros i j Hi Hj. rewrite EA.
    destruct (i <? dN d)%nat eqn:EI; [|reflexivity].
    destruct (j <? i)%nat; [rewrite EG; reflexivity|]. destruct (j =? i)%nat; [|reflexivity].
    apply Nat.ltb_lt in EI. destruct b; [exact (E i EI)|]. rewrite EG. reflexivity.
  Qed.

  (** *** The Newton direction *)
  Record frel (st st' : ip_solver R) : Prop := {
    fr_s : srel st st';
    fr_r : vrel (ip_r st) (ip_r st');
    fr_H : ip_Hinv st' = ip_Hinv st;
    fr_a : vrel (ip_delta_aff st) (ip_delta_aff st') }.

  Lemma upd_rel : forall mu st st', frel st st' ->
    frel (SolveForUpdate mu p st) (SolveForUpdate mu p' st') /\
    vrel (ip_delta (SolveForUpdate mu p st)) (ip_delta (SolveForUpdate mu p' st')).
  Proof.
    intros mu st st' [S Rr HH AA]. destruct (sr_d _ _ S) as [D D']. destruct S as [RD RD' V].
    split.
    { constructor; [constructor; [apply upd_ready; assumption|apply upd_ready; assumption|exact V]|exact Rr|exact HH|exact AA]. }
    destruct (upd_blocks p st mu RD) as (B1 & B2 & B3 & B4 & BL).
    destruct (upd_blocks p' st' mu RD') as (C1 & C2 & C3 & C4 & CL).
    rewrite D in *. rewrite D' in *.
    destruct V as [vl vl' vx vy vs vz]. destruct Rr as [rl rl' rx ry rs rz]. destruct AA as [al al' ax ay as_ az].
    destruct vs as (_ & _ & vs). destruct vz as (_ & _ & vz). destruct rs as (_ & _ & rs). destruct rz as (_ & _ & rz).
    destruct as_ as (_ & _ & as_). destruct az as (_ & _ & az).
    pose proof (fun i Hi => r_aug_get p st mu W RD i Hi) as RA.
    pose proof (fun i Hi => r_aug_get p' st' mu W' RD' i Hi) as RA'.
    pose proof (r_aug_len p st mu RD) as RL. pose proof (r_aug_len p' st' mu RD') as RL'.
    cbv zeta in RA, RA', RL, RL'. rewrite D in RA, RL. rewrite D' in RA', RL'. 
    match type of RL with length ?a = _ => set (ra := a) in * end.
    match type of RL' with length ?a = _ => set (ra' := a) in * end.
    assert (EQ : ra' = ra).
    { apply vec_eq; [congruence|]. intros i Hi. rewrite RL' in Hi. cbn [d dN] in Hi.
      rewrite RA' by (rewrite Env; exact Hi). rewrite RA by exact Hi. rewrite rx, EM. f_equal.
      apply moved_sum. intros m Hm. destruct (moved_ca m Hm) as (-> & _ & ->).
      rewrite (vs m Hm), (vz m Hm), (rs m Hm), (rz m Hm), (as_ m Hm), (az m Hm). reflexivity. }
    clearbody ra ra'. subst ra'.
    assert (XX : xblk d (ip_delta (SolveForUpdate mu p' st')) = xblk d (ip_delta (SolveForUpdate mu p st))).
    { rewrite B1, C1, HH, ry. reflexivity. }
    assert (SS : forall m, (m < nineq p)%nat -> vget (sblk d (ip_delta (SolveForUpdate mu p' st'))) m
                   = vget (sblk d (ip_delta (SolveForUpdate mu p st))) (pi m)).
    { intros m Hm. pose proof (upd_ds p st mu RD (pi m) (PB m Hm)) as E1.
      pose proof (upd_ds p' st' mu RD' m ltac:(rewrite EM; exact Hm)) as E2. rewrite D in E1. rewrite D' in E2.
      rewrite E1, E2, XX. destruct (moved_ca m Hm) as (-> & _ & ->). rewrite (rz m Hm). reflexivity. }
    pose proof (sblk_length d _ BL) as LS. pose proof (sblk_length d _ CL) as LS'.
    pose proof (zblk_length d _ BL) as LZ. pose proof (zblk_length d _ CL) as LZ'.
    constructor; [exact BL|exact CL|exact XX| | |].
    - rewrite B3, C3, HH, ry. reflexivity.
    - apply moved_intro; assumption.
    - apply moved_intro; [assumption|assumption|]. intros m Hm. 
      rewrite <- C2 in C4. rewrite <- B2 in B4. rewrite B4, C4.
      rewrite (vget_map_indexed R R_ops _ _ _ _ lic0) by (change (m < nineq p')%nat; rewrite EM; exact Hm).
      rewrite (vget_map_indexed R R_ops _ _ _ _ lic0) by exact (PB m Hm).
      cbn [fst snd]. rewrite (SS m Hm), (vs m Hm), (vz m Hm), (rs m Hm), (as_ m Hm), (az m Hm). reflexivity.
  Qed.

  (** *** Step lengths *)
  Lemma alpha_rel : forall u u' v v' tau, moved u u' -> moved v v' -> ComputeAlphaVec u' v' tau = ComputeAlphaVec u v tau.
  Proof.
    intros u u' v v' tau M1 M2. unfold ComputeAlphaVec.
    assert (L := M1). assert (K := M2). destruct L as (L & L' & _). destruct K as (K & K' & _). rewrite L, L', K, K'.
    do 3 (match goal with |- bind (f_assert ?a ?b) _ = _ => destruct (f_assert a b); cbn [bind]; try reflexivity end). f_equal. symmetry.
    apply (fold_left_permutation _ _ (alpha_step tau)); [intros; apply alpha_step_comm|]. apply moved_perm2; assumption.
  Qed.

  Lemma ComputeAlpha_rel : forall st st' tau, ip_dims st = d -> ip_dims st' = d ->
    vrel (ip_vars st) (ip_vars st') -> vrel (ip_delta st) (ip_delta st') ->
    ComputeAlpha st' tau = ComputeAlpha st tau.
  Proof.
    intros st st' tau D D' [_ _ _ _ vs vz] [_ _ _ _ ds dz]. unfold ComputeAlpha. rewrite D, D'.
    rewrite (alpha_rel _ _ _ _ tau vs ds), (alpha_rel _ _ _ _ tau vz dz). reflexivity.
  Qed.

  Lemma muaff_rel : forall st st' mu ap, ip_dims st = d -> ip_dims st' = d ->
    vrel (ip_vars st) (ip_vars st') -> vrel (ip_delta_aff st) (ip_delta_aff st') ->
    ComputePredictorCorrectorMuAffine st' mu ap = ComputePredictorCorrectorMuAffine st mu ap.
  Proof.
    intros st st' mu ap D D' [_ _ _ _ vs vz] [_ _ _ _ ds dz]. unfold ComputePredictorCorrectorMuAffine. rewrite D, D'.
    change (@fdot R R_ops) with Rdot.
    rewrite (moved_dot _ _ _ _ vs dz), (moved_dot _ _ _ _ vz ds), (moved_dot _ _ _ _ ds dz). reflexivity.
  Qed.

  Lemma update_rel : forall st st' al, ip_dims st = d -> ip_dims st' = d ->
    vrel (ip_vars st) (ip_vars st') -> vrel (ip_delta st) (ip_delta st') ->
    vrel (ip_vars (apply_update st al)) (ip_vars (apply_update st' al)).
  Proof.
    intros st st' al D D' V DV. destruct V as [l l' vx vy vs vz]. destruct DV as [k k' dx dy ds dz].
    destruct (apply_update_blocks st al) as (L & X & SS & Y & Z); [rewrite D; exact l|rewrite D; exact k|].
    destruct (apply_update_blocks st' al) as (L' & X' & SS' & Y' & Z'); [rewrite D'; exact l'|rewrite D'; exact k'|].
    rewrite D in *. rewrite D' in *.
    pose proof (xblk_length d _ L) as Lx. pose proof (xblk_length d _ L') as Lx'.
    pose proof (yblk_length d _ L) as Ly. pose proof (yblk_length d _ L') as Ly'.
    pose proof (sblk_length d _ L) as Ls. pose proof (sblk_length d _ L') as Ls'.
    pose proof (zblk_length d _ L) as Lz. pose proof (zblk_length d _ L') as Lz'.
    destruct vs as (_ & _ & vs). destruct vz as (_ & _ & vz). destruct ds as (_ & _ & ds). destruct dz as (_ & _ & dz).
    constructor; [exact L|exact L'| | | |].
    - apply vec_eq; [congruence|]. intros i _. rewrite X, X', vx, dx. reflexivity.
    - apply vec_eq; [congruence|]. intros i _. rewrite Y, Y', vy, dy. reflexivity.
    - apply moved_intro; [assumption|assumption|]. intros m Hm. rewrite SS, SS', (vs m Hm), (ds m Hm). reflexivity.
    - apply moved_intro; [assumption|assumption|]. intros m Hm. rewrite Z, Z', (vz m Hm), (dz m Hm). reflexivity.
  Qed.

  (** *** One iteration *)
  Definition orel {A B} (Q : A -> B -> Prop) (o : outcome A) (o' : outcome B) : Prop :=
    match o, o' with
    | Ok a, Ok b => Q a b
    | Throw e, Throw e' => e = e'
    | UB m, UB m' => m = m'
    | _, _ => False
    end.

  Lemma forallb_permutation : forall A (f : A -> bool) l l', Permutation l l' -> forallb f l = forallb f l'.
  Proof.
    intros A f l l' P. induction P; cbn [forallb]; auto; [rewrite IHP; reflexivity| |congruence].
    destruct (f x), (f y); reflexivity.
  Qed.

  Lemma ldlt_rel : forall ldlt b st st', srel st st' ->
    vrel (ip_r st) (ip_r st') ->
    orel (fun a a' => frel a a' /\ ip_vars a = ip_vars st /\ ip_vars a' = ip_vars st') (ComputeLDLT ldlt b p st) (ComputeLDLT ldlt b p' st').
  Proof.
    intros ldlt b st st' S RR. destruct (sr_d _ _ S) as [D D']. destruct S as [RD RD' V]. unfold ComputeLDLT. rewrite D, D'.
    destruct V as [l l' vx vy vs vz].
    rewrite (forallb_permutation _ _ _ _ (moved_perm _ _ vs)).
    destruct (negb b || forallb (fun v : R => fgtb v f0) (sblk d (ip_vars st')))%bool; cbn [f_assert bind]; [|reflexivity].
    rewrite (reduced_rel b _ _ _ _ vs vz).
    destruct (ldlt (reduced_H b p d (sblk d (ip_vars st)) (zblk d (ip_vars st)))) as [Hi|]; [|reflexivity].
    cbn [orel]. split; [|split; reflexivity].
    assert (EL : length (ip_delta_aff st) = tsize d) by (rewrite <- D; apply (rd_aff _ _ RD)).
    assert (EL' : length (ip_delta_aff st') = tsize d) by (rewrite <- D'; apply (rd_aff _ _ RD')).
    constructor.
    - constructor.
      + destruct RD. constructor; cbn [ip_p ip_dims ip_vars ip_r ip_delta ip_delta_aff]; rewrite ?vzero_length, <- ?D; auto.
      + destruct RD'. constructor; cbn [ip_p ip_dims ip_vars ip_r ip_delta ip_delta_aff]; rewrite ?vzero_length, <- ?D'; auto.
      + constructor; assumption.
    - exact RR.
    - reflexivity.
    - cbn [ip_delta_aff]. rewrite EL, EL'.
      assert (LZ : length (vzero (F:=R) (tsize d)) = tsize d) by apply vzero_length.
      constructor; [exact LZ|exact LZ|reflexivity|reflexivity| |].
      + apply moved_intro; [apply (sblk_length d _ LZ)|apply (sblk_length d _ LZ)|].
        intros m Hm. unfold sblk. rewrite !vseg_zero. reflexivity.
      + apply moved_intro; [apply (zblk_length d _ LZ)|apply (zblk_length d _ LZ)|].
        intros m Hm. unfold zblk. rewrite !vseg_zero. reflexivity.
  Qed.

  Lemma iterate_rel : forall ldlt mu strat st st', srel st st' ->
    orel (fun a a' => snd a = snd a' /\ srel (fst a) (fst a')) (Iterate ldlt p mu strat st) (Iterate ldlt p' mu strat st').
  Proof.
    intros ldlt mu strat st st' S. unfold Iterate.
    destruct (eval_rel st st' S) as [ER ES]. pose proof (ldlt_rel ldlt true _ _ ES ER) as LR.
    destruct (sr_d _ _ S) as [D D']. rewrite D, D'.
    destruct (ComputeLDLT ldlt true p (EvaluateKKTConditions true p st)) as [a|e|b];
      destruct (ComputeLDLT ldlt true p' (EvaluateKKTConditions true p' st')) as [a'|e'|b']; cbn [orel] in LR; try contradiction;
      [|subst e'; reflexivity|subst b'; reflexivity].
    destruct LR as (FR & _ & _). cbn [bind].
    assert (FIN : forall mu0 mu1 probe muaff st2 st2', frel st2 st2' ->
      orel (fun x x' => snd x = snd x' /\ srel (fst x) (fst x'))
        (do al <- (if HasInequalityConstraints d then ComputeAlpha (SolveForUpdate mu0 p st2) (flit lit_0_995) else Ok default_alpha);
         Ok (apply_update (SolveForUpdate mu0 p st2) al, MkIPOut mu1 al probe muaff))
        (do al <- (if HasInequalityConstraints d then ComputeAlpha (SolveForUpdate mu0 p' st2') (flit lit_0_995) else Ok default_alpha);
         Ok (apply_update (SolveForUpdate mu0 p' st2') al, MkIPOut mu1 al probe muaff))).
    { intros mu0 mu1 probe muaff st2 st2' F2. destruct (upd_rel mu0 _ _ F2) as [F3 DV].
      destruct (sr_d _ _ (fr_s _ _ F3)) as [D3 D3'].
      rewrite (ComputeAlpha_rel _ _ (flit lit_0_995) D3 D3' (sr_v _ _ (fr_s _ _ F3)) DV).
      destruct (if HasInequalityConstraints d then ComputeAlpha (SolveForUpdate mu0 p st2) (flit lit_0_995) else Ok default_alpha) as [al|e|b]; cbn [bind orel]; auto.
      split; [reflexivity|]. cbn [fst].
      pose proof (update_rel _ _ al D3 D3' (sr_v _ _ (fr_s _ _ F3)) DV) as VV.
      destruct (fr_s _ _ F3) as [RD3 RD3' _].
      destruct (apply_update_keeps R R_ops (SolveForUpdate mu0 p st2) al) as (K1 & K2 & K3 & K4 & K5 & K6).
      destruct (apply_update_keeps R R_ops (SolveForUpdate mu0 p' st2') al) as (J1 & J2 & J3 & J4 & J5 & J6).
      constructor; [| |exact VV].
      - pose proof (vr_l _ _ VV) as LL. destruct RD3. constructor; rewrite ?K1, ?K2, ?K3, ?K4, ?K5; auto. rewrite D3. exact LL.
      - pose proof (vr_l' _ _ VV) as LL. destruct RD3'. constructor; rewrite ?J1, ?J2, ?J3, ?J4, ?J5; auto. rewrite D3'. exact LL. }
    destruct (negb (HasInequalityConstraints d)); [cbn [bind]; apply FIN; exact FR|].
    destruct strat; [cbn [bind]; apply FIN; exact FR|cbn [bind]; apply FIN; exact FR|].
    destruct (upd_rel f0 _ _ FR) as [F3 DV]. destruct (sr_d _ _ (fr_s _ _ F3)) as [D3 D3'].
    rewrite (ComputeAlpha_rel _ _ f1 D3 D3' (sr_v _ _ (fr_s _ _ F3)) DV).
    destruct (ComputeAlpha (SolveForUpdate f0 p a) f1) as [pr|e|b]; cbn [bind orel]; auto.
    set (sb := with_aff (SolveForUpdate f0 p a) (ip_delta (SolveForUpdate f0 p a))).
    set (sb' := with_aff (SolveForUpdate f0 p' a') (ip_delta (SolveForUpdate f0 p' a'))).
    assert (FB : frel sb sb').
    { destruct F3 as [[RD3 RD3' V3] R3 H3 A3]. constructor; [|exact R3|exact H3|exact DV].
      constructor; [| |exact V3]; [destruct RD3; constructor; auto|destruct RD3'; constructor; auto]. }
    rewrite (muaff_rel sb sb' mu pr D3 D3' (sr_v _ _ (fr_s _ _ F3)) DV).
    apply FIN. exact FB.
  Qed.

  (** *** The loop *)
  Lemma lagrange_rel : forall st st', srel st st' -> ComputeLagrangeMultiplierSummary st' = ComputeLagrangeMultiplierSummary st.
  Proof.
    intros st st' S. destruct (sr_d _ _ S) as [D D']. destruct (sr_v _ _ S) as [_ _ _ vy _ _].
    unfold ComputeLagrangeMultiplierSummary. rewrite D, D', vy. reflexivity.
  Qed.

  Lemma loop_rel : forall ldlt n params mu its st st', srel st st' -> vrel (ip_r st) (ip_r st') ->
    orel (fun a a' => snd a = snd a' /\ srel (fst a) (fst a')) (ip_loop ldlt n params p mu its st) (ip_loop ldlt n params p' mu its st').
  Proof.
    intros ldlt n params. induction n as [|n IH]; intros mu its st st' S RR; cbn [ip_loop].
    - cbn [orel fst snd]. rewrite (lagrange_rel _ _ S). auto.
    - destruct (sr_d _ _ S) as [D D']. rewrite (errors_rel st st' mu D D' RR).
      pose proof (iterate_rel ldlt mu (p_barrier_strategy params) st st' S) as IR.
      destruct (Iterate ldlt p mu (p_barrier_strategy params) st) as [[a o]|e|b];
        destruct (Iterate ldlt p' mu (p_barrier_strategy params) st') as [[a' o']|e'|b']; cbn [orel] in IR; try contradiction;
        [|subst e'; reflexivity|subst b'; reflexivity].
      cbn [fst snd] in IR. destruct IR as [<- SA]. cbn [bind].
      destruct (eval_rel a a' SA) as [ER ES]. destruct (sr_d _ _ ES) as [D2 D2'].
      rewrite (errors_rel _ _ mu D2 D2' ER), (mu_rel _ _ ES).
      match goal with |- context [if ?b then _ else _] => destruct b end.
      + cbn [orel fst snd]. rewrite (lagrange_rel _ _ ES). auto.
      + replace (next_mu params (EvaluateKKTConditions true p' a') (ComputeErrors (EvaluateKKTConditions true p a) mu) mu)
          with (next_mu params (EvaluateKKTConditions true p a) (ComputeErrors (EvaluateKKTConditions true p a) mu) mu)
          by (unfold next_mu; rewrite (mu_rel _ _ ES); reflexivity).
        apply IH; assumption.
  Qed.

  (** *** The built-in initial guesses *)
  Record xyrel (st st' : ip_solver R) : Prop := {
    xy_rd : ready p st;
    xy_rd' : ready p' st';
    xy_x : xblk d (ip_vars st') = xblk d (ip_vars st);
    xy_y : yblk d (ip_vars st') = yblk d (ip_vars st) }.

  Definition finish (q : QP R) (sa : ip_solver R) : outcome (ip_solver R) :=
    do x <- ofold clamp_one (qcons q) (xblk d (ip_vars sa)) ;
    let svals := map (fun c : lic R => fmax (flit lit_1em9) (fadd (fmul (la c) (vget x (cidx c))) (lb c))) (qcons q) in
    let zvals := map (fun s => fdiv f1 s) svals in
    Ok (with_vars sa (set_z d zvals (set_s d svals (set_x d x (ip_vars sa))))).

  Hypothesis PP : Permutation (qcons p) (qcons p').

  Lemma finish_rel : forall w sa sa', (forall c, In c (qcons p) -> feas c w) -> xyrel sa sa' ->
    orel srel (finish p sa) (finish p' sa').
  Proof.
    intros w sa sa' HF [RD RD' EX EY]. unfold finish. rewrite EX.
    assert (D : ip_dims sa = d) by apply (rd_dims _ _ RD).
    assert (D' : ip_dims sa' = d) by (rewrite (rd_dims _ _ RD'); unfold d; rewrite Env, Ene, EM; reflexivity).
    pose proof (rd_vars _ _ RD) as LV. rewrite D in LV. pose proof (rd_vars _ _ RD') as LV'. rewrite D' in LV'.
    rewrite <- (clamp_fold_order _ _ PP _ w).
    2: { intros c Hc. splits; [apply (wf_idx p W c Hc)| |apply HF; exact Hc]. rewrite xblk_length by exact LV.
         apply cidx_lt; assumption. }
    destruct (ofold clamp_one (qcons p) (xblk d (ip_vars sa))) as [x|e|b] eqn:EO; cbn [bind orel]; auto.
    assert (LX : length x = dN d) by (rewrite (ofold_clamp_length _ _ _ EO); apply xblk_length; exact LV).
    set (g := fun c : lic R => fmax (flit lit_1em9) (fadd (fmul (la c) (vget x (cidx c))) (lb c))).
    assert (L1 : length (map g (qcons p)) = dM d) by (rewrite map_length; reflexivity).
    assert (L1' : length (map g (qcons p')) = dM d) by (rewrite map_length; exact EM).
    assert (L2 : length (map (fun s => fdiv f1 s) (map g (qcons p))) = dM d) by (rewrite map_length; exact L1).
    assert (L2' : length (map (fun s => fdiv f1 s) (map g (qcons p'))) = dM d) by (rewrite map_length; exact L1').
    assert (MS : moved (map g (qcons p)) (map g (qcons p'))).
    { apply moved_intro; [exact L1|exact L1'|]. intros m Hm.
      rewrite (vget_map_R _ g (qcons p') m lic0) by (change (m < nineq p')%nat; rewrite EM; exact Hm).
      rewrite (vget_map_R _ g (qcons p) (pi m) lic0) by exact (PB m Hm).
      f_equal. exact (PC m Hm). }
    assert (MZ : moved (map (fun s => fdiv f1 s) (map g (qcons p))) (map (fun s => fdiv f1 s) (map g (qcons p')))).
    { destruct MS as (_ & _ & MS). apply moved_intro; [exact L2|exact L2'|]. intros m Hm.
      rewrite (vget_map_R _ _ (map g (qcons p')) m 0) by (rewrite L1'; exact Hm).
      rewrite (vget_map_R _ _ (map g (qcons p)) (pi m) 0) by (rewrite L1; exact (PB m Hm)).
      f_equal. exact (MS m Hm). }
    set (sv := map g (qcons p)) in *. set (sv' := map g (qcons p')) in *.
    set (zv := map _ sv) in *. set (zv' := map _ sv') in *. clearbody sv sv' zv zv'.
    assert (V : vrel (set_z d zv (set_s d sv (set_x d x (ip_vars sa)))) (set_z d zv' (set_s d sv' (set_x d x (ip_vars sa'))))).
    { pose proof (set_x_length d x _ LV LX) as A1. pose proof (set_x_length d x _ LV' LX) as A1'.
      pose proof (set_s_length d sv _ A1 L1) as A2. pose proof (set_s_length d sv' _ A1' L1') as A2'.
      pose proof (set_z_length d zv _ A2 L2) as A3. pose proof (set_z_length d zv' _ A2' L2') as A3'.
      constructor; [exact A3|exact A3'| | | |].
      - rewrite !x_set_z, !x_set_s, !x_set_x by assumption. reflexivity.
      - rewrite !y_set_z, !y_set_s, !y_set_x by assumption. exact EY.
      - rewrite !s_set_z, !s_set_s by assumption. exact MS.
      - rewrite !z_set_z by assumption. exact MZ. }
    constructor; [| |exact V].
    - pose proof (vr_l _ _ V) as LL. destruct RD. constructor; auto. cbn [with_vars ip_vars ip_dims]. rewrite D. exact LL.
    - pose proof (vr_l' _ _ V) as LL. destruct RD'. constructor; auto. cbn [with_vars ip_vars ip_dims]. rewrite D'. exact LL.
  Qed.

  Lemma guess_rel : forall ldlt params w st st', ready p st -> ready p' st' ->
    p_initial_guess_method params <> USER_PROVIDED -> (forall c, In c (qcons p) -> feas c w) ->
    orel srel (ComputeInitialGuess ldlt params p st) (ComputeInitialGuess ldlt params p' st').
  Proof.
    intros ldlt params w st st' RD RD' NU HF. unfold ComputeInitialGuess.
    assert (D : ip_dims st = d) by apply (rd_dims _ _ RD).
    assert (D' : ip_dims st' = d) by (rewrite (rd_dims _ _ RD'); unfold d; rewrite Env, Ene, EM; reflexivity).
    rewrite D, D'.
    set (v0 := set_y d (vzero (dK d)) (set_x d (vzero (dN d)) (ip_vars st))).
    set (v0' := set_y d (vzero (dK d)) (set_x d (vzero (dN d)) (ip_vars st'))).
    pose proof (rd_vars _ _ RD) as LV. rewrite D in LV. pose proof (rd_vars _ _ RD') as LV'. rewrite D' in LV'.
    assert (XY0 : forall x y v v' : list R, length v = tsize d -> length v' = tsize d -> length x = dN d -> length y = dK d ->
      length (set_y d y (set_x d x v)) = tsize d /\
      xblk d (set_y d y (set_x d x v')) = xblk d (set_y d y (set_x d x v)) /\
      yblk d (set_y d y (set_x d x v')) = yblk d (set_y d y (set_x d x v))).
    { intros x y v v' E1 E2 E3 E4. pose proof (set_x_length d x _ E1 E3). pose proof (set_x_length d x _ E2 E3).
      split; [apply set_y_length; assumption|]. rewrite !x_set_y, !y_set_y, !x_set_x by assumption. auto. }
    pose proof (vzero_length (dN d)) as Z1. pose proof (vzero_length (dK d)) as Z2.
    destruct (XY0 _ _ _ _ LV LV' Z1 Z2) as (L0 & X0 & Y0).
    destruct (XY0 _ _ _ _ LV' LV Z1 Z2) as (L0' & _ & _).
    fold v0 in L0, X0, Y0. fold v0' in L0', X0, Y0.
    assert (R0 : ready p (with_vars st v0)) by (destruct RD; constructor; auto; cbn [with_vars ip_vars ip_dims]; rewrite D; exact L0).
    assert (R0' : ready p' (with_vars st' v0')) by (destruct RD'; constructor; auto; cbn [with_vars ip_vars ip_dims]; rewrite D'; exact L0').
    destruct (p_initial_guess_method params) eqn:EM0; [| |congruence].
    - cbn [bind]. apply (finish_rel w); [exact HF|]. constructor; assumption.
    - unfold ComputeLDLT. cbn [negb orb f_assert bind].
      change (ip_dims (with_vars st v0)) with (ip_dims st). change (ip_dims (with_vars st' v0')) with (ip_dims st').
      rewrite D, D'.
      assert (ER : forall s z s' z', reduced_H false p' d s' z' = reduced_H false p d s z).
      { intros. unfold reduced_H. rewrite EG, EA. reflexivity. }
      rewrite (ER (sblk d (ip_vars (with_vars st v0))) (zblk d (ip_vars (with_vars st v0)))).
      destruct (ldlt _) as [Hi|]; cbn [bind]; [|reflexivity].
      cbn [with_vars ip_p ip_vars ip_r ip_delta ip_delta_aff].
      match goal with |- context [EvaluateKKTConditions false p (MkIP (ip_p st) d v0 (ip_r st) Hi ?a ?b)] =>
        set (sb := MkIP (ip_p st) d v0 (ip_r st) Hi a b) end.
      match goal with |- context [EvaluateKKTConditions false p' (MkIP (ip_p st') d v0' (ip_r st') Hi ?a ?b)] =>
        set (sb' := MkIP (ip_p st') d v0' (ip_r st') Hi a b) end.
      pose proof (rd_r _ _ RD) as HR. pose proof (rd_r _ _ RD') as HR'. rewrite D in HR. rewrite D' in HR'.
      destruct (eval_false_xy p sb HR) as (R1 & R2 & R3).
      destruct (eval_false_xy p' sb' HR') as (R1' & R2' & R3').
      destruct (eval_pres false p sb) as (P1 & P2 & P3 & P4 & P5 & P6).
      destruct (eval_pres false p' sb') as (Q1 & Q2 & Q3 & Q4 & Q5 & Q6).
      change (ip_dims sb) with d in *. change (ip_dims sb') with d in *.
      change (ip_vars sb) with v0 in *. change (ip_vars sb') with v0' in *.
      rewrite X0, EG, EA, Ec in R2'. rewrite Y0 in R2'. rewrite X0, EA, Eb in R3'.
      rewrite <- R2 in R2'. rewrite <- R3 in R3'.
      set (se := EvaluateKKTConditions false p sb) in *. set (se' := EvaluateKKTConditions false p' sb') in *.
      clearbody se se'. unfold SolveForUpdateNoInequalities.
      rewrite P2, Q2, P4, Q4, R2', R3'.
      change (ip_Hinv sb) with Hi. change (ip_Hinv sb') with Hi.
      set (nx := solve_dx Hi d (xblk d (ip_r se)) (yblk d (ip_r se))).
      set (ny := solve_dy Hi d (xblk d (ip_r se)) (yblk d (ip_r se))).
      assert (LX : length nx = dN d) by apply solve_dx_length.
      assert (LY : length ny = dK d) by apply solve_dy_length.
      assert (LD : length (ip_delta se) = tsize d).
      { rewrite P5. unfold sb. cbn [ip_delta]. rewrite vzero_length. rewrite <- D. apply (rd_delta _ _ RD). }
      assert (LD' : length (ip_delta se') = tsize d).
      { rewrite Q5. unfold sb'. cbn [ip_delta]. rewrite vzero_length. rewrite <- D'. apply (rd_delta _ _ RD'). }
      clearbody nx ny.
      cbn [with_delta ip_delta ip_vars with_vars].
      pose proof (set_x_length d nx _ LD LX) as LD1. pose proof (set_x_length d nx _ LD' LX) as LD1'.
      assert (B1 : xblk d (set_y d ny (set_x d nx (ip_delta se))) = nx) by (rewrite x_set_y, x_set_x by assumption; reflexivity).
      assert (B2 : yblk d (set_y d ny (set_x d nx (ip_delta se))) = ny) by (rewrite y_set_y by assumption; reflexivity).
      assert (B1' : xblk d (set_y d ny (set_x d nx (ip_delta se'))) = nx) by (rewrite x_set_y, x_set_x by assumption; reflexivity).
      assert (B2' : yblk d (set_y d ny (set_x d nx (ip_delta se'))) = ny) by (rewrite y_set_y by assumption; reflexivity).
      rewrite B1, B2, B1', B2'. rewrite P3, Q3.
      destruct (XY0 nx ny v0 v0' L0 L0' LX LY) as (L3 & X3 & Y3).
      destruct (XY0 nx ny v0' v0 L0' L0 LX LY) as (L3' & _ & _).
      apply (finish_rel w (with_vars (with_delta se (set_y d ny (set_x d nx (ip_delta se)))) (set_y d ny (set_x d nx v0)))
               (with_vars (with_delta se' (set_y d ny (set_x d nx (ip_delta se')))) (set_y d ny (set_x d nx v0')))); [exact HF|].
      constructor; [| |exact X3|exact Y3].
      + destruct RD. constructor; cbn [with_vars with_delta ip_p ip_dims ip_vars ip_r ip_delta ip_delta_aff]; rewrite ?P1, ?P2; auto.
        * apply set_y_length; assumption.
        * rewrite P6. unfold sb. cbn [ip_delta_aff]. rewrite vzero_length, <- D. exact rd_aff.
      + destruct RD'. constructor; cbn [with_vars with_delta ip_p ip_dims ip_vars ip_r ip_delta ip_delta_aff]; rewrite ?Q1, ?Q2; auto.
        * rewrite <- D'. exact rd_dims.
        * apply set_y_length; assumption.
        * rewrite Q6. unfold sb'. cbn [ip_delta_aff]. rewrite vzero_length, <- D'. exact rd_aff.
  Qed.

  (** *** Solve *)
  Lemma solve_rel : forall ldlt params st st', ready p st -> ready p' st' ->
    (p_initial_guess_method params = USER_PROVIDED /\ vrel (ip_vars st) (ip_vars st') \/
     p_initial_guess_method params <> USER_PROVIDED /\ exists w, forall c, In c (qcons p) -> feas c w) ->
    orel (fun a a' => snd a = snd a' /\ srel (fst a) (fst a')) (IP_Solve ldlt params st) (IP_Solve ldlt params st').
  Proof.
    intros ldlt params st st' RD RD' HG. unfold IP_Solve. rewrite (rd_p _ _ RD), (rd_p _ _ RD').
    destruct (IP_CheckParams params) as [[]|e|b]; cbn [bind orel]; auto.
    assert (U : forall q s, ready q s -> (dN (ip_dims s) + dM (ip_dims s) + dK (ip_dims s) <=? length (ip_vars s))%nat = true).
    { intros q s H. rewrite (rd_vars _ _ H). apply Nat.leb_le. unfold tsize. lia. }
    rewrite (U _ _ RD), (U _ _ RD'). cbn [ub_unless bind].
    assert (GR : orel srel (ComputeInitialGuess ldlt params p st) (ComputeInitialGuess ldlt params p' st')).
    { destruct HG as [[EU V]|[NU [w HF]]]; [|apply (guess_rel ldlt params w); assumption].
      unfold ComputeInitialGuess. rewrite EU. cbn [orel]. constructor; assumption. }
    destruct (ComputeInitialGuess ldlt params p st) as [a|e|b]; destruct (ComputeInitialGuess ldlt params p' st') as [a'|e'|b'];
      cbn [orel] in GR; try contradiction; [|subst e'; reflexivity|subst b'; reflexivity].
    cbn [bind].
    assert (N1 : forall q, wf_qp q -> forallb (fun c : lic R => (0 <=? lvar c)%Z) (qcons q) = true).
    { intros q Wq. apply forallb_forall. intros c Hc. apply Z.leb_le. apply (wf_idx q Wq c Hc). }
    rewrite (N1 p W), (N1 p' W'). cbn [ub_unless bind].
    destruct (eval_rel _ _ GR) as [ER ES]. rewrite (mu_rel _ _ ES).
    apply loop_rel; assumption.
  Qed.
End Perm.

(** ** The theorem *)

(** The same problem with its inequality constraints listed in another order. *)
Definition reordered (p p' : QP R) : Prop :=
  qG p' = qG p /\ qc p' = qc p /\ qA p' = qA p /\ qb p' = qb p /\ Permutation (qcons p) (qcons p').

(** (constraint, slack, multiplier) for every inequality constraint, in the order of the problem. *)
Definition inequality_table (p : QP R) (st : ip_solver R) : list (lic R * (R * R)) :=
  combine (qcons p) (combine (s_block st) (z_block st)).

Lemma reordered_wf : forall p p', reordered p p' -> wf_qp p -> wf_qp p'.
Proof.
  intros p p' (EG & Ec & EA & Eb & PP) [W1 W2 W3 W4 W5]. unfold nv, neq in *.
  constructor; unfold nv, neq; rewrite ?EG, ?Ec, ?EA, ?Eb; auto.
  intros c Hc. apply W5. apply (Permutation_in _ (Permutation_sym PP) Hc).
Qed.

Lemma reordered_index : forall p p', reordered p p' -> exists pi,
  nineq p' = nineq p /\ (forall i, (i < nineq p)%nat -> (pi i < nineq p)%nat) /\
  (forall i j, (i < nineq p)%nat -> (j < nineq p)%nat -> pi i = pi j -> i = j) /\
  (forall m, (m < nineq p)%nat -> con p' m = con p (pi m)).
Proof.
  intros p p' (_ & _ & _ & _ & PP). apply (Permutation_nth _ _ lic0) in PP. destruct PP as (L & f & B & I & E).
  exists f. splits; [exact L|exact B|exact I|exact E].
Qed.

Section Final.
  Variables p p' : QP R.
  Variable ldlt : mat R -> option (mat R).
  Variable params : IPParams R.
  Variables st st' : ip_solver R.
  Hypothesis RO : reordered p p'.
  Hypothesis W : wf_qp p.
  Hypothesis RD : ready p st.
  Hypothesis RD' : ready p' st'.

  Lemma final_rel : 
    (p_initial_guess_method params = USER_PROVIDED ->
       x_block st' = x_block st /\ y_block st' = y_block st /\
       Permutation (inequality_table p st) (inequality_table p' st')) ->
    (p_initial_guess_method params <> USER_PROVIDED -> exists w, forall c, In c (qcons p) -> feas c w) ->
    match IP_Solve ldlt params st, IP_Solve ldlt params st' with
    | Ok (s, o), Ok (s', o') =>
        o = o' /\ x_block s' = x_block s /\ y_block s' = y_block s /\
        Permutation (inequality_table p s) (inequality_table p' s')
    | Throw e, Throw e' => e = e'
    | UB m, UB m' => m = m'
    | _, _ => False
    end.
  Proof.
    intros HU HB.
    pose proof (reordered_wf p p' RO W) as W'.
    assert (EM : nineq p' = nineq p) by (symmetry; apply (Permutation_length (proj2 (proj2 (proj2 (proj2 RO)))))).
    assert (RO2 := RO). destruct RO2 as (EG & Ec & EA & Eb & PP).
    assert (ENV : nv p' = nv p) by (unfold nv; rewrite Ec; reflexivity).
    assert (ENE : neq p' = neq p) by (unfold neq; rewrite Eb; reflexivity).
    set (d := MkDims (nv p) (nineq p) (neq p)).
    assert (D : forall s, ready p s -> ip_dims s = d /\ length (s_block s) = nineq p /\ length (z_block s) = nineq p).
    { intros s R0. assert (E : ip_dims s = d) by apply (rd_dims _ _ R0).
      pose proof (rd_vars _ _ R0) as L. unfold s_block, z_block. rewrite E in *. splits; [reflexivity|apply (sblk_length d _ L)|apply (zblk_length d _ L)]. }
    assert (D' : forall s, ready p' s -> ip_dims s = d /\ length (s_block s) = nineq p /\ length (z_block s) = nineq p).
    { intros s R0. assert (E : ip_dims s = d) by (rewrite (rd_dims _ _ R0), ENV, ENE, EM; reflexivity).
      pose proof (rd_vars _ _ R0) as L. unfold s_block, z_block. rewrite E in *. splits; [reflexivity|apply (sblk_length d _ L)|apply (zblk_length d _ L)]. }
    (* a reindexing of the constraints that also carries the user's slacks and multipliers, if these are used *)
    assert (IX : exists pi, (forall i, (i < nineq p)%nat -> (pi i < nineq p)%nat) /\
      (forall i j, (i < nineq p)%nat -> (j < nineq p)%nat -> pi i = pi j -> i = j) /\
      (forall m, (m < nineq p)%nat -> con p' m = con p (pi m)) /\
      (p_initial_guess_method params = USER_PROVIDED ->
         moved p pi (s_block st) (s_block st') /\ moved p pi (z_block st) (z_block st'))).
    { destruct (D st RD) as (_ & LS & LZ). destruct (D' st' RD') as (_ & LS' & LZ').
      destruct (p_initial_guess_method params) eqn:EP.
      1,2: destruct (reordered_index p p' RO) as (pi & _ & B & I & E); exists pi; splits; auto; discriminate.
      destruct (HU eq_refl) as (_ & _ & PT). unfold inequality_table in PT.
      apply (Permutation_nth _ _ (lic0, (0, 0))) in PT.
      assert (LC : length (qcons p) = nineq p) by reflexivity. assert (LC' : length (qcons p') = nineq p) by exact EM.
      rewrite !combine_length, LS, LS', LZ, LZ', LC, LC', !Nat.min_id in PT.
      destruct PT as (_ & pi & B & I & E).
      assert (E3 : forall m, (m < nineq p)%nat -> con p' m = con p (pi m) /\
                     vget (s_block st') m = vget (s_block st) (pi m) /\ vget (z_block st') m = vget (z_block st) (pi m)).
      { intros m Hm. specialize (E m Hm).
        rewrite !combine_nth in E by (rewrite ?combine_length; lia).
        unfold con, vget. inversion E. auto. }
      exists pi. splits; [exact B|exact I|intros; apply E3; assumption|].
      intros _. split; apply moved_intro; auto; intros; apply E3; assumption. }
    destruct IX as (pi & B & I & E & MV).
    assert (HG : p_initial_guess_method params = USER_PROVIDED /\ vrel p pi (ip_vars st) (ip_vars st') \/
                 p_initial_guess_method params <> USER_PROVIDED /\ exists w, forall c, In c (qcons p) -> feas c w).
    { destruct (p_initial_guess_method params) eqn:EP.
      1,2: right; split; [discriminate|apply HB; discriminate].
      left. split; [reflexivity|]. destruct (HU eq_refl) as (UX & UY & _). destruct (MV eq_refl) as [MS MZ].
      destruct (D st RD) as (ED & _ & _). destruct (D' st' RD') as (ED' & _ & _).
      unfold x_block, y_block, s_block, z_block in UX, UY, MS, MZ. rewrite ED, ED' in UX, UY, MS, MZ.
      pose proof (rd_vars _ _ RD) as L. pose proof (rd_vars _ _ RD') as L'. rewrite ED in L. rewrite ED' in L'.
      constructor; assumption. }
    pose proof (solve_rel p p' pi W W' EG Ec EA Eb EM B I E PP ldlt params st st' RD RD' HG) as S.
    destruct (IP_Solve ldlt params st) as [[s o]|e|b]; destruct (IP_Solve ldlt params st') as [[s' o']|e'|b']; cbn [orel] in S; auto.
    cbn [fst snd] in S. destruct S as [EO S]. split; [exact EO|].
    destruct (sr_d p p' pi Ec Eb EM _ _ S) as [ED ED']. destruct S as [R1 R1' [l l' vx vy vs vz]].
    unfold x_block, y_block, inequality_table, s_block, z_block. rewrite ED, ED'. splits; [exact vx|exact vy|].
    apply (Permutation_nth _ _ (lic0, (0, 0))).
    destruct vs as (S1 & S2 & S3). destruct vz as (Z1 & Z2 & Z3).
    assert (LC : length (qcons p) = nineq p) by reflexivity. assert (LC' : length (qcons p') = nineq p) by exact EM.
    rewrite !combine_length, S1, S2, Z1, Z2, LC, LC', !Nat.min_id. split; [reflexivity|].
    exists pi. splits; [exact B|exact I|]. intros m Hm. rewrite !combine_nth by (rewrite ?combine_length; lia).
    f_equal; [exact (E m Hm)|]. f_equal; [exact (S3 m Hm)|exact (Z3 m Hm)].
  Qed.
End Final.

(** C69, built-in initial guesses. If the inequalities are jointly satisfiable then the order in which they are listed is
    irrelevant: Setup accepts the same problems, and the two Solves fail with the same error or return the same outputs (the
    whole iteration log, the termination state, the multiplier summary), the same x and the same y, and every constraint gets
    the same slack and multiplier. [ldlt] is any function (the factorisation, right or wrong); g, g' is any prior storage. *)
Theorem C69_constraint_order : forall ldlt params p p' g g', reordered p p' ->
  (forall c, In c (qcons p) -> (0 <= lvar c)%Z) ->
  p_initial_guess_method params <> USER_PROVIDED ->
  (exists w, forall c, In c (qcons p) -> la c * vget w (cidx c) + lb c >= 0) ->
  match Setup g (Some p), Setup g' (Some p') with
  | Ok st, Ok st' =>
      match IP_Solve ldlt params st, IP_Solve ldlt params st' with
      | Ok (s, o), Ok (s', o') =>
          o = o' /\ x_block s' = x_block s /\ y_block s' = y_block s /\
          Permutation (inequality_table p s) (inequality_table p' s')
      | Throw e, Throw e' => e = e'
      | UB m, UB m' => m = m'
      | _, _ => False
      end
  | Throw _, Throw _ => True
  | _, _ => False
  end.
Proof.
  intros ldlt params p p' g g' RO NN NU SAT.
  destruct (C04_Setup_accepts_iff_consistent g (Some p)) as (A1 & A2 & A3).
  destruct (C04_Setup_accepts_iff_consistent g' (Some p')) as (B1 & B2 & B3).
  assert (SC : setup_consistent p <-> setup_consistent p').
  { destruct RO as (EG & Ec & EA & Eb & PP). unfold setup_consistent. rewrite EG, Ec, EA, Eb.
    split; intros (H1 & H2 & H3 & H4 & H5); splits; auto; intros c Hc; apply H5.
    - apply (Permutation_in _ (Permutation_sym PP) Hc).
    - apply (Permutation_in _ PP Hc). }
  destruct (Setup g (Some p)) as [st|e|b] eqn:ES.
  - destruct (A1 st eq_refl) as (q & EQ & CS & _). assert (q = p) by congruence. subst q.
    destruct (B2 p' eq_refl (proj1 SC CS)) as (st' & ES'). rewrite ES'.
    destruct (setup_ready g p st ES NN) as [W RD].
    destruct (setup_ready g' p' st' ES') as [W' RD'].
    { intros c Hc. apply NN. apply (Permutation_in _ (Permutation_sym (proj2 (proj2 (proj2 (proj2 RO))))) Hc). }
    apply final_rel; auto. intro; contradiction.
  - destruct (Setup g' (Some p')) as [st'|e'|b'] eqn:ES'; auto.
    + destruct (B1 st' eq_refl) as (q & EQ & CS & _). assert (q = p') by congruence. subst q.
      destruct (A2 p eq_refl (proj2 SC CS)) as (x & Hx). discriminate.
    + destruct B3 as (w & Hw); [|discriminate]. intros q EQ CS. assert (q = p') by congruence. subst q.
      destruct (B2 p' eq_refl CS) as (x & Hx). discriminate.
  - destruct A3 as (w & Hw); [|discriminate]. intros q EQ CS. assert (q = p) by congruence. subst q.
    destruct (A2 p eq_refl CS) as (x & Hx). discriminate.
Qed.

(** C69, USER_PROVIDED: the same when the caller's slacks and multipliers are listed in the new order too; satisfiability is
    not needed. *)
Theorem C69_constraint_order_user : forall ldlt params p p' g g' st st' v v', reordered p p' ->
  (forall c, In c (qcons p) -> (0 <= lvar c)%Z) ->
  p_initial_guess_method params = USER_PROVIDED ->
  Setup g (Some p) = Ok st -> Setup g' (Some p') = Ok st' ->
  length v = (nv p + 2 * nineq p + neq p)%nat -> length v' = length v ->
  let start := SetVariables st v in let start' := SetVariables st' v' in
  x_block start' = x_block start -> y_block start' = y_block start ->
  Permutation (inequality_table p start) (inequality_table p' start') ->
  match IP_Solve ldlt params start, IP_Solve ldlt params start' with
  | Ok (s, o), Ok (s', o') =>
      o = o' /\ x_block s' = x_block s /\ y_block s' = y_block s /\
      Permutation (inequality_table p s) (inequality_table p' s')
  | Throw e, Throw e' => e = e'
  | UB m, UB m' => m = m'
  | _, _ => False
  end.
Proof.
  intros ldlt params p p' g g' st st' v v' RO NN EU ES ES' LV LV' start start' HX HY HT.
  destruct (setup_ready g p st ES NN) as [W RD].
  destruct (setup_ready g' p' st' ES') as [W' RD'].
  { intros c Hc. apply NN. apply (Permutation_in _ (Permutation_sym (proj2 (proj2 (proj2 (proj2 RO))))) Hc). }
  assert (EM : nineq p' = nineq p) by (symmetry; apply (Permutation_length (proj2 (proj2 (proj2 (proj2 RO)))))).
  assert (ENV : nv p' = nv p) by (unfold nv; rewrite (proj1 (proj2 RO)); reflexivity).
  assert (ENE : neq p' = neq p) by (unfold neq; rewrite (proj1 (proj2 (proj2 (proj2 RO)))); reflexivity).
  apply final_rel; auto.
  - destruct RD. constructor; auto. cbn [start SetVariables with_vars ip_vars ip_dims]. rewrite rd_dims, LV. unfold tsize. cbn [dN dM dK]. lia.
  - destruct RD'. constructor; auto. cbn [start' SetVariables with_vars ip_vars ip_dims].
    rewrite rd_dims, LV', LV, ENV, ENE, EM. unfold tsize. cbn [dN dM dK]. lia.
  - intro; contradiction.
Qed.

(** C69: satisfiability cannot be dropped. With x0 >= 1 and x0 <= 0 the NAIVE guess starts from a different x depending on
    which of the two is listed last. *)
Theorem C69_unsatisfiable_order_matters :
  let p c1 c2 := MkQP (Mat 1 1 [[1]]) [0] (Mat 0 1 []) [] [c1; c2] : QP R in
  let lower := LIC 0%Z 1 (-1) in let upper := LIC 0%Z (-1) 0 in
  reordered (p lower upper) (p upper lower) /\
  forall ldlt params g g' st st' s s', p_initial_guess_method params = NAIVE ->
    Setup g (Some (p lower upper)) = Ok st -> Setup g' (Some (p upper lower)) = Ok st' ->
    ComputeInitialGuess ldlt params (p lower upper) st = Ok s -> ComputeInitialGuess ldlt params (p upper lower) st' = Ok s' ->
    x_block s = [0] /\ x_block s' = [1].
Proof.
  intros p lower upper. split.
  { unfold reordered, p. cbn [qG qc qA qb qcons]. splits; auto. constructor. }
  intros ldlt params g g' st st' s s' EN ES ES' EI EI'.
  assert (G : forall c1 c2 g0 sa sb, (0 <= lvar c1)%Z -> (0 <= lvar c2)%Z -> Setup g0 (Some (p c1 c2)) = Ok sa ->
    ComputeInitialGuess ldlt params (p c1 c2) sa = Ok sb -> ofold clamp_one [c1; c2] [0] = Ok (x_block sb)).
  { intros c1 c2 g0 sa sb H1 H2 E1 E2. destruct (setup_ready g0 (p c1 c2) sa E1) as [W0 R0].
    { intros c [<-|[<-|[]]]; assumption. }
    destruct (init_inv ldlt params (p c1 c2) sa sb W0 R0 E2 ltac:(congruence)) as (s1 & x & R1 & D1 & HN & HC & LX & _ & _ & EX & _).
    rewrite EX. destruct (HN EN) as [HZ _].
    assert (EB : x_block s1 = [0]).
    { apply vec_eq.
      - unfold x_block. rewrite xblk_length by apply R1. rewrite (dN_nv _ _ R1). reflexivity.
      - intros i _. rewrite HZ. destruct i as [|[|i]]; reflexivity. }
    rewrite EB in HC. exact HC. }
  pose proof (G lower upper g st s ltac:(cbn; lia) ltac:(cbn; lia) ES EI) as G1.
  pose proof (G upper lower g' st' s' ltac:(cbn; lia) ltac:(cbn; lia) ES' EI') as G2.
  clear - G1 G2. unfold lower, upper in *. clear lower upper.
  cbn [ofold] in G1, G2. unfold clamp_one in G1, G2. cbn [lvar cidx ub_unless Z.leb Z.compare bind Z.to_nat vget nth] in G1, G2.
  rewrite !ClampX_formula in G1, G2. cbn [la lb] in G1, G2.
  split.
  - destruct (Req_EM_T 1 0); [lra|]. destruct (Rlt_dec 1 0); [lra|]. cbn [bind ofold vupd] in G1.
    rewrite !ClampX_formula in G1. cbn [la lb] in G1.
    destruct (Req_EM_T (-1) 0); [lra|]. destruct (Rlt_dec (-1) 0); [|lra]. cbn [bind ofold vupd] in G1. apply Ok_inj in G1. rewrite <- G1. f_equal.
    cbn [vget nth]. unfold Rmin, Rmax. repeat destruct (Rle_dec _ _); lra.
  - destruct (Req_EM_T (-1) 0); [lra|]. destruct (Rlt_dec (-1) 0); [|lra]. cbn [bind ofold vupd] in G2.
    rewrite !ClampX_formula in G2. cbn [la lb] in G2.
    destruct (Req_EM_T 1 0); [lra|]. destruct (Rlt_dec 1 0); [lra|]. cbn [bind ofold vupd] in G2. apply Ok_inj in G2. rewrite <- G2. f_equal.
    cbn [vget nth]. unfold Rmin, Rmax. repeat destruct (Rle_dec _ _); lra.
Qed.
