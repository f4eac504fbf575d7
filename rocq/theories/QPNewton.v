(** C08: the update computed by SolveForUpdate solves the full Newton system. *)
From Coq Require Import List Bool Arith ZArith Reals Lra Lia.
From Verif Require Import Scalar Outcome LinAlg Structs Constraint QPModel QPBlocks RInst Spec QPAlgebra.
Import ListNotations.
Local Open Scope R_scope.

(** [x;-y] = Hinv * [-rhs_d; -rhs_pe] *)
Lemma Hrow_length : forall (H : mat R) i c0 n, length (Hrow H i c0 n) = n.
Proof. intros. apply mkvec_length. Qed.
Lemma vneg_length : forall v : list R, length (vneg v) = length v.
Proof. intros. apply map_length. Qed.
Lemma vneg_get : forall (v : list R) i, vget (vneg v) i = - vget v i.
Proof.
  intros. unfold vneg, vget. change (@f0 R R_ops) with 0.
  replace (nth i (map fneg v) 0) with (nth i (map fneg v) (fneg 0)) by (simpl; rewrite Ropp_0; reflexivity).
  rewrite map_nth. reflexivity.
Qed.

Lemma Hrow_dot : forall (H : mat R) i c0 n v, length v = n ->
  fdot (Hrow H i c0 n) v = Rsum n (fun j => mget H i (c0 + j) * vget v j).
Proof.
  intros. simpl. rewrite (Rdot_n n); auto using Hrow_length.
  apply Rsum_ext. intros j Hj. unfold Hrow. rewrite (vget_mkvec R R_ops) by exact Hj. reflexivity.
Qed.

Section Solve.
  Variables (d : dims) (Hm Hinv : mat R) (rhs_d rhs_pe : list R).
  Hypothesis Ld : length rhs_d = dN d.
  Hypothesis Lp : length rhs_pe = dK d.
  Let N := dN d.
  Let K := dK d.
  Let dx := solve_dx Hinv d rhs_d rhs_pe.
  Let dy := solve_dy Hinv d rhs_d rhs_pe.

  Lemma solve_dx_length : length dx = dN d.
  Proof. unfold dx, solve_dx. destruct (0 <? dK d)%nat; apply mkvec_length. Qed.
  Lemma solve_dy_length : length dy = dK d.
  Proof. apply mkvec_length. Qed.

  Lemma solve_dx_get : forall i, (i < N)%nat ->
    vget dx i = - Rsum N (fun j => mget Hinv i j * vget rhs_d j)
                - Rsum K (fun k => mget Hinv i (N + k) * vget rhs_pe k).
  Proof.
    intros i Hi. unfold dx, solve_dx. fold N K.
    assert (E0 : fdot (Hrow Hinv i 0 N) (vneg rhs_d) = - Rsum N (fun j => mget Hinv i j * vget rhs_d j)).
    { rewrite Hrow_dot by (rewrite vneg_length; exact Ld). rewrite <- Rsum_opp. apply Rsum_ext.
      intros j Hj. rewrite vneg_get. simpl. ring. }
    destruct (Nat.ltb_spec 0 K) as [HK|HK].
    - rewrite (vget_mkvec R R_ops) by exact Hi. rewrite (vget_mkvec R R_ops) by exact Hi. rewrite E0.
      rewrite Hrow_dot by (rewrite vneg_length; exact Lp). simpl. unfold Rminus. f_equal.
      rewrite <- Rsum_opp. apply Rsum_ext. intros j Hj. rewrite vneg_get. ring.
    - rewrite (vget_mkvec R R_ops) by exact Hi. rewrite E0. replace K with O by lia. simpl. ring.
  Qed.

  Lemma solve_dy_get : forall k, (k < K)%nat ->
    vget dy k = Rsum N (fun j => mget Hinv (N + k) j * vget rhs_d j)
                + Rsum K (fun l => mget Hinv (N + k) (N + l) * vget rhs_pe l).
  Proof.
    intros k Hk. unfold dy, solve_dy. fold N K. rewrite (vget_mkvec R R_ops) by exact Hk.
    rewrite !Hrow_dot by assumption. reflexivity.
  Qed.

  Hypothesis Inv : sym_right_inverse (N + K) Hm Hinv.

  Let rhs i := if (i <? N)%nat then vget rhs_d i else vget rhs_pe (i - N).
  Let w i := if (i <? N)%nat then vget dx i else - vget dy (i - N).

  Lemma w_get : forall j, (j < N + K)%nat -> w j = - Rsum (N + K) (fun k => mget Hinv j k * rhs k).
  Proof.
    intros j Hj. rewrite Rsum_app. unfold w.
    rewrite (Rsum_ext N _ (fun k => mget Hinv j k * vget rhs_d k))
      by (intros k Hk; unfold rhs; destruct (Nat.ltb_spec k N); [reflexivity|lia]).
    rewrite (Rsum_ext K _ (fun k => mget Hinv j (N + k) * vget rhs_pe k))
      by (intros k Hk; unfold rhs; destruct (Nat.ltb_spec (N + k) N); [lia|];
          replace (N + k - N)%nat with k by lia; reflexivity).
    destruct (Nat.ltb_spec j N) as [Hn|Hn].
    - rewrite solve_dx_get by exact Hn. ring.
    - rewrite solve_dy_get by lia. replace (N + (j - N))%nat with j by lia. ring.
  Qed.

  Lemma solve_system : forall i, (i < N + K)%nat ->
    Rsum (N + K) (fun j => sget Hm i j * w j) = - rhs i.
  Proof.
    intros i Hi.
    rewrite (Rsum_ext (N + K) _ (fun j => Rsum (N + K) (fun k => - (sget Hm i j * mget Hinv j k * rhs k)))).
    - rewrite Rsum_swap.
      rewrite (Rsum_ext (N + K) _ (fun k => if (k =? i)%nat then - rhs k else 0)).
      + apply (Rsum_delta (N + K) i (fun k => - rhs k)). exact Hi.
      + intros k Hk. rewrite Rsum_opp, Rsum_scal_r. rewrite (Inv i k Hi Hk).
        rewrite (Nat.eqb_sym k i). destruct (i =? k)%nat; ring.
    - intros j Hj. rewrite w_get by exact Hj. rewrite Rsum_opp.
      rewrite (Rsum_ext _ (fun k => sget Hm i j * mget Hinv j k * rhs k)
                 (fun k => sget Hm i j * (mget Hinv j k * rhs k))) by (intros; ring).
      rewrite Rsum_scal_l. ring.
  Qed.

  (** In block form, for a matrix [[Hx, A^T], [A, 0]]. *)
  Variables (Hx : nat -> nat -> R) (A : nat -> nat -> R).
  Hypothesis Hxx : forall i j, (i < N)%nat -> (j < N)%nat -> sget Hm i j = Hx i j.
  Hypothesis Hyx : forall k j, (k < K)%nat -> (j < N)%nat -> sget Hm (N + k) j = A k j.
  Hypothesis Hxy : forall k j, (k < K)%nat -> (j < N)%nat -> sget Hm j (N + k) = A k j.
  Hypothesis Hyy : forall k l, (k < K)%nat -> (l < K)%nat -> sget Hm (N + k) (N + l) = 0.

  Lemma solve_row_x : forall i, (i < N)%nat ->
    Rsum N (fun j => Hx i j * vget dx j) - Rsum K (fun k => A k i * vget dy k) = - vget rhs_d i.
  Proof.
    intros i Hi. pose proof (solve_system i ltac:(lia)) as E.
    replace (rhs i) with (vget rhs_d i) in E by (unfold rhs; destruct (Nat.ltb_spec i N); [reflexivity|lia]).
    rewrite <- E, Rsum_app. unfold Rminus. f_equal.
    - apply Rsum_ext. intros j Hj. rewrite Hxx by assumption. unfold w.
      destruct (Nat.ltb_spec j N); [reflexivity|lia].
    - rewrite <- Rsum_opp. apply Rsum_ext. intros k Hk. rewrite Hxy by assumption. unfold w.
      destruct (Nat.ltb_spec (N + k) N); [lia|]. replace (N + k - N)%nat with k by lia. ring.
  Qed.

  Lemma solve_row_y : forall k, (k < K)%nat ->
    Rsum N (fun j => A k j * vget dx j) = - vget rhs_pe k.
  Proof.
    intros k Hk. pose proof (solve_system (N + k) ltac:(lia)) as E.
    replace (rhs (N + k)) with (vget rhs_pe k) in E
      by (unfold rhs; destruct (Nat.ltb_spec (N + k) N); [lia|]; replace (N + k - N)%nat with k by lia; reflexivity).
    rewrite <- E, Rsum_app.
    rewrite (Rsum_0 K) by (intros l Hl; rewrite Hyy by assumption; ring).
    rewrite Rplus_0_r. apply Rsum_ext. intros j Hj. rewrite Hyx by assumption. unfold w.
    destruct (Nat.ltb_spec j N); [reflexivity|lia].
  Qed.
End Solve.

(* ------------------------------------------------------------------ *)
(** ** The reduced matrix *)

(** G + A_i^T diag(z/s) A_i *)
Definition Hred (p : QP R) (s z : list R) (i j : nat) : R :=
  Gs p i j + (if (i =? j)%nat
              then Rsum (nineq p) (fun m => if (cv p m =? i)%nat
                                            then ca p m * (vget z m / vget s m) * ca p m else 0)
              else 0).

Section Reduced.
  Variables (p : QP R) (d : dims) (s z : list R).
  Hypothesis W : wf_qp p.
  Hypothesis DN : dN d = nv p.
  Hypothesis DK : dK d = neq p.

  Lemma reduced_diag : forall i, (i < nv p)%nat ->
    vget (fold_left (fun acc (ic : nat * lic R) =>
                       vupd (cidx (snd ic))
                            (fun v => fadd v (fmul (fmul (la (snd ic))
                                        (fdiv (vget z (fst ic)) (vget s (fst ic)))) (la (snd ic)))) acc)
                     (indexed (qcons p)) (mkvec (dN d) (fun i => mget (qG p) i i))) i
    = mget (qG p) i i + Rsum (nineq p) (fun m => if (cv p m =? i)%nat
                              then ca p m * (vget z m / vget s m) * ca p m else 0).
  Proof.
    intros i Hi.
    rewrite (fold_upd_indexed (qcons p) _
      (fun ic => la (snd ic) * (vget z (fst ic) / vget s (fst ic)) * la (snd ic))).
    - rewrite (vget_mkvec R R_ops) by (rewrite DN; exact Hi). f_equal.
    - intros; reflexivity.
    - intros c Hc. rewrite mkvec_length, DN. apply cidx_lt; assumption.
  Qed.

  Let H := reduced_H true p d s z.

  Lemma reduced_sget : forall i j, (i < nv p + neq p)%nat -> (j < nv p + neq p)%nat ->
    sget H i j =
      if (i <? nv p)%nat
      then if (j <? nv p)%nat then Hred p s z i j else Ae p (j - nv p) i
      else if (j <? nv p)%nat then Ae p (i - nv p) j else 0.
  Proof.
    intros i j Hi Hj. unfold sget.
    assert (G : forall i j, (i < nv p + neq p)%nat -> (j <= i)%nat ->
      mget H i j = if (i <? nv p)%nat then Hred p s z i j
                   else if (j <? nv p)%nat then Ae p (i - nv p) j else 0).
    { clear i j Hi Hj. intros i j Hi Hj. unfold H, reduced_H.
      rewrite (mget_mkmat R R_ops) by (rewrite DN, DK; lia). rewrite DN.
      destruct (Nat.ltb_spec i (nv p)) as [Hn|Hn]; [|reflexivity].
      unfold Hred. destruct (Nat.ltb_spec j i) as [Hji|Hji].
      - unfold Gs. destruct (Nat.leb_spec j i); [|lia]. destruct (Nat.eqb_spec i j); [lia|]. ring.
      - assert (j = i) by lia. subst j. rewrite Nat.eqb_refl.
        pose proof (reduced_diag i Hn) as E. rewrite DN in E. rewrite E. unfold Gs. rewrite Nat.leb_refl. reflexivity. }
    destruct (Nat.leb_spec j i) as [Hle|Hle].
    - rewrite G by assumption. destruct (Nat.ltb_spec i (nv p)); [|reflexivity].
      destruct (Nat.ltb_spec j (nv p)); [reflexivity|lia].
    - rewrite G by lia. destruct (Nat.ltb_spec i (nv p)); destruct (Nat.ltb_spec j (nv p)); try lia; try reflexivity.
      unfold Hred, Gs. destruct (Nat.leb_spec i j); [|lia]. destruct (Nat.leb_spec j i); [lia|].
      destruct (Nat.eqb_spec i j); [lia|]. destruct (Nat.eqb_spec j i); [lia|]. ring.
  Qed.
End Reduced.

(* ------------------------------------------------------------------ *)
(** ** SolveForUpdate *)

Section Update.
  Variables (p : QP R) (st : ip_solver R) (mu : R).
  Hypothesis W : wf_qp p.
  Hypothesis RD : ready p st.
  Let d := ip_dims st.
  Let s := sblk d (ip_vars st).
  Let z := zblk d (ip_vars st).
  Let r_d := xblk d (ip_r st).
  Let r_c := sblk d (ip_r st).
  Let r_e := yblk d (ip_r st).
  Let r_i := zblk d (ip_r st).
  Let dsa := sblk d (ip_delta_aff st).
  Let dza := zblk d (ip_delta_aff st).
  Let st' := SolveForUpdate mu p st.
  Let dx := xblk d (ip_delta st').
  Let ds := sblk d (ip_delta st').
  Let dy := yblk d (ip_delta st').
  Let dz := zblk d (ip_delta st').

  Let cterm i := fsub (fadd (vget r_c i) (fmul (vget dsa i) (vget dza i))) mu.
  Let r_aug := fold_left (fun acc (ic : nat * lic R) =>
                   let i := fst ic in let c := snd ic in
                   vupd (cidx c) (fun v => fadd v (fdiv (fmul (la c) (cterm i)) (vget s i)))
                     (vupd (cidx c) (fun v => fadd v (fmul (fmul (la c)
                          (fdiv (vget z i) (vget s i))) (vget r_i i))) acc))
                 (indexed (qcons p)) r_d.
  Let dxv := solve_dx (ip_Hinv st) d r_aug r_e.
  Let dyv := solve_dy (ip_Hinv st) d r_aug r_e.
  Let dsv := map (fun ic : nat * lic R =>
                fadd (fmul (la (snd ic)) (vget dxv (cidx (snd ic)))) (vget r_i (fst ic)))
              (indexed (qcons p)).
  Let dzv := map (fun ic : nat * lic R =>
                let i := fst ic in
                fsub (fmul (fneg (fdiv (vget z i) (vget s i))) (vget dsv i))
                     (fmul (fdiv f1 (vget s i)) (cterm i)))
              (indexed (qcons p)).

  Lemma upd_delta : ip_delta st' = set_z d dzv (set_s d dsv (set_y d dyv (set_x d dxv (ip_delta st)))).
  Proof. reflexivity. Qed.

  Lemma upd_keeps : ip_p st' = ip_p st /\ ip_vars st' = ip_vars st /\ ip_dims st' = d /\
                    ip_r st' = ip_r st /\ ip_Hinv st' = ip_Hinv st /\ ip_delta_aff st' = ip_delta_aff st.
  Proof. repeat split. Qed.

  Let Hdn : dN d = nv p := dN_nv p st RD.
  Let Hdm : dM d = nineq p := dM_ni p st RD.
  Let Hdk : dK d = neq p := dK_ne p st RD.

  Lemma r_d_len : length r_d = dN d.
  Proof. apply xblk_length. apply RD. Qed.
  Lemma r_e_len : length r_e = dK d.
  Proof. apply yblk_length. apply RD. Qed.

  Lemma r_aug_eq : r_aug = fold_left (fun acc (ic : nat * lic R) =>
       vupd (cidx (snd ic)) (fun v => v + la (snd ic) * (vget z (fst ic) / vget s (fst ic)) * vget r_i (fst ic)
                                      + la (snd ic) * cterm (fst ic) / vget s (fst ic)) acc)
       (indexed (qcons p)) r_d.
  Proof. unfold r_aug. apply fold_left_ext. intros a b _. rewrite vupd_vupd. reflexivity. Qed.

  Lemma r_aug_len : length r_aug = dN d.
  Proof. rewrite r_aug_eq, fold_upd_length. apply r_d_len. Qed.

  Lemma r_aug_get : forall i, (i < nv p)%nat ->
    vget r_aug i = vget r_d i + Rsum (nineq p) (fun m => if (cv p m =? i)%nat then
       ca p m * (vget z m / vget s m) * vget r_i m + ca p m * cterm m / vget s m else 0).
  Proof.
    intros i Hi. rewrite r_aug_eq.
    rewrite (fold_upd_indexed (qcons p) _
      (fun ic => la (snd ic) * (vget z (fst ic) / vget s (fst ic)) * vget r_i (fst ic)
                 + la (snd ic) * cterm (fst ic) / vget s (fst ic))).
    - reflexivity.
    - intros a v _. ring.
    - intros c Hc. rewrite r_d_len, Hdn. apply cidx_lt; assumption.
  Qed.

  Lemma dsv_len : length dsv = dM d.
  Proof. unfold dsv. rewrite map_length, indexed_length. symmetry. exact Hdm. Qed.
  Lemma dzv_len : length dzv = dM d.
  Proof. unfold dzv. rewrite map_length, indexed_length. symmetry. exact Hdm. Qed.
  Lemma dxv_len : length dxv = dN d. Proof. apply solve_dx_length. Qed.
  Lemma dyv_len : length dyv = dK d. Proof. apply solve_dy_length. Qed.

  Lemma upd_blocks : dx = dxv /\ ds = dsv /\ dy = dyv /\ dz = dzv /\ length (ip_delta st') = tsize d.
  Proof.
    unfold dx, ds, dy, dz. rewrite upd_delta.
    pose proof dsv_len. pose proof dzv_len. pose proof dxv_len. pose proof dyv_len.
    pose proof (rd_delta _ _ RD) as L0. fold d in L0.
    pose proof (set_x_length d dxv _ L0 H1) as L1.
    pose proof (set_y_length d dyv _ L1 H2) as L2.
    pose proof (set_s_length d dsv _ L2 H) as L3.
    pose proof (set_z_length d dzv _ L3 H0) as L4.
    rewrite x_set_z, x_set_s, x_set_y, x_set_x by assumption.
    rewrite s_set_z, s_set_s by assumption.
    rewrite y_set_z, y_set_s, y_set_y by assumption.
    rewrite z_set_z by assumption. auto.
  Qed.

  Lemma upd_ready : ready p st'.
  Proof.
    destruct upd_blocks as (_ & _ & _ & _ & L). destruct RD. constructor; auto.
  Qed.

  (** Row 4 and row 2 hold whatever the factorisation returned. *)
  Lemma upd_ds : forall m, (m < nineq p)%nat ->
    vget ds m = ca p m * vget dx (cv p m) + vget r_i m.
  Proof.
    intros m Hm. destruct upd_blocks as (-> & -> & _ & _).
    unfold dsv. rewrite (vget_map_indexed R R_ops _ _ _ _ lic0) by exact Hm. reflexivity.
  Qed.

  Lemma upd_dz : forall m, (m < nineq p)%nat -> vget s m <> 0 ->
    vget s m * vget dz m + vget z m * vget ds m
      = - (vget r_c m + vget dsa m * vget dza m - mu).
  Proof.
    intros m Hm Hs. destruct upd_blocks as (_ & -> & _ & -> & _).
    unfold dzv. rewrite (vget_map_indexed R R_ops _ _ _ _ lic0) by exact Hm.
    cbn [fst snd]. unfold cterm. simpl. fold s z. field. exact Hs.
  Qed.

  Hypothesis INV : sym_right_inverse (nv p + neq p) (reduced_H true p d s z) (ip_Hinv st).

  Lemma upd_rows : 
    (forall i, (i < nv p)%nat ->
       Rsum (nv p) (fun j => Hred p s z i j * vget dx j) - Rsum (neq p) (fun k => Ae p k i * vget dy k)
       = - vget r_aug i) /\
    (forall k, (k < neq p)%nat -> Rsum (nv p) (fun j => Ae p k j * vget dx j) = - vget r_e k).
  Proof.
    destruct upd_blocks as (-> & _ & -> & _).
    rewrite <- Hdn, <- Hdk in INV.
    assert (S := reduced_sget p d s z W Hdn Hdk).
    split.
    - intros i Hi. pose proof (solve_row_x d (reduced_H true p d s z) (ip_Hinv st) r_aug r_e
        r_aug_len r_e_len INV (Hred p s z) (Ae p)) as E.
      rewrite Hdn, Hdk in E. apply E; auto.
      + intros a b Ha Hb. rewrite S by lia.
        destruct (Nat.ltb_spec a (nv p)); [|lia]. destruct (Nat.ltb_spec b (nv p)); [reflexivity|lia].
      + intros k j Hk Hj. rewrite S by lia.
        destruct (Nat.ltb_spec j (nv p)); [|lia]. destruct (Nat.ltb_spec (nv p + k) (nv p)); [lia|].
        replace (nv p + k - nv p)%nat with k by lia. reflexivity.
    - intros i Hi. pose proof (solve_row_y d (reduced_H true p d s z) (ip_Hinv st) r_aug r_e
        r_aug_len r_e_len INV (Ae p)) as E.
      rewrite Hdn, Hdk in E. apply E; auto.
      + intros k j Hk Hj. rewrite S by lia.
        destruct (Nat.ltb_spec j (nv p)); [|lia]. destruct (Nat.ltb_spec (nv p + k) (nv p)); [lia|].
        replace (nv p + k - nv p)%nat with k by lia. reflexivity.
      + intros k l Hk Hl. rewrite S by lia.
        destruct (Nat.ltb_spec (nv p + k) (nv p)); [lia|]. destruct (Nat.ltb_spec (nv p + l) (nv p)); [lia|].
        reflexivity.
  Qed.

  Lemma upd_row_dual : (forall m, (m < nineq p)%nat -> vget s m <> 0) ->
    forall i, (i < nv p)%nat ->
    Rsum (nv p) (fun j => Gs p i j * vget dx j) - Rsum (neq p) (fun k => Ae p k i * vget dy k)
    - Rsum (nineq p) (fun m => if (cv p m =? i)%nat then ca p m * vget dz m else 0)
    = - vget r_d i.
  Proof.
    intros Hs i Hi. destruct upd_rows as [E _]. specialize (E i Hi).
    rewrite r_aug_get in E by exact Hi.
    replace (Rsum (nv p) (fun j => Hred p s z i j * vget dx j))
      with (Rsum (nv p) (fun j => Gs p i j * vget dx j)
            + Rsum (nineq p) (fun m => if (cv p m =? i)%nat
                 then ca p m * (vget z m / vget s m) * ca p m * vget dx i else 0)) in E.
    - assert (D : - Rsum (nineq p) (fun m => if (cv p m =? i)%nat then ca p m * vget dz m else 0)
        = Rsum (nineq p) (fun m => if (cv p m =? i)%nat
                 then ca p m * (vget z m / vget s m) * ca p m * vget dx i else 0)
          + Rsum (nineq p) (fun m => if (cv p m =? i)%nat then
              ca p m * (vget z m / vget s m) * vget r_i m + ca p m * cterm m / vget s m else 0)).
      { rewrite <- Rsum_plus, <- Rsum_opp. apply Rsum_ext. intros m Hm.
        destruct (Nat.eqb_spec (cv p m) i) as [Hc|Hc]; [|ring].
        pose proof (upd_ds m Hm) as E1. pose proof (upd_dz m Hm (Hs m Hm)) as E2.
        rewrite Hc in E1. specialize (Hs m Hm).
        assert (E3 : vget dz m = (- (vget r_c m + vget dsa m * vget dza m - mu) - vget z m * vget ds m) / vget s m).
        { apply Rmult_eq_reg_l with (vget s m); [|exact Hs]. field_simplify; [|exact Hs]. lra. }
        rewrite E3, E1. unfold cterm. simpl. field. exact Hs. }
      lra.
    - unfold Hred. 
      rewrite (Rsum_ext (nv p) (fun j => (Gs p i j + _) * vget dx j)
        (fun j => Gs p i j * vget dx j +
           (if (j =? i)%nat then Rsum (nineq p) (fun m => if (cv p m =? i)%nat
               then ca p m * (vget z m / vget s m) * ca p m else 0) * vget dx j else 0))).
      + rewrite Rsum_plus. f_equal. rewrite (Rsum_delta (nv p) i
          (fun j => Rsum (nineq p) (fun m => if (cv p m =? i)%nat
               then ca p m * (vget z m / vget s m) * ca p m else 0) * vget dx j)) by exact Hi.
        rewrite <- Rsum_scal_r. apply Rsum_ext. intros m Hm. destruct (cv p m =? i)%nat; ring.
      + intros j Hj. rewrite (Nat.eqb_sym j i). destruct (i =? j)%nat; ring.
  Qed.
End Update.

(** C08: for every solver state set up on [p] (any iterate with non-zero slacks, any residual vector,
    any affine direction) and any mu, if [ip_Hinv st] is an exact inverse of the reduced matrix, the
    computed direction satisfies all four block rows of the Newton system (19.12):

      G dx - A_e^T dy - A_i^T dz        = - r_d
      s .* dz + z .* ds                 = - (r_comp + ds_aff .* dz_aff - mu)
      A_e dx                            = - r_pe
      A_i dx - ds                       = - r_pi                                  *)
Theorem C08_update_solves_newton_system : forall (p : QP R) (st : ip_solver R) (mu : R),
  wf_qp p -> ready p st ->
  let d := ip_dims st in
  let s := sblk d (ip_vars st) in
  let z := zblk d (ip_vars st) in
  (forall m, (m < nineq p)%nat -> vget s m <> 0) ->
  sym_right_inverse (nv p + neq p) (reduced_H true p d s z) (ip_Hinv st) ->
  let delta := ip_delta (SolveForUpdate mu p st) in
  let dx := xblk d delta in let ds := sblk d delta in
  let dy := yblk d delta in let dz := zblk d delta in
  (forall i, (i < nv p)%nat ->
     Rsum (nv p) (fun j => Gs p i j * vget dx j)
     - Rsum (neq p) (fun k => Ae p k i * vget dy k)
     - Rsum (nineq p) (fun m => if (cv p m =? i)%nat then ca p m * vget dz m else 0)
     = - vget (xblk d (ip_r st)) i) /\
  (forall m, (m < nineq p)%nat ->
     vget s m * vget dz m + vget z m * vget ds m
     = - (vget (sblk d (ip_r st)) m
          + vget (sblk d (ip_delta_aff st)) m * vget (zblk d (ip_delta_aff st)) m - mu)) /\
  (forall k, (k < neq p)%nat ->
     Rsum (nv p) (fun j => Ae p k j * vget dx j) = - vget (yblk d (ip_r st)) k) /\
  (forall m, (m < nineq p)%nat ->
     ca p m * vget dx (cv p m) - vget ds m = - vget (zblk d (ip_r st)) m).
Proof.
  intros p st mu W RD d s z Hs INV delta dx ds dy dz. repeat split.
  - intros i Hi. apply (upd_row_dual p st mu W RD INV Hs i Hi).
  - intros m Hm. apply (upd_dz p st mu RD m Hm (Hs m Hm)).
  - intros k Hk. apply (upd_rows p st mu W RD INV). exact Hk.
  - intros m Hm.
    assert (E : vget ds m = ca p m * vget dx (cv p m) + vget (zblk d (ip_r st)) m)
      by (apply (upd_ds p st mu RD m Hm)).
    rewrite E. ring.
Qed.

(** What the reduced matrix is: the symmetric matrix read by LDLT<Lower> is
    [[G + A_i^T diag(z/s) A_i, A_e^T], [A_e, 0]]. *)
Theorem C08_reduced_matrix : forall (p : QP R) (d : dims) (s z : list R),
  wf_qp p -> dN d = nv p -> dK d = neq p ->
  reduced_kkt p (fun m => vget z m / vget s m) (reduced_H true p d s z).
Proof.
  intros p d s z W DN DK. pose proof (reduced_sget p d s z W DN DK) as S.
  assert (L1 : forall i, (i < nv p)%nat -> (i <? nv p)%nat = true) by (intros; apply Nat.ltb_lt; assumption).
  assert (L2 : forall k, (nv p + k <? nv p)%nat = false) by (intros; apply Nat.ltb_ge; lia).
  unfold reduced_kkt. split; [unfold reduced_H; rewrite mkmat_rows; congruence|].
  split; [unfold reduced_H; rewrite mkmat_cols; congruence|].
  repeat split; intros; rewrite S by lia; rewrite ?L2, ?L1 by assumption; auto;
    replace (nv p + k - nv p)%nat with k by lia; reflexivity.
Qed.

(** The matrix factorised for the SOLVE_EQUALITY_CONSTRAINED guess leaves the inequalities out. *)
Theorem C08_reduced_matrix_no_inequalities : forall (p : QP R) (d : dims) (s z : list R),
  wf_qp p -> dN d = nv p -> dK d = neq p ->
  reduced_kkt p (fun _ => 0) (reduced_H false p d s z).
Proof.
  intros p d s z W DN DK. set (p' := MkQP (qG p) (qc p) (qA p) (qb p) []).
  assert (W' : wf_qp p') by (destruct W; constructor; auto; intros c []).
  pose proof (C08_reduced_matrix p' d s z W' DN DK) as X.
  change (reduced_H true p' d s z) with (reduced_H false p d s z) in X.
  destruct X as (X1 & X2 & X3 & X4 & X5). unfold reduced_kkt. split; [exact X1|]. split; [exact X2|]. split; [|split; [exact X4|exact X5]].
  intros i j Hi Hj. rewrite (X3 i j Hi Hj). f_equal. destruct (i =? j)%nat; [|reflexivity].
  cbn [Rsum nineq length qcons p']. symmetry. apply Rsum_0. intros m Hm. destruct (cv p m =? i)%nat; ring.
Qed.
