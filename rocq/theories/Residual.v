(** Model of include/mini_opt/residual.hpp and source/residual.cc.

    A residual owns a user supplied callable with statically sized result and Jacobian.
    [res_f p] is func_(p, nullptr); [res_fJ p] is the value returned by func_(p, &J) together
    with the J it wrote.  The callable is assumed to be a deterministic function that does not
    throw; it may return different values in the two modes.  Its result has ResidualDim
    coefficients and J is ResidualDim x index_.size() by typing, which [fixv]/[fixm] enforce.
    Handles that were moved from (impl_ == nullptr), MakeResidual and ResidualDim == Eigen::Dynamic are in ResidualHandle.v. *)
From Coq Require Import String List Bool ZArith Arith QArith.
From Verif Require Import Scalar Outcome LinAlg.
Import ListNotations.
Local Open Scope outcome_scope.
Local Open Scope string_scope.
Local Open Scope list_scope.
Local Open Scope nat_scope.

(** residual.hpp:28-117 *)
Record residual (F : Type) : Type := MkRes {
  res_dim : nat;                              (* ResidualDim / Dimension(), residual.hpp:88 *)
  res_index : list Z;                         (* index_ *)
  res_f : list F -> list F;                   (* func_(p, nullptr) *)
  res_fJ : list F -> list F * mat F }.        (* func_(p, &J) *)
Arguments MkRes {F} _ _ _ _.
Arguments res_dim {F} _.
Arguments res_index {F} _.
Arguments res_f {F} _.
Arguments res_fJ {F} _.

Section Residual.
  Context {F : Type} {O : Ops F}.

  Definition fixv (n : nat) (v : list F) : list F := mkvec n (vget v).
  Definition fixm (r c : nat) (m : mat F) : mat F := mkmat r c (mget m).

  (** Typed results of the user function. *)
  Definition res_err (r : residual F) (p : list F) : list F := fixv (res_dim r) (res_f r p).
  Definition res_errJ (r : residual F) (p : list F) : list F :=
    fixv (res_dim r) (fst (res_fJ r p)).
  Definition res_J (r : residual F) (p : list F) : mat F :=
    fixm (res_dim r) (List.length (res_index r)) (snd (res_fJ r p)).

  (** GatherValues / GatherParams, residual.hpp:150-172 *)
  Definition GatherValues (input : list F) (index : list Z) : outcome (list F) :=
    ofold (fun acc (i : Z) =>
      f_assert (0 <=? i)%Z "GatherValues: i >= 0" ;;
      f_assert (i <? Z.of_nat (List.length input))%Z "Index exceeds the number of params" ;;
      Ok (acc ++ [vget input (Z.to_nat i)])) index [].

  (** Model::ErrorVector, residual.hpp:174-180; [b_rows] is b_out.rows(). *)
  Definition ErrorVector (r : residual F) (params : list F) (b_rows : nat) : outcome (list F) :=
    f_assert (b_rows =? res_dim r) "Output vector is wrong dimension" ;;
    do p <- GatherValues params (res_index r) ;
    Ok (res_err r p).

  (** Inner loop of UpdateHessian over col_local <= row_local, residual.hpp:210-221 *)
  Definition hess_row (J : mat F) (index : list Z) (row_local : nat) (H : mat F) : mat F :=
    fold_left (fun H col_local =>
      let rg := Z.to_nat (nth row_local index 0%Z) in
      let cg := Z.to_nat (nth col_local index 0%Z) in
      let JtT := fdot (mcol J row_local) (mcol J col_local) in
      if cg <=? rg then mupd rg cg (fun h => fadd h JtT) H
      else mupd cg rg (fun h => fadd h JtT) H) (seq 0 (S row_local)) H.

  (** Model::UpdateHessian, residual.hpp:185-226. Returns the new H, b and the cost. *)
  Definition UpdateHessian (r : residual F) (params : list F) (H : mat F) (b : list F)
    : outcome (mat F * list F * F) :=
    f_assert (mrows H =? mcols H) "H->rows() == H->cols()" ;;
    f_assert (List.length b =? mrows H) "b->rows() == H->rows()" ;;
    do p <- GatherValues params (res_index r) ;
    let J := res_J r p in
    let e := res_errJ r p in
    do '(H', b') <-
      ofold (fun (Hb : mat F * list F) row_local =>
        let rgz := nth row_local (res_index r) 0%Z in
        f_assert (rgz <? Z.of_nat (mrows H))%Z "Index exceeds bounds of hessian" ;;
        Ok (hess_row J (res_index r) row_local (fst Hb),
            vupd (Z.to_nat rgz) (fun v => fadd v (fdot (mcol J row_local) e)) (snd Hb)))
        (seq 0 (List.length (res_index r))) (H, b) ;
    Ok (H', b', fmul (flit lit_half) (fsqnorm e)).

  (** Model::UpdateJacobian, residual.hpp:229-250, on a zero initialised row block with [cols]
      columns (the only use, nonlinear.cc:192,201). Returns J_out and b_out. *)
  Definition UpdateJacobian (r : residual F) (params : list F) (cols : nat)
    : outcome (mat F * list F) :=
    do p <- GatherValues params (res_index r) ;
    let J := res_J r p in
    do Jout <-
      ofold (fun (Jo : mat F) col_local =>
        let cgz := nth col_local (res_index r) 0%Z in
        f_assert (cgz <? Z.of_nat cols)%Z "Index exceeds the size of the Jacobian" ;;
        Ok (mkmat (res_dim r) cols (fun i j =>
              if j =? Z.to_nat cgz then mget J i col_local else mget Jo i j)))
        (seq 0 (List.length (res_index r))) (mzero (res_dim r) cols) ;
    Ok (Jout, res_errJ r p).

  (** Residual::QuadraticError, residual.cc:6-11 *)
  Definition QuadraticError (r : residual F) (params : list F) : outcome F :=
    do e <- ErrorVector r params (res_dim r) ;
    Ok (fmul (flit lit_half) (fsqnorm e)).
End Residual.
