(** Model of QPNullSpaceSolver::Solve, source/qp.cc:657-729 (qp.hpp:304-319).

    Oracles:
    - [qr A] is p.A_eq.transpose().colPivHouseholderQr(): the matrices matrixQ() (n x n) and
      matrixR() (n x K), the column permutation (as the list of indices sigma with
      A^T.col(sigma(j)) = (Q R).col(j)) and rank().
    - [llt G] is G.selfadjointView<Lower>().llt(): [None] when info() != Success, otherwise the
      function computed by solveInPlace. *)
From Coq Require Import String List Bool ZArith Arith.
From Verif Require Import Scalar Outcome LinAlg Structs Constraint QPModel.
Import ListNotations.
Local Open Scope outcome_scope.
Local Open Scope string_scope.
Local Open Scope list_scope.
Local Open Scope nat_scope.

Record QRResult (F : Type) : Type := MkQR {
  qrQ : mat F; qrR : mat F; qrPerm : list nat; qrRank : nat }.
Arguments MkQR {F} _ _ _ _.
Arguments qrQ {F} _.
Arguments qrR {F} _.
Arguments qrPerm {F} _.
Arguments qrRank {F} _.

Section NullSpace.
  Context {F : Type} {O : Ops F}.
  Variable qr : mat F -> QRResult F.
  Variable llt : mat F -> option (list F -> list F).

  (** R_upper.transpose().solve(rhs), qp.cc:701,706: forward substitution with the lower
      triangular matrix R_upper^T, whose entry (i,j) is R(j,i). *)
  Definition fwd_subst (R : mat F) (k : nat) (rhs : list F) : list F :=
    fold_left (fun w i =>
      w ++ [fdiv (fsub (vget rhs i) (fdot (mkvec i (fun j => mget R j i)) w)) (mget R i i)])
      (seq 0 k) [].

  (** P.transpose() * v: coefficient j is v[sigma(j)], qp.cc:705 *)
  Definition perm_t (sigma : list nat) (v : list F) : list F :=
    map (fun s => vget v s) sigma.

  (** The particular solution u = Q1 * (R1^T)^-1 * P^T * (-b), qp.cc:703-706 *)
  Definition ns_u (f : QRResult F) (n k : nat) (b : list F) : list F :=
    let w := fwd_subst (qrR f) k (perm_t (qrPerm f) (vneg b)) in
    mkvec n (fun i => fdot (mkvec (qrRank f) (fun j => mget (qrQ f) i j)) w).

  (** Column a of Q2 = Q_.rightCols(Q_.cols() - rank), qp.cc:698 *)
  Definition q2col (f : QRResult F) (n a : nat) : list F :=
    mkvec n (fun i => mget (qrQ f) i (qrRank f + a)).

  (** Q2^T * G.selfadjointView<Lower>() * Q2, qp.cc:710 *)
  Definition ns_Gred (f : QRResult F) (n : nat) (G : mat F) : mat F :=
    let m := n - qrRank f in
    mkmat m m (fun a b =>
      fdot (mkvec n (fun j => fdot (q2col f n a) (mkvec n (fun i => sget G i j)))) (q2col f n b)).

  (** QPNullSpaceSolver::Solve, qp.cc:679-729. [x_old] is the previous content of x_; the result
      is the termination state and the new content of x_. *)
  Definition NS_Solve (p : QP F) (x_old : list F)
    : outcome (QPNullSpaceTerminationState * list F) :=
    f_assert (0 <? mrows (qA p)) "Problem must have at least one equality constraint" ;;
    f_assert (mrows (qA p) =? List.length (qb p)) "A_eq.rows() == b_eq.rows()" ;;
    let k := mrows (qA p) in
    let n := mcols (qA p) in
    let f := qr (qA p) in
    (* not checked by the code *)
    ub_unless ((mrows (qG p) =? n) && (mcols (qG p) =? n) && (List.length (qc p) =? n))
              "dimensions of G, c and A_eq differ" ;;
    ub_unless (k <=? n) "R.topRows(K) with K > R.rows()" ;;
    ub_unless (qrRank f =? k) "Q1 * (R_upper^T)^-1 ...: inner dimensions rank(A_eq) <> K" ;;
    let u := ns_u f n k (qb p) in
    match llt (ns_Gred f n (qG p)) with
    | None => Ok (NOT_POSITIVE_DEFINITE, x_old)
    | Some solve =>
      let g := vadd (qc p) (smvmul (qG p) u) in
      let y0 := mkvec (n - qrRank f) (fun a => fneg (fdot (q2col f n a) g)) in
      let y := solve y0 in
      let x := mkvec n (fun i => fadd (vget u i)
                 (fdot (mkvec (n - qrRank f) (fun a => mget (qrQ f) i (qrRank f + a))) y)) in
      Ok (NS_SUCCESS, x)
    end.
End NullSpace.
