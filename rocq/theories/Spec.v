(** Specification vocabulary over the reals, independent of the solver's code.

    A QP [p] describes: minimise 1/2 x^T G x + c^T x subject to A x + b = 0 and
    a_m * x[v_m] + b_m >= 0 for each constraint m.  G is the symmetric matrix given by its lower
    triangle ([Gs]). Vectors are lists; coefficient i of v is [vget v i]. *)
From Coq Require Import List Bool Arith ZArith Reals Lra Lia.
From Verif Require Import Scalar LinAlg Constraint QPModel RInst.
Import ListNotations.
Local Open Scope R_scope.

(** Dimensions. *)
Definition nv (p : QP R) : nat := length (qc p).
Definition nineq (p : QP R) : nat := length (qcons p).
Definition neq (p : QP R) : nat := length (qb p).

(** Coefficients of the problem. *)
Definition Gs (p : QP R) (i j : nat) : R :=
  if (j <=? i)%nat then mget (qG p) i j else mget (qG p) j i.
Definition Ae (p : QP R) (k j : nat) : R := mget (qA p) k j.
Definition lic0 : lic R := LIC 0%Z 0%R 0%R.
Definition con (p : QP R) (m : nat) : lic R := nth m (qcons p) lic0.
Definition ca (p : QP R) (m : nat) : R := la (con p m).
Definition cb (p : QP R) (m : nat) : R := lb (con p m).
Definition cv (p : QP R) (m : nat) : nat := Z.to_nat (lvar (con p m)).

(** A dimensionally consistent problem with valid constraint indices. *)
Record wf_qp (p : QP R) : Prop := {
  wf_Gr : mrows (qG p) = nv p;
  wf_Gc : mcols (qG p) = nv p;
  wf_Ar : mrows (qA p) = neq p;
  wf_Ac : (0 < neq p)%nat -> mcols (qA p) = nv p;
  wf_idx : forall c, In c (qcons p) -> (0 <= lvar c < Z.of_nat (nv p))%Z }.

(** First order (KKT) residuals, equations (19.2). *)
Definition kkt_dual (p : QP R) (x y z : list R) (i : nat) : R :=
  Rsum (nv p) (fun j => Gs p i j * vget x j) + vget (qc p) i
  - Rsum (neq p) (fun k => Ae p k i * vget y k)
  - Rsum (nineq p) (fun m => if (cv p m =? i)%nat then ca p m * vget z m else 0).
Definition kkt_comp (s z : list R) (m : nat) : R := vget s m * vget z m.
Definition kkt_eq (p : QP R) (x : list R) (k : nat) : R :=
  Rsum (nv p) (fun j => Ae p k j * vget x j) + vget (qb p) k.
Definition kkt_ineq (p : QP R) (x s : list R) (m : nat) : R :=
  ca p m * vget x (cv p m) + cb p m - vget s m.

(** Objective, feasibility, norms. *)
Definition qform (p : QP R) (x : list R) : R :=
  Rsum (nv p) (fun i => Rsum (nv p) (fun j => vget x i * Gs p i j * vget x j)).
Definition objective (p : QP R) (x : list R) : R :=
  / 2 * qform p x + Rsum (nv p) (fun i => vget (qc p) i * vget x i).
Definition eq_feasible (p : QP R) (x : list R) : Prop :=
  forall k, (k < neq p)%nat -> kkt_eq p x k = 0.
Definition ineq_feasible (p : QP R) (x : list R) : Prop :=
  forall m, (m < nineq p)%nat -> ca p m * vget x (cv p m) + cb p m >= 0.
Definition psd (p : QP R) : Prop := forall x, 0 <= qform p x.
Definition norm2 (n : nat) (v : nat -> R) : R := sqrt (Rsum n (fun i => v i * v i)).

(** [Hinv] is a right inverse of the n x n symmetric matrix given by the lower triangle of [H]. *)
Definition sym_right_inverse (n : nat) (H Hinv : mat R) : Prop :=
  forall i k, (i < n)%nat -> (k < n)%nat ->
    Rsum n (fun j => sget H i j * mget Hinv j k) = if (i =? k)%nat then 1 else 0.

(** A factorisation that is exact whenever it succeeds, on symmetric systems of size [n]. *)
Definition ldlt_exact (n : nat) (ldlt : mat R -> option (mat R)) : Prop :=
  forall H Hi, mrows H = n -> mcols H = n -> ldlt H = Some Hi -> sym_right_inverse n H Hi.

(** [H] is the matrix [[G + A_i^T diag(w) A_i, A_e^T], [A_e, 0]] as read from its lower triangle. *)
Definition reduced_kkt (p : QP R) (w : nat -> R) (H : mat R) : Prop :=
  mrows H = (nv p + neq p)%nat /\ mcols H = (nv p + neq p)%nat /\
  (forall i j, (i < nv p)%nat -> (j < nv p)%nat ->
     sget H i j = Gs p i j + (if (i =? j)%nat
       then Rsum (nineq p) (fun m => if (cv p m =? i)%nat then ca p m * w m * ca p m else 0)
       else 0)) /\
  (forall k j, (k < neq p)%nat -> (j < nv p)%nat ->
     sget H (nv p + k) j = Ae p k j /\ sget H j (nv p + k) = Ae p k j) /\
  (forall k l, (k < neq p)%nat -> (l < neq p)%nat -> sget H (nv p + k) (nv p + l) = 0).
