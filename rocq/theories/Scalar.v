(** Scalar arithmetic used by the library.

    The library computes with C++ [double].  The model is written once over an
    abstract scalar type [F] with a record of operations.  [Ops] contains no
    laws: a theorem proved for every [Ops F] holds for IEEE doubles with NaN and
    infinities, for every summation order chosen by Eigen, etc. *)
From Coq Require Import List Bool QArith.
Import ListNotations.

Class Ops (F : Type) : Type := mkOps {
  f0 : F;                         (* 0.0 *)
  f1 : F;                         (* 1.0 *)
  fadd : F -> F -> F;
  fsub : F -> F -> F;
  fmul : F -> F -> F;
  fdiv : F -> F -> F;
  fneg : F -> F;                  (* unary minus *)
  fabs : F -> F;                  (* std::abs *)
  fsqrt : F -> F;                 (* std::sqrt *)
  fcube : F -> F;                 (* std::pow(x, 3), qp.cc:182 *)
  fltb : F -> F -> bool;          (* a < b *)
  fleb : F -> F -> bool;          (* a <= b *)
  feqb : F -> F -> bool;          (* a == b *)
  ffinite : F -> bool;            (* std::isfinite *)
  fnan : F;                       (* quiet_NaN *)
  flit : Q -> F;                  (* decimal literals such as 0.995, 1.0e-9 *)
  fofnat : nat -> F;              (* static_cast<double>(int) *)
  (* Eigen reductions; the order of the additions is Eigen's choice, so they are
     operations of their own rather than folds of [fadd]. *)
  fdot : list F -> list F -> F;   (* u.dot(v), one entry of a matrix product *)
  fsum : list F -> F;             (* v.sum() *)
  fmaxcoeff : list F -> F;        (* v.maxCoeff() *)
  fmincoeff : list F -> F         (* v.minCoeff() *)
}.

Section Derived.
  Context {F : Type} {O : Ops F}.

  (** a > b and a >= b, in terms of < and <= (exact for IEEE: all false on NaN). *)
  Definition fgtb (a b : F) : bool := fltb b a.
  Definition fgeb (a b : F) : bool := fleb b a.

  (** std::max(a, b) = (a < b) ? b : a ;  std::min(a, b) = (b < a) ? b : a. *)
  Definition fmax (a b : F) : F := if fltb a b then b else a.
  Definition fmin (a b : F) : F := if fltb b a then b else a.

  (** std::max over an initializer list: std::max_element keeps the first of the
      largest elements, i.e. a left fold of [fmax]. *)
  Definition fmax_list (x : F) (l : list F) : F := fold_left fmax l x.

  (** v.squaredNorm(), v.norm() = sqrt(squaredNorm()), v.lpNorm<1>() and
      v.lpNorm<Infinity>() of Eigen. *)
  Definition fsqnorm (v : list F) : F := fdot v v.
  Definition fnorm (v : list F) : F := fsqrt (fsqnorm v).
  Definition fl1 (v : list F) : F := fsum (map fabs v).
  Definition flinf (v : list F) : F := fmaxcoeff (map fabs v).
End Derived.

(** The literals appearing in the sources. *)
Definition lit_half : Q := 1 # 2.
Definition lit_2 : Q := 2 # 1.
Definition lit_3 : Q := 3 # 1.
Definition lit_10 : Q := 10 # 1.
Definition lit_0_1 : Q := 1 # 10.
Definition lit_0_995 : Q := 995 # 1000.
Definition lit_1em9 : Q := 1 # 1000000000.
Definition lit_1em4 : Q := 1 # 10000.
Definition lit_1em6 : Q := 1 # 1000000.
Definition lit_m1em12 : Q := -1 # 1000000000000.
(** std::numeric_limits<double>::epsilon() = 2^-52 *)
Definition lit_eps : Q := 1 # 4503599627370496.
