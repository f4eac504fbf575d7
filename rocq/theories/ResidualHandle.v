(** Model of the handle side of include/mini_opt/residual.hpp: type erasure, [MakeResidual], handles that were moved from, and
    [ResidualDim == Eigen::Dynamic].  The other files work with [Residual.residual], which is what a non-empty handle with a
    fixed dimension denotes ([as_residual]); ResidualHandleProps.v proves that the two agree. *)
From Coq Require Import String List Bool ZArith Arith QArith.
From Verif Require Import Scalar Outcome LinAlg Structs Constraint Residual QPModel Nonlinear.
Import ListNotations.
Local Open Scope outcome_scope.
Local Open Scope string_scope.
Local Open Scope list_scope.
Local Open Scope nat_scope.

(** The [Model<ResidualDim, ParamDim, F>] object behind a handle, residual.hpp:76-108. [cc_rdim]/[cc_pdim] are the template
    arguments, [None] for Eigen::Dynamic. [cc_f]/[cc_fJ] are the user callable as in Residual.v; with ResidualDim == Dynamic its
    results have whatever size it chose. *)
Record concept (F : Type) : Type := MkConcept {
  cc_rdim : option nat;
  cc_pdim : option nat;
  cc_index : list Z;
  cc_f : list F -> list F;
  cc_fJ : list F -> list F * mat F }.
Arguments MkConcept {F} _ _ _ _ _.
Arguments cc_rdim {F} _.
Arguments cc_pdim {F} _.
Arguments cc_index {F} _.
Arguments cc_f {F} _.
Arguments cc_fJ {F} _.

(** [Residual::impl_], residual.hpp:118: the object itself, [None] when impl_ is null (moved from).  Residual has no copy
    operations (unique_ptr member); its implicit move operations null the source. *)
Definition handle (F : Type) : Type := option (concept F).

(** problem.hpp / nonlinear.hpp Problem with its residuals as handles (structs of Nonlinear.v otherwise). *)
Record hproblem (F : Type) : Type := MkHProblem {
  hp_dimension : Z;
  hp_costs : list (handle F);
  hp_ineq : list (lic F);
  hp_eq : list (handle F) }.
Arguments MkHProblem {F} _ _ _ _.
Arguments hp_dimension {F} _.
Arguments hp_costs {F} _.
Arguments hp_ineq {F} _.
Arguments hp_eq {F} _.

Section Handle.
  Context {F : Type} {O : Ops F}.

  (** MakeResidual(Index&&, F&&), residual.hpp:121-129. The index has the type IndexType<P>: an array of length P, or a vector
      when P is Dynamic; [typed_index] records what the type system guarantees about it. *)
  Definition typed_index (P : option nat) (index : list Z) : Prop :=
    match P with Some p => List.length index = p | None => True end.
  Definition MakeResidual (R P : option nat) (index : list Z) (f : list F -> list F) (fJ : list F -> list F * mat F)
    : handle F := Some (MkConcept R P index f fJ).

  (** MakeResidual(std::initializer_list<int>, F&&), residual.hpp:131-146. *)
  Definition MakeResidual_list (R P : option nat) (index : list Z) (f : list F -> list F) (fJ : list F -> list F * mat F)
    : outcome (handle F) :=
    match P with
    | None => Ok (Some (MkConcept R P index f fJ))
    | Some p =>
      f_assert (List.length index =? p) "index.size() == P" ;;
      (* std::array<int, P> index_copied{}; std::copy_n(index.begin(), index.size(), index_copied.begin()) *)
      let index_copied := firstn p (firstn (List.length index) index ++ repeat 0%Z p) in
      Ok (Some (MkConcept R P index_copied f fJ))
    end.

  (** F_ASSERT(impl_), residual.hpp:32,39,47,55 *)
  Definition deref (h : handle F) : outcome (concept F) :=
    match h with Some c => Ok c | None => Throw (AssertFailed "impl_") end.

  (** Model::Dimension, residual.hpp:88; Eigen::Dynamic is -1. *)
  Definition cc_Dimension (c : concept F) : Z :=
    match cc_rdim c with Some d => Z.of_nat d | None => (-1)%Z end.
  (** Residual::Dimension, residual.hpp:31-34 *)
  Definition h_Dimension (h : handle F) : outcome Z := do c <- deref h ; Ok (cc_Dimension c).

  (** The residual of Residual.v with [d] rows. *)
  Definition sized (d : nat) (c : concept F) : residual F := MkRes d (cc_index c) (cc_f c) (cc_fJ c).

  (** A block or vector of a negative size, and resizing to one, violate Eigen's preconditions (checked by eigen_assert in
      debug builds only). *)
  Definition nonneg_size (n : Z) : outcome nat :=
    ub_unless (0 <=? n)%Z "negative size passed to Eigen" ;; Ok (Z.to_nat n).

  (** Residual::ErrorVector on a block with [b_rows] rows, residual.hpp:37-41, 174-180. With ResidualDim == Dynamic the assert
      compares with -1. *)
  Definition h_ErrorVector (h : handle F) (params : list F) (b_rows : nat) : outcome (list F) :=
    do c <- deref h ;
    match cc_rdim c with
    | Some d => ErrorVector (sized d c) params b_rows
    | None => f_assert (Z.of_nat b_rows =? cc_Dimension c)%Z "Output vector is wrong dimension" ;; UB "unreachable"
    end.

  (** Residual::UpdateHessian, residual.hpp:45-49, 185-226. With ResidualDim == Dynamic: if the parameters are dynamic too, J is
      resized to -1 rows; otherwise J starts with no rows, the callable gives it a size, and J.col(i).dot(r) needs that size to
      be that of r. *)
  Definition h_UpdateHessian (h : handle F) (params : list F) (H : mat F) (b : list F) : outcome (mat F * list F * F) :=
    do c <- deref h ;
    match cc_rdim c with
    | Some d => UpdateHessian (sized d c) params H b
    | None =>
      f_assert (mrows H =? mcols H) "H->rows() == H->cols()" ;;
      f_assert (List.length b =? mrows H) "b->rows() == H->rows()" ;;
      do p <- GatherValues params (cc_index c) ;
      match cc_pdim c with
      | None => nonneg_size (-1) ;; UB "unreachable"
      | Some _ =>
        let r := fst (cc_fJ c p) in
        ub_unless (mrows (snd (cc_fJ c p)) =? List.length r) "J.col(i).dot(r) of vectors of different sizes" ;;
        UpdateHessian (sized (List.length r) c) params H b
      end
    end.

  (** Residual::UpdateJacobian on a row block with [J_rows] rows and [cols] columns and [b_rows] rows of b, residual.hpp:53-57,
      229-250 (zero initialised, see Residual.v). *)
  Definition h_UpdateJacobian (h : handle F) (params : list F) (J_rows b_rows cols : nat) : outcome (mat F * list F) :=
    do c <- deref h ;
    f_assert (cc_Dimension c =? Z.of_nat b_rows)%Z "ResidualDim == b_out.rows()" ;;
    f_assert (cc_Dimension c =? Z.of_nat J_rows)%Z "ResidualDim == J_out.rows()" ;;
    match cc_rdim c with
    | Some d => UpdateJacobian (sized d c) params cols
    | None => UB "unreachable"
    end.

  (** Residual::QuadraticError, residual.cc:6-11 *)
  Definition h_QuadraticError (h : handle F) (params : list F) : outcome F :=
    do dim <- h_Dimension h ;
    do n <- nonneg_size dim ;
    do e <- h_ErrorVector h params n ;
    Ok (fmul (flit lit_half) (fsqnorm e)).

  (** ** The solver on a problem of handles *)

  (** Constructor, nonlinear.cc:13-47: returns the number of rows of A_eq and the size of error_buffer_. *)
  Definition h_construct (hp : option (hproblem F)) : outcome (nat * nat) :=
    match hp with
    | None => Throw (AssertFailed "p_ != nullptr")
    | Some p =>
      f_assert (0 <? hp_dimension p)%Z "Need at least one variable" ;;
      do '(total, m) <- ofold (fun (acc : Z * Z) h =>
        do d <- h_Dimension h ; Ok (fst acc + d, Z.max (snd acc) d)%Z) (hp_eq p) (0, 0)%Z ;
      do rows <- nonneg_size total ;
      do m' <- ofold (fun (acc : Z) h => do d <- h_Dimension h ; Ok (Z.max acc d)) (hp_costs p) m ;
      do buf <- nonneg_size m' ;
      Ok (rows, buf)
    end.

  (** LinearizeAndFillQP, nonlinear.cc:170-214, with A_eq of [rows_eq] rows as allocated by the constructor. *)
  Definition h_LinearizeAndFillQP (rows_eq : nat) (vars : list F) (lambda : F) (hp : hproblem F) : outcome (Errors F * QP F) :=
    let n := Z.to_nat (hp_dimension hp) in
    do '(G, c, f) <-
      ofold (fun (acc : mat F * list F * F) h =>
        let '(G, c, f) := acc in
        do '(G', c', e) <- h_UpdateHessian h vars G c ;
        Ok (G', c', fadd f e)) (hp_costs hp) (mzero n n, vzero n, f0) ;
    let G' := if fgtb lambda f0
              then mkmat n n (fun i j => if i =? j then fadd (mget G i j) lambda else mget G i j)
              else G in
    do '(rows, b, e) <-
      ofold (fun (acc : list (list F) * list F * F) h =>
        let '(rows, b, e) := acc in
        do dim <- h_Dimension h ;
        f_assert (Z.of_nat (List.length rows) + dim <=? Z.of_nat rows_eq)%Z "row + dim <= A_eq.rows()" ;;
        do k <- nonneg_size dim ;
        do '(J, br) <- h_UpdateJacobian h vars k k n ;
        Ok (rows ++ mdata J, b ++ br, fadd e (fl1 br))) (hp_eq hp) ([], [], f0) ;
    do cons <- ofold (fun acc c => do c' <- ShiftToVec c vars ; Ok (acc ++ [c'])) (hp_ineq hp) [] ;
    Ok (MkErrors f e, MkQP G' c (Mat rows_eq n rows) b cons).

  (** EvaluateNonlinearErrors, nonlinear.cc:279-293; error_buffer_.head(dim) needs 0 <= dim <= [buf]. *)
  Definition h_EvaluateNonlinearErrors (buf : nat) (hp : hproblem F) (vars : list F) : outcome (Errors F) :=
    do f <- ofold (fun f h =>
        do dim <- h_Dimension h ;
        do k <- nonneg_size dim ;
        ub_unless (k <=? buf) "error_buffer_.head(dim)" ;;
        do e <- h_ErrorVector h vars k ;
        Ok (fadd f (fmul (flit lit_half) (fsqnorm e)))) (hp_costs hp) f0 ;
    do q <- ofold (fun q h =>
        do dim <- h_Dimension h ;
        do k <- nonneg_size dim ;
        ub_unless (k <=? buf) "error_buffer_.head(dim)" ;;
        do e <- h_ErrorVector h vars k ;
        Ok (fadd q (fl1 e))) (hp_eq hp) f0 ;
    Ok (MkErrors f q).

  (** Solve up to the first use of the residuals, nonlinear.cc:75-98: the parameter check, then, if there is an iteration to
      do, the linearisation at the initial guess; [rest] stands for everything after it and [no_iterations] for the result when
      max_iterations is 0. *)
  Definition h_Solve {A : Type} (rows_eq : nat) (pa : NLSParams F) (hp : hproblem F) (vars : list F)
      (rest : Errors F * QP F -> outcome A) (no_iterations : A) : outcome A :=
    NLS_CheckParams pa ;;
    if (n_max_iterations pa <=? 0)%Z then Ok no_iterations
    else
      do l <- h_LinearizeAndFillQP rows_eq vars (n_lambda_initial pa) hp ;
      rest l.

  (** The residual a usable handle stands for: non-empty and of a fixed dimension. *)
  Definition as_residual (h : handle F) : option (residual F) :=
    match h with
    | Some c => match cc_rdim c with Some d => Some (sized d c) | None => None end
    | None => None
    end.
  Fixpoint all_residuals (hs : list (handle F)) : option (list (residual F)) :=
    match hs with
    | [] => Some []
    | h :: hs' =>
      match as_residual h, all_residuals hs' with Some r, Some rs => Some (r :: rs) | _, _ => None end
    end.
  Definition as_problem (hp : hproblem F) : option (Problem F) :=
    match all_residuals (hp_costs hp), all_residuals (hp_eq hp) with
    | Some cs, Some es => Some (MkProblem (hp_dimension hp) cs (hp_ineq hp) es)
    | _, _ => None
    end.
End Handle.

(** ** Ownership: the heap behind the handles

    unique_ptr level.  A slot is the impl_ pointer of one Residual object (an address or null); the heap records which blocks
    were allocated and which were freed.  A std::vector<Residual> that grows move-constructs its elements into new storage and
    destroys the moved-from ones, which changes no address; that is why slots are simply numbered. *)
Section Ownership.
  Context {C : Type}.                                        (* contents of a block: a concept *)

  Record store : Type := MkStore {
    st_heap : list (option C);                               (* block a: [Some c] live, [None] freed *)
    st_slots : list (option nat) }.                          (* impl_ of each Residual object *)

  (** delete p *)
  Definition delete (p : option nat) (heap : list (option C)) : outcome (list (option C)) :=
    match p with
    | None => Ok heap
    | Some a =>
      match nth_error heap a with
      | Some (Some _) => Ok (firstn a heap ++ None :: skipn (S a) heap)
      | _ => UB "double free"
      end
    end.

  Definition set_slot (i : nat) (p : option nat) (l : list (option nat)) : list (option nat) :=
    firstn i l ++ p :: skipn (S i) l.
  Definition slot (i : nat) (s : store) : option nat := nth i (st_slots s) None.

  (** unique_ptr::reset(p) on slot i: store the new pointer, delete the old one. *)
  Definition reset (i : nat) (p : option nat) (s : store) : outcome store :=
    do heap <- delete (slot i s) (st_heap s) ;
    Ok (MkStore heap (set_slot i p (st_slots s))).
  (** unique_ptr::release() on slot i *)
  Definition release (i : nat) (s : store) : store * option nat :=
    (MkStore (st_heap s) (set_slot i None (st_slots s)), slot i s).

  (** What a program can do with Residual objects. *)
  Inductive hop : Type :=
  | Declare_made (c : C)            (* Residual r = MakeResidual(...) or v.push_back(MakeResidual(...)) *)
  | Declare_moved (i : nat)         (* Residual r = std::move(r_i) or v.push_back(std::move(r_i)) *)
  | Assign_made (i : nat) (c : C)   (* r_i = MakeResidual(...) *)
  | Assign_moved (i j : nat)        (* r_i = std::move(r_j), i = j allowed *)
  | Swap (i j : nat)                (* std::swap(r_i, r_j): three moves through a temporary *)
  | Call (i : nat).                 (* any method of r_i *)

  (** residual.hpp:110-118 with the implicit move operations of Residual, which are those of unique_ptr:
      move construction is release, move assignment is reset(other.release()). *)
  Definition hstep (o : hop) (s : store) : outcome store :=
    match o with
    | Declare_made c => Ok (MkStore (st_heap s ++ [Some c]) (st_slots s ++ [Some (length (st_heap s))]))
    | Declare_moved i =>
      let (s', p) := release i s in Ok (MkStore (st_heap s') (st_slots s' ++ [p]))
    | Assign_made i c => reset i (Some (length (st_heap s))) (MkStore (st_heap s ++ [Some c]) (st_slots s))
    | Assign_moved i j => let (s', p) := release j s in reset i p s'
    | Swap i j =>
      let (s1, t) := release i s in                         (* Residual t(std::move(r_i)) *)
      let (s2, p) := release j s1 in
      do s3 <- reset i p s2 ;                               (* r_i = std::move(r_j) *)
      reset j t s3                                          (* r_j = std::move(t) *)
    | Call i =>
      match slot i s with
      | None => Throw (AssertFailed "impl_")
      | Some a => match nth_error (st_heap s) a with Some (Some _) => Ok s | _ => UB "use after free" end
      end
    end.

  (** A throwing call leaves the objects as they are; the program may go on after catching the exception. *)
  Definition hstep_catch (o : hop) (s : store) : outcome store :=
    match hstep o s with Throw _ => Ok s | r => r end.
  Fixpoint hrun (ops : list hop) (s : store) : outcome store :=
    match ops with [] => Ok s | o :: ops' => do s' <- hstep_catch o s ; hrun ops' s' end.

  (** Leaving the scope: ~Residual deletes impl_, last object first. *)
  Fixpoint destroy_all (n : nat) (s : store) : outcome store :=
    match n with
    | 0 => Ok s
    | S n' => do s' <- reset n' None s ; destroy_all n' s'
    end.

  (** The operations name objects that exist. *)
  Definition op_ok (n : nat) (o : hop) : Prop :=
    match o with
    | Declare_made _ => True
    | Declare_moved i | Assign_made i _ | Call i => i < n
    | Assign_moved i j | Swap i j => i < n /\ j < n
    end.
  Definition grows (o : hop) : nat := match o with Declare_made _ | Declare_moved _ => 1 | _ => 0 end.
  Fixpoint ops_ok (n : nat) (ops : list hop) : Prop :=
    match ops with [] => True | o :: ops' => op_ok n o /\ ops_ok (n + grows o) ops' end.
End Ownership.
Arguments store C : clear implicits.
Arguments hop C : clear implicits.
