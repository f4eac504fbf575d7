(** Model of the kinematic chains used as residuals in the library's tests and examples:
    test/transform_chains.hpp and test/transform_chains.cc.

    Quaternions and 3-vectors are Eigen's (Eigen/src/Geometry/Quaternion.h); the formulas below are Eigen's, with its scalar
    (not vectorised) order of operations. The Euler angle conversions come from geometry_utils/so3.hpp, which is not part of
    this repository: they are parameters of the model ([euler_from], [so3_from]). *)
From Coq Require Import String List Bool Arith QArith.
From Verif Require Import Scalar Outcome LinAlg.
Import ListNotations.
Local Open Scope outcome_scope.
Local Open Scope string_scope.
Local Open Scope list_scope.
Local Open Scope nat_scope.

(** 1.0e-5, transform_chains.cc:122 *)
Definition lit_1em5 : Q := 1 # 100000.

(** Eigen::Vector<double, 3>; Eigen::Quaternion<double>; a 3x3 matrix by its columns *)
Record vec3 (F : Type) : Type := V3 { vx : F; vy : F; vz : F }.
Record quat (F : Type) : Type := Quat { qw : F; qx : F; qy : F; qz : F }.
Record mat3 (F : Type) : Type := M3 { mc0 : vec3 F; mc1 : vec3 F; mc2 : vec3 F }.
Arguments V3 {F} _ _ _. Arguments vx {F} _. Arguments vy {F} _. Arguments vz {F} _.
Arguments Quat {F} _ _ _ _. Arguments qw {F} _. Arguments qx {F} _. Arguments qy {F} _. Arguments qz {F} _.
Arguments M3 {F} _ _ _. Arguments mc0 {F} _. Arguments mc1 {F} _. Arguments mc2 {F} _.

(** Pose, transform_chains.hpp:24-58 *)
Record pose (F : Type) : Type := Pose { rotation : quat F; translation : vec3 F }.
Arguments Pose {F} _ _. Arguments rotation {F} _. Arguments translation {F} _.

Section Geometry.
  Context {F : Type} {O : Ops F}.

  Definition v3add (u v : vec3 F) : vec3 F := V3 (fadd (vx u) (vx v)) (fadd (vy u) (vy v)) (fadd (vz u) (vz v)).
  Definition v3neg (u : vec3 F) : vec3 F := V3 (fneg (vx u)) (fneg (vy u)) (fneg (vz u)).
  Definition v3scale (a : F) (u : vec3 F) : vec3 F := V3 (fmul a (vx u)) (fmul a (vy u)) (fmul a (vz u)).
  Definition v3zero : vec3 F := V3 f0 f0 f0.
  Definition v3cross (u v : vec3 F) : vec3 F :=
    V3 (fsub (fmul (vy u) (vz v)) (fmul (vz u) (vy v)))
       (fsub (fmul (vz u) (vx v)) (fmul (vx u) (vz v)))
       (fsub (fmul (vx u) (vy v)) (fmul (vy u) (vx v))).
  (** m * v and m * n *)
  Definition m3mulv (m : mat3 F) (v : vec3 F) : vec3 F :=
    v3add (v3add (v3scale (vx v) (mc0 m)) (v3scale (vy v) (mc1 m))) (v3scale (vz v) (mc2 m)).
  Definition m3mul (m n : mat3 F) : mat3 F := M3 (m3mulv m (mc0 n)) (m3mulv m (mc1 n)) (m3mulv m (mc2 n)).
  Definition m3zero : mat3 F := M3 v3zero v3zero v3zero.
  Definition m3id : mat3 F := M3 (V3 f1 f0 f0) (V3 f0 f1 f0) (V3 f0 f0 f1).
  (** m.col(axis) *)
  Definition m3col (m : mat3 F) (axis : nat) : vec3 F :=
    match axis with 0 => mc0 m | 1 => mc1 m | _ => mc2 m end.
  (** math::Skew3(v), the matrix of the cross product by v *)
  Definition skew3 (v : vec3 F) : mat3 F :=
    M3 (V3 f0 (vz v) (fneg (vy v))) (V3 (fneg (vz v)) f0 (vx v)) (V3 (vy v) (fneg (vx v)) f0).

  Definition qid : quat F := Quat f1 f0 f0 f0.
  (** Eigen::Quaternion::operator* (quat_product) *)
  Definition qmul (a b : quat F) : quat F :=
    Quat (fsub (fsub (fsub (fmul (qw a) (qw b)) (fmul (qx a) (qx b))) (fmul (qy a) (qy b))) (fmul (qz a) (qz b)))
         (fsub (fadd (fadd (fmul (qw a) (qx b)) (fmul (qx a) (qw b))) (fmul (qy a) (qz b))) (fmul (qz a) (qy b)))
         (fsub (fadd (fadd (fmul (qw a) (qy b)) (fmul (qy a) (qw b))) (fmul (qz a) (qx b))) (fmul (qx a) (qz b)))
         (fsub (fadd (fadd (fmul (qw a) (qz b)) (fmul (qz a) (qw b))) (fmul (qx a) (qy b))) (fmul (qy a) (qx b))).
  (** conjugate() *)
  Definition qconj (q : quat F) : quat F := Quat (qw q) (fneg (qx q)) (fneg (qy q)) (fneg (qz q)).
  (** squaredNorm(); inverse() *)
  Definition qsqnorm (q : quat F) : F :=
    fadd (fadd (fadd (fmul (qx q) (qx q)) (fmul (qy q) (qy q))) (fmul (qz q) (qz q))) (fmul (qw q) (qw q)).
  Definition qinverse (q : quat F) : quat F :=
    let n2 := qsqnorm q in
    if fgtb n2 f0
    then Quat (fdiv (qw q) n2) (fdiv (fneg (qx q)) n2) (fdiv (fneg (qy q)) n2) (fdiv (fneg (qz q)) n2)
    else Quat f0 f0 f0 f0.
  (** q * v, Eigen::QuaternionBase::_transformVector *)
  Definition qvec (q : quat F) : vec3 F := V3 (qx q) (qy q) (qz q).
  Definition qrot (q : quat F) (v : vec3 F) : vec3 F :=
    let uv := v3cross (qvec q) v in
    let uv := v3add uv uv in
    v3add (v3add v (v3scale (qw q) uv)) (v3cross (qvec q) uv).
  (** matrix() = toRotationMatrix() *)
  Definition qmatrix (q : quat F) : mat3 F :=
    let two := flit lit_2 in
    let tx := fmul two (qx q) in let ty := fmul two (qy q) in let tz := fmul two (qz q) in
    let twx := fmul tx (qw q) in let twy := fmul ty (qw q) in let twz := fmul tz (qw q) in
    let txx := fmul tx (qx q) in let txy := fmul ty (qx q) in let txz := fmul tz (qx q) in
    let tyy := fmul ty (qy q) in let tyz := fmul tz (qy q) in let tzz := fmul tz (qz q) in
    M3 (V3 (fsub f1 (fadd tyy tzz)) (fadd txy twz) (fsub txz twy))
       (V3 (fsub txy twz) (fsub f1 (fadd txx tzz)) (fadd tyz twx))
       (V3 (fadd txz twy) (fsub tyz twx) (fsub f1 (fadd txx tyy))).

  (** Pose(), Pose::operator*(Pose), Pose::Inverse, Pose::operator*(Vector), transform_chains.hpp:30-53 *)
  Definition pose_id : pose F := Pose qid v3zero.
  Definition pose_mul (a b : pose F) : pose F :=
    Pose (qmul (rotation a) (rotation b)) (v3add (translation a) (qrot (rotation a) (translation b))).
  Definition pose_inverse (a : pose F) : pose F :=
    let r := qinverse (rotation a) in Pose r (qrot r (v3neg (translation a))).
  Definition pose_apply (a : pose F) (v : vec3 F) : vec3 F := v3add (qrot (rotation a) v) (translation a).
  (** Pose::ToMatrix, transform_chains.cc:13-15: the coefficient (i, j) of the 4x4 matrix. *)
  Definition v3get (v : vec3 F) (i : nat) : F := match i with 0 => vx v | 1 => vy v | _ => vz v end.
  Definition pose_matrix (a : pose F) (i j : nat) : F :=
    if i <? 3 then (if j <? 3 then v3get (m3col (qmatrix (rotation a)) j) i else v3get (translation a) i)
    else if j <? 3 then f0 else f1.

  (** ** ComputeChain, transform_chains.cc:23-83 *)

  (** ChainComputationBuffer, transform_chains.hpp:77-101: the 3xN matrices as lists of 3x3 blocks or of columns. *)
  Record chain_buffer : Type := MkBuffer {
    rotation_D_rotation : list (mat3 F);
    translation_D_rotation : list (mat3 F);
    translation_D_translation : list (mat3 F);
    i_R_end : list (quat F);
    i_t_end : list (vec3 F) }.

  Definition empty_buffer : chain_buffer := MkBuffer [] [] [] [] [].

  (** The loop of lines 38-43, right to left. *)
  Fixpoint back_R (links : list (pose F)) : list (quat F) :=
    match links with
    | [] => [qid]
    | l :: ls => let r := back_R ls in qmul (rotation l) (hd qid r) :: r
    end.
  (** The loop of lines 48-53, right to left. *)
  Fixpoint back_t (links : list (pose F)) : list (vec3 F) :=
    match links with
    | [] => [v3zero]
    | l :: ls => let r := back_t ls in v3add (qrot (rotation l) (hd v3zero r)) (translation l) :: r
    end.
  (** The loop of lines 57-62, left to right. *)
  Fixpoint forward_R (start_R_i : quat F) (links : list (pose F)) : list (mat3 F) :=
    match links with
    | [] => []
    | l :: ls => qmatrix start_R_i :: forward_R (qmul start_R_i (rotation l)) ls
    end.

  Definition ComputeChain (links : list (pose F)) : chain_buffer :=
    match links with
    | [] => empty_buffer
    | _ =>
      let N := List.length links in
      let iR := back_R links in
      let it := back_t links in
      let tDt := forward_R qid links in
      (* lines 67-74 *)
      let tDr := mkvec N (fun i => if i <? N - 1
                                   then m3mul (nth (i + 1) tDt m3zero) (skew3 (v3neg (nth (i + 1) it v3zero)))
                                   else m3zero) in
      (* lines 77-82 *)
      let rDr := mkvec N (fun i => if i <? N - 1 then qmatrix (qconj (nth (i + 1) iR qid)) else m3id) in
      MkBuffer rDr tDr tDt iR it
    end.

  (** ChainComputationBuffer::start_T_end, transform_chains.cc:17-21 *)
  Definition start_T_end (c : chain_buffer) : outcome (pose F) :=
    f_assert (0 <? List.length (i_R_end c)) "!i_R_end.empty()" ;;
    f_assert (0 <? List.length (i_t_end c)) "i_t_end.cols() > 0" ;;
    Ok (Pose (hd qid (i_R_end c)) (hd v3zero (i_t_end c))).

  (** ComputeAllPoses, transform_chains.cc:85-93: front() of an empty vector is undefined; col(i) is in range when the two
      buffers have the same length. *)
  Definition ComputeAllPoses (c : chain_buffer) : outcome (list (pose F)) :=
    ub_unless (0 <? List.length (i_R_end c)) "front() of an empty vector" ;;
    ub_unless (List.length (i_R_end c) <=? List.length (i_t_end c)) "col(i) out of range" ;;
    let st := Pose (hd qid (i_R_end c)) (hd v3zero (i_t_end c)) in
    Ok (mkvec (List.length (i_R_end c)) (fun i =>
          pose_mul st (pose_inverse (Pose (nth i (i_R_end c) qid) (nth i (i_t_end c) v3zero))))).

  (** ** ActuatorLink, transform_chains.hpp:122-154 *)
  Record link : Type := MkLink {
    parent_T_child : pose F;
    active : list bool;        (* std::array<uint8_t, 6>: which entries are non-zero *)
    rotation_xyz : vec3 F }.

  (** ActiveCount and ActiveRotationCount, transform_chains.cc:95-103 *)
  Definition count_true (l : list bool) : nat := List.length (filter (fun b => b) l).
  Definition ActiveCount (l : link) : nat := count_true (active l).
  Definition ActiveRotationCount (l : link) : nat := count_true (firstn 3 (active l)).

  (** geometry_utils: EulerAnglesFromSO3, and SO3FromEulerAngles with order XYZ, which returns q and rotation_D_angles. *)
  Variable euler_from : quat F -> vec3 F.
  Variable so3_from : vec3 F -> quat F * mat3 F.

  Definition v3all (p : F -> bool) (v : vec3 F) : bool := p (vx v) && p (vy v) && p (vz v).

  (** The constructor, transform_chains.cc:105-124. [junk] is the uninitialised rotation_xyz. *)
  Definition ActuatorLink (junk : vec3 F) (p : pose F) (mask : list bool) : outcome link :=
    if 0 <? ActiveRotationCount (MkLink p mask junk) then
      let xyz := v3neg (euler_from (qconj (rotation p))) in
      let a := qmatrix (fst (so3_from xyz)) in
      let b := qmatrix (rotation p) in
      let ok u v := v3all (fun d => fltb (fabs d) (flit lit_1em5))
                          (V3 (fsub (vx u) (vx v)) (fsub (vy u) (vy v)) (fsub (vz u) (vz v))) in
      f_assert (ok (mc0 a) (mc0 b) && ok (mc1 a) (mc1 b) && ok (mc2 a) (mc2 b)) "Euler angle decomposition failed" ;;
      Ok (MkLink p mask xyz)
    else Ok (MkLink p mask junk).

  (** for (i, param_index = position; ...) if (active[i]) value[i] = params[param_index++]; [checked] tells whether the index
      is asserted (line 138) or not (line 150). *)
  Fixpoint substitute (checked : bool) (mask : list bool) (values params : list F) (param_index : nat) : outcome (list F) :=
    match mask, values with
    | b :: mask', v :: values' =>
      if b then
        (if checked then f_assert (param_index <? List.length params) "param_index < params.rows()"
         else ub_unless (param_index <? List.length params) "params[param_index] out of range") ;;
        do rest <- substitute checked mask' values' params (S param_index) ;
        Ok (vget params param_index :: rest)
      else
        do rest <- substitute checked mask' values' params param_index ;
        Ok (v :: rest)
    | _, _ => Ok values
    end.

  Definition to_v3 (l : list F) : vec3 F := V3 (vget l 0) (vget l 1) (vget l 2).
  Definition of_v3 (v : vec3 F) : list F := [vx v; vy v; vz v].

  (** ActuatorLink::Compute, transform_chains.cc:131-166; returns the pose and the columns written to J_out. *)
  Definition Compute (l : link) (params : list F) (position J_cols : nat) : outcome (pose F * list (vec3 F)) :=
    f_assert (J_cols =? ActiveRotationCount l) "Wrong number of columns in output jacobian" ;;
    if ActiveRotationCount l =? 0 then
      do t <- substitute true (skipn 3 (active l)) (of_v3 (translation (parent_T_child l))) params position ;
      Ok (Pose (rotation (parent_T_child l)) (to_v3 t), [])
    else
      do u <- substitute false (active l) (of_v3 (rotation_xyz l) ++ of_v3 (translation (parent_T_child l))) params position ;
      let rot := so3_from (to_v3 (firstn 3 u)) in
      Ok (Pose (fst rot) (to_v3 (skipn 3 u)),
          map (m3col (snd rot)) (filter (fun axis => nth axis (active l) false) [0; 1; 2])).

  (** ** ActuatorChain, transform_chains.hpp:158-209 *)
  Record chain : Type := MkChain {
    links : list link;
    pose_buffer : list (pose F);
    rotation_D_params : list (vec3 F);      (* columns *)
    translation_D_params : list (vec3 F);
    buffer : chain_buffer;
    params_cached : list F }.

  (** ActuatorChain chain{}; chain.links = ls *)
  Definition new_chain (ls : list link) : chain := MkChain ls [] [] [] empty_buffer [].

  (** TotalActive, transform_chains.cc:261-264 *)
  Definition TotalActive (c : chain) : nat := fold_left (fun t l => t + ActiveCount l) (links c) 0.

  (** ShouldUpdate, transform_chains.cc:248-259 *)
  Definition ShouldUpdate (c : chain) (params : list F) : bool :=
    if negb (List.length (params_cached c) =? List.length params) then true
    else existsb (fun cp => fgtb (fabs (fsub (fst cp) (snd cp))) (flit lit_1em9)) (combine (params_cached c) params).

  (** m.middleCols(position, cols.size()) = cols *)
  Definition set_cols (position : nat) (cols m : list (vec3 F)) : list (vec3 F) :=
    firstn position m ++ cols ++ skipn (position + List.length cols) m.

  (** The loop of lines 191-198: (poses so far, rotation_D_params_). A loop that stops early leaves what it wrote. *)
  Fixpoint compute_links (ls : list link) (position : nat) (params : list F) (poses : list (pose F)) (rotD : list (vec3 F))
    : (list (pose F) * list (vec3 F)) * outcome unit :=
    match ls with
    | [] => ((poses, rotD), Ok tt)
    | l :: ls' =>
      let n := ActiveRotationCount l in
      match (ub_unless (position + n <=? List.length rotD) "middleCols out of range" ;; Compute l params position n) with
      | Ok (p, cols) => compute_links ls' (position + ActiveCount l) params (poses ++ [p]) (set_cols position cols rotD)
      | Throw e => ((poses, rotD), Throw e)
      | UB w => ((poses, rotD), UB w)
      end
    end.

  (** The loop of lines 204-245 for link [i]; (rotation_D_params_, translation_D_params_). *)
  Definition chain_rule_link (cb : chain_buffer) (l : link) (i position : nat) (rotD transD : list (vec3 F))
    : list (vec3 F) * list (vec3 F) :=
    let nr := ActiveRotationCount l in
    let angles := firstn nr (skipn position rotD) in
    let tD := nth i (translation_D_rotation cb) m3zero in
    let rD := nth i (rotation_D_rotation cb) m3zero in
    let transD1 := set_cols position (map (m3mulv tD) angles) transD in
    let rotD1 := set_cols position (map (m3mulv rD) angles) rotD in
    let tcols := map (m3col (nth i (translation_D_translation cb) m3zero))
                     (filter (fun axis => nth (axis + 3) (active l) false) [0; 1; 2]) in
    (rotD1, set_cols (position + nr) tcols transD1).

  Fixpoint chain_rule (cb : chain_buffer) (ls : list link) (i position : nat) (rotD transD : list (vec3 F))
    : (list (vec3 F) * list (vec3 F)) * outcome unit :=
    match ls with
    | [] => ((rotD, transD), Ok tt)
    | l :: ls' =>
      let n := ActiveCount l in
      if n =? 0 then chain_rule cb ls' (S i) position rotD transD
      else if negb (position + n <=? List.length rotD)
           then ((rotD, transD), Throw (AssertFailed "position + active_count <= rotation_D_params_.cols()"))
           else if negb (position + n <=? List.length transD)
           then ((rotD, transD), UB "middleCols out of range")
           else let r := chain_rule_link cb l i position rotD transD in
                chain_rule cb ls' (S i) (position + n) (fst r) (snd r)
    end.

  (** ActuatorChain::Update, transform_chains.cc:174-246: the state afterwards (also when it throws) and the outcome. *)
  Definition Update (c : chain) (params : list F) : chain * outcome unit :=
    if negb (ShouldUpdate c params) then (c, Ok tt) else
    let c1 := MkChain (links c) (pose_buffer c) (rotation_D_params c) (translation_D_params c) (buffer c) params in
    let sized := if List.length (translation_D_params c) =? 0
                 then (if List.length params =? TotalActive c
                       then Some (repeat v3zero (TotalActive c), repeat v3zero (TotalActive c))
                       else None)
                 else Some (rotation_D_params c, translation_D_params c) in
    match sized with
    | None => (c1, Throw (AssertFailed "Wrong number of params passed"))
    | Some (rotD, transD) =>
      if negb (List.length params =? List.length rotD)
      then (MkChain (links c) (pose_buffer c) rotD transD (buffer c) params, Throw (AssertFailed "Mismatch between # params"))
      else
        let r := compute_links (links c) 0 params [] rotD in
        let poses := fst (fst r) in let rotD1 := snd (fst r) in
        let resized := firstn (List.length (links c)) (pose_buffer c ++ repeat pose_id (List.length (links c))) in
        let overwrite ps := ps ++ skipn (List.length ps) resized in
        match snd r with
        | Ok _ =>
          let cb := ComputeChain (overwrite poses) in
          let q := chain_rule cb (links c) 0 0 rotD1 transD in
          (MkChain (links c) (overwrite poses) (fst (fst q)) (snd (fst q)) cb params, snd q)
        | Throw e => (MkChain (links c) (overwrite poses) rotD1 transD (buffer c) params, Throw e)
        | UB w => (MkChain (links c) (overwrite poses) rotD1 transD (buffer c) params, UB w)
        end
    end.

  (** translation() and rotation(), transform_chains.hpp:183-186: leftCols<1>() of an empty matrix and front() of an empty
      vector are undefined. *)
  Definition chain_translation (c : chain) : outcome (vec3 F) :=
    match i_t_end (buffer c) with [] => UB "leftCols<1>() of an empty matrix" | t :: _ => Ok t end.
  Definition chain_rotation (c : chain) : outcome (quat F) :=
    match i_R_end (buffer c) with [] => UB "front() of an empty vector" | q :: _ => Ok q end.
End Geometry.

Arguments link F : clear implicits.
Arguments chain F : clear implicits.
Arguments chain_buffer F : clear implicits.
