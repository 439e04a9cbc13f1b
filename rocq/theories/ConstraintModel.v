(** Model of pose graph constraints: include/ndt_2d/constraint.hpp:39-49,
    src/constraint.cpp:35-56, and of the error term Ceres evaluates:
    include/ndt_2d/ceres_solver_pose.hpp:48-108. *)

From Coq Require Import ZArith List Bool.
From Verif Require Import Outcome Arith TypesModel ScanModel.
Import ListNotations.

(** constraint.hpp:39-49 (struct Constraint); begin and end are size_t. *)
Record constraint (T : Type) : Type := mkConstraint {
  c_begin : Z;
  c_end : Z;
  c_transform : vec3 T;
  c_information : mat3 T;
  c_switchable : bool
}.
Arguments mkConstraint {T} c_begin c_end c_transform c_information c_switchable.
Arguments c_begin {T} c.
Arguments c_end {T} c.
Arguments c_transform {T} c.
Arguments c_information {T} c.
Arguments c_switchable {T} c.

Section Constraint.
Context {T : Type} {A : Arith T}.
Local Open Scope num_scope.

(** constraint.cpp:35-56 (makeConstraint). *)
Definition make_constraint (from to : scan T) (covariance : mat3 T) : constraint T :=
  let dx := pox (s_pose to) - pox (s_pose from) in
  let dy := poy (s_pose to) - poy (s_pose from) in
  let costh := ncos (poth (s_pose from)) in
  let sinth := nsin (poth (s_pose from)) in
  mkConstraint (s_id from) (s_id to)
    (mkVec3 (costh * dx + sinth * dy)
            ((- sinth) * dx + costh * dy)
            (poth (s_pose to) - poth (s_pose from)))
    (mat3_inverse covariance)
    false.

(** ceres_solver_pose.hpp:58-65 (NormalizeAngle). *)
Definition two_pi : T := nofZ 2 * npi.
Definition ceres_normalize (a : T) : T := a - two_pi * nfloor ((a + npi) / two_pi).

(** ceres_solver_pose.hpp:99-101: the residual before scaling.  [a] and [b] are
    the current poses of the two nodes, [t] is the measured transform. *)
Definition raw_residual (t : vec3 T) (a b : vec3 T) : vec3 T :=
  let c := ncos (v2 a) in
  let s := nsin (v2 a) in
  let dx := v0 b - v0 a in
  let dy := v1 b - v1 a in
  mkVec3 ((c * dx + s * dy) - v0 t)
         (((- s) * dx + c * dy) - v1 t)
         (ceres_normalize ((v2 b - v2 a) - v2 t)).

(** ceres_solver_pose.hpp:86-108 (operator()): the residual handed to Ceres. *)
Definition residual (t : vec3 T) (sqrt_information : mat3 T) (a b : vec3 T) : vec3 T :=
  mat3_vec sqrt_information (raw_residual t a b).

(** Eigen's unblocked Cholesky factorisation (Eigen/src/Cholesky/LLT.h,
    llt_inplace::unblocked), on the lower triangle of a 3x3 matrix, and
    matrixL(): used at src/ceres_solver.cpp:132 without checking info().  A
    non-positive pivot makes Eigen return early, leaving the remaining entries
    as they are. *)
Definition llt_L (m : mat3 T) : mat3 T :=
  let z := nzero in
  let x0 := a00 m in
  if x0 <=? z then mkMat3 (a00 m) z z (a10 m) (a11 m) z (a20 m) (a21 m) (a22 m)
  else
    let l00 := nsqrt x0 in
    let l10 := a10 m / l00 in
    let l20 := a20 m / l00 in
    let x1 := a11 m - l10 * l10 in
    if x1 <=? z then mkMat3 l00 z z l10 (a11 m) z l20 (a21 m) (a22 m)
    else
      let l11 := nsqrt x1 in
      let l21 := (a21 m - l20 * l10) / l11 in
      let x2 := a22 m - (l20 * l20 + l21 * l21) in
      if x2 <=? z then mkMat3 l00 z z l10 l11 z l20 l21 (a22 m)
      else mkMat3 l00 z z l10 l11 z l20 l21 (nsqrt x2).

(** The parameters Ceres sees for a pose. *)
Definition pose_vec (p : pose T) : vec3 T := mkVec3 (pox p) (poy p) (poth p).
Definition vec_pose (v : vec3 T) : pose T := mkPose (v0 v) (v1 v) (v2 v).

(** The residual of a constraint as addConstraint builds it
    (ceres_solver.cpp:132-138) at given node poses. *)
Definition constraint_residual (c : constraint T) (a b : pose T) : vec3 T :=
  residual (c_transform c) (llt_L (c_information c)) (pose_vec a) (pose_vec b).

End Constraint.
