(** Plain data types of the code base, over an arbitrary number type. *)

From Coq Require Import ZArith List.
From Verif Require Import Outcome Arith.
Import ListNotations.

(** include/ndt_2d/point.hpp:35-51 (struct Point); also used for the
    Eigen::Vector2d of src/ndt_model.cpp. *)
Record point (T : Type) : Type := mkPoint { px : T; py : T }.
Arguments mkPoint {T} px py.
Arguments px {T} p.
Arguments py {T} p.

(** include/ndt_2d/pose_2d.hpp:35-55 (struct Pose2d). *)
Record pose (T : Type) : Type := mkPose { pox : T; poy : T; poth : T }.
Arguments mkPose {T} pox poy poth.
Arguments pox {T} p.
Arguments poy {T} p.
Arguments poth {T} p.

(** Eigen::Matrix2d. *)
Record mat2 (T : Type) : Type := mkMat2 { m00 : T; m01 : T; m10 : T; m11 : T }.
Arguments mkMat2 {T} m00 m01 m10 m11.
Arguments m00 {T} m.
Arguments m01 {T} m.
Arguments m10 {T} m.
Arguments m11 {T} m.

(** Eigen::Vector3d. *)
Record vec3 (T : Type) : Type := mkVec3 { v0 : T; v1 : T; v2 : T }.
Arguments mkVec3 {T} v0 v1 v2.
Arguments v0 {T} v.
Arguments v1 {T} v.
Arguments v2 {T} v.

(** Eigen::Matrix3d, row by row. *)
Record mat3 (T : Type) : Type := mkMat3 {
  a00 : T; a01 : T; a02 : T;
  a10 : T; a11 : T; a12 : T;
  a20 : T; a21 : T; a22 : T }.
Arguments mkMat3 {T} a00 a01 a02 a10 a11 a12 a20 a21 a22.
Arguments a00 {T} m.
Arguments a01 {T} m.
Arguments a02 {T} m.
Arguments a10 {T} m.
Arguments a11 {T} m.
Arguments a12 {T} m.
Arguments a20 {T} m.
Arguments a21 {T} m.
Arguments a22 {T} m.

Section Ops.
Context {T : Type} {A : Arith T}.
Local Open Scope num_scope.

(** pose_2d.hpp:37-42 (default constructor). *)
Definition pose0 : pose T := mkPose nzero nzero nzero.

(** point.hpp:37-41 (default constructor). *)
Definition point0 : point T := mkPoint nzero nzero.

Definition mat2_zero : mat2 T := mkMat2 nzero nzero nzero nzero.
Definition vec3_zero : vec3 T := mkVec3 nzero nzero nzero.
Definition mat3_zero : mat3 T :=
  mkMat3 nzero nzero nzero nzero nzero nzero nzero nzero nzero.

(** Eigen's 2x2 determinant and inverse (Eigen/src/LU/Determinant.h,
    Eigen/src/LU/InverseImpl.h, compute_inverse_size2_helper): adjugate times
    the reciprocal of the determinant. *)
Definition mat2_det (m : mat2 T) : T := m00 m * m11 m - m10 m * m01 m.
Definition mat2_inverse (m : mat2 T) : mat2 T :=
  let invdet := none_ / mat2_det m in
  mkMat2 (m11 m * invdet) ((- m01 m) * invdet)
         ((- m10 m) * invdet) (m00 m * invdet).

(** Eigen's 3x3 inverse (InverseImpl.h, compute_inverse_size3_helper):
    transposed cofactors times the reciprocal of the determinant computed from
    the first column of cofactors. *)
Definition mat3_det (m : mat3 T) : T :=
  (a11 m * a22 m - a12 m * a21 m) * a00 m +
  (a12 m * a20 m - a10 m * a22 m) * a01 m +
  (a10 m * a21 m - a11 m * a20 m) * a02 m.
Definition mat3_inverse (m : mat3 T) : mat3 T :=
  let invdet := none_ / mat3_det m in
  mkMat3
    ((a11 m * a22 m - a12 m * a21 m) * invdet)
    ((a02 m * a21 m - a01 m * a22 m) * invdet)
    ((a01 m * a12 m - a02 m * a11 m) * invdet)
    ((a12 m * a20 m - a10 m * a22 m) * invdet)
    ((a00 m * a22 m - a02 m * a20 m) * invdet)
    ((a02 m * a10 m - a00 m * a12 m) * invdet)
    ((a10 m * a21 m - a11 m * a20 m) * invdet)
    ((a01 m * a20 m - a00 m * a21 m) * invdet)
    ((a00 m * a11 m - a01 m * a10 m) * invdet).

(** Matrix/vector arithmetic used by the matcher and the solver. *)
Definition vec3_add (u v : vec3 T) : vec3 T :=
  mkVec3 (v0 u + v0 v) (v1 u + v1 v) (v2 u + v2 v).
Definition vec3_scale (v : vec3 T) (s : T) : vec3 T :=
  mkVec3 (v0 v * s) (v1 v * s) (v2 v * s).
Definition outer3 (u v : vec3 T) : mat3 T :=
  mkMat3 (v0 u * v0 v) (v0 u * v1 v) (v0 u * v2 v)
         (v1 u * v0 v) (v1 u * v1 v) (v1 u * v2 v)
         (v2 u * v0 v) (v2 u * v1 v) (v2 u * v2 v).
Definition mat3_map2 (f : T -> T -> T) (m n : mat3 T) : mat3 T :=
  mkMat3 (f (a00 m) (a00 n)) (f (a01 m) (a01 n)) (f (a02 m) (a02 n))
         (f (a10 m) (a10 n)) (f (a11 m) (a11 n)) (f (a12 m) (a12 n))
         (f (a20 m) (a20 n)) (f (a21 m) (a21 n)) (f (a22 m) (a22 n)).
Definition mat3_add : mat3 T -> mat3 T -> mat3 T := mat3_map2 nadd.
Definition mat3_scale (m : mat3 T) (s : T) : mat3 T :=
  mkMat3 (a00 m * s) (a01 m * s) (a02 m * s)
         (a10 m * s) (a11 m * s) (a12 m * s)
         (a20 m * s) (a21 m * s) (a22 m * s).
Definition mat3_vec (m : mat3 T) (v : vec3 T) : vec3 T :=
  mkVec3 (a00 m * v0 v + a01 m * v1 v + a02 m * v2 v)
         (a10 m * v0 v + a11 m * v1 v + a12 m * v2 v)
         (a20 m * v0 v + a21 m * v1 v + a22 m * v2 v).

End Ops.
