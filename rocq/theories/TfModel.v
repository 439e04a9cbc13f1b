(** The message the publish thread sends (ndt_mapper.cpp:722-738): from the poses
    to translation and quaternion.  The 3x3 rotations are rotations about z: the
    entries besides the upper left block and the last one are zero. *)

From Coq Require Import ZArith List Bool.
From Verif Require Import Outcome Arith TypesModel ScanModel MotionModel FilterModel LaserModel.
Import ListNotations.

Section Tf.
Context {T : Type} {A : Arith T}.
Local Open Scope num_scope.

(** Entry (2,2) of Eigen's AngleAxis::toRotationMatrix for the z axis
    (conversions.hpp:64-68). *)
Definition to_iso22 (p : pose T) : T := ((none_ - ncos (poth p)) * none_) * none_ + ncos (poth p).

(** Entry (2,2) of map_to_robot * odom_to_robot.inverse() (line 732). *)
Definition map_to_odom22 (robot odom : pose T) : T := to_iso22 robot * to_iso22 odom.

(** Eigen's conversion of a rotation matrix to a quaternion
    (Eigen/src/Geometry/Quaternion.h, quaternionbase_assign_impl, as published),
    called by tf2::eigenToTransform (line 735).  [r] holds the upper left block,
    [m22] the last entry; returns x, y, z, w. *)
Definition quat_of_rotation (r : iso T) (m22 : T) : T * T * T * T :=
  let z := nzero in
  let half := nlit 1 2 in
  let tr := i00 r + i11 r + m22 in
  if z <? tr
  then
    let t := nsqrt (tr + none_) in
    let u := half / t in
    ((z - z) * u, (z - z) * u, (i10 r - i01 r) * u, half * t)
  else if (if i00 r <? i11 r then i11 r else i00 r) <? m22
  then
    let t := nsqrt (m22 - i00 r - i11 r + none_) in
    let u := half / t in
    ((z + z) * u, (z + z) * u, half * t, (i10 r - i01 r) * u)
  else if i00 r <? i11 r
  then
    let t := nsqrt (i11 r - m22 - i00 r + none_) in
    let u := half / t in
    ((i01 r + i10 r) * u, half * t, (z + z) * u, (z - z) * u)
  else
    let t := nsqrt (i00 r - i11 r - m22 + none_) in
    let u := half / t in
    (half * t, (i10 r + i01 r) * u, (z + z) * u, (z - z) * u).

(** Lines 722-738: the transform in the message.  The header is omitted; the
    third coordinate of the translation is zero. *)
Definition tf_message (robot odom : pose T) : pose_msg T :=
  let m := map_to_odom robot odom in
  let '(x, y, z, w) := quat_of_rotation m (map_to_odom22 robot odom) in
  mkPoseMsg (itx m) (ity m) nzero x y z w.

End Tf.
