(** Model of the numeric parts of Mapper::laserCallback and of the transform
    published by Mapper::mapPublishThread (src/ndt_mapper.cpp:262-567, 716-740).

    The tf2 lookups are inputs. *)

From Coq Require Import ZArith List Bool.
From Verif Require Import Outcome Arith TypesModel ScanModel MotionModel.
Import ListNotations.
Local Open Scope outcome_scope.

(** The fields of sensor_msgs/LaserScan the callback reads.  angle_min,
    angle_increment, range_max and the ranges are float32 values. *)
Record laser_msg (T : Type) : Type := mkLaser {
  lr_angle_min : T; lr_angle_inc : T; lr_range_max : T; lr_ranges : list T
}.
Arguments mkLaser {T} lr_angle_min lr_angle_inc lr_range_max lr_ranges.
Arguments lr_angle_min {T} l.
Arguments lr_angle_inc {T} l.
Arguments lr_range_max {T} l.
Arguments lr_ranges {T} l.

(** An isometry of the plane as Eigen stores it: rotation block, translation. *)
Record iso (T : Type) : Type := mkIso { i00 : T; i01 : T; i10 : T; i11 : T; itx : T; ity : T }.
Arguments mkIso {T} i00 i01 i10 i11 itx ity.
Arguments i00 {T} i.
Arguments i01 {T} i.
Arguments i10 {T} i.
Arguments i11 {T} i.
Arguments itx {T} i.
Arguments ity {T} i.

Section Laser.
Context {T : Type} {A : Arith T}.
Local Open Scope num_scope.

(** Lines 347-352: is the robot considered not to have moved?  [md] and [mr] are
    minimum_travel_distance_ and minimum_travel_rotation_. *)
Definition small_motion (md mr : T) (prev_odom odom : pose T) : bool :=
  let dx := pox odom - pox prev_odom in
  let dy := poy odom - poy prev_odom in
  let dth := angle_diff (poth prev_odom) (poth odom) in
  let dist := (dx * dx) + (dy * dy) in
  (dist <? md * md) && (nabs dth <? mr).

(** Lines 347-349 and 357-363: the odometry change applied to the previous robot
    pose. *)
Definition odom_guess (prev_robot prev_odom odom : pose T) : pose T :=
  let dx := pox odom - pox prev_odom in
  let dy := poy odom - poy prev_odom in
  let dth := angle_diff (poth prev_odom) (poth odom) in
  let heading := angle_diff (poth prev_odom) (poth prev_robot) in
  mkPose (pox prev_robot + (dx * ncos heading) - (dy * nsin heading))
         (poy prev_robot + (dx * nsin heading) + (dy * ncos heading))
         (normalize_angle (poth prev_robot + dth)).

(** Conversion of a double to int64_t; undefined behaviour if the truncated
    value does not fit. *)
Definition cast_int64 (x : T) : outcome Z :=
  match ntrunc x with
  | None => Fault BadCast
  | Some z => if ((- 2 ^ 63 <=? z) && (z <? 2 ^ 63))%Z then Ok z else Fault BadCast
  end.

(** Lines 367-370: nanoseconds from the first to the last reading of a message
    with [n] readings [dt] seconds apart.  size() - 1 is size_t arithmetic;
    rclcpp::Duration::from_seconds multiplies by 10^9 and converts to int64_t.
    Adding it to the time stamp is not modelled. *)
Definition sweep_ns (n : nat) (dt : T) : outcome Z :=
  cast_int64 ((nofZ (wrap64 (Z.of_nat n - 1)) * dt) * nofZ 1000000000).

(** Lines 385-389. *)
Definition sweep_translation (odom end_odom : pose T) : pose T :=
  mkPose (pox end_odom - pox odom) (poy end_odom - poy odom) (poth end_odom - poth odom).

(** Lines 391-395. *)
Definition per_measurement (t : pose T) (n : nat) : pose T :=
  let d := nofZ (Z.of_nat n) in
  mkPose (pox t / d) (poy t / d) (poth t / d).

(** Lines 412-413, 435-436: readings that are skipped. *)
Definition skipped (range_max r : T) : bool := nisnan r || (range_max <? r).

(** Lines 415, 438: float + size_t * float, in single precision. *)
Definition beam_angle (m : laser_msg T) (i : nat) : T :=
  nsingle (lr_angle_min m + nsingle (nsingle (nofZ (Z.of_nat i)) * lr_angle_inc m)).

(** Lines 416-420, 439-443: polar to cartesian, then to the robot frame. *)
Definition to_robot (laser : pose T) (angle r : T) : point T :=
  let lx := ncos angle * r in
  let ly := nsin angle * r in
  let c := ncos (poth laser) in
  let s := nsin (poth laser) in
  mkPoint (c * lx - s * ly + pox laser) (s * lx + c * ly + poy laser).

(** Lines 422-426, 445-448: [m] is the movement assigned to the reading. *)
Definition move_point (m : pose T) (p : point T) : point T :=
  let c := ncos (poth m) in
  let s := nsin (poth m) in
  mkPoint (c * px p - s * py p + pox m) (s * px p + c * py p + poy m).

(** Lines 445-448: movement until reading [i] (upright laser). *)
Definition upright_shift (per : pose T) (i : nat) : pose T :=
  let k := nofZ (Z.of_nat i) in
  mkPose (pox per * k) (poy per * k) (poth per * k).

(** Lines 422-426 (inverted laser). *)
Definition inverted_shift (t per : pose T) (i : nat) : pose T :=
  let k := nofZ (Z.of_nat i) in
  mkPose (pox t - (pox per * k)) (poy t - (poy per * k)) (poth t - (poth per * k)).

(** Lines 433-451: the loop over the readings, [i] is the index of the first. *)
Fixpoint upright_points (m : laser_msg T) (range_max : T) (laser per : pose T)
    (i : nat) (rs : list T) : list (point T) :=
  match rs with
  | [] => []
  | r :: rest =>
    let more := upright_points m range_max laser per (S i) rest in
    if skipped range_max r then more
    else move_point (upright_shift per i) (to_robot laser (beam_angle m i) r) :: more
  end.

(** Lines 410-429: i = size - 1 down to 1.  [k] is the number of iterations left. *)
Fixpoint inverted_points (m : laser_msg T) (range_max : T) (laser t per : pose T) (k : nat)
    : outcome (list (point T)) :=
  match k with
  | O => Ok []
  | S k' =>
    r <- vec_get (lr_ranges m) (Z.of_nat k) ;;
    more <- inverted_points m range_max laser t per k' ;;
    if skipped range_max r then Ok more
    else Ok (move_point (inverted_shift t per k) (to_robot laser (- beam_angle m k) r) :: more)
  end.

(** Lines 385-452: all points of the scan.  With an inverted laser and no
    readings, size() - 1 wraps around and the loop reads far outside. *)
Definition scan_points (inverted : bool) (range_max : T) (laser odom end_odom : pose T) (m : laser_msg T)
    : outcome (list (point T)) :=
  let t := sweep_translation odom end_odom in
  let per := per_measurement t (length (lr_ranges m)) in
  if inverted
  then match length (lr_ranges m) with
       | O => Fault OutOfBounds
       | S k => inverted_points m range_max laser t per k
       end
  else Ok (upright_points m range_max laser per 0 (lr_ranges m)).

(** Lines 457-468: the change of pose in the robot frame.  Eigen's inverse of a
    rotation about z is its transpose; the zero translation is added last. *)
Definition robot_delta (prev now : pose T) : vec3 T :=
  let dx := pox now - pox prev in
  let dy := poy now - poy prev in
  let c := ncos (poth prev) in
  let s := nsin (poth prev) in
  let z := nzero in
  mkVec3 ((c * dx + (z + s) * dy + z * none_) + z)
         (((z - s) * dx + c * dy + z * none_) + z)
         (angle_diff (poth prev) (poth now)).

(** Lines 504-505: the scans of the rolling window.  All values are size_t. *)
Definition rolling_window {X : Type} (depth : Z) (scans : list X) : outcome (list X) :=
  let n := Z.of_nat (length scans) in
  let start := if (n <=? depth)%Z then 0%Z else wrap64 (n - 10) in
  if (start <=? n)%Z then Ok (skipn (Z.to_nat start) scans) else Fault BadIterator.

(** Lines 521-524, 558-561, 652-655: the correction is added component by
    component. *)
Definition add_correction (p c : pose T) : pose T :=
  mkPose (pox c + pox p) (poy c + poy p) (poth c + poth p).

(** Line 518. *)
Definition smooth_response (typical score : T) : T :=
  nlit 95 100 * typical + nlit 5 100 * score.

(** conversions.hpp:64-68 (toEigen). *)
Definition to_iso (p : pose T) : iso T :=
  let c := ncos (poth p) in
  let s := nsin (poth p) in
  mkIso c (nzero - s) (nzero + s) c (pox p) (poy p).

(** Eigen::Isometry3d::inverse(): transposed rotation, translation -R^T t. *)
Definition iso_inverse (m : iso T) : iso T :=
  mkIso (i00 m) (i10 m) (i01 m) (i11 m)
    ((- i00 m) * itx m + (- i10 m) * ity m) ((- i01 m) * itx m + (- i11 m) * ity m).

(** Product of isometries. *)
Definition iso_mul (a b : iso T) : iso T :=
  mkIso (i00 a * i00 b + i01 a * i10 b) (i00 a * i01 b + i01 a * i11 b)
        (i10 a * i00 b + i11 a * i10 b) (i10 a * i01 b + i11 a * i11 b)
        ((i00 a * itx b + i01 a * ity b) + itx a) ((i10 a * itx b + i11 a * ity b) + ity a).

(** Lines 722-732: the published map -> odom transform.  The third row and
    column and the conversion to a quaternion by tf2_eigen are in TfModel.v. *)
Definition map_to_odom (robot odom : pose T) : iso T :=
  iso_mul (to_iso robot) (iso_inverse (to_iso odom)).

End Laser.
