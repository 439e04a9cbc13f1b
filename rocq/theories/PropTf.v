(** The transform as the listeners read it. *)

From Coq Require Import ZArith Reals List Bool Lra Lia.
From Flocq Require Import Core BinarySingleNaN.
From Verif Require Import Outcome Arith TypesModel ScanModel SpecPose RTactics ConstraintProofs MotionModel FilterModel LaserModel SpecLaser TfModel
  AngleProofs MotionProofs LaserProofs.
Import ListNotations.
Local Open Scope R_scope.

Lemma rotation_block : forall robot odom : pose R, let h := poth robot - poth odom in
  i00 (map_to_odom robot odom) = cos h /\ i01 (map_to_odom robot odom) = - sin h /\
  i10 (map_to_odom robot odom) = sin h /\ i11 (map_to_odom robot odom) = cos h /\ map_to_odom22 robot odom = 1.
Proof.
  intros robot odom h. unfold h. rewrite cos_minus, sin_minus.
  unfold map_to_odom, iso_mul, iso_inverse, to_iso, map_to_odom22, to_iso22. cbn [i00 i01 i10 i11]. ra.
  repeat split; ring.
Qed.

(** The quaternion of a rotation about z: a unit quaternion about z, of half the angle up to sign. *)
Lemma quat_rotation : forall (r : iso R) h, i00 r = cos h -> i01 r = - sin h -> i10 r = sin h -> i11 r = cos h ->
  exists z w, quat_of_rotation r 1 = (0, 0, z, w) /\ z * z + w * w = 1 /\ 2 * (w * z) = sin h /\ w * w - z * z = cos h.
Proof.
  intros r h E00 E01 E10 E11. pose proof (sin2_cos2 h) as Q. unfold Rsqr in Q.
  unfold quat_of_rotation. ra. rewrite E00, E01, E10, E11.
  set (c := cos h) in *. set (s := sin h) in *.
  destruct (Rlt_bool_spec 0 (c + c + 1)) as [P|P].
  - set (t := sqrt (c + c + 1 + 1)).
    assert (T : t * t = 2 + 2 * c) by (unfold t; rewrite sqrt_sqrt; lra).
    assert (T0 : 0 < t) by (unfold t; apply sqrt_lt_R0; lra).
    exists ((s - - s) * (1 / 2 / t)), (1 / 2 * t).
    assert (Z : (s - - s) * (1 / 2 / t) = s / t) by (field; lra). rewrite Z.
    assert (ZZ : s / t * (s / t) = (1 - c) / 2).
    { replace (s / t * (s / t)) with (s * s / (t * t)) by (field; lra). rewrite T.
      replace (s * s) with ((1 - c) * (1 + c)) by lra. field. lra. }
    split; [repeat apply f_equal2; try reflexivity; unfold Rdiv; ring|].
    split; [rewrite ZZ; replace (1 / 2 * t * (1 / 2 * t)) with (t * t / 4) by field; rewrite T; field|].
    split; [field; lra|]. rewrite ZZ. replace (1 / 2 * t * (1 / 2 * t)) with (t * t / 4) by field. rewrite T. field.
  - rewrite (Rlt_bool_false c c) by lra. rewrite (Rlt_bool_true c 1) by lra.
    set (t := sqrt (1 - c - c + 1)).
    assert (T : t * t = 2 - 2 * c) by (unfold t; rewrite sqrt_sqrt; lra).
    assert (T0 : 0 < t) by (unfold t; apply sqrt_lt_R0; lra).
    exists (1 / 2 * t), ((s - - s) * (1 / 2 / t)).
    assert (Z : (s - - s) * (1 / 2 / t) = s / t) by (field; lra). rewrite Z.
    assert (ZZ : s / t * (s / t) = (1 + c) / 2).
    { replace (s / t * (s / t)) with (s * s / (t * t)) by (field; lra). rewrite T.
      replace (s * s) with ((1 - c) * (1 + c)) by lra. field. lra. }
    split; [repeat apply f_equal2; try reflexivity; unfold Rdiv; ring|].
    split; [rewrite ZZ; replace (1 / 2 * t * (1 / 2 * t)) with (t * t / 4) by field; rewrite T; field|].
    split; [field; lra|]. rewrite ZZ. replace (1 / 2 * t * (1 / 2 * t)) with (t * t / 4) by field. rewrite T. field.
Qed.

Lemma yaw_of_unit : forall z w h : R, z * z + w * w = 1 -> 2 * (w * z) = sin h -> w * w - z * z = cos h -> - PI < h <= PI ->
  get_yaw 0 0 z w = h.
Proof.
  intros z w h U S C H. unfold get_yaw. ra.
  replace (-2 * (0 * z - w * 0) / (0 * 0 + 0 * 0 + z * z + w * w)) with 0 by (field; lra).
  destruct (Rle_bool_spec 0 (-99999 / 100000)); [lra|].
  destruct (Rle_bool_spec (99999 / 100000) 0); [lra|].
  replace (2 * (0 * 0 + w * z)) with (1 * sin h) by (rewrite <- S; ring).
  replace (w * w + 0 * 0 - 0 * 0 - z * z) with (1 * cos h) by (rewrite <- C; ring).
  apply Ratan2_of_polar; lra.
Qed.

(** C59, as listeners see it: the message is a unit quaternion about the vertical
    axis, and the pose read from it (with fromMsg) takes the robot from its odometry
    pose to its pose in the map; its heading is in (-pi, pi]. *)
Theorem C59_message : forall (robot odom : pose R),
  let msg := tf_message robot odom in
  (ps_z msg = 0 /\ ps_qx msg = 0 /\ ps_qy msg = 0 /\ ps_qz msg * ps_qz msg + ps_qw msg * ps_qw msg = 1) /\
  - PI < poth (from_msg msg) <= PI /\ same_heading (poth (from_msg msg)) (poth robot - poth odom) /\
  forall q, act (from_msg msg) (act odom q) = act robot q.
Proof.
  intros robot odom msg. pose proof (rotation_block robot odom) as (E00 & E01 & E10 & E11 & E22). cbv zeta in *.
  set (h := poth robot - poth odom) in *. destruct (normalize_angle_spec h) as (Hr & Hs).
  rewrite <- (normalize_angle_cos h) in E00, E11. rewrite <- (normalize_angle_sin h) in E01, E10.
  destruct (quat_rotation _ _ E00 E01 E10 E11) as (z & w & Eq & U & S & C).
  assert (M : msg = mkPoseMsg (itx (map_to_odom robot odom)) (ity (map_to_odom robot odom)) 0 0 0 z w).
  { unfold msg, tf_message. rewrite E22, Eq. reflexivity. }
  assert (F : from_msg msg = mkPose (itx (map_to_odom robot odom)) (ity (map_to_odom robot odom)) (normalize_angle h)).
  { rewrite M. unfold from_msg. cbn [ps_x ps_y ps_qx ps_qy ps_qz ps_qw]. rewrite (yaw_of_unit _ _ _ U S C Hr). reflexivity. }
  split; [rewrite M; cbn [ps_z ps_qx ps_qy ps_qz ps_qw]; repeat split; exact U|].
  rewrite F. cbn [poth]. split; [exact Hr|]. split; [exact Hs|].
  intro q. rewrite <- (map_to_odom_act robot odom q). unfold iso_act. rewrite E00, E01, E10, E11. unfold act at 1. cbn [pox poy poth].
  f_equal; ring.
Qed.
Print Assumptions C59_message.

Example C59_message_nonvacuous : same_heading (poth (from_msg (tf_message (mkPose 1 2 PI) (mkPose 0 0 0)))) PI.
Proof.
  destruct (C59_message (mkPose 1 2 PI) (mkPose 0 0 0)) as (_ & _ & H & _). cbn [poth] in H. replace (PI - 0) with PI in H by ring. exact H.
Qed.
