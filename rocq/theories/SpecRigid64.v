(** Specification vocabulary for relative poses and transforms in double
    arithmetic. *)

From Coq Require Import ZArith Reals List.
From Flocq Require Import Core BinarySingleNaN.
From Verif Require Import Outcome Arith TypesModel LaserModel FilterModel.
Local Open Scope R_scope.

(** The transform three doubles stand for. *)
Definition real_transform (t : vec3 b64) : pose R := mkPose (B2R (v0 t)) (B2R (v1 t)) (B2R (v2 t)).

(** Two positions that differ by at most [e] in each coordinate. *)
Definition beside (e : R) (p q : point R) : Prop := Rabs (px p - px q) <= e /\ Rabs (py p - py q) <= e.

(** The position of a pose. *)
Definition position (p : pose R) : point R := mkPoint (pox p) (poy p).

(** How far a predicted heading may be off. *)
Definition guess_error (robot odom0 odom1 : pose b64) : R :=
  bpow radix2 (-49) * (Rabs (B2R (poth robot)) + Rabs (B2R (poth odom0)) + Rabs (B2R (poth odom1)) + 9).

(** The planar transform six doubles stand for. *)
Definition real_iso (m : iso b64) : iso R :=
  mkIso (B2R (i00 m)) (B2R (i01 m)) (B2R (i10 m)) (B2R (i11 m)) (B2R (itx m)) (B2R (ity m)).
Definition finite_iso (m : iso b64) : Prop :=
  is_finite (i00 m) = true /\ is_finite (i01 m) = true /\ is_finite (i10 m) = true /\ is_finite (i11 m) = true /\
  is_finite (itx m) = true /\ is_finite (ity m) = true.

(** A quaternion for a rotation by [h] about the vertical axis, up to [e]. *)
Definition vertical_rotation (e : R) (m : pose_msg b64) (h : R) : Prop :=
  (B2R (ps_qx m) = 0 /\ B2R (ps_qy m) = 0 /\ is_finite (ps_qx m) = true /\ is_finite (ps_qy m) = true) /\
  (is_finite (ps_qz m) = true /\ is_finite (ps_qw m) = true) /\
  Rabs (B2R (ps_qz m) * B2R (ps_qz m) + B2R (ps_qw m) * B2R (ps_qw m) - 1) <= e /\
  Rabs (2 * B2R (ps_qz m) * B2R (ps_qw m) - sin h) <= e /\
  Rabs (B2R (ps_qw m) * B2R (ps_qw m) - B2R (ps_qz m) * B2R (ps_qz m) - cos h) <= e.
