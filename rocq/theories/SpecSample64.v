(** Specification vocabulary for the motion update of the particles in double
    arithmetic. *)

From Coq Require Import ZArith Reals List.
From Flocq Require Import Core BinarySingleNaN.
From Verif Require Import Outcome Arith TypesModel SpecPlace64 SpecAngle64 SpecPose.
Local Open Scope R_scope.

(** The distance of ([x], [y]) from the origin. *)
Definition dist0 (x y : b64) : R := sqrt (B2R x * B2R x + B2R y * B2R y).

(** hypot within one unit in the last place. *)
Definition accurate_hypot (lm : libm) : Prop := forall x y : b64, upto (bpow radix2 400) x -> upto (bpow radix2 400) y ->
  close (bpow radix2 (-52) * dist0 x y + bpow radix2 (-1074)) (lm_hypot lm x y) (dist0 x y).

(** atan2 within one unit in the last place of the angle (up to whole turns) of
    the point ([x], [y]). *)
Definition accurate_atan2 (lm : libm) : Prop := forall y x : b64, is_finite x = true -> is_finite y = true ->
  upto 4 (lm_atan2 lm y x) /\
  exists a, dist0 x y * cos a = B2R x /\ dist0 x y * sin a = B2R y /\
    Rabs (B2R (lm_atan2 lm y x) - a) <= bpow radix2 (-51).

(** A particle of coordinates up to [M], with a heading of at most 8. *)
Definition particle_upto (M : R) (p : vec3 b64) : Prop := upto M (v0 p) /\ upto M (v1 p) /\ upto 8 (v2 p).
Definition particle_pose (p : vec3 b64) : pose R := mkPose (B2R (v0 p)) (B2R (v1 p)) (B2R (v2 p)).

(** The particle [q] is [p] moved by the odometry motion, up to [e] in each
    coordinate and [h] in the heading. *)
Definition follows (e h : R) (dx dy dth : b64) (p q : vec3 b64) : Prop :=
  let m := act (particle_pose p) (mkPoint (B2R dx) (B2R dy)) in
  close e (v0 q) (px m) /\ close e (v1 q) (py m) /\
  heading_within h (v2 q) (B2R (v2 p) + B2R dth).
