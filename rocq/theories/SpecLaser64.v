(** Specification vocabulary for the conversion of laser readings in double
    arithmetic. *)

From Coq Require Import ZArith Reals List.
From Flocq Require Import Core BinarySingleNaN.
From Verif Require Import Outcome Arith TypesModel LaserModel SpecPose SpecLaser SpecMotion64 SpecPlace64.
Local Open Scope R_scope.

(** A direction computed in single precision: within 2^-22 of the sum of the
    magnitudes of the first direction and of the turn to reading [i]. *)
Definition direction (m : laser_msg b64) (i : nat) (a : R) : Prop :=
  Rabs (a - (B2R (lr_angle_min m) + INR i * B2R (lr_angle_inc m))) <=
  bpow radix2 (-22) * (Rabs (B2R (lr_angle_min m)) + INR i * Rabs (B2R (lr_angle_inc m)) + bpow radix2 (-120)).

(** The share [k]/[n] of the motion from [o] to [e]. *)
Definition share (o e : pose b64) (k : R) : pose R :=
  mkPose (k * (B2R (pox e) - B2R (pox o))) (k * (B2R (poy e) - B2R (poy o))) (k * (B2R (poth e) - B2R (poth o))).

(** How far a converted point may be off. *)
Definition reading_error (M : R) (o e : pose b64) : R :=
  bpow radix2 (-46) * M * (Rabs (B2R (poth e) - B2R (poth o)) + 1).

(** [q] is where reading [fst ir] of value [snd ir] of a laser mounted at
    [laser] lies, for a robot that moved by [s] since the first reading; the
    direction counts as [sign] times the direction of the message. *)
Definition converted (e sign : R) (laser : pose b64) (m : laser_msg b64) (s : pose R) (ir : nat * b64) (q : point b64) : Prop :=
  exists a, direction m (fst ir) a /\
    let v := act s (act (real_pose laser) (polar (sign * a) (B2R (snd ir)))) in
    close e (px q) (px v) /\ close e (py q) (py v).

(** The sizes for which nothing overflows. *)
Definition usual_sweep (M : R) (rm : b64) (laser o e : pose b64) (m : laser_msg b64) : Prop :=
  usual_size M /\ is_nan rm = false /\ pose_upto M laser /\ pose_upto M o /\ pose_upto M e /\
  Rabs (B2R (poth e) - B2R (poth o)) + 1 <= bpow radix2 400 /\
  upto (bpow radix2 60) (lr_angle_min m) /\ upto (bpow radix2 20) (lr_angle_inc m) /\
  (Z.of_nat (length (lr_ranges m)) <= 2 ^ 40)%Z /\
  (forall r, In r (lr_ranges m) -> Bleb r rm = true -> upto M r).
