(** Model of class MotionModel (src/motion_model.cpp:36-83,
    include/ndt_2d/motion_model.hpp) and of the ROS angles package it uses. *)

From Coq Require Import ZArith List Bool.
From Verif Require Import Outcome Arith TypesModel.
Import ListNotations.

Section Motion.
Context {T : Type} {A : Arith T}.
Local Open Scope num_scope.

(** angles/angles.h, normalize_angle (library contract, as published). *)
Definition normalize_angle (a : T) : T :=
  let r := nfmod (a + npi) (nofZ 2 * npi) in
  if r <=? nzero then r + npi else r - npi.

(** angles/angles.h, shortest_angular_distance. *)
Definition angle_diff (from to : T) : T := normalize_angle (to - from).

(** include/ndt_2d/motion_model.hpp:70-71: a1_ .. a5_ (a5_ is never read). *)
Record motion_params : Type := mkMotion { mo_a1 : T; mo_a2 : T; mo_a3 : T; mo_a4 : T; mo_a5 : T }.

(** motion_model.cpp:48-51: translation, first and second rotation. *)
Definition motion_mean (dx dy dth : T) : T * T * T :=
  let trans := nhypot dx dy in
  let rot1 := if nlit 1 100 <? trans then natan2 dy dx else nzero in
  (trans, rot1, angle_diff rot1 dth).

(** Lines 54-57: distance to driving straight, forwards or backwards. *)
Definition fold_turn (rot : T) : T :=
  nmin (nabs (angle_diff rot nzero)) (nabs (angle_diff rot npi)).

(** Lines 59-66: standard deviations of first rotation, translation, second
    rotation. *)
Definition motion_sigmas (m : motion_params) (dx dy dth : T) : T * T * T :=
  let '(trans, rot1, rot2) := motion_mean dx dy dth in
  let r1 := fold_turn rot1 in
  let r2 := fold_turn rot2 in
  (nsqrt (mo_a1 m * r1 * r1 + mo_a2 m * trans * trans),
   nsqrt (mo_a3 m * trans * trans + mo_a4 m * r1 * r1 + mo_a4 m * r2 * r2),
   nsqrt (mo_a1 m * r2 * r2 + mo_a2 m * trans * trans)).

(** A source of random numbers: [normal i mean sigma] is the value returned by
    the i-th call to a std::normal_distribution<float> built with the given mean
    and standard deviation.  Nothing is assumed about it. *)
Definition normal_source : Type := nat -> T -> T -> T.

(** Lines 73-82: one particle.  Calls number 3i, 3i+1, 3i+2; the parameters of
    the distributions are floats. *)
Definition sample_one (normal : normal_source) (mean sigmas : T * T * T) (i : nat) (p : vec3 T) : vec3 T :=
  let '(trans, rot1, rot2) := mean in
  let '(s_rot1, s_trans, s_rot2) := sigmas in
  let r1 := normal (3 * i)%nat (nsingle rot1) (nsingle s_rot1) in
  let t := normal (3 * i + 1)%nat (nsingle trans) (nsingle s_trans) in
  let r2 := normal (3 * i + 2)%nat (nsingle rot2) (nsingle s_rot2) in
  mkVec3 (v0 p + t * ncos (v2 p + r1)) (v1 p + t * nsin (v2 p + r1)) (normalize_angle (v2 p + r1 + r2)).

Fixpoint map_i {X Y : Type} (f : nat -> X -> Y) (i : nat) (l : list X) : list Y :=
  match l with [] => [] | x :: rest => f i x :: map_i f (S i) rest end.

(** Lines 45-83 (sample). *)
Definition motion_sample (normal : normal_source) (m : motion_params) (dx dy dth : T) (ps : list (vec3 T)) : list (vec3 T) :=
  map_i (sample_one normal (motion_mean dx dy dth) (motion_sigmas m dx dy dth)) 0 ps.

End Motion.
Arguments motion_params T : clear implicits.
