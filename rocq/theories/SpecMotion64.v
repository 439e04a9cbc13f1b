(** Specification vocabulary for the test whether the robot moved, in double
    arithmetic. *)

From Coq Require Import ZArith Reals List.
From Flocq Require Import Core BinarySingleNaN.
From Verif Require Import Outcome Arith TypesModel.
Local Open Scope R_scope.

(** The pose a triple of doubles stands for. *)
Definition real_pose (p : pose b64) : pose R := mkPose (B2R (pox p)) (B2R (poy p)) (B2R (poth p)).

(** Finite coordinates of moderate size. *)
Definition moderate (x : b64) : Prop := is_finite x = true /\ Rabs (B2R x) <= bpow radix2 400.
Definition moderate_pose (p : pose b64) : Prop := moderate (pox p) /\ moderate (poy p) /\ moderate (poth p).

(** How far the computed change of heading may be off. *)
Definition turn_error (p q : pose b64) : R := bpow radix2 (-50) * (Rabs (B2R (poth p)) + Rabs (B2R (poth q)) + 8).
