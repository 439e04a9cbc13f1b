(** Specification vocabulary: a path made of steps. *)

From Coq Require Import Reals List.
From Verif Require Import TypesModel SpecPose.
Import ListNotations.
Local Open Scope R_scope.

(** Where a robot at [p] arrives after the steps, each given in the robot's own frame. *)
Definition after_steps (steps : list (pose R)) (p : pose R) : pose R := fold_left compose steps p.
(** A step longer than a centimetre. *)
Definition long_step (d : pose R) : Prop := 1 / 100 < sqrt (pox d * pox d + poy d * poy d).
