(** Specification vocabulary: an estimate among the particles. *)

From Coq Require Import ZArith Reals List.
From Verif Require Import Outcome Arith TypesModel SpecPose MotionModel FilterModel.
Import ListNotations.
Local Open Scope R_scope.

(** The particles that count: those with a positive weight. *)
Definition counts (f : pfilter R) (p : vec3 R) : Prop := exists w, 0 < w /\ In (p, w) (combine (pf_parts f) (pf_wts f)).

(** Every half plane a * x + b * y <= c with all the points contains [m]: [m] is in their
    convex hull. *)
Definition in_hull (pts : vec3 R -> Prop) (m : vec3 R) : Prop :=
  forall a b c, (forall p, pts p -> a * v0 p + b * v1 p <= c) -> a * v0 m + b * v1 m <= c.

(** The heading [h] is at most [d] away from the heading [a], in one direction or the other. *)
Definition heading_within (a d h : R) : Prop := exists e, - d <= e <= d /\ same_heading h (a + e).
