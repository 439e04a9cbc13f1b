(** Specification vocabulary: poses and scans that differ by whole turns of the
    heading.  Independent of the model. *)

From Coq Require Import Reals List.
From Verif Require Import TypesModel ScanModel SpecPose SpecLaser.

(** The same readings from the same place in the same direction. *)
Definition same_view (s s' : scan R) : Prop := same_pose (s_pose s') (s_pose s) /\ s_pts s' = s_pts s.
