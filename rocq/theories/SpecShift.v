(** Specification vocabulary: the same scans somewhere else and in another order.
    Independent of the model. *)

From Coq Require Import Reals List Permutation.
From Verif Require Import TypesModel ScanModel.
Local Open Scope R_scope.

(** Moving the origin of the map frame. *)
Definition shift_point (t p : point R) : point R := mkPoint (px p + px t) (py p + py t).
Definition shift_pose (t : point R) (p : pose R) : pose R := mkPose (pox p + px t) (poy p + py t) (poth p).

(** [scans'] are the scans [scans], each moved by [t], in some order; neither ids nor
    anything cached counts. *)
Definition elsewhere (t : point R) (scans scans' : list (scan R)) : Prop :=
  Permutation (map (fun s => (shift_pose t (s_pose s), s_pts s)) scans) (map (fun s => (s_pose s, s_pts s)) scans').

(** No reading of the scans is further than [r] from its robot. *)
Definition in_range (r : R) (scans : list (scan R)) : Prop :=
  forall s p, In s scans -> In p (s_pts s) -> px p * px p + py p * py p <= r * r.

(** The robot positions are numbers a double can hold. *)
Definition fits (r : R) (scans : list (scan R)) : Prop :=
  forall s, In s scans -> pox (s_pose s) - r < 2 ^ 1023 /\ poy (s_pose s) - r < 2 ^ 1023.
