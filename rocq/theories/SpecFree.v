(** Specification vocabulary for the beams of a mounted laser. *)

From Coq Require Import Reals List ZArith.
From Verif Require Import TypesModel ScanModel OccGridModel SpecGrid SpecOcc.
Import ListNotations.
Local Open Scope R_scope.

(** The beams of scans taken with a laser mounted at [l] (in the frame of the
    robot): from the laser to the point. *)
Definition laser_beams (l : point R) (scans : list (scan R)) : list (point R * point R) :=
  flat_map (fun s => map (fun q => (move (s_pose s) l, q)) (world s)) scans.

(** At most [d] (in x and in y) from some position on the way from [a] to [b]. *)
Definition near_beam (d : R) (a b c : point R) : Prop :=
  exists t, 0 <= t <= 1 /\
    Rabs (px c - (px a + t * (px b - px a))) <= d /\ Rabs (py c - (py a + t * (py b - py a))) <= d.

(** The middle of a cell of a message. *)
Definition middle (m : occ_msg R) (c : Z * Z) : point R :=
  mkPoint (om_ox m + (IZR (fst c) + / 2) * om_resolution m) (om_oy m + (IZR (snd c) + / 2) * om_resolution m).
