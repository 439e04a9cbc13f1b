(** Specification vocabulary: scans that fit the bounds of an occupancy grid, in
    double arithmetic. *)

From Coq Require Import ZArith Reals List.
From Flocq Require Import Core BinarySingleNaN.
From Verif Require Import Outcome Arith TypesModel ScanModel OccGridModel SpecGrid SpecOcc SpecPlace64 SpecOcc64.
Import ListNotations.
Local Open Scope R_scope.

(** The bounds [lo] and [hi] of an axis with cells of side [r]: finite, in order,
    at most 2^29 cells from the origin. *)
Definition axis_ok (r : R) (lo hi : b64) : Prop :=
  upto (bpow radix2 29 * r) lo /\ upto (bpow radix2 29 * r) hi /\ B2R lo <= B2R hi.

(** A coordinate between the bounds, or at most three cells outside. *)
Definition within (r : R) (lo hi : b64) (v : R) : Prop := B2R lo - 3 * r <= v <= B2R hi + 3 * r.
Definition on_canvas (o : occ b64) (p : point R) : Prop :=
  within (B2R (og_res o)) (og_minx o) (og_maxx o) (px p) /\ within (B2R (og_res o)) (og_miny o) (og_maxy o) (py p).

(** How many columns (rows) there are, padding included. *)
Definition side_cells (r : R) (lo hi : b64) : R := (B2R hi - B2R lo) / r + 11.

(** The grid [o] has room for [scans]: cells of a usual side, bounds in order, at
    most 2^31 cells; scans of at most 2^29 cells; all their sensors and points on
    the canvas. *)
Definition has_room (o : occ b64) (scans : list (scan b64)) : Prop :=
  let r := B2R (og_res o) in
  is_finite (og_res o) = true /\ usual_cell r /\ axis_ok r (og_minx o) (og_maxx o) /\ axis_ok r (og_miny o) (og_maxy o) /\
  side_cells r (og_minx o) (og_maxx o) * side_cells r (og_miny o) (og_maxy o) <= bpow radix2 31 /\
  Forall (fun s => pose_upto (bpow radix2 29 * r) (s_pose s) /\ Forall (point_upto (bpow radix2 29 * r)) (s_pts s)) scans /\
  (forall s, In s scans -> on_canvas o (sensor_of s)) /\ (forall p, In p (obstacles scans) -> on_canvas o p).
