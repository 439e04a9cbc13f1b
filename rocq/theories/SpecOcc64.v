(** Specification vocabulary for the occupancy grid in double arithmetic. *)

From Coq Require Import ZArith Reals List.
From Flocq Require Import Core BinarySingleNaN.
From Verif Require Import Outcome Arith TypesModel ScanModel OccGridModel SpecGrid SpecOcc SpecMotion64 SpecPlace64.
Import ListNotations.
Local Open Scope R_scope.

(** The scan a scan of doubles stands for. *)
Definition real_scan (s : scan b64) : scan R :=
  mkScan (s_id s) (s_dirty s) (real_pose (s_pose s)) (real_pose (s_bary s)) (map real_point (s_pts s)).

(** The exact positions of all points of the scans, and of the sensors. *)
Definition obstacles (scans : list (scan b64)) : list (point R) := worlds (map real_scan scans).
Definition sensor_of (s : scan b64) : point R := sensor (real_scan s).

(** At most three cells of side [r] outside the box of the origin and [xs]. *)
Definition near_box (r : R) (xs : list R) (x : R) : Prop := lowest xs - 3 * r <= x <= highest xs + 3 * r.

(** Columns (rows) for the box, with room for its padding and two per render. *)
Definition room (r : R) (n : nat) (xs : list R) : R := (highest xs - lowest xs) / r + 2 * INR n + 14.

(** Sides of cells for which nothing overflows or underflows. *)
Definition usual_cell (r : R) : Prop := bpow radix2 (-300) <= r <= bpow radix2 300.

(** Scans that can be drawn with cells of side [r] in [n] renders: coordinates
    of at most 2^29 cells; every sensor near the box of the points; at most 2^31
    cells. *)
Definition drawable (r : R) (n : nat) (scans : list (scan b64)) : Prop :=
  Forall (fun s => pose_upto (bpow radix2 29 * r) (s_pose s) /\ Forall (point_upto (bpow radix2 29 * r)) (s_pts s)) scans /\
  (forall s, In s scans -> near_box r (map px (obstacles scans)) (px (sensor_of s)) /\
                           near_box r (map py (obstacles scans)) (py (sensor_of s))) /\
  room r n (map px (obstacles scans)) * room r n (map py (obstacles scans)) <= bpow radix2 31.

(** Cell [i] of a row of cells of side [r] that starts at [o] contains [x], up
    to 1/1024 of a cell. *)
Definition in_cell (o r : R) (i : Z) (x : R) : Prop := (IZR i - / 1024) * r <= x - o <= (IZR i + 1 + / 1024) * r.

(** A published grid with cells of side [r] covers the position [p]. *)
Definition drawn (r : R) (m : occ_msg b64) (p : point R) : Prop :=
  exists i j, (0 <= i < om_width m)%Z /\ (0 <= j < om_height m)%Z /\
    in_cell (B2R (om_ox m)) r i (px p) /\ in_cell (B2R (om_oy m)) r j (py p).

(** A row of [w] cells of side [r] from [o] holds the box of the origin and
    [xs] with its padding, and is at most [n] cells too long at either end. *)
Definition tight (r : R) (n : nat) (xs : list R) (o : R) (w : Z) : Prop :=
  lowest xs - (INR n + 5 + / 1024) * r <= o <= lowest xs - (5 - / 1024) * r /\
  (highest xs - lowest xs) / r + 9 - / 1024 <= IZR w <= (highest xs - lowest xs) / r + 2 * INR n + 10 + / 1024.
