(** Specification vocabulary for the occupancy grid: beams, counts, bounds. *)

From Coq Require Import Reals List ZArith Bool.
From Flocq Require Import Core.
From Verif Require Import Outcome Arith TypesModel ScanModel OccGridModel SpecGrid.
Import ListNotations.
Local Open Scope R_scope.

(** Where the sensor of a scan is, and the world position of its points. *)
Definition sensor (s : scan R) : point R := mkPoint (pox (s_pose s)) (poy (s_pose s)).
Definition world (s : scan R) : list (point R) := map (move (s_pose s)) (s_pts s).
Definition worlds (scans : list (scan R)) : list (point R) := flat_map world scans.

(** Every beam of every scan: from the sensor to the point. *)
Definition beams (scans : list (scan R)) : list (point R * point R) :=
  flat_map (fun s => map (fun q => (sensor s, q)) (world s)) scans.

(** The cell number of a position in a message, with the truncation toward zero
    of the conversion to int. *)
Definition cell_at (m : occ_msg R) (p : point R) (c : Z * Z) : Prop :=
  fst c = Ztrunc ((px p - om_ox m) / om_resolution m) /\
  snd c = Ztrunc ((py p - om_oy m) / om_resolution m).

(** What one ray marks: the free cells and the hit cell. *)
Definition marks : Type := (list (Z * Z) * (Z * Z))%type.

(** How often entry [k] of the data is marked as hit and as free. *)
Definition flat (w : Z) (c : Z * Z) : Z := to_int32 (fst c + snd c * w).
Definition is_at (w : Z) (k : nat) (c : Z * Z) : bool := Z.eqb (flat w c) (Z.of_nat k).
Definition hits (w : Z) (ms : list marks) (k : nat) : nat :=
  length (filter (is_at w k) (map snd ms)).
Definition frees (w : Z) (ms : list marks) (k : nat) : nat :=
  length (filter (is_at w k) (concat (map fst ms))).

(** Smallest and largest of 0 and the given numbers. *)
Definition lowest (xs : list R) : R := fold_left Rmin xs 0.
Definition highest (xs : list R) : R := fold_left Rmax xs 0.

(** The state after a single update with [scans]: the smallest multiples of the
    resolution around the origin and all points. *)
Definition batch (res thresh : R) (scans : list (scan R)) : occ R :=
  mkOcc res thresh
    (IZR (Zfloor (lowest (map px (worlds scans)) / res)) * res)
    (IZR (Zceil (highest (map px (worlds scans)) / res)) * res)
    (IZR (Zfloor (lowest (map py (worlds scans)) / res)) * res)
    (IZR (Zceil (highest (map py (worlds scans)) / res)) * res)
    (length scans).

(** Calls in which the list of scans only ever grows. *)
Fixpoint growing {X : Type} (l : list X) (calls : list (list X)) : Prop :=
  match calls with
  | [] => True
  | c :: rest => (exists new, c = l ++ new) /\ growing c rest
  end.

(** A position inside the bounds with their padding of five cells. *)
Definition inside (o : occ R) (p : point R) : Prop :=
  og_minx o - 5 * og_res o <= px p < og_maxx o + 5 * og_res o /\
  og_miny o - 5 * og_res o <= py p < og_maxy o + 5 * og_res o.

(** The published grid covers a position. *)
Definition covers (m : occ_msg R) (p : point R) : Prop :=
  exists i j, (0 <= i < om_width m)%Z /\ (0 <= j < om_height m)%Z /\
    in_square (om_ox m) (om_oy m) (om_resolution m) i j p.

(** The number of columns (rows) of a grid for given bounds. *)
Definition cells_between (res lo hi : R) : Z := (Zceil (hi / res) - Zfloor (lo / res) + 10)%Z.
Definition grid_fits (o : occ R) : Prop :=
  (cells_between (og_res o) (og_minx o) (og_maxx o) * cells_between (og_res o) (og_miny o) (og_maxy o) < 2 ^ 31)%Z.
