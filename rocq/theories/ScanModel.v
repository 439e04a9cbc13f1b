(** Model of class Scan: include/ndt_2d/scan.hpp:40-96, src/scan.cpp:35-90.

    A scan is shared through shared_ptr in the source; in the model a scan is a
    value and every mutating member function returns the new value. *)

From Coq Require Import ZArith List Bool.
From Verif Require Import Outcome Arith TypesModel.
Import ListNotations.

(** scan.hpp:86-91.  The id is a size_t. *)
Record scan (T : Type) : Type := mkScan {
  s_id : Z;
  s_dirty : bool;
  s_pose : pose T;
  s_bary : pose T;
  s_pts : list (point T)
}.
Arguments mkScan {T} s_id s_dirty s_pose s_bary s_pts.
Arguments s_id {T} s.
Arguments s_dirty {T} s.
Arguments s_pose {T} s.
Arguments s_bary {T} s.
Arguments s_pts {T} s.

Section Scan.
Context {T : Type} {A : Arith T}.
Local Open Scope num_scope.

(** scan.cpp:35-37. *)
Definition scan_new (id : Z) : scan T := mkScan id true pose0 pose0 [].

(** scan.cpp:44-48. *)
Definition scan_set_pose (s : scan T) (p : pose T) : scan T :=
  mkScan (s_id s) true p (s_bary s) (s_pts s).

(** scan.cpp:61-65. *)
Definition scan_set_points (s : scan T) (pts : list (point T)) : scan T :=
  mkScan (s_id s) true (s_pose s) (s_bary s) pts.

(** scan.cpp:72-91 (private update()). *)
Definition scan_update (s : scan T) : scan T :=
  let c := ncos (poth (s_pose s)) in
  let sn := nsin (poth (s_pose s)) in
  let b :=
    match s_pts s with
    | [] => s_pose s
    | _ =>
      let center := fold_left (fun (acc : point T) p =>
          mkPoint (px acc + (c * px p - sn * py p)) (py acc + (sn * px p + c * py p)))
          (s_pts s) point0 in
      let n := nofZ (Z.of_nat (length (s_pts s))) in
      mkPose (pox (s_pose s) + px center / n) (poy (s_pose s) + py center / n) (poth (s_pose s))
    end in
  mkScan (s_id s) false (s_pose s) b (s_pts s).

(** scan.cpp:55-59: returns the pose and the scan with its cache refreshed. *)
Definition scan_get_bary (s : scan T) : pose T * scan T :=
  let s' := if s_dirty s then scan_update s else s in (s_bary s', s').

(** A history of calls on one scan; getPose, getPoints and getId do not change
    the scan. *)
Inductive scan_op : Type :=
| SSetPose (p : pose T)
| SSetPoints (pts : list (point T))
| SGetBary.

Definition scan_step (s : scan T) (o : scan_op) : scan T :=
  match o with
  | SSetPose p => scan_set_pose s p
  | SSetPoints pts => scan_set_points s pts
  | SGetBary => snd (scan_get_bary s)
  end.

Definition scan_run (id : Z) (ops : list scan_op) : scan T :=
  fold_left scan_step ops (scan_new id).

(** The point of a scan moved by a pose, as computed by NDT::addScan
    (src/ndt_model.cpp:134-142) and OccupancyGrid (occupancy_grid.cpp:162-172):
    translation first, then += the rotated point. *)
Definition place (p : pose T) (q : point T) : point T :=
  let c := ncos (poth p) in
  let sn := nsin (poth p) in
  mkPoint (pox p + (px q * c - py q * sn)) (poy p + (px q * sn + py q * c)).

(** toEigen (include/ndt_2d/conversions.hpp:64-68) applied to (x, y, 1): an
    Eigen::Isometry3d rotation about z.  Eigen builds the rotation entries as
    r01 = 0 - s, r10 = 0 + s, r02 = r12 = 0; the product with the vector sums
    the three terms left to right and adds the translation last. *)
Definition iso_apply (p : pose T) (q : point T) : point T :=
  let c := ncos (poth p) in
  let sn := nsin (poth p) in
  let z := nzero in
  mkPoint ((c * px q + (z - sn) * py q + z * none_) + pox p)
          (((z + sn) * px q + c * py q + z * none_) + poy p).

End Scan.

Arguments scan_op T : clear implicits.
