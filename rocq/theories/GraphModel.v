(** Model of class Graph: include/ndt_2d/graph.hpp:42-121, src/graph.cpp:40-260,
    with msg/Scan.msg and msg/Constraint.msg.

    rosbag2, CDR (de)serialisation and nanoflann are not modelled.  A map file is
    the list of messages a reader returns; serialisation of numbers is lossless.
    radiusSearch is an oracle (see SpecGraph.v for its contract).  Scans and
    constraints are shared pointers in the source and values here. *)

From Coq Require Import ZArith List Bool.
From Verif Require Import Outcome Arith TypesModel ScanModel ConstraintModel.
Import ListNotations.
Local Open Scope outcome_scope.

(** graph.hpp:79-82, 120. *)
Record graph (T : Type) : Type := mkGraph {
  gr_use_bary : bool;
  gr_scans : list (scan T);
  gr_constraints : list (constraint T)
}.
Arguments mkGraph {T} gr_use_bary gr_scans gr_constraints.
Arguments gr_use_bary {T} g.
Arguments gr_scans {T} g.
Arguments gr_constraints {T} g.

(** geometry_msgs/Point. *)
Record gpoint (T : Type) : Type := mkGpoint { gp_x : T; gp_y : T; gp_z : T }.
Arguments mkGpoint {T} gp_x gp_y gp_z.
Arguments gp_x {T} g.
Arguments gp_y {T} g.
Arguments gp_z {T} g.

(** geometry_msgs/Quaternion. *)
Record gquat (T : Type) : Type := mkGquat { gq_x : T; gq_y : T; gq_z : T; gq_w : T }.
Arguments mkGquat {T} gq_x gq_y gq_z gq_w.
Arguments gq_x {T} g.
Arguments gq_y {T} g.
Arguments gq_z {T} g.
Arguments gq_w {T} g.

(** msg/Scan.msg: uint64 id, Pose, Point[]. *)
Record scan_msg (T : Type) : Type := mkScanMsg {
  sm_id : Z; sm_position : gpoint T; sm_orientation : gquat T; sm_points : list (gpoint T) }.
Arguments mkScanMsg {T} sm_id sm_position sm_orientation sm_points.
Arguments sm_id {T} s.
Arguments sm_position {T} s.
Arguments sm_orientation {T} s.
Arguments sm_points {T} s.

(** msg/Constraint.msg: int64 begin, int64 end, Transform, float64[9], bool.  The
    rotation of the transform is never used. *)
Record constraint_msg (T : Type) : Type := mkConstraintMsg {
  cm_begin : Z; cm_end : Z; cm_translation : gpoint T; cm_information : list T; cm_switchable : bool }.
Arguments mkConstraintMsg {T} cm_begin cm_end cm_translation cm_information cm_switchable.
Arguments cm_begin {T} c.
Arguments cm_end {T} c.
Arguments cm_translation {T} c.
Arguments cm_information {T} c.
Arguments cm_switchable {T} c.

(** A message of the bag, with its topic ("scans" or "constraints"). *)
Inductive bag_msg (T : Type) : Type :=
| BScan (m : scan_msg T)
| BConstraint (m : constraint_msg T).
Arguments BScan {T} m.
Arguments BConstraint {T} m.

(** visualization_msgs/Marker, the fields getMsg sets differently per marker:
    namespace, id, position, line points, colour. *)
Inductive marker_ns : Type := NsNodes | NsEdges.
Inductive colour : Type := Red | Green | Blue.
Record marker (T : Type) : Type := mkMarker {
  mk_ns : marker_ns; mk_id : Z; mk_pos : point T; mk_points : list (point T); mk_colour : colour }.
Arguments mkMarker {T} mk_ns mk_id mk_pos mk_points mk_colour.
Arguments mk_ns {T} m.
Arguments mk_id {T} m.
Arguments mk_pos {T} m.
Arguments mk_points {T} m.
Arguments mk_colour {T} m.

(** Conversion of a size_t to int64 (two's complement). *)
Definition to_int64 (z : Z) : Z :=
  let w := wrap64 z in if (w <? 2 ^ 63)%Z then w else (w - 2 ^ 64)%Z.

Section Graph.
Context {T : Type} {A : Arith T}.

(** graph.cpp:40-43. *)
Definition graph_new (use_bary : bool) : graph T := mkGraph use_bary [] [].

(** graph.cpp:121-133: scan to message; fields not assigned are zero. *)
Definition scan_to_msg (s : scan T) : scan_msg T :=
  mkScanMsg (s_id s)
    (mkGpoint (pox (s_pose s)) (poy (s_pose s)) nzero)
    (mkGquat nzero nzero nzero (poth (s_pose s)))
    (map (fun p => mkGpoint (px p) (py p) nzero) (s_pts s)).

(** graph.cpp:144-157: constraint to message. *)
Definition constraint_to_msg (c : constraint T) : constraint_msg T :=
  let t := c_transform c in
  let m := c_information c in
  mkConstraintMsg (to_int64 (c_begin c)) (to_int64 (c_end c))
    (mkGpoint (v0 t) (v1 t) (v2 t))
    [a00 m; a01 m; a02 m; a10 m; a11 m; a12 m; a20 m; a21 m; a22 m]
    (c_switchable c).

(** graph.cpp:107-165 (save): the messages written, in order. *)
Definition graph_save (g : graph T) : list (bag_msg T) :=
  map (fun s => BScan (scan_to_msg s)) (gr_scans g) ++
  map (fun c => BConstraint (constraint_to_msg c)) (gr_constraints g).

(** graph.cpp:68-81: message to scan. *)
Definition scan_of_msg (m : scan_msg T) : scan T :=
  scan_set_points
    (scan_set_pose (scan_new (sm_id m))
       (mkPose (gp_x (sm_position m)) (gp_y (sm_position m)) (gq_w (sm_orientation m))))
    (map (fun p => mkPoint (gp_x p) (gp_y p)) (sm_points m)).

(** graph.cpp:89-102: message to constraint.  information[i * 3 + j] of a
    float64[9]. *)
Definition constraint_of_msg (m : constraint_msg T) : constraint T :=
  let i k := nth k (cm_information m) nzero in
  mkConstraint (wrap64 (cm_begin m)) (wrap64 (cm_end m))
    (mkVec3 (gp_x (cm_translation m)) (gp_y (cm_translation m)) (gp_z (cm_translation m)))
    (mkMat3 (i 0%nat) (i 1%nat) (i 2%nat) (i 3%nat) (i 4%nat) (i 5%nat) (i 6%nat) (i 7%nat) (i 8%nat))
    (cm_switchable m).

(** graph.cpp:49-105 (constructor from a file). *)
Definition graph_load (use_bary : bool) (file : list (bag_msg T)) : graph T :=
  fold_left (fun g m =>
    match m with
    | BScan s => mkGraph (gr_use_bary g) (gr_scans g ++ [scan_of_msg s]) (gr_constraints g)
    | BConstraint c => mkGraph (gr_use_bary g) (gr_scans g) (gr_constraints g ++ [constraint_of_msg c])
    end) file (graph_new use_bary).

(** The position findNearest uses for a scan (graph.hpp:99-105, graph.cpp:177). *)
Definition scan_position (use_bary : bool) (s : scan T) : point T :=
  let p := if use_bary then fst (scan_get_bary s) else s_pose s in
  mkPoint (pox p) (poy p).

(** nanoflann's radiusSearch on a list of points: query, radius -> indices. *)
Definition radius_oracle : Type := list (point T) -> point T -> T -> list nat.

(** graph.cpp:167-189 (findNearest).  The adapter reports [limit] points and the
    tree reads each of them, so an index beyond the scans is read when the limit
    is too large (the read would be undefined behaviour).  The unsigned index
    type of the matches is not modelled (fewer than 2^32 scans). *)
Definition find_nearest (search : radius_oracle) (g : graph T) (s : scan T) (dist : T) (limit_index : Z)
    : outcome (list nat) :=
  let limit := if (0 <? limit_index)%Z then Z.to_nat limit_index else length (gr_scans g) in
  pts <- mapM (fun i => sc <- vec_get (gr_scans g) (Z.of_nat i) ;; Ok (scan_position (gr_use_bary g) sc))
              (seq 0 limit) ;;
  Ok (search pts (scan_position (gr_use_bary g) s) dist).

(** graph.cpp:191-260 (getMsg).  The marker variable is reused: the node markers
    have no line points; the edge ids count from zero (a counter overflow at
    2^31 edges is not modelled). *)
Definition node_marker (s : scan T) : marker T :=
  mkMarker NsNodes (to_int32 (s_id s)) (mkPoint (pox (s_pose s)) (poy (s_pose s))) [] Red.

Definition edge_marker (scans : list (scan T)) (id : Z) (c : constraint T) : outcome (marker T) :=
  b <- vec_get scans (c_begin c) ;;
  e <- vec_get scans (c_end c) ;;
  Ok (mkMarker NsEdges id (mkPoint nzero nzero)
        [mkPoint (pox (s_pose b)) (poy (s_pose b)); mkPoint (pox (s_pose e)) (poy (s_pose e))]
        (if c_switchable c then Green else Blue)).

Definition graph_get_msg (g : graph T) (markers : list (marker T)) : outcome (list (marker T)) :=
  r <- foldM (fun (acc : list (marker T) * Z) c =>
          m <- edge_marker (gr_scans g) (snd acc) c ;;
          Ok (fst acc ++ [m], (snd acc + 1)%Z))
        (markers ++ map node_marker (gr_scans g), 0%Z) (gr_constraints g) ;;
  Ok (fst r).

End Graph.
