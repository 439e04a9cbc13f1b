(** The member functions of one Scan object executed by two threads at the
    granularity of their assignments: src/scan.cpp:44-48 (setPose), 55-59 and
    72-91 (getBarycenterPose, update).

    - A statement is one step; interleavings are sequentially consistent.  The
      three reads of pose_ in update (lines 74, 75, 78) are one step: splitting
      them only adds behaviours.
    - In the node, setPose runs in the loop closure thread without a mutex
      (ndt_mapper.cpp:652-655) and getBarycenterPose inside findNearest, in the
      initial pose callback under the mutex of the graph (ndt_mapper.cpp:234-241,
      graph.cpp:167-189, graph.hpp:99-105). *)

From Coq Require Import ZArith List Bool.
From Verif Require Import Outcome Arith TypesModel ScanModel.
Import ListNotations.

(** Where the reading thread is: between calls, about to execute update, about to
    execute its last statement. *)
Inductive reading : Type := RIdle | RUpdate | RClear.

Record racing (T : Type) : Type := mkRacing {
  ra_scan : scan T;
  ra_set : option (pose T);  (** setPose in progress: the pose still to be stored *)
  ra_get : reading
}.
Arguments mkRacing {T} ra_scan ra_set ra_get.
Arguments ra_scan {T} r.
Arguments ra_set {T} r.
Arguments ra_get {T} r.

Section Race.
Context {T : Type} {A : Arith T}.

Inductive micro : Type :=
| MSetFlag (p : pose T)  (** line 46: dirty_ = true *)
| MSetStore              (** line 47: pose_ = pose *)
| MGetTest               (** line 57: if (dirty_); the call ends here when it is not set *)
| MGetUpdate             (** lines 74-89: barycenter_ from pose_ and points_ *)
| MGetClear.             (** line 90: dirty_ = false *)

Definition with_dirty (s : scan T) (d : bool) : scan T := mkScan (s_id s) d (s_pose s) (s_bary s) (s_pts s).
Definition with_pose (s : scan T) (p : pose T) : scan T := mkScan (s_id s) (s_dirty s) p (s_bary s) (s_pts s).
Definition with_bary (s : scan T) (b : pose T) : scan T := mkScan (s_id s) (s_dirty s) (s_pose s) b (s_pts s).

(** One statement; [None] if no thread is about to execute it. *)
Definition micro_step (r : racing T) (a : micro) : option (racing T) :=
  match a, ra_set r, ra_get r with
  | MSetFlag p, None, g => Some (mkRacing (with_dirty (ra_scan r) true) (Some p) g)
  | MSetStore, Some p, g => Some (mkRacing (with_pose (ra_scan r) p) None g)
  | MGetTest, st, RIdle => Some (mkRacing (ra_scan r) st (if s_dirty (ra_scan r) then RUpdate else RIdle))
  | MGetUpdate, st, RUpdate => Some (mkRacing (with_bary (ra_scan r) (s_bary (scan_update (ra_scan r)))) st RClear)
  | MGetClear, st, RClear => Some (mkRacing (with_dirty (ra_scan r) false) st RIdle)
  | _, _, _ => None
  end.

Fixpoint micro_run (r : racing T) (l : list micro) : option (racing T) :=
  match l with
  | [] => Some r
  | a :: l => match micro_step r a with Some r' => micro_run r' l | None => None end
  end.

End Race.

Arguments micro T : clear implicits.
