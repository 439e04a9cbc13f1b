(** Specification vocabulary: messages the node has no use for. *)

From Coq Require Import ZArith List Bool String.
From Verif Require Import Outcome Arith TypesModel ScanModel FilterModel LaserModel MotionModel FilterModel MapperModel.
Import ListNotations.
Local Open Scope num_scope.

Section Unused.
Context {T : Type} {A : Arith T} (cf : config T).

(** The mounting and the range limit of the laser are known. *)
Definition laser_known (m : mapper T) : Prop :=
  sp_frame (mp_spin m) <> ""%string /\ (sp_range_max (mp_spin m) <? nzero) = false.

(** A laser message of no use: the robot is not localized, its pose is not known at the
    start or the end of the sweep, or it has not moved enough.  An initial pose of no use:
    the robot is mapping and localized, the frame is not "map", or the odometry is not
    known.  A request of no use: none of the four bits is set. *)
Definition no_use (m : mapper T) (e : event T) : Prop :=
  match e with
  | EvLaser e => laser_known m /\
      (sh_init (mp_sh m) = false \/ le_start e = None \/
       (exists start, le_start e = Some start /\ sh_scans (mp_sh m) <> [] /\ small_motion (cf_min_dist cf) (cf_min_rot cf) (sh_odom (mp_sh m)) (from_msg start) = true) \/
       (exists ns, sweep_ns (List.length (lr_ranges (le_msg e))) (le_time_inc e) = Ok ns /\ le_end e ns = None))
  | EvPose e => (sh_enable (mp_sh m) = true /\ sh_init (mp_sh m) = true) \/ pe_frame e <> "map"%string \/ pe_odom e = None
  | EvConfigure a _ => Z.testbit a 0 = false /\ Z.testbit a 1 = false /\ Z.testbit a 2 = false /\ Z.testbit a 3 = false
  end.

(** [ls'] is the schedule [ls] without some messages that are of no use when they arrive. *)
Inductive thinned : mapper T -> list (label T) -> list (label T) -> Prop :=
| th_nil : forall m, thinned m [] []
| th_keep : forall m l m1 ls ls', step cf l m = Some (Ok m1) -> thinned m1 ls ls' -> thinned m (l :: ls) (l :: ls')
| th_idle : forall m l ls ls', step cf l m = None -> thinned m ls ls' -> thinned m (l :: ls) (l :: ls')
| th_drop : forall m e ls ls', no_use m e -> thinned m ls ls' -> thinned m (Deliver e :: ls) ls'.

(** The steps of the other two threads. *)
Definition background (l : label T) : bool := match l with Loop | Pub => true | _ => false end.
End Unused.

(** All messages are laser messages, taken where the robot is at [odom] or at an unknown place. *)
Definition standing {T : Type} (near : pose_msg T -> Prop) (ls : list (label T)) : Prop :=
  forall e, In (Deliver e) ls -> exists l, e = EvLaser l /\ forall start, le_start l = Some start -> near start.
