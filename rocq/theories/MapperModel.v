(** Model of class Mapper: src/ndt_mapper.cpp:48-745,
    include/ndt_2d/ndt_mapper.hpp:48-139, srv/Configure.srv.

    The three threads of the node (executor thread running the callbacks, loop
    closure thread, publish thread) are a labelled transition system.  Shared
    data is in [shared]; each thread has a program counter and its own data.

    - One step performs at most one locked section, or one group of unlocked
      accesses.  Interleavings are sequentially consistent.  Data races are
      undefined behaviour in C++; here they only interleave, so a theorem about
      a bad schedule shows a failure a compiler is allowed to make worse, and a
      theorem about all schedules holds for sequentially consistent executions.
    - Scan objects live in a heap and the graph holds pointers to them, as the
      shared_ptr do in the source: a thread may hold a scan of a graph that was
      replaced by a load request.
    - The cache of the barycenter is not refreshed in the heap by findNearest
      (its value is a function of the rest of the scan, see C27; executions in
      which it is refreshed at any time are in C121).
    - Logging, ROS publishers, tf2, the parameter server, the plugin loader,
      rosbag2, timers and shutdown are not modelled.  A step can always be
      delayed; sleeping is not distinguished from being slow.
    - [sh_trace] is a ghost variable: what was done, newest first.  No step reads
      it. *)

From Coq Require Import ZArith List Bool String.
From Verif Require Import Outcome Arith TypesModel ScanModel MatcherModel ConstraintModel
  SolverModel GraphModel OccGridModel MotionModel FilterModel LaserModel.
Import ListNotations.
Local Open Scope outcome_scope.

(** Who holds a mutex. *)
Inductive tid : Type := TSpin | TLoop | TPub.

(** Who changed the graph: a laser callback, an initial pose, a loop closure. *)
Inductive author : Type := ALaser | APose | ALoop.

(** Ghost observations. *)
Inductive obs (T : Type) : Type :=
| ObScan (a : author) (p : nat)              (** a scan was appended to the graph *)
| ObConstraint (a : author) (c : constraint T) (** a constraint was appended *)
| ObMove (p : nat) (q : pose T)              (** a loop closure corrected a scan *)
| ObOptimize (n : nat)                       (** the optimizer ran on n scans *)
| ObLoad                                     (** the graph was replaced *)
| ObSave (file : list (bag_msg T))
| ObMatch (done i : Z) (score typical : T) (accepted : bool) (** loop closure of scan [done] against [i] *)
| ObMap (scans : list (scan T)) (m : occ_msg T)  (** map published, and the scans it shows *)
| ObMarkers (g : graph T) (ms : list (marker T)) (** graph published *)
| ObPoses (robot odom : pose T)              (** a laser callback stored the tracked poses *)
| ObInit (robot odom : pose T)               (** an initial pose was accepted *)
| ObTf (robot odom : pose T) (tf : iso T).   (** transform published *)
Arguments ObScan {T} a p.
Arguments ObConstraint {T} a c.
Arguments ObMove {T} p q.
Arguments ObOptimize {T} n.
Arguments ObLoad {T}.
Arguments ObSave {T} file.
Arguments ObMatch {T} done i score typical accepted.
Arguments ObMap {T} scans m.
Arguments ObMarkers {T} g ms.
Arguments ObPoses {T} robot odom.
Arguments ObInit {T} robot odom.
Arguments ObTf {T} robot odom tf.

(** Data more than one thread uses (ndt_mapper.hpp:78, 102, 107, 121-130). *)
Record shared (T : Type) : Type := mkShared {
  sh_heap : list (scan T);
  sh_scans : list nat;
  sh_cons : list (constraint T);
  sh_flag : bool;
  sh_glock : option tid;
  sh_plock : option tid;
  sh_odom : pose T;
  sh_robot : pose T;
  sh_typical : T;
  sh_enable : bool;
  sh_init : bool;
  sh_global : option (matcher T);
  sh_trace : list (obs T)
}.
Arguments mkShared {T} sh_heap sh_scans sh_cons sh_flag sh_glock sh_plock sh_odom sh_robot sh_typical sh_enable sh_init sh_global sh_trace.
Arguments sh_heap {T} s.
Arguments sh_scans {T} s.
Arguments sh_cons {T} s.
Arguments sh_flag {T} s.
Arguments sh_glock {T} s.
Arguments sh_plock {T} s.
Arguments sh_odom {T} s.
Arguments sh_robot {T} s.
Arguments sh_typical {T} s.
Arguments sh_enable {T} s.
Arguments sh_init {T} s.
Arguments sh_global {T} s.
Arguments sh_trace {T} s.

Section Setters.
Context {T : Type}.
Notation S := (shared T).
Definition set_heap (s : S) v := mkShared v (sh_scans s) (sh_cons s) (sh_flag s) (sh_glock s) (sh_plock s) (sh_odom s) (sh_robot s) (sh_typical s) (sh_enable s) (sh_init s) (sh_global s) (sh_trace s).
Definition set_scans (s : S) v := mkShared (sh_heap s) v (sh_cons s) (sh_flag s) (sh_glock s) (sh_plock s) (sh_odom s) (sh_robot s) (sh_typical s) (sh_enable s) (sh_init s) (sh_global s) (sh_trace s).
Definition set_cons (s : S) v := mkShared (sh_heap s) (sh_scans s) v (sh_flag s) (sh_glock s) (sh_plock s) (sh_odom s) (sh_robot s) (sh_typical s) (sh_enable s) (sh_init s) (sh_global s) (sh_trace s).
Definition set_flag (s : S) v := mkShared (sh_heap s) (sh_scans s) (sh_cons s) v (sh_glock s) (sh_plock s) (sh_odom s) (sh_robot s) (sh_typical s) (sh_enable s) (sh_init s) (sh_global s) (sh_trace s).
Definition set_glock (s : S) v := mkShared (sh_heap s) (sh_scans s) (sh_cons s) (sh_flag s) v (sh_plock s) (sh_odom s) (sh_robot s) (sh_typical s) (sh_enable s) (sh_init s) (sh_global s) (sh_trace s).
Definition set_plock (s : S) v := mkShared (sh_heap s) (sh_scans s) (sh_cons s) (sh_flag s) (sh_glock s) v (sh_odom s) (sh_robot s) (sh_typical s) (sh_enable s) (sh_init s) (sh_global s) (sh_trace s).
Definition set_odom (s : S) v := mkShared (sh_heap s) (sh_scans s) (sh_cons s) (sh_flag s) (sh_glock s) (sh_plock s) v (sh_robot s) (sh_typical s) (sh_enable s) (sh_init s) (sh_global s) (sh_trace s).
Definition set_robot (s : S) v := mkShared (sh_heap s) (sh_scans s) (sh_cons s) (sh_flag s) (sh_glock s) (sh_plock s) (sh_odom s) v (sh_typical s) (sh_enable s) (sh_init s) (sh_global s) (sh_trace s).
Definition set_typical (s : S) v := mkShared (sh_heap s) (sh_scans s) (sh_cons s) (sh_flag s) (sh_glock s) (sh_plock s) (sh_odom s) (sh_robot s) v (sh_enable s) (sh_init s) (sh_global s) (sh_trace s).
Definition set_enable (s : S) v := mkShared (sh_heap s) (sh_scans s) (sh_cons s) (sh_flag s) (sh_glock s) (sh_plock s) (sh_odom s) (sh_robot s) (sh_typical s) v (sh_init s) (sh_global s) (sh_trace s).
Definition set_init (s : S) v := mkShared (sh_heap s) (sh_scans s) (sh_cons s) (sh_flag s) (sh_glock s) (sh_plock s) (sh_odom s) (sh_robot s) (sh_typical s) (sh_enable s) v (sh_global s) (sh_trace s).
Definition set_global (s : S) v := mkShared (sh_heap s) (sh_scans s) (sh_cons s) (sh_flag s) (sh_glock s) (sh_plock s) (sh_odom s) (sh_robot s) (sh_typical s) (sh_enable s) (sh_init s) v (sh_trace s).
Definition note (s : S) o := mkShared (sh_heap s) (sh_scans s) (sh_cons s) (sh_flag s) (sh_glock s) (sh_plock s) (sh_odom s) (sh_robot s) (sh_typical s) (sh_enable s) (sh_init s) (sh_global s) (o :: sh_trace s).

Definition locked (o : option tid) : bool := match o with None => false | Some _ => true end.
Definition unlock_g (s : S) := set_glock s None.
Definition unlock_p (s : S) := set_plock s None.
End Setters.

(** Parameters (ndt_mapper.cpp:59-105) and the oracles for library code:
    Eigen's eigenvalues, nanoflann's radius search, Ceres; the fuel of the
    matcher loops; the value of an uninitialised covariance; the matchers as
    initialize() leaves them for a given maximum range. *)
Record config (T : Type) : Type := mkConfig {
  cf_min_dist : T; cf_min_rot : T;
  cf_depth : Z;                       (* rolling_depth_, size_t *)
  cf_use_bary : bool;
  cf_search_size : T;
  cf_search_limit : Z;                (* global_search_limit_, size_t *)
  cf_node_limit : Z;                  (* optimization_node_limit_, size_t *)
  cf_filter : option (Z * Z * motion_params T); (* use_particle_filter_ *)
  cf_kld_err : T; cf_kld_z : T;
  cf_enable : bool; cf_range_max : T;
  cf_resolution : T; cf_occ_thresh : T;
  cf_file : option (list (bag_msg T)); (* map_file, if not empty *)
  en_eig : mat2 T -> T * T;
  en_search : @radius_oracle T;
  en_ceres : ceres_oracle T;
  en_fuel : nat;
  en_garbage : mat3 T;
  en_global : T -> matcher T;
  en_local : T -> matcher T
}.
Arguments cf_min_dist {T} c.
Arguments cf_min_rot {T} c.
Arguments cf_depth {T} c.
Arguments cf_use_bary {T} c.
Arguments cf_search_size {T} c.
Arguments cf_search_limit {T} c.
Arguments cf_node_limit {T} c.
Arguments cf_filter {T} c.
Arguments cf_kld_err {T} c.
Arguments cf_kld_z {T} c.
Arguments cf_enable {T} c.
Arguments cf_range_max {T} c.
Arguments cf_resolution {T} c.
Arguments cf_occ_thresh {T} c.
Arguments cf_file {T} c.
Arguments en_eig {T} c.
Arguments en_search {T} c.
Arguments en_ceres {T} c.
Arguments en_fuel {T} c.
Arguments en_garbage {T} c.
Arguments en_global {T} c.
Arguments en_local {T} c.

(** A laser message with the tf2 answers the callback gets: laser in the robot
    frame, robot in the odometry frame at the start of the sweep and a number of
    nanoseconds later (None = TransformException); time_increment (a float32
    value); and the random numbers of the filter. *)
Record laser_ev (T : Type) : Type := mkLaserEv {
  le_msg : laser_msg T; le_frame : string;
  le_laser : option (pose_msg T); le_start : option (pose_msg T);
  le_time_inc : T; le_end : Z -> option (pose_msg T);
  le_normal : normal_source T; le_draws : list Z
}.
Arguments mkLaserEv {T} le_msg le_frame le_laser le_start le_time_inc le_end le_normal le_draws.
Arguments le_msg {T} l.
Arguments le_frame {T} l.
Arguments le_laser {T} l.
Arguments le_start {T} l.
Arguments le_time_inc {T} l.
Arguments le_end {T} l.
Arguments le_normal {T} l.
Arguments le_draws {T} l.

(** An initial pose: frame, pose, three entries of the covariance, the tf2
    answer for the robot in the odometry frame. *)
Record pose_ev (T : Type) : Type := mkPoseEv {
  pe_frame : string; pe_pose : pose_msg T; pe_c0 : T; pe_c7 : T; pe_c35 : T;
  pe_odom : option (pose_msg T); pe_normal : normal_source T
}.
Arguments mkPoseEv {T} pe_frame pe_pose pe_c0 pe_c7 pe_c35 pe_odom pe_normal.
Arguments pe_frame {T} p.
Arguments pe_pose {T} p.
Arguments pe_c0 {T} p.
Arguments pe_c7 {T} p.
Arguments pe_c35 {T} p.
Arguments pe_odom {T} p.
Arguments pe_normal {T} p.

(** Calls delivered to the executor thread.  A configure request comes with the
    contents of the file it names. *)
Inductive event (T : Type) : Type :=
| EvLaser (e : laser_ev T)
| EvPose (e : pose_ev T)
| EvConfigure (action : Z) (file : list (bag_msg T)).
Arguments EvLaser {T} e.
Arguments EvPose {T} e.
Arguments EvConfigure {T} action file.

(** Where the executor thread is.  [p] points to the scan of the message. *)
Inductive spin_pc (T : Type) : Type :=
| SIdle
| SFilter (p : nat) (odom : pose T) (normal : normal_source T) (draws : list Z) (* line 455 *)
| SMatch (p : nat) (odom : pose T)                          (* line 500 *)
| SMake (p : nat) (odom : pose T) (cov : mat3 T)            (* line 527 *)
| SConsLock (p : nat) (odom : pose T) (c : constraint T)    (* line 528 *)
| SConsPush (p : nat) (odom : pose T) (c : constraint T)    (* line 529 *)
| SScanLock (p : nat) (odom : pose T)                       (* line 537 *)
| SScanPush (p : nat) (odom : pose T)                       (* line 538 *)
| STrack (p : nat) (odom : pose T)                          (* line 549 *)
| SPoseLock (p : nat) (odom : pose T) (upd : bool)          (* lines 491, 542, 563 *)
| SPoseWrite (p : nat) (odom : pose T) (upd : bool)         (* lines 492, 543, 564 *)
| SGraphLock (e : pose_ev T) (odom : pose T)                (* line 234 *)
| SGraph (e : pose_ev T) (odom : pose T)                    (* line 237 *)
| SInitRobot (robot odom : pose T)                          (* line 259 *)
| SInitOdom (robot odom : pose T)                           (* line 260 *)
| SInitDone (robot odom : pose T)                           (* line 261 *)
| SLoadLock (file : list (bag_msg T))                       (* line 175 *)
| SLoad (file : list (bag_msg T))                           (* line 176 *)
| SSaveLock                                                 (* line 183 *)
| SSave.                                                    (* line 184 *)
Arguments SIdle {T}.
Arguments SFilter {T} p odom normal draws.
Arguments SMatch {T} p odom.
Arguments SMake {T} p odom cov.
Arguments SConsLock {T} p odom c.
Arguments SConsPush {T} p odom c.
Arguments SScanLock {T} p odom.
Arguments SScanPush {T} p odom.
Arguments STrack {T} p odom.
Arguments SPoseLock {T} p odom upd.
Arguments SPoseWrite {T} p odom upd.
Arguments SGraphLock {T} e odom.
Arguments SGraph {T} e odom.
Arguments SInitRobot {T} robot odom.
Arguments SInitOdom {T} robot odom.
Arguments SInitDone {T} robot odom.
Arguments SLoadLock {T} file.
Arguments SLoad {T} file.
Arguments SSaveLock {T}.
Arguments SSave {T}.

(** Data only the executor thread uses. *)
Record spin (T : Type) : Type := mkSpin {
  sp_pc : spin_pc T;
  sp_range_max : T;
  sp_frame : string;
  sp_laser : pose T;
  sp_inverted : bool;
  sp_local : option (matcher T);
  sp_filter : option (pfilter T)
}.
Arguments mkSpin {T} sp_pc sp_range_max sp_frame sp_laser sp_inverted sp_local sp_filter.
Arguments sp_pc {T} s.
Arguments sp_range_max {T} s.
Arguments sp_frame {T} s.
Arguments sp_laser {T} s.
Arguments sp_inverted {T} s.
Arguments sp_local {T} s.
Arguments sp_filter {T} s.

(** Local variables of the loop closure thread while it works on one scan:
    num_scans, new_matches, scan, remaining candidates, num_scans_to_check. *)
Record lctx : Type := mkCtx {
  lc_num : Z; lc_new : bool; lc_scan : nat; lc_rest : list nat; lc_left : Z
}.

Inductive loop_pc (T : Type) : Type :=
| LSleep                                                 (* line 573 *)
| LCountLock                                             (* line 584 *)
| LCount                                                 (* line 585 *)
| LNext (num : Z) (new : bool)                           (* line 604 *)
| LFetchLock (num : Z) (new : bool)                      (* line 613 *)
| LFetch (num : Z) (new : bool)                          (* line 614 *)
| LCand (c : lctx)                                       (* line 620 *)
| LRegion (c : lctx) (i : nat)                           (* line 624 *)
| LMatch (c : lctx) (i cand : nat)                       (* line 641 *)
| LCorrect (c : lctx) (i cand : nat) (corr : pose T) (cov : mat3 T) (* line 652 *)
| LMake (c : lctx) (i cand : nat) (cov : mat3 T)         (* line 658 *)
| LPushLock (c : lctx) (k : constraint T)                (* line 660 *)
| LPush (c : lctx) (k : constraint T)                    (* line 661 *)
| LFlag (c : lctx)                                       (* line 662 *)
| LOpt (num : Z) (new : bool)                            (* line 676 *)
| LOptLock                                               (* line 679 *)
| LOptRun.                                               (* line 680 *)
Arguments LSleep {T}.
Arguments LCountLock {T}.
Arguments LCount {T}.
Arguments LNext {T} num new.
Arguments LFetchLock {T} num new.
Arguments LFetch {T} num new.
Arguments LCand {T} c.
Arguments LRegion {T} c i.
Arguments LMatch {T} c i cand.
Arguments LCorrect {T} c i cand corr cov.
Arguments LMake {T} c i cand cov.
Arguments LPushLock {T} c k.
Arguments LPush {T} c k.
Arguments LFlag {T} c.
Arguments LOpt {T} num new.
Arguments LOptLock {T}.
Arguments LOptRun {T}.

(** global_scans_processed_, optimization_last_ (size_t), solver_. *)
Record looper (T : Type) : Type := mkLooper {
  lp_pc : loop_pc T; lp_done : Z; lp_opt : Z; lp_solver : solver T
}.
Arguments mkLooper {T} lp_pc lp_done lp_opt lp_solver.
Arguments lp_pc {T} l.
Arguments lp_done {T} l.
Arguments lp_opt {T} l.
Arguments lp_solver {T} l.

Inductive pub_pc (T : Type) : Type :=
| PTop                              (* line 691 *)
| PClear                            (* line 693 *)
| PGridLock                         (* line 702 *)
| PGrid                             (* line 703 *)
| PGraphLock                        (* line 710 *)
| PGraph                            (* line 711 *)
| PTf                               (* line 717 *)
| PPoseLock                         (* line 720 *)
| PReadRobot                        (* line 723 *)
| PReadOdom (robot : pose T)        (* line 726 *)
| PSend (robot odom : pose T).      (* line 732 *)
Arguments PTop {T}.
Arguments PClear {T}.
Arguments PGridLock {T}.
Arguments PGrid {T}.
Arguments PGraphLock {T}.
Arguments PGraph {T}.
Arguments PTf {T}.
Arguments PPoseLock {T}.
Arguments PReadRobot {T}.
Arguments PReadOdom {T} robot.
Arguments PSend {T} robot odom.

Record publisher (T : Type) : Type := mkPub { pb_pc : pub_pc T; pb_grid : occ T }.
Arguments mkPub {T} pb_pc pb_grid.
Arguments pb_pc {T} p.
Arguments pb_grid {T} p.

Record mapper (T : Type) : Type := mkMapper {
  mp_sh : shared T; mp_spin : spin T; mp_loop : looper T; mp_pub : publisher T
}.
Arguments mkMapper {T} mp_sh mp_spin mp_loop mp_pub.
Arguments mp_sh {T} m.
Arguments mp_spin {T} m.
Arguments mp_loop {T} m.
Arguments mp_pub {T} m.

(** srv/Configure.srv:1-4. *)
Definition ENABLE_MAPPING : Z := 1.
Definition DISABLE_MAPPING : Z := 2.
Definition LOAD_FROM_FILE : Z := 4.
Definition SAVE_TO_FILE : Z := 8.
Definition has_bit (action bit : Z) : bool := negb (Z.land action bit =? 0)%Z.

Section Mapper.
Context {T : Type} {A : Arith T}.
Context (cf : config T).
Local Open Scope num_scope.

(** Following the pointers of the graph. *)
Definition deref (h : list (scan T)) (p : nat) : outcome (scan T) := vec_get h (Z.of_nat p).
Definition graph_scans (s : shared T) : outcome (list (scan T)) := mapM (deref (sh_heap s)) (sh_scans s).
Definition the_graph (s : shared T) : outcome (graph T) :=
  scans <- graph_scans s ;; Ok (mkGraph (cf_use_bary cf) scans (sh_cons s)).

(** Writing through a pointer. *)
Definition put (s : shared T) (p : nat) (v : scan T) : shared T := set_heap s (list_set (sh_heap s) p v).

(** make_shared<Scan>. *)
Definition alloc (s : shared T) (v : scan T) : shared T * nat :=
  (set_heap s (sh_heap s ++ [v]), List.length (sh_heap s)).

Definition num_scans (s : shared T) : Z := Z.of_nat (List.length (sh_scans s)).

Definition at_pc (sp : spin T) (pc : spin_pc T) : spin T :=
  mkSpin pc (sp_range_max sp) (sp_frame sp) (sp_laser sp) (sp_inverted sp) (sp_local sp) (sp_filter sp).
Definition with_local (sp : spin T) (m : option (matcher T)) : spin T :=
  mkSpin (sp_pc sp) (sp_range_max sp) (sp_frame sp) (sp_laser sp) (sp_inverted sp) m (sp_filter sp).
Definition with_filter (sp : spin T) (f : option (pfilter T)) : spin T :=
  mkSpin (sp_pc sp) (sp_range_max sp) (sp_frame sp) (sp_laser sp) (sp_inverted sp) (sp_local sp) f.

Definition use_filter : bool := match cf_filter cf with None => false | Some _ => true end.

(** Line 270. *)
Definition learn_range (sp : spin T) (m : laser_msg T) : spin T :=
  let r := if sp_range_max sp <? nzero then lr_range_max m else sp_range_max sp in
  mkSpin (sp_pc sp) r (sp_frame sp) (sp_laser sp) (sp_inverted sp) (sp_local sp) (sp_filter sp).

(** Lines 271-313: returns None if the callback returns. *)
Definition learn_laser (s : shared T) (sp : spin T) (e : laser_ev T) : outcome (option (shared T * spin T)) :=
  if (sp_frame sp =? "")%string
  then
    match le_laser e with
    | None => Ok None
    | Some t =>
      let inv := (nlit 2 100 <? nabs (ps_qx t)) || (nlit 2 100 <? nabs (ps_qy t)) in
      let sp' := mkSpin (sp_pc sp) (sp_range_max sp) (le_frame e) (from_msg t) (inv || sp_inverted sp)
                   (Some (en_local cf (sp_range_max sp))) (sp_filter sp) in
      let g := en_global cf (sp_range_max sp) in
      if use_filter || negb (sh_enable s)
      then
        scans <- graph_scans s ;;
        g' <- add_scans (en_eig cf) g scans ;;
        Ok (Some (set_global s (Some g'), sp'))
      else Ok (Some (set_global s (Some g), sp'))
    end
  else Ok (Some (s, sp)).

(** Lines 340-364: the pose of the new scan; None if the callback returns. *)
Definition guess_pose (s : shared T) (odom : pose T) : option (pose T) :=
  match sh_scans s with
  | [] => Some pose0
  | _ =>
    if small_motion (cf_min_dist cf) (cf_min_rot cf) (sh_odom s) odom then None
    else Some (odom_guess (sh_robot s) (sh_odom s) odom)
  end.

(** Lines 267-453 and the choice at 455, 495, 547. *)
Definition laser_begin (s : shared T) (sp0 : spin T) (e : laser_ev T) : outcome (shared T * spin T) :=
  let sp1 := learn_range sp0 (le_msg e) in
  r <- learn_laser s sp1 e ;;
  match r with
  | None => Ok (s, sp1)
  | Some (s, sp) =>
    if sh_init s
    then
      match le_start e with
      | None => Ok (s, sp)
      | Some start =>
        let odom := from_msg start in
        match guess_pose s odom with
        | None => Ok (s, sp)
        | Some guess =>
          ns <- sweep_ns (List.length (lr_ranges (le_msg e))) (le_time_inc e) ;;
          match le_end e ns with
          | None => Ok (s, sp)
          | Some end_ =>
            pts <- scan_points (sp_inverted sp) (sp_range_max sp) (sp_laser sp) odom (from_msg end_) (le_msg e) ;;
            let '(s, p) := alloc s (scan_set_points (scan_set_pose (scan_new (num_scans s)) guess) pts) in
            let pc := if use_filter then SFilter p odom (le_normal e) (le_draws e)
                      else if sh_enable s then SMatch p odom
                      else STrack p odom in
            Ok (s, at_pc sp pc)
          end
        end
      end
    else Ok (s, sp)
  end.

(** Lines 188-231, 259-260. *)
Definition pose_begin (s : shared T) (sp : spin T) (e : pose_ev T) : outcome (shared T * spin T) :=
  if sh_enable s && sh_init s then Ok (s, sp)
  else if negb (pe_frame e =? "map")%string then Ok (s, sp)
  else
    match pe_odom e with
    | None => Ok (s, sp)
    | Some t =>
      let odom := from_msg t in
      let robot := from_msg (pe_pose e) in
      match sp_filter sp with
      | Some f =>
        f' <- filter_init (pe_normal e) (ps_x (pe_pose e)) (ps_y (pe_pose e)) (poth robot)
                (nsqrt (pe_c0 e)) (nsqrt (pe_c7 e)) (nsqrt (pe_c35 e)) f ;;
        Ok (s, at_pc (with_filter sp (Some f')) (SInitRobot robot odom))
      | None =>
        if sh_enable s then Ok (s, at_pc sp (SGraphLock e odom))
        else Ok (s, at_pc sp (SInitRobot robot odom))
      end
    end.

(** Lines 155-170 and the choice at 172, 180. *)
Definition configure_begin (s : shared T) (sp : spin T) (action : Z) (file : list (bag_msg T)) : shared T * spin T :=
  let s' := if has_bit action ENABLE_MAPPING then set_enable s true
            else if has_bit action DISABLE_MAPPING then set_init (set_enable s false) false
            else s in
  let pc := if has_bit action LOAD_FROM_FILE then SLoadLock file
            else if has_bit action SAVE_TO_FILE then SSaveLock
            else SIdle in
  (s', at_pc sp pc).

(** A callback starts when the executor thread is idle. *)
Definition deliver (s : shared T) (sp : spin T) (ev : event T) : option (outcome (shared T * spin T)) :=
  match sp_pc sp with
  | SIdle =>
    Some (match ev with
          | EvLaser e => laser_begin s sp e
          | EvPose e => pose_begin s sp e
          | EvConfigure a file => Ok (configure_begin s sp a file)
          end)
  | _ => None
  end.

(** Lines 455-489: update, measure, resample, use the mean. *)
Definition filter_callback (s : shared T) (sp : spin T) (p : nat) (normal : normal_source T) (draws : list Z)
    : outcome (shared T * spin T) :=
  sc <- deref (sh_heap s) p ;;
  match sp_filter sp with
  | None => Fault NullDeref
  | Some f =>
    let d := robot_delta (sh_robot s) (s_pose sc) in
    f1 <- filter_update normal (v0 d) (v1 d) (v2 d) f ;;
    match sh_global s with
    | None => Fault NullDeref
    | Some g =>
      f2 <- filter_measure (score_points g (s_pts sc)) f1 ;;
      f3 <- filter_resample draws (cf_kld_err cf) (cf_kld_z cf) f2 ;;
      Ok (put s p (scan_set_pose sc (vec_pose (pf_mean f3))), with_filter sp (Some f3))
    end
  end.

(** Lines 500-524: match against the rolling window; returns the covariance. *)
Definition local_match (s : shared T) (sp : spin T) (p : nat) : outcome (shared T * spin T * mat3 T) :=
  scans <- graph_scans s ;;
  window <- rolling_window (cf_depth cf) scans ;;
  match sp_local sp with
  | None => Fault NullDeref
  | Some m =>
    m' <- add_scans (en_eig cf) (matcher_reset m) window ;;
    sc <- deref (sh_heap s) p ;;
    _ <- score_scan m' sc ;;
    '(score, corr, cov) <- match_scan (en_fuel cf) m' sc pose0 (en_garbage cf) ;;
    let s1 := set_typical s (smooth_response (sh_typical s) score) in
    Ok (put s1 p (scan_set_pose sc (add_correction (s_pose sc) corr)), with_local sp (Some m'), cov)
  end.

(** Lines 549-561. *)
Definition track_match (s : shared T) (p : nat) : outcome (shared T) :=
  sc <- deref (sh_heap s) p ;;
  match sh_global s with
  | None => Fault NullDeref
  | Some g =>
    _ <- score_scan g sc ;;
    '(_, corr, _) <- match_scan (en_fuel cf) g sc pose0 (en_garbage cf) ;;
    Ok (put s p (scan_set_pose sc (add_correction (s_pose sc) corr)))
  end.

Definition diag3 (a b c : T) : mat3 T :=
  mkMat3 a nzero nzero nzero b nzero nzero nzero c.

(** Lines 237-255; [false] if the callback returns. *)
Definition pose_graph (s : shared T) (e : pose_ev T) : outcome (shared T * bool) :=
  g <- the_graph s ;;
  let sc := scan_set_pose (scan_new (num_scans s)) (from_msg (pe_pose e)) in
  nearest <- find_nearest (en_search cf) g sc (nofZ 10) (-1) ;;
  match nearest with
  | [] => Ok (s, false)
  | i :: _ =>
    let '(s1, p) := alloc s sc in
    let s2 := note (set_scans s1 (sh_scans s1 ++ [p])) (ObScan APose p) in
    from <- vec_get (gr_scans g ++ [sc]) (Z.of_nat i) ;;
    let c := make_constraint from sc (diag3 (pe_c0 e) (pe_c7 e) (pe_c35 e)) in
    Ok (note (set_cons s2 (sh_cons s2 ++ [c])) (ObConstraint APose c), true)
  end.

(** Line 176: the scans of the file are new objects. *)
Definition load_graph (s : shared T) (file : list (bag_msg T)) : shared T :=
  let g := graph_load (cf_use_bary cf) file in
  let n := List.length (sh_heap s) in
  note (set_cons (set_scans (set_heap s (sh_heap s ++ gr_scans g))
                    (seq n (List.length (gr_scans g)))) (gr_constraints g)) ObLoad.

(** Acquiring a mutex: blocked while somebody holds it. *)
Definition lock_g {X : Type} (s : shared T) (t : tid) (k : shared T -> X) : option (outcome X) :=
  if locked (sh_glock s) then None else Some (Ok (k (set_glock s (Some t)))).
Definition lock_p {X : Type} (s : shared T) (t : tid) (k : shared T -> X) : option (outcome X) :=
  if locked (sh_plock s) then None else Some (Ok (k (set_plock s (Some t)))).

(** One step of a callback in progress; None if idle or blocked. *)
Definition spin_step (s : shared T) (sp : spin T) : option (outcome (shared T * spin T)) :=
  match sp_pc sp with
  | SIdle => None
  | SFilter p odom normal draws =>
    Some ('(s', sp') <- filter_callback s sp p normal draws ;; Ok (s', at_pc sp' (SPoseLock p odom false)))
  | SMatch p odom =>
    match sh_scans s with
    | [] => Some (Ok (s, at_pc sp (SScanLock p odom)))
    | _ => Some ('(s', sp', cov) <- local_match s sp p ;; Ok (s', at_pc sp' (SMake p odom cov)))
    end
  | SMake p odom cov =>
    Some (back <- (match rev (sh_scans s) with [] => Fault OutOfBounds | b :: _ => deref (sh_heap s) b end) ;;
          sc <- deref (sh_heap s) p ;;
          Ok (s, at_pc sp (SConsLock p odom (make_constraint back sc cov))))
  | SConsLock p odom c => lock_g s TSpin (fun s => (s, at_pc sp (SConsPush p odom c)))
  | SConsPush p odom c =>
    Some (Ok (unlock_g (note (set_cons s (sh_cons s ++ [c])) (ObConstraint ALaser c)), at_pc sp (SScanLock p odom)))
  | SScanLock p odom => lock_g s TSpin (fun s => (s, at_pc sp (SScanPush p odom)))
  | SScanPush p odom =>
    Some (Ok (unlock_g (note (set_scans s (sh_scans s ++ [p])) (ObScan ALaser p)), at_pc sp (SPoseLock p odom true)))
  | STrack p odom =>
    Some (s' <- track_match s p ;; Ok (s', at_pc sp (SPoseLock p odom false)))
  | SPoseLock p odom upd => lock_p s TSpin (fun s => (s, at_pc sp (SPoseWrite p odom upd)))
  | SPoseWrite p odom upd =>
    Some (sc <- deref (sh_heap s) p ;;
          let s1 := set_robot (set_odom s odom) (s_pose sc) in
          let s2 := if upd then set_flag s1 true else s1 in
          Ok (unlock_p (note s2 (ObPoses (s_pose sc) odom)), at_pc sp SIdle))
  | SGraphLock e odom => lock_g s TSpin (fun s => (s, at_pc sp (SGraph e odom)))
  | SGraph e odom =>
    Some ('(s', ok) <- pose_graph s e ;;
          Ok (unlock_g s', at_pc sp (if ok : bool then SInitRobot (from_msg (pe_pose e)) odom else SIdle)))
  | SInitRobot robot odom => Some (Ok (set_robot s robot, at_pc sp (SInitOdom robot odom)))
  | SInitOdom robot odom => Some (Ok (set_odom s odom, at_pc sp (SInitDone robot odom)))
  | SInitDone robot odom => Some (Ok (note (set_init s true) (ObInit robot odom), at_pc sp SIdle))
  | SLoadLock file => lock_g s TSpin (fun s => (s, at_pc sp (SLoad file)))
  | SLoad file =>
    Some (Ok (unlock_g (set_init (set_flag (load_graph s file) true) false), at_pc sp SIdle))
  | SSaveLock => lock_g s TSpin (fun s => (s, at_pc sp SSave))
  | SSave =>
    Some (g <- the_graph s ;; Ok (unlock_g (note s (ObSave (graph_save g))), at_pc sp SIdle))
  end.

(** ** Loop closure thread (lines 569-685) *)

Definition lat (l : looper T) (pc : loop_pc T) : looper T := mkLooper pc (lp_done l) (lp_opt l) (lp_solver l).

(** The for statement of line 604 moves on. *)
Definition next_scan (l : looper T) (num : Z) (new : bool) : looper T :=
  mkLooper (LNext num new) (wrap64 (lp_done l + 1)) (lp_opt l) (lp_solver l).

(** Line 670. *)
Definition after_candidate (l : looper T) (c : lctx) : looper T :=
  let left := wrap64 (lc_left c - 1) in
  if (left =? 0)%Z then next_scan l (lc_num c) (lc_new c)
  else lat l (LCand (mkCtx (lc_num c) (lc_new c) (lc_scan c) (lc_rest c) left)).

(** Lines 627-635: the scans the candidate region is built from.  Iterators
    beyond end() are undefined behaviour. *)
Definition region (i : nat) (rolling : Z) (scans : list (scan T)) : outcome (list (scan T)) :=
  let b := if (0 <? i)%nat then (i - 1)%nat else i in
  let e := if (Z.of_nat i <? rolling)%Z then (i + 1)%nat else i in
  if (e <=? List.length scans)%nat then Ok (firstn (e - b) (skipn b scans)) else Fault BadIterator.

(** Line 607: size_t arithmetic. *)
Definition rolling_start (l : looper T) : Z := wrap64 (lp_done l - cf_depth cf).

(** The optimizer writes the scans back through the pointers. *)
Definition put_all (s : shared T) (ps : list nat) (vs : list (scan T)) : shared T :=
  fold_left (fun s pv => put s (fst pv) (snd pv)) (combine ps vs) s.

Definition loop_step (s : shared T) (l : looper T) : option (outcome (shared T * looper T)) :=
  match lp_pc l with
  | LSleep => Some (Ok (s, if sh_enable s then lat l LCountLock else l))
  | LCountLock => lock_g s TLoop (fun s => (s, lat l LCount))
  | LCount =>
    let num := num_scans s in
    let l' :=
      if (num <=? cf_depth cf)%Z then lat l LSleep
      else
        let done := if (lp_done l <=? cf_depth cf)%Z then wrap64 (cf_depth cf + 1) else lp_done l in
        mkLooper (LNext num false) done (lp_opt l) (lp_solver l) in
    Some (Ok (unlock_g s, l'))
  | LNext num new =>
    Some (Ok (s, lat l (if (lp_done l <? num)%Z then LFetchLock num new else LOpt num new)))
  | LFetchLock num new => lock_g s TLoop (fun s => (s, lat l (LFetch num new)))
  | LFetch num new =>
    Some (p <- vec_get (sh_scans s) (lp_done l) ;;
          sc <- deref (sh_heap s) p ;;
          g <- the_graph s ;;
          near <- find_nearest (en_search cf) g sc (cf_search_size cf) (to_int32 (rolling_start l)) ;;
          Ok (unlock_g s, lat l (LCand (mkCtx num new p near (cf_search_limit cf)))))
  | LCand c =>
    match lc_rest c with
    | [] => Some (Ok (s, next_scan l (lc_num c) (lc_new c)))
    | i :: rest =>
      lock_g s TLoop (fun s => (s, lat l (LRegion (mkCtx (lc_num c) (lc_new c) (lc_scan c) rest (lc_left c)) i)))
    end
  | LRegion c i =>
    Some (scans <- graph_scans s ;;
          cand <- vec_get (sh_scans s) (Z.of_nat i) ;;
          candidate <- deref (sh_heap s) cand ;;
          match s_pts candidate with
          | [] => Ok (unlock_g s, lat l (LCand c))
          | _ =>
            reg <- region i (rolling_start l) scans ;;
            match sh_global s with
            | None => Fault NullDeref
            | Some g =>
              g' <- add_scans (en_eig cf) (matcher_reset g) reg ;;
              Ok (unlock_g (set_global s (Some g')), lat l (LMatch c i cand))
            end
          end)
  | LMatch c i cand =>
    Some (sc <- deref (sh_heap s) (lc_scan c) ;;
          match sh_global s with
          | None => Fault NullDeref
          | Some g =>
            '(score, corr, cov) <- match_scan (en_fuel cf) g sc pose0 (en_garbage cf) ;;
            let ok := nfinite score && (score <? sh_typical s) in
            let s' := note s (ObMatch (lp_done l) (Z.of_nat i) score (sh_typical s) ok) in
            if ok
            then Ok (s', lat l (LCorrect (mkCtx (lc_num c) true (lc_scan c) (lc_rest c) (lc_left c)) i cand corr cov))
            else Ok (s', after_candidate l c)
          end)
  | LCorrect c i cand corr cov =>
    Some (sc <- deref (sh_heap s) (lc_scan c) ;;
          let q := add_correction (s_pose sc) corr in
          Ok (note (put s (lc_scan c) (scan_set_pose sc q)) (ObMove (lc_scan c) q), lat l (LMake c i cand cov)))
  | LMake c i cand cov =>
    Some (candidate <- deref (sh_heap s) cand ;;
          sc <- deref (sh_heap s) (lc_scan c) ;;
          let k := make_constraint candidate sc cov in
          Ok (s, lat l (LPushLock c (mkConstraint (c_begin k) (c_end k) (c_transform k) (c_information k) true))))
  | LPushLock c k => lock_g s TLoop (fun s => (s, lat l (LPush c k)))
  | LPush c k =>
    Some (Ok (note (set_cons s (sh_cons s ++ [k])) (ObConstraint ALoop k), lat l (LFlag c)))
  | LFlag c => Some (Ok (unlock_g (set_flag s true), after_candidate l c))
  | LOpt num new =>
    Some (Ok (s, lat l (if new && (cf_node_limit cf <? wrap64 (num - lp_opt l))%Z then LOptLock else LSleep)))
  | LOptLock => lock_g s TLoop (fun s => (s, lat l LOptRun))
  | LOptRun =>
    Some (scans <- graph_scans s ;;
          '(_, sv, scans') <- optimize (en_ceres cf) (lp_solver l) (sh_cons s) scans ;;
          let s1 := put_all s (sh_scans s) scans' in
          Ok (unlock_g (set_flag (note s1 (ObOptimize (List.length scans))) true),
              mkLooper LSleep (lp_done l) (num_scans s) sv))
  end.

(** ** Publish thread (lines 687-744) *)

Definition pat (p : publisher T) (pc : pub_pc T) : publisher T := mkPub pc (pb_grid p).

Definition pub_step (s : shared T) (p : publisher T) : option (outcome (shared T * publisher T)) :=
  match pb_pc p with
  | PTop => Some (Ok (s, pat p (if sh_flag s then PClear else PTf)))
  | PClear => Some (Ok (set_flag s false, pat p PGridLock))
  | PGridLock => lock_g s TPub (fun s => (s, pat p PGrid))
  | PGrid =>
    Some (scans <- graph_scans s ;;
          '(grid, m) <- occ_get_msg (pb_grid p) scans ;;
          Ok (unlock_g (note s (ObMap scans m)), mkPub PGraphLock grid))
  | PGraphLock => lock_g s TPub (fun s => (s, pat p PGraph))
  | PGraph =>
    Some (g <- the_graph s ;;
          ms <- graph_get_msg g [] ;;
          Ok (unlock_g (note s (ObMarkers g ms)), pat p PTf))
  | PTf => Some (Ok (s, pat p (match sh_scans s with [] => PTop | _ => PPoseLock end)))
  | PPoseLock => lock_p s TPub (fun s => (s, pat p PReadRobot))
  | PReadRobot => Some (Ok (s, pat p (PReadOdom (sh_robot s))))
  | PReadOdom r => Some (Ok (unlock_p s, pat p (PSend r (sh_odom s))))
  | PSend r o => Some (Ok (note s (ObTf r o (map_to_odom r o)), pat p PTop))
  end.

(** ** The node *)

(** Lines 48-143. *)
Definition mapper_init : outcome (mapper T) :=
  f <- (match cf_filter cf with
        | None => Ok None
        | Some (mn, mx, mo) => f <- filter_new mn mx mo ;; Ok (Some f)
        end) ;;
  let s0 := mkShared [] [] [] false None None pose0 pose0 (- (nlit 1 2)) (cf_enable cf) true None [] in
  let s1 := match cf_file cf with
            | None => s0
            | Some file => set_flag (set_init (load_graph s0 file) false) true
            end in
  Ok (mkMapper s1
        (mkSpin SIdle (cf_range_max cf) "" pose0 false None f)
        (mkLooper LSleep 0 0 solver_new)
        (mkPub PTop (occ_new (cf_resolution cf) (cf_occ_thresh cf)))).

(** A schedule is a list of these. *)
Inductive label : Type :=
| Deliver (e : event T)
| Spin
| Loop
| Pub.

Definition step (l : label) (m : mapper T) : option (outcome (mapper T)) :=
  match l with
  | Deliver e =>
    option_map (fun o => '(s, sp) <- o ;; Ok (mkMapper s sp (mp_loop m) (mp_pub m)))
      (deliver (mp_sh m) (mp_spin m) e)
  | Spin =>
    option_map (fun o => '(s, sp) <- o ;; Ok (mkMapper s sp (mp_loop m) (mp_pub m)))
      (spin_step (mp_sh m) (mp_spin m))
  | Loop =>
    option_map (fun o => '(s, l) <- o ;; Ok (mkMapper s (mp_spin m) l (mp_pub m)))
      (loop_step (mp_sh m) (mp_loop m))
  | Pub =>
    option_map (fun o => '(s, p) <- o ;; Ok (mkMapper s (mp_spin m) (mp_loop m) p))
      (pub_step (mp_sh m) (mp_pub m))
  end.

(** Running a schedule; labels that are not enabled are skipped. *)
Fixpoint exec (m : mapper T) (ls : list label) : outcome (mapper T) :=
  match ls with
  | [] => Ok m
  | l :: rest =>
    match step l m with
    | None => exec m rest
    | Some o => m' <- o ;; exec m' rest
    end
  end.

Definition run (ls : list label) : outcome (mapper T) := m <- mapper_init ;; exec m ls.

End Mapper.
Arguments label T : clear implicits.
Arguments lat {T} l pc.
Arguments next_scan {T} l num new.
Arguments after_candidate {T} l c.
