(** Specification vocabulary for the callbacks of the node and for infinite
    executions. *)

From Coq Require Import ZArith Reals List Bool String.
From Verif Require Import Outcome Arith SpecOrigin TypesModel ScanModel MatcherModel ConstraintModel SolverModel GraphModel
  OccGridModel MotionModel FilterModel LaserModel MapperModel SpecMapper.
Import ListNotations.

Section Spec.
Context {T : Type} {A : Arith T}.

(** The laser messages processed while a schedule runs, oldest first. *)
Fixpoint received_from (cf : config T) (m : mapper T) (ls : list (label T)) : list (laser_ev T) :=
  match ls with
  | [] => []
  | l :: rest =>
    match step cf l m with
    | None => received_from cf m rest
    | Some (Fault _) => []
    | Some (Ok m') =>
      match l with
      | Deliver (EvLaser e) => e :: received_from cf m' rest
      | _ => received_from cf m' rest
      end
    end
  end.
Definition received (cf : config T) (ls : list (label T)) : list (laser_ev T) :=
  match mapper_init cf with Ok m => received_from cf m ls | Fault _ => [] end.

(** The first message for which tf2 knew where the laser is. *)
Definition mounted (e : laser_ev T) : bool := match le_laser e with Some _ => true | None => false end.
Definition first_mounted (es : list (laser_ev T)) : option (laser_ev T) := find mounted es.
(** tf2 does not transform from a frame without name. *)
Definition named (e : laser_ev T) : Prop := mounted e = true -> le_frame e <> EmptyString.

(** The settings of two matchers agree (all but the map they hold). *)
Definition same_settings (k k' : matcher T) : Prop :=
  k_resolution k = k_resolution k' /\ k_ang_res k = k_ang_res k' /\ k_ang_size k = k_ang_size k' /\
  k_lin_res k = k_lin_res k' /\ k_lin_size k = k_lin_size k' /\ k_beams k = k_beams k' /\ k_range k = k_range k'.

(** How many steps of the executor thread a schedule performs. *)
Fixpoint spins (cf : config T) (m : mapper T) (ls : list (label T)) : nat :=
  match ls with
  | [] => 0
  | l :: rest =>
    match step cf l m with
    | None => spins cf m rest
    | Some (Fault _) => match l with Spin => 1 | _ => 0 end
    | Some (Ok m') => match l with Spin => 1 | _ => 0 end + spins cf m' rest
    end
  end.

(** A schedule in which no call arrives. *)
Definition no_calls (ls : list (label T)) : Prop := forall e, ~ In (Deliver e) ls.

(** Infinite executions: at each moment one thread is scheduled; if it can move it
    does (without fault), otherwise nothing happens. *)
Definition lives (cf : config T) (st : nat -> mapper T) (lb : nat -> label T) : Prop :=
  forall n, step cf (lb n) (st n) = Some (Ok (st (S n))) \/ (step cf (lb n) (st n) = None /\ st (S n) = st n).
Definition acts (cf : config T) (st : nat -> mapper T) (lb : nat -> label T) (l : label T) (n : nat) : Prop :=
  lb n = l /\ step cf l (st n) <> None.
Definition often (P : nat -> Prop) : Prop := forall n, exists k, (n <= k)%nat /\ P k.
(** Fair scheduling: a thread that could move infinitely often moves infinitely
    often (so no thread is kept waiting for a mutex forever). *)
Definition fair (cf : config T) (st : nat -> mapper T) (lb : nat -> label T) : Prop :=
  forall t, often (fun n => step cf (thread t) (st n) <> None) -> often (acts cf st lb (thread t)).
(** What is published at a moment: the map, the graph, a transform. *)
Definition map_published (st : nat -> mapper T) (n : nat) : Prop :=
  exists scans g, graph_scans (mp_sh (st n)) = Ok scans /\
    sh_trace (mp_sh (st (S n))) = ObMap scans g :: sh_trace (mp_sh (st n)).
Definition markers_published (cf : config T) (st : nat -> mapper T) (n : nat) : Prop :=
  exists g ms, the_graph cf (mp_sh (st n)) = Ok g /\ sh_trace (mp_sh (st (S n))) = ObMarkers g ms :: sh_trace (mp_sh (st n)).
Definition tf_published (st : nat -> mapper T) (n : nat) : Prop :=
  exists r o tf, sh_trace (mp_sh (st (S n))) = ObTf r o tf :: sh_trace (mp_sh (st n)).
(** A laser callback adds the scan stored at [p] to the graph. *)
Definition scan_added (st : nat -> mapper T) (p n : nat) : Prop :=
  sh_trace (mp_sh (st (S n))) = ObScan ALaser p :: sh_trace (mp_sh (st n)).
(** The loop closure thread looks up the candidates for closing a loop with the
    scan stored at [p]. *)
Definition considered (cf : config T) (st : nat -> mapper T) (lb : nat -> label T) (p : nat) (n : nat) : Prop :=
  acts cf st lb Loop n /\ (exists num new, lp_pc (mp_loop (st n)) = LFetch num new) /\
  nth_error (sh_scans (mp_sh (st n))) (Z.to_nat (lp_done (mp_loop (st n)))) = Some p.

(** The range limit in force once a message was received. *)
Definition limit_after (r : T) (e : laser_ev T) : T := if nlt r nzero then lr_range_max (le_msg e) else r.

(** The message [e] is processed: the laser is known, the robot's pose is known
    at the begin and end of the sweep, it moved enough.  [start] is the odometry
    pose, [guess] the predicted pose of the robot, [pts] the points. *)
Definition accepted (cf : config T) (m : mapper T) (e : laser_ev T) (start : pose_msg T) (guess : pose T) (pts : list (point T)) : Prop :=
  let s := mp_sh m in let sp := mp_spin m in
  sp_pc sp = SIdle /\ sh_init s = true /\ sp_frame sp <> EmptyString /\ le_start e = Some start /\
  guess_pose cf s (from_msg start) = Some guess /\
  exists ns end_, sweep_ns (List.length (lr_ranges (le_msg e))) (le_time_inc e) = Ok ns /\ le_end e ns = Some end_ /\
    scan_points (sp_inverted sp) (limit_after (sp_range_max sp) e) (sp_laser sp) (from_msg start) (from_msg end_) (le_msg e) = Ok pts.

(** A scan object as the callback makes it. *)
Definition fresh_scan (n : Z) (p : pose T) (pts : list (point T)) : scan T :=
  scan_set_points (scan_set_pose (scan_new n) p) pts.

(** The result of matching [sc] with a matcher made from the last scans of the
    graph. *)
Definition matched_locally (cf : config T) (m : mapper T) (sc : scan T) (score : T) (corr : pose T) (cov : mat3 T) : Prop :=
  exists g w k k' u, the_graph cf (mp_sh m) = Ok g /\ rolling_window (cf_depth cf) (gr_scans g) = Ok w /\
    sp_local (mp_spin m) = Some k /\ add_scans (en_eig cf) (matcher_reset k) w = Ok k' /\
    score_scan k' sc = Ok u /\ match_scan (en_fuel cf) k' sc origin (en_garbage cf) = Ok (score, corr, cov).
(** ... with the global matcher. *)
Definition matched_globally (cf : config T) (m : mapper T) (sc : scan T) (score : T) (corr : pose T) (cov : mat3 T) : Prop :=
  exists k, sh_global (mp_sh m) = Some k /\ match_scan (en_fuel cf) k sc origin (en_garbage cf) = Ok (score, corr, cov).

(** The pose moved by a correction. *)
Definition corrected (p c : pose T) : pose T := mkPose (nadd (pox c) (pox p)) (nadd (poy c) (poy p)) (nadd (poth c) (poth p)).

(** The filter after moving by [d], weighing with the global matcher and
    resampling. *)
Definition filtered (cf : config T) (m : mapper T) (e : laser_ev T) (d : vec3 T) (pts : list (point T)) (f' : pfilter T) : Prop :=
  exists k f f1 f2, sh_global (mp_sh m) = Some k /\ sp_filter (mp_spin m) = Some f /\
    filter_update (le_normal e) (v0 d) (v1 d) (v2 d) f = Ok f1 /\
    filter_measure (score_points k pts) f1 = Ok f2 /\
    filter_resample (le_draws e) (cf_kld_err cf) (cf_kld_z cf) f2 = Ok f'.

End Spec.

(** Orientations as quaternions, exactly. *)
Section Quat.
Local Open Scope R_scope.
Definition unit_quat (t : pose_msg R) : Prop :=
  ps_qx t * ps_qx t + ps_qy t * ps_qy t + ps_qz t * ps_qz t + ps_qw t * ps_qw t = 1.
(** The third component of the rotated z axis. *)
Definition z_up (t : pose_msg R) : R :=
  ps_qw t * ps_qw t + ps_qz t * ps_qz t - ps_qx t * ps_qx t - ps_qy t * ps_qy t.
End Quat.
