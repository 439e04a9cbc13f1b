(** Further definitions for the properties of the node. *)

From Coq Require Import ZArith List Bool String.
From Verif Require Import Outcome Arith SpecOrigin TypesModel ScanModel MatcherModel ConstraintModel SolverModel GraphModel
  OccGridModel MotionModel FilterModel LaserModel MapperModel SpecMapper.
Import ListNotations.

Section Spec7.
Context {T : Type} {A : Arith T}.

(** The scan indices the loop closure thread is about to read. *)
Inductive reads (m : mapper T) : nat -> Prop :=
| reads_scan num new : lp_pc (mp_loop m) = LFetch num new -> (0 <= lp_done (mp_loop m))%Z -> reads m (Z.to_nat (lp_done (mp_loop m)))
| reads_candidate c i : lp_pc (mp_loop m) = LRegion c i -> reads m i.
(** It is about to use the global matcher. *)
Definition matching (m : mapper T) : Prop :=
  (exists c i, lp_pc (mp_loop m) = LRegion c i) \/ (exists c i cand, lp_pc (mp_loop m) = LMatch c i cand).
(** The laser callback is about to use a matcher. *)
Definition laser_matching (m : mapper T) : Prop :=
  (exists p odom n d, sp_pc (mp_spin m) = SFilter p odom n d) \/ (exists p odom, sp_pc (mp_spin m) = SMatch p odom) \/
  (exists p odom, sp_pc (mp_spin m) = STrack p odom).

(** Maps are loaded only after the first laser message. *)
Definition warm (m : mapper T) (l : label T) : Prop :=
  l = Spin -> forall file, sp_pc (mp_spin m) = SLoad file -> sh_global (mp_sh m) <> None.
(** No map is loaded. *)
Definition no_load (m : mapper T) (l : label T) : Prop :=
  (num_scans (mp_sh m) < 2 ^ 64)%Z /\ (l = Spin -> forall file, sp_pc (mp_spin m) <> SLoad file).
(** No request arrives. *)
Definition no_request (m : mapper T) (l : label T) : Prop := forall a file, l <> Deliver (EvConfigure a file).

(** The global matcher holds the NDT of all scans of the graph. *)
Definition whole_map (cf : config T) (m : mapper T) : Prop :=
  sh_global (mp_sh m) = None \/
  exists r scans g, graph_scans (mp_sh m) = Ok scans /\ add_scans (en_eig cf) (en_global cf r) scans = Ok g /\
    sh_global (mp_sh m) = Some g.

(** Poses stored together: initial values, or by one callback (the last clause:
    an initial pose whose callback has stored both and is about to return). *)
Definition stored_together (m : mapper T) (r o : pose T) : Prop :=
  (r = origin /\ o = origin) \/ In (ObPoses r o) (sh_trace (mp_sh m)) \/ In (ObInit r o) (sh_trace (mp_sh m)) \/
  sp_pc (mp_spin m) = SInitDone r o.
(** An initial pose is being stored while the publisher reads the poses. *)
Definition torn (m : mapper T) : Prop :=
  ((exists r o, sp_pc (mp_spin m) = SInitRobot r o) \/ (exists r o, sp_pc (mp_spin m) = SInitOdom r o)) /\
  (pb_pc (mp_pub m) = PReadRobot \/ exists r, pb_pc (mp_pub m) = PReadOdom r).

(** Scans at the last optimisation, and whether loop closures were added since. *)
Fixpoint last_opt (tr : list (obs T)) : Z :=
  match tr with [] => 0%Z | ObOptimize n :: _ => Z.of_nat n | _ :: tr => last_opt tr end.
Fixpoint closed_since (tr : list (obs T)) : Prop :=
  match tr with [] => False | ObOptimize _ :: _ => False | ObConstraint ALoop _ :: _ => True | _ :: tr => closed_since tr end.
Definition cadence (limit : Z) (tr : list (obs T)) : Prop :=
  forall newer n older, tr = newer ++ ObOptimize n :: older ->
    closed_since older /\ (limit < Z.of_nat n - last_opt older)%Z.
End Spec7.

Section Spec8.
Context {T : Type} {A : Arith T}.

(** The scans of the last published map and the last published graph. *)
Fixpoint last_map (tr : list (obs T)) : option (list (scan T)) :=
  match tr with [] => None | ObMap scans _ :: _ => Some scans | _ :: tr => last_map tr end.
Fixpoint last_markers (tr : list (obs T)) : option (graph T) :=
  match tr with [] => None | ObMarkers g _ :: _ => Some g | _ :: tr => last_markers tr end.
(** What was published last is the current graph (nothing published: empty). *)
Definition map_current (s : shared T) : Prop :=
  match last_map (sh_trace s) with Some scans => graph_scans s = Ok scans | None => sh_scans s = [] end.
Definition markers_current (cf : config T) (s : shared T) : Prop :=
  match last_markers (sh_trace s) with Some g => the_graph cf s = Ok g | None => sh_scans s = [] /\ sh_cons s = [] end.
(** An initial pose was added to the graph since. *)
Fixpoint pose_since_map (tr : list (obs T)) : Prop :=
  match tr with [] => False | ObMap _ _ :: _ => False | ObScan APose _ :: _ => True | _ :: tr => pose_since_map tr end.
Fixpoint pose_since_markers (tr : list (obs T)) : Prop :=
  match tr with [] => False | ObMarkers _ _ :: _ => False | ObScan APose _ :: _ => True | _ :: tr => pose_since_markers tr end.

(** A loop closure is between moving its scan and setting the update flag. *)
Definition closing (m : mapper T) : Prop :=
  match lp_pc (mp_loop m) with LMake _ _ _ _ | LPushLock _ _ | LPush _ _ | LFlag _ => True | _ => False end.
(** No callback is running, no loop closure is being added, and the publisher is
    at the top of its loop. *)
Definition quiescent (m : mapper T) : Prop :=
  sp_pc (mp_spin m) = SIdle /\ ~ closing m /\ pb_pc (mp_pub m) = PTop.
End Spec8.

Section Spec9.
Context {T : Type} {A : Arith T}.

(** Every score the laser callback smooths into the typical response satisfies [Q]. *)
Definition scored (cf : config T) (Q : T -> Prop) (m : mapper T) (l : label T) : Prop :=
  l = Spin -> forall p odom sc scans w k k' score corr cov,
    sp_pc (mp_spin m) = SMatch p odom -> nth_error (sh_heap (mp_sh m)) p = Some sc -> graph_scans (mp_sh m) = Ok scans ->
    rolling_window (cf_depth cf) scans = Ok w -> sp_local (mp_spin m) = Some k -> add_scans (en_eig cf) (matcher_reset k) w = Ok k' ->
    match_scan (en_fuel cf) k' sc origin (en_garbage cf) = Ok (score, corr, cov) -> Q score.

(** Only laser messages are processed, without loop closure. *)
Definition laser_only (m : mapper T) (l : label T) : Prop :=
  match l with Deliver (EvLaser _) | Spin | Pub => True | _ => False end.

(** The loop closure thread is not in the middle of accepting a candidate. *)
Definition undecided (m : mapper T) : Prop :=
  match lp_pc (mp_loop m) with LCorrect _ _ _ _ _ | LMake _ _ _ _ | LPushLock _ _ | LPush _ _ => False | _ => True end.
Definition no_closure (o : obs T) : Prop :=
  match o with ObConstraint ALoop _ | ObMatch _ _ _ _ true => False | _ => True end.

(** The maps loaded during a schedule are well formed. *)
Definition good_loads (cf : config T) (ls : list (label T)) : Prop :=
  forall a file, In (Deliver (EvConfigure a file)) ls -> well_formed (graph_load (cf_use_bary cf) file).
(** A schedule without requests. *)
Definition no_requests (ls : list (label T)) : Prop := forall a file, ~ In (Deliver (EvConfigure a file)) ls.
(** A constraint of the graph ends at a scan that is not there. *)
Definition dangling (s : shared T) : Prop :=
  exists c, In c (sh_cons s) /\ (Z.of_nat (List.length (sh_scans s)) <= c_end c)%Z.
(** The scan of a laser callback whose constraint is already in the graph: 1. *)
Definition pending_scan (pc : spin_pc T) : nat :=
  match pc with SScanLock _ _ | SScanPush _ _ => 1 | _ => 0 end.
End Spec9.
