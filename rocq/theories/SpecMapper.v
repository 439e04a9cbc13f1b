(** Specification vocabulary for the node: what may change, reachable states,
    questions about the ghost trace. *)

From Coq Require Import ZArith List Bool.
From Verif Require Import Outcome Arith TypesModel ScanModel MatcherModel ConstraintModel
  SolverModel GraphModel OccGridModel MotionModel FilterModel LaserModel MapperModel.
Import ListNotations.

Section Spec.
Context {T : Type} {A : Arith T}.

(** Nothing but the global scan matcher differs. *)
Definition untouched (s s' : shared T) : Prop :=
  sh_heap s' = sh_heap s /\ sh_scans s' = sh_scans s /\ sh_cons s' = sh_cons s /\
  sh_flag s' = sh_flag s /\ sh_glock s' = sh_glock s /\ sh_plock s' = sh_plock s /\
  sh_odom s' = sh_odom s /\ sh_robot s' = sh_robot s /\ sh_typical s' = sh_typical s /\
  sh_enable s' = sh_enable s /\ sh_init s' = sh_init s /\ sh_trace s' = sh_trace s.

(** A callback is being processed. *)
Definition busy (sp : spin T) : Prop := sp_pc sp <> SIdle.

(** The states of the node. *)
Definition reachable (cf : config T) (m : mapper T) : Prop := exists ls, run cf ls = Ok m.

End Spec.

Section Spec2.
Context {T : Type} {A : Arith T}.

(** The tracked poses of the robot are the same. *)
Definition same_poses (s s' : shared T) : Prop := sh_robot s' = sh_robot s /\ sh_odom s' = sh_odom s.
(** The graph (including the scan objects) is the same. *)
Definition same_graph (s s' : shared T) : Prop :=
  sh_heap s' = sh_heap s /\ sh_scans s' = sh_scans s /\ sh_cons s' = sh_cons s.
(** Scan objects keep their id and their points: at most poses changed. *)
Definition only_poses (h h' : list (scan T)) : Prop :=
  Forall2 (fun a b => s_id b = s_id a /\ s_pts b = s_pts a) h h'.

(** The label of a thread. *)
Definition thread (t : tid) : label T := match t with TSpin => Spin | TLoop => Loop | TPub => Pub end.
(** A thread that has something to do but cannot go on. *)
Definition stuck (cf : config T) (t : tid) (m : mapper T) : Prop :=
  step cf (thread t) m = None /\ ~ (t = TSpin /\ sp_pc (mp_spin m) = SIdle).
Definition holds (t : tid) (m : mapper T) : Prop := sh_glock (mp_sh m) = Some t \/ sh_plock (mp_sh m) = Some t.
Definition mutexes (m : mapper T) : option tid * option tid := (sh_glock (mp_sh m), sh_plock (mp_sh m)).

(** Kinds of labels. *)
Definition is_pose (l : label T) : Prop := match l with Deliver (EvPose _) => True | _ => False end.
Definition is_laser (l : label T) : Prop := match l with Deliver (EvLaser _) => True | _ => False end.
Definition is_configure (l : label T) : Prop := match l with Deliver (EvConfigure _ _) => True | _ => False end.
End Spec2.

Section Spec3.
Context {T : Type}.

(** An observation made while laser messages are processed or an initial pose is
    accepted. *)
Definition mapping_obs (o : obs T) : Prop :=
  match o with
  | ObScan _ _ | ObPoses _ _ | ObInit _ _ | ObConstraint ALaser _ | ObConstraint APose _ => True
  | _ => False
  end.

(** A field after a configure request: the meaning of bits 0 and 1. *)
Definition after_mapping_bits {X : Type} (a : Z) (enabled disabled same : X) : X :=
  if Z.testbit a 0 then enabled else if Z.testbit a 1 then disabled else same.
End Spec3.

Section Spec4.
Context {X : Type}.

(** The element before position [i], if any, and the one at [i]. *)
Definition before_and_at (i : nat) (l : list X) : list X :=
  match i with
  | O => firstn 1 l
  | Datatypes.S j => firstn 2 (skipn j l)
  end.
(** The elements from one before to one after position [i]. *)
Definition around (i : nat) (l : list X) : list X :=
  before_and_at i l ++ match nth_error l (i + 1) with Some b => [b] | None => [] end.
End Spec4.

Section Spec5.
Context {T : Type} {A : Arith T}.

(** What is assumed about nanoflann in every arithmetic: it returns indices of
    the points it was given. *)
Definition search_in_range (search : @radius_oracle T) : Prop :=
  forall pts q r i, In i (search pts q r) -> (i < List.length pts)%nat.

(** Scan i has id i; constraints join two scans, the earlier one first. *)
Definition numbered (scans : list (scan T)) : Prop :=
  forall i sc, nth_error scans i = Some sc -> s_id sc = Z.of_nat i.
Definition joins (n : nat) (c : constraint T) : Prop :=
  (0 <= c_begin c < c_end c)%Z /\ (c_end c < Z.of_nat n)%Z.
Definition well_formed (g : graph T) : Prop :=
  numbered (gr_scans g) /\ Forall (joins (List.length (gr_scans g))) (gr_constraints g).

(** States reached by steps that satisfy a condition. *)
Inductive reach_if (cf : config T) (ok : mapper T -> label T -> Prop) : mapper T -> Prop :=
| reach_init m : mapper_init cf = Ok m -> reach_if cf ok m
| reach_step m l m' : reach_if cf ok m -> ok m l -> step cf l m = Some (Ok m') -> reach_if cf ok m'.

(** Fewer than 2^31 scans, and the maps loaded number their scans in order. *)
Definition tame (cf : config T) (m : mapper T) (l : label T) : Prop :=
  (num_scans (mp_sh m) < 2 ^ 31)%Z /\
  (l = Spin -> forall file, sp_pc (mp_spin m) = SLoad file -> numbered (gr_scans (graph_load (cf_use_bary cf) file))).
(** Also: maps are loaded only while the loop closure thread sleeps, and are well
    formed. *)
Definition calm (cf : config T) (m : mapper T) (l : label T) : Prop :=
  (num_scans (mp_sh m) < 2 ^ 31)%Z /\
  (l = Spin -> forall file, sp_pc (mp_spin m) = SLoad file ->
     lp_pc (mp_loop m) = LSleep /\ well_formed (graph_load (cf_use_bary cf) file)).
(** The map file the node starts with, if any, is well formed. *)
Definition good_start (cf : config T) : Prop :=
  forall file, cf_file cf = Some file -> well_formed (graph_load (cf_use_bary cf) file).
Definition numbered_start (cf : config T) : Prop :=
  forall file, cf_file cf = Some file -> numbered (gr_scans (graph_load (cf_use_bary cf) file)).
End Spec5.

Section Spec6.
Context {T : Type} {A : Arith T}.

(** How often scan [d] was matched against a candidate. *)
Definition is_match (d : Z) (o : obs T) : bool :=
  match o with ObMatch d' _ _ _ _ => (d' =? d)%Z | _ => false end.
Definition matches (d : Z) (tr : list (obs T)) : nat := List.length (filter (is_match d) tr).

(** A loop closure constraint is switchable, spans more than [depth] scans, and
    follows an accepted match of its two scans with a finite score below the
    typical response at that time. *)
Definition vetted (depth : Z) (older : list (obs T)) (c : constraint T) : Prop :=
  c_switchable c = true /\ (0 <= c_begin c)%Z /\ (c_begin c + depth < c_end c)%Z /\
  exists score typical, In (ObMatch (c_end c) (c_begin c) score typical true) older /\
    nfinite score = true /\ nlt score typical = true.
Definition closures_vetted (depth : Z) (tr : list (obs T)) : Prop :=
  forall newer c older, tr = newer ++ ObConstraint ALoop c :: older -> vetted depth older c.
(** Scans are matched in order. *)
Definition matches_in_order (tr : list (obs T)) : Prop :=
  forall newer d i score typical ok older, tr = newer ++ ObMatch d i score typical ok :: older ->
    forall d' i' score' typical' ok', In (ObMatch d' i' score' typical' ok') older -> (d' <= d)%Z.
End Spec6.
