(** Specification vocabulary: how the graph of the node grows. *)

From Coq Require Import ZArith List Bool.
From Verif Require Import Outcome Arith TypesModel ScanModel ConstraintModel SolverModel GraphModel MapperModel SpecMapper.
Import ListNotations.

Section Spec.
Context {T : Type} {A : Arith T}.

(** A graph that has grown out of another one: the scans are still there, in the
    same places, with the same ids and points (they may have moved); the
    constraints are still there, unchanged. *)
Definition extends (g g' : graph T) : Prop :=
  exists moved scans cs, only_poses (gr_scans g) moved /\ gr_scans g' = moved ++ scans /\
    gr_constraints g' = gr_constraints g ++ cs.
(** Nothing was loaded between two states. *)
Definition no_load_since (m m' : mapper T) : Prop :=
  exists new, sh_trace (mp_sh m') = new ++ sh_trace (mp_sh m) /\ ~ In ObLoad new.

(** The constraints that are not loop closures join scan 1, 2, 3, ... to an
    earlier scan each. *)
Definition chain (g : graph T) : list (constraint T) := filter (fun c => negb (c_switchable c)) (gr_constraints g).
Definition spanning (g : graph T) : Prop :=
  numbered (gr_scans g) /\
  map c_end (chain g) = map Z.of_nat (seq 1 (List.length (gr_scans g) - 1)) /\
  Forall (fun c => 0 <= c_begin c < c_end c)%Z (chain g).
(** Every scan can be reached from the first one along constraints. *)
Inductive linked (g : graph T) : Z -> Prop :=
| linked_first : linked g 0
| linked_forward c : In c (gr_constraints g) -> linked g (c_begin c) -> linked g (c_end c)
| linked_backward c : In c (gr_constraints g) -> linked g (c_end c) -> linked g (c_begin c).
(** Fewer than 2^31 scans, and the maps loaded are of this kind. *)
Definition chained (cf : config T) (m : mapper T) (l : label T) : Prop :=
  (num_scans (mp_sh m) < 2 ^ 31)%Z /\
  (l = Spin -> forall file, sp_pc (mp_spin m) = SLoad file -> spanning (graph_load (cf_use_bary cf) file)).
Definition chained_start (cf : config T) : Prop :=
  forall file, cf_file cf = Some file -> spanning (graph_load (cf_use_bary cf) file).

(** The pose of the first scan of the graph. *)
Definition first_pose (s : shared T) : option (pose T) :=
  match sh_scans s with [] => None | p :: _ => option_map s_pose (nth_error (sh_heap s) p) end.

(** Fewer than 2^31 scans and no map is loaded. *)
Definition unloaded (m : mapper T) (l : label T) : Prop :=
  (num_scans (mp_sh m) < 2 ^ 31)%Z /\ (l = Spin -> forall file, sp_pc (mp_spin m) <> SLoad file).

(** A laser callback has added the constraint of its scan but not the scan. *)
Definition half_added (m : mapper T) : Prop :=
  (exists p odom, sp_pc (mp_spin m) = SScanLock p odom) \/ (exists p odom, sp_pc (mp_spin m) = SScanPush p odom).
(** The optimizer is about to run. *)
Definition optimizing (m : mapper T) : Prop := lp_pc (mp_loop m) = LOptRun.
(** Also: the optimizer does not start while a scan is half added. *)
Definition separate (m : mapper T) (l : label T) : Prop :=
  unloaded m l /\ (l = Loop -> lp_pc (mp_loop m) = LOptLock -> ~ half_added m).

(** A step adds or removes scans or constraints of the graph; it changes a scan
    that is in the graph; it changes the pair of poses the publisher reads. *)
Definition graph_changed (m m' : mapper T) : Prop := sh_scans (mp_sh m') <> sh_scans (mp_sh m) \/ sh_cons (mp_sh m') <> sh_cons (mp_sh m).
Definition scan_changed (m m' : mapper T) (p : nat) : Prop :=
  In p (sh_scans (mp_sh m)) /\ nth_error (sh_heap (mp_sh m')) p <> nth_error (sh_heap (mp_sh m)) p.
Definition poses_changed (m m' : mapper T) : Prop := sh_robot (mp_sh m') <> sh_robot (mp_sh m) \/ sh_odom (mp_sh m') <> sh_odom (mp_sh m).
(** The two statements of the initial pose callback that store the poses (ndt_mapper.cpp:259-260). *)
Definition initial_pose_stored (m : mapper T) : Prop :=
  (exists r o, sp_pc (mp_spin m) = SInitRobot r o) \/ (exists r o, sp_pc (mp_spin m) = SInitOdom r o).

End Spec.
