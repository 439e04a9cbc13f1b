(** Specification vocabulary: which failures are possible at all. *)

From Coq Require Import ZArith List Bool String.
From Verif Require Import Outcome Arith TypesModel ScanModel NdtModel MatcherModel ConstraintModel SolverModel GraphModel
  OccGridModel MotionModel FilterModel LaserModel MapperModel SpecMapper SpecMapper4.
Import ListNotations.

(** Failures caused by numbers alone: a value that does not fit an integer, a
    set of weights that is no distribution, a search that takes too long.  Not
    among them: reading or writing outside a container, iterators outside their
    range, null pointers, a library that aborts the process. *)
Definition numeric (f : fault) : Prop :=
  match f with BadCast | IntOverflow | BadDistribution | OutOfFuel => True | _ => False end.

Section Spec.
Context {T : Type} {A : Arith T}.

(** An NDT of these scans has fewer than 2^31 cells. *)
Definition cells_fit (k : matcher T) (scans : list (scan T)) : Prop :=
  let b := scans_box (k_range k) scans in
  forall g, ndt_new (k_resolution k) (nsub (b_maxx b) (b_minx b)) (nsub (b_maxy b) (b_miny b)) (b_minx b) (b_miny b) = Ok g ->
    (g_sx g * g_sy g < 2 ^ 31)%Z.

(** The plugins come without an NDT. *)
Definition fresh_matchers (cf : config T) : Prop :=
  forall r, k_ndt (en_local cf r) = None /\ k_ndt (en_global cf r) = None.

(** Conditions on one step of the node. *)
Record careful (cf : config T) (m : mapper T) (l : label T) : Prop := mkCareful {
  (** Fewer than 2^31 scans, nothing is loaded, and the optimizer does not start
      while a scan is half added. *)
  ca_separate : separate m l;
  (** Neither does the publication of the graph. *)
  ca_markers : l = Pub -> pb_pc (mp_pub m) = PGraphLock -> ~ half_added m;
  (** The laser is known before the loop closure thread looks at a map. *)
  ca_started : l = Loop -> lp_pc (mp_loop m) = LCount -> sh_scans (mp_sh m) <> [] -> sh_global (mp_sh m) <> None;
  (** The NDT of consecutive scans of the graph has fewer than 2^31 cells. *)
  ca_cells : forall k scans some, sp_local (mp_spin m) = Some k \/ sh_global (mp_sh m) = Some k \/
      (exists e, l = Deliver (EvLaser e) /\
        k = en_global cf (if nlt (sp_range_max (mp_spin m)) nzero then lr_range_max (le_msg e) else sp_range_max (mp_spin m))) ->
    graph_scans (mp_sh m) = Ok scans -> (exists before after, scans = before ++ some ++ after) -> cells_fit k some;
  (** A scan has at most 2^52 points. *)
  ca_points : forall p sc, nth_error (sh_heap (mp_sh m)) p = Some sc -> (Z.of_nat (List.length (s_pts sc)) <= 2 ^ 52)%Z;
  (** A laser message has readings. *)
  ca_readings : forall e, l = Deliver (EvLaser e) -> lr_ranges (le_msg e) <> [];
  (** What the random distribution returns is the index of a particle. *)
  ca_draws : l = Spin -> forall p odom n draws f, sp_pc (mp_spin m) = SFilter p odom n draws -> sp_filter (mp_spin m) = Some f ->
    Forall (fun i => 0 <= i < Z.of_nat (List.length (pf_parts f)))%Z draws
}.

(** The publisher is about to draw the occupancy grid (see C41). *)
Definition drawing (m : mapper T) (l : label T) : Prop := l = Pub /\ pb_pc (mp_pub m) = PGrid.

(** Parameters: rolling_depth is at least 9, a particle filter has particles. *)
Definition sane (cf : config T) : Prop :=
  (9 <= cf_depth cf)%Z /\ match cf_filter cf with Some (mn, _, _) => (1 <= mn)%Z | None => True end.
End Spec.
