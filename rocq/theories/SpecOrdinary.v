(** Specification vocabulary: executions of the node in which all numbers are of an
    ordinary size, in double arithmetic. *)

From Coq Require Import ZArith Reals List Bool String.
From Flocq Require Import Core BinarySingleNaN.
From Verif Require Import Outcome Arith TypesModel ScanModel NdtModel MatcherModel GraphModel MotionModel FilterModel LaserModel MapperModel
  SpecMapper SpecMapper4 SpecSafe SpecPlace64 SpecMapSafe64 SpecWeights64 SpecResample64 SpecFilterSafe64.
Import ListNotations.
Local Open Scope R_scope.

(** A matcher whose cells, range and search windows suit scans within [M] of the
    origin.  The model counts the steps of a search: [fuel] must be enough for the
    windows. *)
Definition matcher_suits (lm : libm) (M : R) (fuel : nat) (k : matcher b64) : Prop :=
  fits_map M k /\ B2R (k_resolution k) <= bpow radix2 400 /\ (0 <= k_beams k)%Z /\
  sane_window M (k_lin_size k) (k_lin_res k) /\ sane_window (bpow radix2 400) (k_ang_size k) (k_ang_res k) /\
  (exists ds, loop_values (A := BA lm) fuel (nopp (Arith := BA lm) (k_lin_size k)) (k_lin_size k) (k_lin_res k) = Ok ds) /\
  (exists ds, loop_values (A := BA lm) fuel (nopp (Arith := BA lm) (k_ang_size k)) (k_ang_size k) (k_ang_res k) = Ok ds).

(** Configurations: rolling_depth is at least 9, a particle filter has from 1 to
    2^40 particles, the matchers suit. *)
Definition suitable (lm : libm) (M : R) (cf : config b64) : Prop :=
  (9 <= cf_depth cf)%Z /\
  match cf_filter cf with Some (mn, mx, _) => (1 <= mn <= mx)%Z /\ (mx <= 2 ^ 40)%Z | None => True end /\
  fresh_matchers cf /\
  (forall r, upto M r -> 0 <= B2R r -> matcher_suits lm M (en_fuel cf) (en_local cf r) /\ matcher_suits lm M (en_fuel cf) (en_global cf r)).

(** The range the laser callback works with: max_range, or what the message says. *)
Definition range_used (m : mapper b64) (e : laser_ev b64) : b64 :=
  if Bltb (sp_range_max (mp_spin m)) (b64_of 0 0) then lr_range_max (le_msg e) else sp_range_max (mp_spin m).

(** Conditions on one step of the node. *)
Record ordinary (lm : libm) (M N P : R) (cf : config b64) (m : mapper b64) (l : label b64) : Prop := mkOrdinary {
  (** As in [careful]: fewer than 2^31 scans, nothing is loaded, neither the
      optimizer nor the publication of the graph starts while a scan is half
      added; the laser is known before the loop closure thread looks at a map. *)
  or_separate : separate m l;
  or_markers : l = Pub -> pb_pc (mp_pub m) = PGraphLock -> ~ half_added m;
  or_started : l = Loop -> lp_pc (mp_loop m) = LCount -> sh_scans (mp_sh m) <> [] -> sh_global (mp_sh m) <> None;
  (** All scans were taken within [M] of the origin and see points within [M] of
      the robot. *)
  or_scans : forall p sc, nth_error (sh_heap (mp_sh m)) p = Some sc ->
    scan_upto M sc /\ upto (bpow radix2 400) (poth (s_pose sc)) /\ (Z.of_nat (List.length (s_pts sc)) <= 2 ^ 52)%Z;
  (** A laser message has readings, a sweep time that fits 64 bits of nanoseconds
      and a range between 0 and [M]. *)
  or_laser : forall e, l = Deliver (EvLaser e) ->
    lr_ranges (le_msg e) <> [] /\
    (exists ns, sweep_ns (A := BA lm) (List.length (lr_ranges (le_msg e))) (le_time_inc e) = Ok ns) /\
    upto M (range_used m e) /\ 0 <= B2R (range_used m e);
  (** A node that only localizes has a map when it learns about the laser. *)
  or_map : forall e, l = Deliver (EvLaser e) -> sp_frame (mp_spin m) = EmptyString -> cf_filter cf <> None \/ sh_enable (mp_sh m) = false ->
    sh_scans (mp_sh m) <> [];
  (** Particles within [P]; noise of at most [N]; scores that are not positive and
      not all zero; a distribution that returns indices of positive weight. *)
  or_particles : forall f, sp_filter (mp_spin m) = Some f -> Forall (particle_upto P) (pf_parts f);
  or_init : forall e f, l = Deliver (EvPose e) -> sp_filter (mp_spin m) = Some f -> forall i mean sigma, upto N (pe_normal e i mean sigma);
  or_step : forall p odom normal draws f g sc, l = Spin -> sp_pc (mp_spin m) = SFilter p odom normal draws ->
    sp_filter (mp_spin m) = Some f -> sh_global (mp_sh m) = Some g -> nth_error (sh_heap (mp_sh m)) p = Some sc ->
    let d := robot_delta (A := BA lm) (sh_robot (mp_sh m)) (s_pose sc) in
    (forall i mean sigma, upto N (normal i mean sigma)) /\
    forall f1, filter_update (A := BA lm) normal (v0 d) (v1 d) (v2 d) f = Ok f1 ->
      op_ok64 f1 (FMeasure (score_points (A := BA lm) g (s_pts sc))) /\
      forall f2, filter_measure (A := BA lm) (score_points (A := BA lm) g (s_pts sc)) f1 = Ok f2 ->
        call_ok64 N f2 (FResample draws (cf_kld_err cf) (cf_kld_z cf))
}.
