(** Exact arithmetic: conditions on the data of the laser callback. *)

From Coq Require Import ZArith Reals List Bool String.
From Verif Require Import Outcome Arith TypesModel ScanModel NdtModel MatcherModel LaserModel MapperModel SpecGrid SpecMapper NdtProofs2.
Import ListNotations.
Local Open Scope R_scope.

(** Every matched scan has points, and the points of the scans it is matched
    against are spread out in each cell. *)
Definition measurable (cf : config R) (m : mapper R) (l : label R) : Prop :=
  l = Spin -> forall p odom sc scans w k k' g,
    sp_pc (mp_spin m) = SMatch p odom -> nth_error (sh_heap (mp_sh m)) p = Some sc -> graph_scans (mp_sh m) = Ok scans ->
    rolling_window (cf_depth cf) scans = Ok w -> sp_local (mp_spin m) = Some k -> add_scans (en_eig cf) (matcher_reset k) w = Ok k' ->
    k_ndt k' = Some g ->
    s_pts sc <> [] /\ (g_sx g * g_sy g < 2 ^ 31)%Z /\ spread_in_squares (g_ox g) (g_oy g) (k_resolution k) (moved_points w).

(** The configured matcher: positive resolutions, at least one beam. *)
Definition usable_matcher (k : matcher R) : Prop :=
  0 < k_resolution k /\ 0 < k_ang_res k /\ 0 < k_lin_res k /\ (1 <= k_beams k)%Z.
