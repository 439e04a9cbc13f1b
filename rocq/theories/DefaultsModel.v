(** The node started without any parameter set (ndt_mapper.cpp:59-106,
    scan_matcher_ndt.cpp:37-44).  The arguments are the external code of
    [config]: eigenvalues, radius search, optimizer, loop fuel and the garbage
    in an uninitialised covariance. *)

From Coq Require Import ZArith.
From Verif Require Import Outcome Arith TypesModel MatcherModel MotionModel GraphModel SolverModel FilterModel MapperModel.
Local Open Scope outcome_scope.

Section Model.
Context {T : Type} {A : Arith T}.

(** The defaults of declare_parameter, in the order of [config]:
    minimum_travel_distance (line 60), minimum_travel_rotation (61),
    rolling_depth (62), use_barycenter (66), global_search_size (67),
    global_search_limit (68), optimization_node_limit (69), use_particle_filter
    (71), kld_err and kld_z (84-85; declared and read only with the filter),
    enable_mapping (90), max_range (97), resolution (59), occupancy_threshold
    (103) and map_file (106, the empty string).  Both matchers are
    ScanMatcherNDT (91-92) with the defaults of scan_matcher_ndt.cpp:37-44.
    Not modelled: transform_timeout (65) and the frame names (63-64), which only
    the external transform buffer reads. *)
Definition default_config (eig : mat2 T -> T * T) (search : @radius_oracle T) (ceres : ceres_oracle T)
  (fuel : nat) (garbage : mat3 T) : config T :=
  mkConfig T (nlit 1 10) (nofZ 1) 10 true (nlit 2 10) 3 25 None (nlit 1 100) (nlit 23 10)
    true (nopp (nofZ 1)) (nlit 5 100) (nlit 1 4) None eig search ceres fuel garbage
    matcher_default matcher_default.
End Model.
