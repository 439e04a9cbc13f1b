(** The integer parameters of the node, as the constructors read them
    (ndt_mapper.cpp:62, 68-69, 82-83, 88; scan_matcher_ndt.cpp:44;
    particle_filter.cpp:36-51; kd_tree.hpp:87-92). *)

From Coq Require Import ZArith List Bool.
From Verif Require Import Outcome Arith MatcherModel MotionModel FilterModel MapperModel.
Import ListNotations.
Local Open Scope outcome_scope.

(** The values given by the user (declare_parameter<int>).  Both matcher plugins
    have a parameter of their own, "global_scan_matcher.laser_max_beams" and
    "local_scan_matcher.laser_max_beams". *)
Record int_params : Type := mkInts {
  ip_depth : Z;          (* rolling_depth, ndt_mapper.cpp:62 *)
  ip_search_limit : Z;   (* global_search_limit, line 68 *)
  ip_node_limit : Z;     (* optimization_node_limit, line 69 *)
  ip_min : Z;            (* min_particles, line 82 *)
  ip_max : Z;            (* max_particles, line 83 *)
  ip_global_beams : Z;   (* laser_max_beams, scan_matcher_ndt.cpp:44 *)
  ip_local_beams : Z
}.

(** The int is stored in a size_t (ndt_mapper.hpp:84, 89, 91; ndt_mapper.cpp:82-83;
    scan_matcher_ndt.hpp:99): the conversion is modulo 2^64. *)
Definition as_size (v : Z) : Z := wrap64 v.

Section Model.
Context {T : Type} {A : Arith T}.

Definition with_beams (k : matcher T) (n : Z) : matcher T :=
  mkMatcher (k_ndt k) (k_resolution k) (k_ang_res k) (k_ang_size k) (k_lin_res k) (k_lin_size k) n (k_range k).

(** The parameters that are not integers come from [cf]. *)
Definition with_ints (cf : config T) (ip : int_params) : config T :=
  mkConfig T (cf_min_dist cf) (cf_min_rot cf) (as_size (ip_depth ip)) (cf_use_bary cf) (cf_search_size cf)
    (as_size (ip_search_limit ip)) (as_size (ip_node_limit ip))
    (option_map (fun x => (as_size (ip_min ip), as_size (ip_max ip), snd x)) (cf_filter cf))
    (cf_kld_err cf) (cf_kld_z cf) (cf_enable cf) (cf_range_max cf) (cf_resolution cf) (cf_occ_thresh cf) (cf_file cf)
    (en_eig cf) (en_search cf) (en_ceres cf) (en_fuel cf) (en_garbage cf)
    (fun r => with_beams (en_global cf r) (as_size (ip_global_beams ip)))
    (fun r => with_beams (en_local cf r) (as_size (ip_local_beams ip))).

(** std::vector::reserve and assign throw length_error above max_size(), which
    is at most 2^63 - 1.  Simplified: between the exact max_size() and 2^63 - 1,
    and when memory runs out, the real code throws as well; the model assumes
    there is enough memory. *)
Definition vector_fits (n : Z) : outcome unit := if (n <=? 2 ^ 63 - 1)%Z then Ok tt else Fault LibAbort.

(** The constructor of the node: the tree, the two reserves and the two assigns
    of the particle filter, then everything else. *)
Definition node_start (cf : config T) (ip : int_params) : outcome (mapper T) :=
  _ <- (match cf_filter (with_ints cf ip) with
        | None => Ok tt
        | Some (mn, mx, _) => _ <- vector_fits mx ;; _ <- vector_fits mx ;; _ <- vector_fits mx ;; _ <- vector_fits mn ;; vector_fits mn
        end) ;;
  mapper_init (with_ints cf ip).
End Model.
