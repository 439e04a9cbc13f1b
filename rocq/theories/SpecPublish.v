(** Specification vocabulary: what mapping and localization have done, leaving
    publishing aside. *)

From Coq Require Import ZArith List Bool.
From Verif Require Import Outcome Arith TypesModel MapperModel.
Import ListNotations.

Section Publish.
Context {T : Type} {A : Arith T}.

(** Observations of the publisher: maps, markers and transforms. *)
Definition published (o : obs T) : bool :=
  match o with ObMap _ _ | ObMarkers _ _ | ObTf _ _ _ => true | _ => false end.

(** The same map, poses and matchers, the same positions of the other two
    threads, and the same history of mapping. *)
Definition same_mapping (m m' : mapper T) : Prop :=
  sh_heap (mp_sh m') = sh_heap (mp_sh m) /\ sh_scans (mp_sh m') = sh_scans (mp_sh m) /\ sh_cons (mp_sh m') = sh_cons (mp_sh m) /\
  sh_robot (mp_sh m') = sh_robot (mp_sh m) /\ sh_odom (mp_sh m') = sh_odom (mp_sh m) /\ sh_enable (mp_sh m') = sh_enable (mp_sh m) /\
  sh_init (mp_sh m') = sh_init (mp_sh m) /\ sh_typical (mp_sh m') = sh_typical (mp_sh m) /\ sh_global (mp_sh m') = sh_global (mp_sh m) /\
  mp_spin m' = mp_spin m /\ mp_loop m' = mp_loop m /\
  filter (fun o => negb (published o)) (sh_trace (mp_sh m')) = filter (fun o => negb (published o)) (sh_trace (mp_sh m)).

(** Other settings of the displayed grid: resolution and occupancy_threshold. *)
Definition with_display (cf : config T) (resolution threshold : T) : config T :=
  mkConfig T (cf_min_dist cf) (cf_min_rot cf) (cf_depth cf) (cf_use_bary cf) (cf_search_size cf) (cf_search_limit cf) (cf_node_limit cf)
    (cf_filter cf) (cf_kld_err cf) (cf_kld_z cf) (cf_enable cf) (cf_range_max cf) resolution threshold (cf_file cf)
    (en_eig cf) (en_search cf) (en_ceres cf) (en_fuel cf) (en_garbage cf) (en_global cf) (en_local cf).

(** [part] is [whole] with some elements left out. *)
Inductive part_of {X : Type} : list X -> list X -> Prop :=
| part_nil : part_of [] []
| part_keep : forall x part whole, part_of part whole -> part_of (x :: part) (x :: whole)
| part_drop : forall x part whole, part_of part whole -> part_of part (x :: whole).
End Publish.
