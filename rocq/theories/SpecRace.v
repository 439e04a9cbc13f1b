(** Specification vocabulary: caches that tell the truth. *)

From Coq Require Import ZArith List Bool.
From Verif Require Import Outcome Arith TypesModel ScanModel GraphModel MapperModel ScanRaceModel.
Import ListNotations.

Section Spec.
Context {T : Type} {A : Arith T}.

(** A scan with the same id, pose and points whose barycenter was never asked for. *)
Definition recomputed (s : scan T) : scan T := scan_set_points (scan_set_pose (scan_new (s_id s)) (s_pose s)) (s_pts s).

(** The barycenter the scan hands out is that of its pose and points. *)
Definition fresh (s : scan T) : Prop := fst (scan_get_bary s) = fst (scan_get_bary (recomputed s)).

(** No call is in progress. *)
Definition quiet (r : racing T) : Prop := ra_set r = None /\ ra_get r = RIdle.

(** Executions in which a call only starts while no other is in progress. *)
Definition starts (a : micro T) : bool := match a with MSetFlag _ | MGetTest => true | _ => false end.
Inductive serial : racing T -> list (micro T) -> racing T -> Prop :=
| serial_nil r : serial r [] r
| serial_step r a r1 l r' : (starts a = true -> quiet r) -> micro_step r a = Some r1 -> serial r1 l r' -> serial r (a :: l) r'.

(** Executions of the node in which, between two steps, the cached barycenter of
    any scan may be asked for (as findNearest does). *)
Inductive caching (cf : config T) : mapper T -> Prop :=
| caching_init m : mapper_init cf = Ok m -> caching cf m
| caching_step l m m' : caching cf m -> step cf l m = Some (Ok m') -> caching cf m'
| caching_ask m p sc : caching cf m -> nth_error (sh_heap (mp_sh m)) p = Some sc ->
    caching cf (mkMapper (put (mp_sh m) p (snd (scan_get_bary sc))) (mp_spin m) (mp_loop m) (mp_pub m)).

(** The same graph without caches. *)
Definition uncached (g : graph T) : graph T := mkGraph (gr_use_bary g) (map recomputed (gr_scans g)) (gr_constraints g).

End Spec.
