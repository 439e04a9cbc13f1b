(** Specification vocabulary: mapping is off. *)

From Coq Require Import ZArith List Bool.
From Verif Require Import Outcome Arith ScanModel GraphModel OccGridModel MapperModel SpecMapper.
Import ListNotations.

Section Spec.
Context {T : Type} {A : Arith T}.

(** No request switches mapping on or loads a map (bits 0 and 2 of the action). *)
Definition leaves_map (l : label T) : Prop :=
  forall a file, l = Deliver (EvConfigure a file) -> Z.testbit a 0 = false /\ Z.testbit a 2 = false.
(** No callback is loading a map. *)
Definition not_loading (m : mapper T) : Prop :=
  match sp_pc (mp_spin m) with SLoadLock _ | SLoad _ => False | _ => True end.
(** Mapping is switched off, and the loop closure thread has noticed: it is
    asleep. *)
Definition mapping_off (m : mapper T) : Prop :=
  sh_enable (mp_sh m) = false /\ lp_pc (mp_loop m) = LSleep /\ not_loading m.

(** Everything published or saved since [tr] shows the graph [g]. *)
Definition shows (g : graph T) (o : obs T) : Prop :=
  match o with
  | ObMap scans _ => scans = gr_scans g
  | ObMarkers g' _ => g' = g
  | ObSave file => file = graph_save g
  | ObScan _ _ | ObConstraint _ _ | ObMove _ _ | ObOptimize _ => False
  | _ => True
  end.

End Spec.
