(** Specification vocabulary: which map localization uses, and before it. *)

From Coq Require Import ZArith List Bool String.
From Verif Require Import Outcome Arith MatcherModel GraphModel MapperModel SpecMapper SpecMapper2.
Import ListNotations.

Section Spec.
Context {T : Type} {A : Arith T}.

(** No request switches mapping on (bit 0 of the action). *)
Definition no_enable (l : label T) : Prop :=
  forall a file, l = Deliver (EvConfigure a file) -> Z.testbit a 0 = false.
(** The robot localizes: mapping is off and the loop closure thread has noticed. *)
Definition localizing (m : mapper T) : Prop :=
  sh_enable (mp_sh m) = false /\ lp_pc (mp_loop m) = LSleep.
(** No request switches mapping on, and maps are loaded only while no laser
    message has been seen. *)
Definition loads_first (m : mapper T) (l : label T) : Prop :=
  no_enable l /\ (l = Spin -> forall file, sp_pc (mp_spin m) = SLoad file -> sh_global (mp_sh m) = None).
End Spec.
