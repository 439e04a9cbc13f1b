(** Specification vocabulary: which messages a run handled, and what it made of them. *)

From Coq Require Import ZArith List Bool.
From Verif Require Import Outcome Arith TypesModel MapperModel.
Import ListNotations.

Section Timing.
Context {T : Type} {A : Arith T}.
Context (cf : config T).

(** No callback is in progress. *)
Definition at_rest (m : mapper T) : Prop := sp_pc (mp_spin m) = SIdle.

(** The messages and requests for which a callback started, in order. *)
Fixpoint handled_from (m : mapper T) (ls : list (label T)) : list (event T) :=
  match ls with
  | [] => []
  | l :: rest =>
    match step cf l m with
    | None => handled_from m rest
    | Some (Ok m') => match l with Deliver e => e :: handled_from m' rest | _ => handled_from m' rest end
    | Some (Fault _) => []
    end
  end.
Definition handled (ls : list (label T)) : list (event T) :=
  match mapper_init cf with Ok m => handled_from m ls | Fault _ => [] end.

(** The loop closure thread has accepted no match. *)
Definition no_closure (m : mapper T) : Prop := forall i j score typical, ~ In (ObMatch i j score typical true) (sh_trace (mp_sh m)).

(** Mapping is on from the start, is never switched off, and there is no particle filter. *)
Definition always_mapping (ls : list (label T)) : Prop :=
  cf_enable cf = true /\ cf_filter cf = None /\
  forall a file, In (Deliver (EvConfigure a file)) ls -> Z.testbit a 0 = true \/ Z.testbit a 1 = false.
(** Mapping is off from the start and never switched on. *)
Definition always_localizing (ls : list (label T)) : Prop :=
  cf_enable cf = false /\ forall a file, In (Deliver (EvConfigure a file)) ls -> Z.testbit a 0 = false.

(** The same map, the same poses, the same filter. *)
Definition same_result (m m' : mapper T) : Prop :=
  sh_heap (mp_sh m') = sh_heap (mp_sh m) /\ sh_scans (mp_sh m') = sh_scans (mp_sh m) /\ sh_cons (mp_sh m') = sh_cons (mp_sh m) /\
  sh_robot (mp_sh m') = sh_robot (mp_sh m) /\ sh_odom (mp_sh m') = sh_odom (mp_sh m) /\ sh_init (mp_sh m') = sh_init (mp_sh m) /\
  sh_typical (mp_sh m') = sh_typical (mp_sh m) /\ mp_spin m' = mp_spin m.
End Timing.
