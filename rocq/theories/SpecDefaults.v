(** Specification for C179: a node that maps, and what the documented search of
    the scan matcher may return. *)

From Coq Require Import Reals ZArith List Bool.
From Verif Require Import Outcome Arith TypesModel MapperModel.
Import ListNotations.

Section Spec.
Context {T : Type}.

(** A laser callback that used its message ended. *)
Definition used (o : obs T) : bool := match o with ObPoses _ _ => true | _ => false end.
Definition messages_used (m : mapper T) : nat := List.length (filter used (sh_trace (mp_sh m))).

(** A laser callback has put its scan into the map and has still to store the poses. *)
Definition finishing (m : mapper T) : nat :=
  match sp_pc (mp_spin m) with SPoseLock _ _ _ | SPoseWrite _ _ _ => 1 | _ => 0 end.

(** The node maps: it needs no initial pose and takes none, it does not
    localize against the map, and each message it uses ends up as a scan of the map. *)
Definition maps (m : mapper T) : Prop :=
  sh_enable (mp_sh m) = true /\ sh_init (mp_sh m) = true /\ sp_filter (mp_spin m) = None /\
  (forall r o, ~ In (ObInit r o) (sh_trace (mp_sh m))) /\
  (forall p o, sp_pc (mp_spin m) <> STrack p o) /\ (forall p o n d, sp_pc (mp_spin m) <> SFilter p o n d) /\
  List.length (sh_scans (mp_sh m)) = (messages_used m + finishing m)%nat.
End Spec.

Local Open Scope R_scope.
(** Within 5 cm along each axis and 0.1 rad. *)
Definition small_correction (p : pose R) : Prop :=
  Rabs (pox p) <= 5 / 100 /\ Rabs (poy p) <= 5 / 100 /\ Rabs (poth p) <= 1 / 10.
