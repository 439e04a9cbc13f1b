(** Specification vocabulary: maps that are carried from session to session. *)

From Coq Require Import ZArith List Bool.
From Verif Require Import Outcome Arith ScanModel ConstraintModel GraphModel MapperModel SpecMapper SpecMapper4 SpecGraph.
Import ListNotations.

Section Spec.
Context {T : Type} {A : Arith T}.

(** During a session fewer than 2^31 scans are added, every map loaded is in
    [files], and [extra] holds of every step. *)
Definition session_step (files : list (bag_msg T) -> Prop) (extra : mapper T -> label T -> Prop) (m : mapper T) (l : label T) : Prop :=
  (num_scans (mp_sh m) < 2 ^ 31)%Z /\ extra m l /\
  (l = Spin -> forall file, sp_pc (mp_spin m) = SLoad file -> files file).

(** The map files there are after [n] sessions: each session starts without a
    map or with the file of an earlier one, and loads only such files.  Every
    session has its own parameters.  A file that is read back has the messages
    that were written, in the same order within each topic. *)
Fixpoint saved_in (extra : mapper T -> label T -> Prop) (n : nat) : list (bag_msg T) -> Prop :=
  match n with
  | O => fun _ => False
  | S n => fun file => saved_in extra n file \/
      exists cf m written,
        (0 <= cf_depth cf)%Z /\ search_in_range (en_search cf) /\
        (forall f, cf_file cf = Some f -> saved_in extra n f) /\
        reach_if cf (session_step (saved_in extra n) extra) m /\
        In (ObSave written) (sh_trace (mp_sh m)) /\ same_topics file written
  end.

(** A map is loaded only while the loop closure thread sleeps. *)
Definition loads_asleep (m : mapper T) (l : label T) : Prop :=
  l = Spin -> forall file, sp_pc (mp_spin m) = SLoad file -> lp_pc (mp_loop m) = LSleep.

(** Two graphs with the same scans and constraints. *)
Definition same_graph (g g' : graph T) : Prop :=
  Forall2 same_scan (gr_scans g) (gr_scans g') /\ gr_constraints g = gr_constraints g'.

(** [file] was written while the graph was [g]. *)
Definition saved_when (cf : config T) (ok : mapper T -> label T -> Prop) (file : list (bag_msg T)) (g : graph T) : Prop :=
  exists m m', reach_if cf ok m /\ ok m Spin /\ the_graph cf (mp_sh m) = Ok g /\ step cf Spin m = Some (Ok m') /\
    sh_trace (mp_sh m') = ObSave file :: sh_trace (mp_sh m) /\ the_graph cf (mp_sh m') = Ok g.

End Spec.
