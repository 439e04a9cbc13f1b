(** Specification vocabulary: scans moved by loop closures. *)

From Coq Require Import ZArith List.
From Verif Require Import Arith TypesModel ScanModel ConstraintModel GraphModel MapperModel SpecMapper4 SpecExact.
Import ListNotations.

Section Closed.
Context {T : Type} {A : Arith T}.
Context (P : constraint T -> pose T -> pose T -> Prop).

(** A loop closure corrected the scan object [p]. *)
Definition moved (tr : list (obs T)) (p : nat) : Prop := exists q, In (ObMove p q) tr.

(** The constraint describes the motion between its scans, or one of them, not among
    the first ones, was moved by a loop closure. *)
Definition says_unless_moved (depth : Z) (s : shared T) (c : constraint T) : Prop :=
  (0 <= c_begin c)%Z /\ (0 <= c_end c)%Z /\
  exists p q a b, nth_error (sh_scans s) (Z.to_nat (c_begin c)) = Some p /\ nth_error (sh_scans s) (Z.to_nat (c_end c)) = Some q /\
    nth_error (sh_heap s) p = Some a /\ nth_error (sh_heap s) q = Some b /\
    (P c (s_pose a) (s_pose b) \/ ((depth < c_begin c)%Z /\ moved (sh_trace s) p) \/ ((depth < c_end c)%Z /\ moved (sh_trace s) q)).

(** Steps other than the optimizer, and other than loading maps while the loop
    closure thread is at work or maps that do not fit. *)
Definition unoptimized (cf : config T) (m : mapper T) (l : label T) : Prop :=
  chained cf m l /\ (l = Loop -> lp_pc (mp_loop m) <> LOptRun) /\
  (l = Spin -> forall file, sp_pc (mp_spin m) = SLoad file -> lp_pc (mp_loop m) = LSleep /\ fits P (graph_load (cf_use_bary cf) file)).
End Closed.
