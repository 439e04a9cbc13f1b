(** Specification vocabulary: what a script leaves alone. *)

From Coq Require Import ZArith List.
From Verif Require Import Outcome Arith TypesModel GraphModel MapperModel SpecMapper.

(** Poses, filter, thresholds, mutexes and the two other threads. *)
Definition rest_untouched {T} (m m' : mapper T) : Prop :=
  same_poses (mp_sh m) (mp_sh m') /\ sp_filter (mp_spin m') = sp_filter (mp_spin m) /\
  sh_typical (mp_sh m') = sh_typical (mp_sh m) /\ sh_global (mp_sh m') = sh_global (mp_sh m) /\
  mutexes m' = mutexes m /\ mp_loop m' = mp_loop m /\ mp_pub m' = mp_pub m /\ ~ busy (mp_spin m').
