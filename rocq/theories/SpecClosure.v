(** Passes of the loop closure thread and loop closures that wait for an
    optimisation (C157). *)

From Coq Require Import ZArith List.
From Verif Require Import Outcome Arith TypesModel MapperModel SpecMapper SpecMapper2.
Import ListNotations.

Section Spec.
Context {T : Type} {A : Arith T}.
Context (cf : config T).

Definition sleeps (m : mapper T) : Prop := lp_pc (mp_loop m) = LSleep.

(** Under way: the thread has woken up in [m0] and does not sleep since; the
    other threads may run in between. *)
Inductive under_way (m0 : mapper T) : mapper T -> Prop :=
| woken m : sleeps m0 -> step cf Loop m0 = Some (Ok m) -> ~ sleeps m -> under_way m0 m
| goes_on m l m' : under_way m0 m -> no_load m l -> step cf l m = Some (Ok m') -> ~ sleeps m' -> under_way m0 m'.
(** A whole pass, from sleep to sleep. *)
Definition pass (m0 m' : mapper T) : Prop := exists m, under_way m0 m /\ no_load m Loop /\ step cf Loop m = Some (Ok m') /\ sleeps m'.

(** With [n] scans, an optimisation is due: loop closures have been found since
    the last one, and more than the given number of scans have been added. *)
Definition due (limit n : Z) (tr : list (obs T)) : Prop := closed_since tr /\ (limit < n - last_opt tr)%Z.

(** What was observed between two states. *)
Definition meanwhile (m m' : mapper T) (o : obs T) : Prop := exists new, sh_trace (mp_sh m') = new ++ sh_trace (mp_sh m) /\ In o new.
End Spec.
