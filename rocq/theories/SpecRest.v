(** What it means that the node is at rest. *)

From Coq Require Import ZArith List Bool String.
From Verif Require Import Outcome Arith TypesModel ScanModel ConstraintModel MatcherModel MapperModel.
Import ListNotations.

Section Spec.
Context {T : Type} {A : Arith T}.

(** Everything the threads share but the mutexes and what was published. *)
Record same_state (s s' : shared T) : Prop := {
  ss_heap : sh_heap s' = sh_heap s;
  ss_scans : sh_scans s' = sh_scans s;
  ss_cons : sh_cons s' = sh_cons s;
  ss_flag : sh_flag s' = sh_flag s;
  ss_odom : sh_odom s' = sh_odom s;
  ss_robot : sh_robot s' = sh_robot s;
  ss_typical : sh_typical s' = sh_typical s;
  ss_enable : sh_enable s' = sh_enable s;
  ss_init : sh_init s' = sh_init s;
  ss_global : sh_global s' = sh_global s
}.

(** From the moment [N] on nothing changes, no update is waiting to be published
    and nothing is published but the same transform again and again. *)
Definition at_rest (st : nat -> mapper T) (N : nat) : Prop :=
  sh_flag (mp_sh (st N)) = false /\
  exists tf, forall n, (N <= n)%nat -> same_state (mp_sh (st N)) (mp_sh (st n)) /\
    (sh_trace (mp_sh (st (S n))) = sh_trace (mp_sh (st n)) \/
     sh_trace (mp_sh (st (S n))) = ObTf (sh_robot (mp_sh (st N))) (sh_odom (mp_sh (st N))) tf :: sh_trace (mp_sh (st n))).

(** No message is delivered and no service is called any more. *)
Definition silent_from (lb : nat -> label T) (n0 : nat) : Prop := forall n e, (n0 <= n)%nat -> lb n <> Deliver e.

End Spec.
