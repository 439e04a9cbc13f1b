(** Specification vocabulary: what the integer parameters do. *)

From Coq Require Import ZArith List Bool.
From Verif Require Import Outcome Arith TypesModel MatcherModel GraphModel MapperModel ParamsModel.
Import ListNotations.

(** Values of the C++ type int. *)
Definition int_range (v : Z) : Prop := (- 2 ^ 31 <= v < 2 ^ 31)%Z.
Definition ints_ok (ip : int_params) : Prop :=
  int_range (ip_depth ip) /\ int_range (ip_search_limit ip) /\ int_range (ip_node_limit ip) /\
  int_range (ip_min ip) /\ int_range (ip_max ip) /\ int_range (ip_global_beams ip) /\ int_range (ip_local_beams ip).

Section Spec.
Context {T : Type} {A : Arith T}.

(** Fewer than 2^31 scans. *)
Definition few (m : mapper T) (l : label T) : Prop := (num_scans (mp_sh m) < 2 ^ 31)%Z.

(** The loop closure thread has matched nothing, closed no loop and run no
    optimization. *)
Definition no_closing (tr : list (obs T)) : Prop :=
  (forall d i score typical ok, ~ In (ObMatch d i score typical ok) tr) /\
  (forall c, ~ In (ObConstraint ALoop c) tr) /\ (forall n, ~ In (ObOptimize n) tr).
Definition no_optimization (tr : list (obs T)) : Prop := forall n, ~ In (ObOptimize n) tr.

(** The radius search returns no more points than it was given. *)
Definition search_bounded (search : @radius_oracle T) : Prop :=
  forall pts q r, (List.length (search pts q r) <= List.length pts)%nat.
End Spec.
