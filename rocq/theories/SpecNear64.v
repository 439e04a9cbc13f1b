(** Specification for C183: the search for scans nearby, in double arithmetic. *)

From Coq Require Import ZArith Reals List Bool Sorted.
From Flocq Require Import Core BinarySingleNaN.
From Verif Require Import Outcome Arith TypesModel ScanModel SpecNan.
Import ListNotations.
Local Open Scope R_scope.

(** nanoflann's radiusSearch in double arithmetic: the results are points whose computed
    squared distance compares as less than the radius, nearest first by that
    distance; a point clearly closer than the radius is not missed ([tol]: what the
    rounded distances to the cells of the tree may lose). *)
Definition radius_contract64 (tol : R) (search : list (point b64) -> point b64 -> b64 -> list nat) : Prop :=
  forall pts q r,
    NoDup (search pts q r) /\
    (forall i, In i (search pts q r) -> exists p, nth_error pts i = Some p /\ Bltb (computed_sq p q) r = true) /\
    (forall i p, nth_error pts i = Some p -> is_finite (computed_sq p q) = true -> is_finite r = true ->
       (1 + tol) * B2R (computed_sq p q) < B2R r -> In i (search pts q r)) /\
    StronglySorted (fun i j => forall p p', nth_error pts i = Some p -> nth_error pts j = Some p' ->
       Bltb (computed_sq p' q) (computed_sq p q) = false) (search pts q r).

(** The pose by which findNearest places a scan: getBarycenterPose or getPose
    (graph.hpp:99-105, graph.cpp:177). *)
Definition placed (lm : libm) (use_bary : bool) (s : scan b64) : pose b64 :=
  if use_bary then fst (scan_get_bary (A := BA lm) s) else s_pose s.

Definition in_size (p : pose b64) : Prop :=
  is_finite (pox p) = true /\ is_finite (poy p) = true /\
  Rabs (B2R (pox p)) <= bpow radix2 400 /\ Rabs (B2R (poy p)) <= bpow radix2 400.

(** The squared distance. *)
Definition true_sq (p q : pose b64) : R :=
  (B2R (pox p) - B2R (pox q)) * (B2R (pox p) - B2R (pox q)) + (B2R (poy p) - B2R (poy q)) * (B2R (poy p) - B2R (poy q)).

(** What rounding may make of a squared distance. *)
Definition at_least (d : R) : R := d * (1 - bpow radix2 (-50)) - bpow radix2 (-600).
Definition at_most (d : R) : R := d * (1 + bpow radix2 (-50)) + bpow radix2 (-600).
