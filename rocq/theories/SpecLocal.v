(** Specification vocabulary: what two maps have seen around a place. *)

From Coq Require Import ZArith Reals List Permutation.
From Verif Require Import TypesModel ScanModel SpecStats SpecGrid NdtModel SpecShift.
Local Open Scope R_scope.

(** The points of the scans in the map frame. *)
Definition seen (scans : list (scan R)) : list (point R) :=
  flat_map (fun s => map (move (s_pose s)) (s_pts s)) scans.

(** [q] lies in square (a, b) of the first map and (a', b') of the second, and both
    have seen the same points there, in some order. *)
Definition seen_alike (w : R) (o o' : point R) (scans scans' : list (scan R)) (q : point R) : Prop :=
  exists a b a' b', in_square (px o) (py o) w a b q /\ in_square (px o') (py o') w a' b' q /\
    Permutation (filter (in_square_b (px o) (py o) w a b) (seen scans)) (filter (in_square_b (px o') (py o') w a' b') (seen scans')).

(** No robot of [added] is further left or further down than all robots of [scans]. *)
Definition not_lower (scans added : list (scan R)) : Prop :=
  forall s, In s added -> (exists s0, In s0 scans /\ pox (s_pose s0) <= pox (s_pose s)) /\ (exists s0, In s0 scans /\ poy (s_pose s0) <= poy (s_pose s)).
