(** Specification vocabulary: constraints that differ in their mark only, and the
    best poses for a set of constraints. *)

From Coq Require Import ZArith Reals List.
From Verif Require Import Arith TypesModel ScanModel ConstraintModel SpecOptim.
Import ListNotations.
Local Open Scope R_scope.

Definition differ_in_mark {T} (c d : constraint T) : Prop :=
  c_begin c = c_begin d /\ c_end c = c_end d /\ c_transform c = c_transform d /\ c_information c = c_information d.

(** Poses of the scans with the least total error, the first scan staying where
    it is. *)
Definition same_first (a b : list (scan R)) : Prop :=
  match a, b with s :: _, s' :: _ => s_pose s' = s_pose s | _, _ => False end.
Definition best_map (cs : list (constraint R)) (scans scans' : list (scan R)) : Prop :=
  List.length scans' = List.length scans /\ same_first scans scans' /\
  forall other, List.length other = List.length scans -> same_first scans other -> map_error cs scans' <= map_error cs other.
