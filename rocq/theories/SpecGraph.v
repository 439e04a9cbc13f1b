(** Specification vocabulary for the graph. *)

From Coq Require Import ZArith Reals List Permutation Sorted.
From Verif Require Import Outcome Arith TypesModel ScanModel ConstraintModel GraphModel SpecPose SpecStats.
Import ListNotations.

(** What a scan is, as far as a map file is concerned. *)
Definition same_scan {T} (s s' : scan T) : Prop :=
  s_id s = s_id s' /\ s_pose s = s_pose s' /\ s_pts s = s_pts s'.

(** Two lists of messages that contain the same messages of each topic in the
    same order: what is assumed about reading a bag back. *)
Fixpoint scans_of {T} (l : list (bag_msg T)) : list (scan_msg T) :=
  match l with
  | [] => []
  | BScan m :: rest => m :: scans_of rest
  | _ :: rest => scans_of rest
  end.
Fixpoint constraints_of {T} (l : list (bag_msg T)) : list (constraint_msg T) :=
  match l with
  | [] => []
  | BConstraint m :: rest => m :: constraints_of rest
  | _ :: rest => constraints_of rest
  end.
Definition same_topics {T} (l l' : list (bag_msg T)) : Prop :=
  scans_of l = scans_of l' /\ constraints_of l = constraints_of l'.

(** Ids fit the 64 bit fields. *)
Definition fits64 {T} (g : graph T) : Prop :=
  Forall (fun c => (0 <= c_begin c < 2 ^ 64)%Z /\ (0 <= c_end c < 2 ^ 64)%Z) (gr_constraints g).

(** nanoflann's radiusSearch with the L2 metric and sorted results, in exact
    arithmetic: all points whose SQUARED distance is less than the "radius",
    nearest first. *)
Definition radius_contract (search : list (point R) -> point R -> R -> list nat) : Prop :=
  forall pts q r,
    NoDup (search pts q r) /\
    (forall i, In i (search pts q r) <->
       exists p, nth_error pts i = Some p /\ (sq_dist p q < r)%R) /\
    StronglySorted (fun i j => forall p p', nth_error pts i = Some p -> nth_error pts j = Some p' ->
       (sq_dist p q <= sq_dist p' q)%R) (search pts q r).

Definition distance (p q : point R) : R := sqrt (sq_dist p q).

(** The indices findNearest may return. *)
Definition below_limit (n : nat) (limit : Z) (i : nat) : Prop :=
  i < n /\ ((0 < limit)%Z -> (Z.of_nat i < limit)%Z).

Section Markers.
Context {T : Type} {A : Arith T}.

(** The edge marker of a constraint, as a specification. *)
Definition shows_edge (scans : list (scan T)) (m : marker T) (c : constraint T) : Prop :=
  exists b e, nth_error scans (Z.to_nat (c_begin c)) = Some b /\
    nth_error scans (Z.to_nat (c_end c)) = Some e /\
    mk_ns m = NsEdges /\
    mk_points m = [mkPoint (pox (s_pose b)) (poy (s_pose b)); mkPoint (pox (s_pose e)) (poy (s_pose e))] /\
    (mk_colour m = Green <-> c_switchable c = true) /\ (mk_colour m = Blue <-> c_switchable c = false).
Definition shows_node (m : marker T) (s : scan T) : Prop :=
  mk_ns m = NsNodes /\ mk_pos m = mkPoint (pox (s_pose s)) (poy (s_pose s)) /\
  mk_colour m = Red /\ mk_id m = to_int32 (s_id s).

(** Both ends of a constraint are indices of existing scans. *)
Definition valid_constraint (n : nat) (c : constraint T) : Prop :=
  (0 <= c_begin c < Z.of_nat n)%Z /\ (0 <= c_end c < Z.of_nat n)%Z.

End Markers.

(** Where a scan is, for someone asking how far away it is: at its pose, or,
    with barycenters in use, at the mean of its points seen from that pose (its
    pose, when it has no point).  A scan is [made] when it came out of the
    constructor and the setters; any other record is no value of the class. *)
Definition seen_at (use_bary : bool) (s : scan R) : point R :=
  match use_bary, s_pts s with
  | false, _ | true, [] => mkPoint (pox (s_pose s)) (poy (s_pose s))
  | true, pts => act (s_pose s) (mean_point pts)
  end.
Definition made {T} {A : Arith T} (s : scan T) : Prop := exists id ops, s = scan_run id ops.
Definition apart (g : graph R) (s : scan R) (i : nat) : R :=
  match nth_error (gr_scans g) i with
  | Some sc => distance (seen_at (gr_use_bary g) sc) (seen_at (gr_use_bary g) s)
  | None => 0%R
  end.
