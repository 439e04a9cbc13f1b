(** Specification for C180: how far a map built without loop closures drifts from
    odometry. *)

From Coq Require Import Reals ZArith List Bool.
From Verif Require Import Outcome Arith TypesModel MatcherModel MapperModel SpecPose SpecMapper2 SpecWindow.
Import ListNotations.

Section Spec.
Context {T : Type}.

(** Steps that neither move a scan of the graph (no candidate for a loop closure is
    accepted, the optimizer does not run) nor are requests. *)
Definition odometry_only (m : mapper T) (l : label T) : Prop :=
  no_request m l /\
  (l = Loop -> match lp_pc (mp_loop m) with LCorrect _ _ _ _ _ | LOptRun => False | _ => True end).

(** The poses of the robot in the map and in odometry, at each message used, oldest
    first. *)
Fixpoint tracked (tr : list (obs T)) : list (pose T * pose T) :=
  match tr with
  | [] => []
  | ObPoses r o :: tr => tracked tr ++ [(r, o)]
  | _ :: tr => tracked tr
  end.
End Spec.

Local Open Scope R_scope.

(** The length of the way through the given poses. *)
Fixpoint way (l : list (pose R)) : R :=
  match l with
  | p :: ((q :: _) as rest) => dist_euc (pox p) (poy p) (pox q) (poy q) + way rest
  | _ => 0
  end.

(** Where the robot is in the map by odometry alone: moved and turned like the first
    pair [r0], [o0]. *)
Definition dead_reckoned (r0 o0 o : pose R) : pose R :=
  let h := poth r0 - poth o0 in
  let dx := pox o - pox o0 in let dy := poy o - poy o0 in
  mkPose (pox r0 + (cos h * dx - sin h * dy)) (poy r0 + (sin h * dx + cos h * dy)) (h + poth o).

(** Local matchers that try corrections of at most [l] metres along each axis and
    [a] radians. *)
Definition tries (cf : config R) (l a : R) : Prop :=
  forall r, counting_R (en_local cf r) /\ Rabs (k_lin_size (en_local cf r)) <= l /\ Rabs (k_ang_size (en_local cf r)) <= a.
