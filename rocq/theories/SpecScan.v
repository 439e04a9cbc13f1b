(** Specification vocabulary for histories of calls on a scan. *)

From Coq Require Import List.
From Verif Require Import Outcome Arith TypesModel ScanModel.
Import ListNotations.

Section Spec.
Context {T : Type}.

(** The pose and the points given by the last setPose / setPoints call of a
    history, [d] if there is none. *)
Fixpoint last_pose (ops : list (scan_op T)) (d : pose T) : pose T :=
  match ops with
  | [] => d
  | SSetPose p :: rest => last_pose rest p
  | _ :: rest => last_pose rest d
  end.
Fixpoint last_points (ops : list (scan_op T)) (d : list (point T)) : list (point T) :=
  match ops with
  | [] => d
  | SSetPoints p :: rest => last_points rest p
  | _ :: rest => last_points rest d
  end.

End Spec.
