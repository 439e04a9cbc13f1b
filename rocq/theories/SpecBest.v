(** Specification vocabulary: the candidates the search of matchScan visits, in the
    arithmetic it runs in. *)

From Coq Require Import ZArith List Bool.
From Verif Require Import Outcome Arith TypesModel NdtModel.
Import ListNotations.

Section Spec.
Context {T : Type} {A : Arith T}.
Local Open Scope num_scope.

(** The values of a variable counted up from [d] in steps of [res] while below [size]. *)
Inductive counted (size res : T) : T -> list T -> Prop :=
| counted_end d : (d <? size) = false -> counted size res d []
| counted_more d l : (d <? size) = true -> counted size res (d + res) l -> counted size res d (d :: l).

(** Corrections tried: headings outermost, y innermost. *)
Definition tried (ths ds : list T) : list (pose T) :=
  flat_map (fun th => flat_map (fun dx => map (fun dy => mkPose dx dy th) ds) ds) ths.

(** A point of a scan at pose [sp] seen from the pose corrected by [c]: turned,
    moved to the pose, then moved by the correction. *)
Definition seen_with (sp c : pose T) (p : point T) : point T :=
  let th := poth sp + poth c in
  mkPoint (px p * ncos th - py p * nsin th + pox sp + pox c) (px p * nsin th + py p * ncos th + poy sp + poy c).

(** [v] is the score of correction [c]: minus the likelihood of the points. *)
Definition scores_as (g : ndt T) (sp : pose T) (beams : list (point T)) (c : pose T) (v : T) : Prop :=
  exists l, ndt_likelihood_points g (map (seen_with sp c) beams) = Ok l /\ v = - l.

(** Comparisons that chain; true of IEEE doubles, NaN included. *)
Definition comparable : Prop :=
  (forall a : T, (a <? a) = false) /\
  (forall a b c : T, (a <? b) = true -> (b <? c) = true -> (a <? c) = true) /\
  (forall a b c : T, (a <=? b) = true -> (b <? c) = true -> (a <? c) = true).

(** [l] lists corrections with their scores; [best] and [c] are what a search starting
    from score 0 and pose [start] should keep: the start when no score is below 0,
    otherwise the first correction of least score.  A score that is not a number is
    never below anything. *)
Definition best_of (l : list (pose T * T)) (start : pose T) (best : T) (c : pose T) : Prop :=
  (best = nzero /\ c = start /\ forall q v, In (q, v) l -> (v <? nzero) = false) \/
  (exists pre post, l = pre ++ (c, best) :: post /\ (best <? nzero) = true /\
     (forall q v, In (q, v) l -> (v <? best) = false) /\
     (forall q v, In (q, v) pre -> (v <=? best) = false)).

End Spec.
