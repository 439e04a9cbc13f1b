(** Specification vocabulary for the laser callback.  Independent of the model. *)

From Coq Require Import ZArith Reals List.
From Flocq Require Import Core.
From Verif Require Import TypesModel SpecPose LaserModel.
Import ListNotations.
Local Open Scope R_scope.

(** Equal poses, headings up to whole turns. *)
Definition same_pose (p q : pose R) : Prop :=
  pox p = pox q /\ poy p = poy q /\ same_heading (poth p) (poth q).

(** [d] is the turn from heading [a] to heading [b], in (-pi, pi]. *)
Definition turn (a b d : R) : Prop := - PI < d <= PI /\ same_heading (a + d) b.

(** The robot moved at least [md] or turned at least [mr]. *)
Definition moved (md mr : R) (p q : pose R) : Prop :=
  md <= sqrt (sq_dist (mkPoint (pox p) (poy p)) (mkPoint (pox q) (poy q))) \/
  exists d, turn (poth p) (poth q) d /\ mr <= Rabs d.

(** The elements with their positions. *)
Definition indexed {X : Type} (l : list X) : list (nat * X) := combine (seq 0 (length l)) l.

(** The last [k] elements. *)
Definition last_n {X : Type} (k : nat) (l : list X) : list X := skipn (length l - k) l.

(** The point at distance [r] in direction [a]. *)
Definition polar (a r : R) : point R := mkPoint (r * cos a) (r * sin a).

(** Motion linear in the odometry frame: the pose after [i] readings. *)
Definition path (o : pose R) (vx vy w : R) (i : nat) : pose R :=
  mkPose (pox o + INR i * vx) (poy o + INR i * vy) (poth o + INR i * w).

(** The point [q] of the frame a pose [p] is given in, in the frame of [p]. *)
Definition into (p : pose R) (q : point R) : point R :=
  let dx := px q - pox p in
  let dy := py q - poy p in
  mkPoint (cos (poth p) * dx + sin (poth p) * dy) (- sin (poth p) * dx + cos (poth p) * dy).

(** A transform (rotation block and translation) applied to a point. *)
Definition iso_act (m : iso R) (q : point R) : point R :=
  mkPoint (i00 m * px q + i01 m * py q + itx m) (i10 m * px q + i11 m * py q + ity m).
