(** Specification vocabulary for grids: lattice squares and rigid motions. *)

From Coq Require Import Reals List ZArith Bool.
From Flocq Require Import Core.
From Verif Require Import TypesModel SpecStats.
Import ListNotations.
Local Open Scope R_scope.

(** The half-open lattice interval number [i]: [o + i*w, o + (i+1)*w). *)
Definition in_interval (o w : R) (i : Z) (x : R) : Prop :=
  o + IZR i * w <= x < o + (IZR i + 1) * w.

(** The lattice square (i, j) of side [w] anchored at (ox, oy). *)
Definition in_square (ox oy w : R) (i j : Z) (p : point R) : Prop :=
  in_interval ox w i (px p) /\ in_interval oy w j (py p).

Definition in_interval_b (o w : R) (i : Z) (x : R) : bool :=
  Rle_bool (o + IZR i * w) x && Rlt_bool x (o + (IZR i + 1) * w).
Definition in_square_b (ox oy w : R) (i j : Z) (p : point R) : bool :=
  in_interval_b ox w i (px p) && in_interval_b oy w j (py p).

(** The rigid motion given by a pose: rotate by theta, then translate. *)
Definition move (p : pose R) (q : point R) : point R :=
  mkPoint (cos (poth p) * px q - sin (poth p) * py q + pox p)
          (sin (poth p) * px q + cos (poth p) * py q + poy p).

(** No lattice square holds five or more points that all coincide. *)
Definition spread_in_squares (ox oy w : R) (pts : list (point R)) : Prop :=
  forall a b, (length (filter (in_square_b ox oy w a b) pts) < 5)%nat \/
              not_all_equal (filter (in_square_b ox oy w a b) pts).
