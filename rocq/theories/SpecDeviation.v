(** Specification vocabulary: how far two poses are from a measured relative
    pose.  Independent of the model. *)

From Coq Require Import ZArith Reals List.
From Verif Require Import TypesModel SpecPose.
Local Open Scope R_scope.

(** Seen from [a], the pose [b] is [e] off the measured relative pose [t]: along
    the axes of [a] for the position, up to whole turns (and within half a turn)
    for the heading. *)
Definition deviation (t : vec3 R) (a b : pose R) (e : vec3 R) : Prop :=
  mkPoint (pox b) (poy b) = act a (mkPoint (v0 t + v0 e) (v1 t + v1 e)) /\
  - PI <= v2 e < PI /\ same_heading (poth b) (poth a + v2 t + v2 e).

(** A matrix times a vector. *)
Definition times3 (m : mat3 R) (r : vec3 R) : vec3 R :=
  mkVec3 (a00 m * v0 r + a01 m * v1 r + a02 m * v2 r)
         (a10 m * v0 r + a11 m * v1 r + a12 m * v2 r)
         (a20 m * v0 r + a21 m * v1 r + a22 m * v2 r).

(** Lower triangular with a positive diagonal: there is only one such [l] with
    l l^T equal to a given positive definite matrix (its Cholesky factor). *)
Definition lower3 (l : mat3 R) : Prop :=
  a01 l = 0 /\ a02 l = 0 /\ a12 l = 0 /\ 0 < a00 l /\ 0 < a11 l /\ 0 < a22 l.
