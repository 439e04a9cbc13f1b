(** Specification vocabulary: rigid motions of the plane, headings, 3x3
    matrices.  Independent of the model. *)

From Coq Require Import ZArith Reals List.
From Verif Require Import TypesModel.
Import ListNotations.
Local Open Scope R_scope.

(** The point [q], given in the frame of pose [p], in the frame [p] is given in. *)
Definition act (p : pose R) (q : point R) : point R :=
  mkPoint (pox p + (cos (poth p) * px q - sin (poth p) * py q))
          (poy p + (sin (poth p) * px q + cos (poth p) * py q)).

(** The pose [b], given in the frame of pose [a], in the frame [a] is given in. *)
Definition compose (a b : pose R) : pose R :=
  let q := act a (mkPoint (pox b) (poy b)) in
  mkPose (px q) (py q) (poth a + poth b).

(** Two headings differ by a whole number of turns. *)
Definition same_heading (a b : R) : Prop := exists k : Z, a = b + 2 * PI * IZR k.

(** A pose with its heading given with [k] extra full turns. *)
Definition turned (p : pose R) (k : Z) : pose R :=
  mkPose (pox p) (poy p) (poth p + 2 * PI * IZR k).

(** 3x3 matrices. *)
Definition mul3 (m n : mat3 R) : mat3 R :=
  mkMat3
    (a00 m * a00 n + a01 m * a10 n + a02 m * a20 n)
    (a00 m * a01 n + a01 m * a11 n + a02 m * a21 n)
    (a00 m * a02 n + a01 m * a12 n + a02 m * a22 n)
    (a10 m * a00 n + a11 m * a10 n + a12 m * a20 n)
    (a10 m * a01 n + a11 m * a11 n + a12 m * a21 n)
    (a10 m * a02 n + a11 m * a12 n + a12 m * a22 n)
    (a20 m * a00 n + a21 m * a10 n + a22 m * a20 n)
    (a20 m * a01 n + a21 m * a11 n + a22 m * a21 n)
    (a20 m * a02 n + a21 m * a12 n + a22 m * a22 n).
Definition transpose3 (m : mat3 R) : mat3 R :=
  mkMat3 (a00 m) (a10 m) (a20 m) (a01 m) (a11 m) (a21 m) (a02 m) (a12 m) (a22 m).
Definition id3 : mat3 R := mkMat3 1 0 0 0 1 0 0 0 1.
Definition is_inverse3 (m n : mat3 R) : Prop := mul3 m n = id3 /\ mul3 n m = id3.
Definition invertible3 (m : mat3 R) : Prop := exists n, is_inverse3 m n.

Definition quad3 (m : mat3 R) (r : vec3 R) : R :=
  v0 r * (a00 m * v0 r + a01 m * v1 r + a02 m * v2 r) +
  v1 r * (a10 m * v0 r + a11 m * v1 r + a12 m * v2 r) +
  v2 r * (a20 m * v0 r + a21 m * v1 r + a22 m * v2 r).
Definition symmetric3 (m : mat3 R) : Prop :=
  a01 m = a10 m /\ a02 m = a20 m /\ a12 m = a21 m.
Definition pos_def3 (m : mat3 R) : Prop :=
  symmetric3 m /\ forall r, r <> mkVec3 0 0 0 -> 0 < quad3 m r.
Definition diagonal3 (m : mat3 R) : Prop :=
  a01 m = 0 /\ a02 m = 0 /\ a10 m = 0 /\ a12 m = 0 /\ a20 m = 0 /\ a21 m = 0.
Definition sqnorm3 (r : vec3 R) : R := v0 r * v0 r + v1 r * v1 r + v2 r * v2 r.

(** Squared distance of two points. *)
Definition sq_dist (p q : point R) : R :=
  (px p - px q) * (px p - px q) + (py p - py q) * (py p - py q).
