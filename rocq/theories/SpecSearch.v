(** Specification vocabulary for the scan matcher's search. *)

From Coq Require Import Reals List ZArith.
From Flocq Require Import Core.
From Verif Require Import TypesModel SpecStats.
Import ListNotations.
Local Open Scope R_scope.

(** Offsets of one axis: -size, -size + res, ... , all those below size. *)
Definition axis (size res : R) : list R :=
  map (fun k => - size + INR k * res) (seq 0 (Z.to_nat (Zceil (2 * size / res)))).

(** All candidate corrections, in search order (theta outermost, y innermost). *)
Definition lattice (lin_size lin_res ang_size ang_res : R) : list (pose R) :=
  flat_map (fun dth => flat_map (fun dx => map (fun dy => mkPose dx dy dth)
    (axis lin_size lin_res)) (axis lin_size lin_res)) (axis ang_size ang_res).

(** The scan pose corrected by an offset, as laserCallback applies it. *)
Definition pose_plus (p c : pose R) : pose R :=
  mkPose (pox p + pox c) (poy p + poy c) (poth p + poth c).

(** Weighted statistics of real functions over a list. *)
Definition wtotal {X} (w : X -> R) (l : list X) : R := sumf w l.
Definition wmean {X} (w f : X -> R) (l : list X) : R := sumf (fun x => w x * f x) l / wtotal w l.
Definition wcov {X} (w f g : X -> R) (l : list X) : R :=
  sumf (fun x => w x * ((f x - wmean w f l) * (g x - wmean w g l))) l / wtotal w l.

(** The 3x3 weighted covariance of the candidates (x, y, theta). *)
Definition weighted_covariance (w : pose R -> R) (l : list (pose R)) : mat3 R :=
  mkMat3 (wcov w pox pox l) (wcov w pox poy l) (wcov w pox poth l)
         (wcov w poy pox l) (wcov w poy poy l) (wcov w poy poth l)
         (wcov w poth pox l) (wcov w poth poy l) (wcov w poth poth l).
Definition weighted_mean (w : pose R -> R) (l : list (pose R)) : vec3 R :=
  mkVec3 (wmean w pox l) (wmean w poy l) (wmean w poth l).

(** 3x3 vocabulary. *)
Definition symmetric3 (m : mat3 R) : Prop := a01 m = a10 m /\ a02 m = a20 m /\ a12 m = a21 m.
Definition quad3 (m : mat3 R) (v : vec3 R) : R :=
  v0 v * (a00 m * v0 v + a01 m * v1 v + a02 m * v2 v) +
  v1 v * (a10 m * v0 v + a11 m * v1 v + a12 m * v2 v) +
  v2 v * (a20 m * v0 v + a21 m * v1 v + a22 m * v2 v).
Definition psd3 (m : mat3 R) : Prop := symmetric3 m /\ forall v, 0 <= quad3 m v.
