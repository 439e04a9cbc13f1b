(** Specification vocabulary: what random draws are used for.  Independent of the
    model. *)

From Coq Require Import ZArith Reals List.
From Verif Require Import TypesModel SpecPose.
Import ListNotations.
Local Open Scope R_scope.

(** A motion split into a turn, a drive and a second turn: motions of at most a
    centimetre are not turned into first. *)
Definition splits (dx dy dth trans rot1 rot2 : R) : Prop :=
  trans = sqrt (dx * dx + dy * dy) /\
  (1 / 100 < trans -> trans * cos rot1 = dx /\ trans * sin rot1 = dy) /\ (trans <= 1 / 100 -> rot1 = 0) /\
  same_heading (rot1 + rot2) dth.

(** The angle between a direction and the driving axis, forwards or backwards. *)
Definition slant (rot r : R) : Prop := 0 <= r <= PI / 2 /\ cos r = Rabs (cos rot).

(** The deviations of the three parts for noise parameters a1 to a4: rotation from
    rotation, rotation from translation, translation from translation, translation
    from rotation. *)
Definition deviations (a1 a2 a3 a4 trans rot1 rot2 s_rot1 s_trans s_rot2 : R) : Prop :=
  exists r1 r2, slant rot1 r1 /\ slant rot2 r2 /\
  s_rot1 = sqrt (a1 * (r1 * r1) + a2 * (trans * trans)) /\
  s_trans = sqrt (a3 * (trans * trans) + a4 * (r1 * r1 + r2 * r2)) /\
  s_rot2 = sqrt (a1 * (r2 * r2) + a2 * (trans * trans)).

(** From [p], turn by [r1], drive [t], turn by [r2]. *)
Definition walks (p : vec3 R) (r1 t r2 : R) (q : vec3 R) : Prop :=
  v0 q = v0 p + t * cos (v2 p + r1) /\ v1 q = v1 p + t * sin (v2 p + r1) /\
  - PI < v2 q <= PI /\ same_heading (v2 q) (v2 p + r1 + r2).

(** Three random numbers for each of n particles, all different ones. *)
Definition own_draws (n : nat) (ds : list (nat * nat * nat)) : Prop :=
  length ds = n /\ NoDup (flat_map (fun d => let '(a, b, c) := d in [a; b; c]) ds).
