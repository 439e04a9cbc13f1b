(** Specification vocabulary: the squares of the plane that beams cross, independent of
    where a published grid begins. *)

From Coq Require Import ZArith Reals List Bool.
From Flocq Require Import Core.
From Verif Require Import Outcome TypesModel ScanModel OccGridModel SpecOcc.
Import ListNotations.
Local Open Scope R_scope.

(** The square of the plane a position is in. *)
Definition square_of (res : R) (p : point R) : Z * Z := (Zfloor (px p / res), Zfloor (py p / res)).
(** What a beam marks: the squares it passes and the square it ends in, by the line
    algorithm of C37, C38 and C81. *)
Definition crossing (res : R) (b : point R * point R) (t : marks) : Prop := trace_ray (square_of res (fst b)) (square_of res (snd b)) = Ok t.

Definition same_square (c d : Z * Z) : bool := (fst c =? fst d)%Z && (snd c =? snd d)%Z.
Definition hits_at (ms : list marks) (c : Z * Z) : nat := length (filter (same_square c) (map snd ms)).
Definition frees_at (ms : list marks) (c : Z * Z) : nat := length (filter (same_square c) (concat (map fst ms))).

(** A beam that does not mark [c]. *)
Definition misses (res : R) (c : Z * Z) (b : point R * point R) : Prop :=
  forall t, crossing res b t -> ~ In c (fst t) /\ snd t <> c.

(** The value the message [m] gives to the square [c] of the plane. *)
Definition value_at (res : R) (m : occ_msg R) (c : Z * Z) (v : Z) : Prop :=
  exists i j, (0 <= i < om_width m)%Z /\ (0 <= j < om_height m)%Z /\
    om_ox m + IZR i * res = IZR (fst c) * res /\ om_oy m + IZR j * res = IZR (snd c) * res /\
    nth_error (om_data m) (Z.to_nat (i + j * om_width m)) = Some v.

(** Unknown, free or occupied, from [h] hits among [n] marks. *)
Definition verdict (thresh : R) (h n : nat) (v : Z) : Prop :=
  (v = -1 \/ v = 0 \/ v = 100)%Z /\ (v = (-1)%Z <-> n = 0%nat) /\ (v = 100%Z <-> (0 < n)%nat /\ thresh < INR h / INR n).

(** Drawn by a grid that has seen the scans grow to [scans]: the settings, the sizes, and
    sensors that are not outside the padded box of the points (C40). *)
Definition drawn (res thresh : R) (scans : list (scan R)) (m : occ_msg R) : Prop :=
  grid_fits (batch res thresh scans) /\ (forall s, In s scans -> inside (batch res thresh scans) (sensor s)) /\
  exists o, og_thresh o = thresh /\ occ_get_msg o scans = Ok (batch res thresh scans, m).
