(** Specification vocabulary: beams that only hit a square, or only pass it. *)

From Coq Require Import ZArith Reals List Bool.
From Verif Require Import Outcome TypesModel ScanModel OccGridModel SpecOcc SpecCrossed.
Import ListNotations.
Local Open Scope R_scope.

(** A beam that does not pass [c] on its way (it may end there). *)
Definition never_passes (res : R) (c : Z * Z) (b : point R * point R) : Prop := forall t, crossing res b t -> ~ In c (fst t).
(** A beam that does not end in [c] (it may pass it). *)
Definition never_ends (res : R) (c : Z * Z) (b : point R * point R) : Prop := forall t, crossing res b t -> snd t <> c.

Definition unknown : Z := (-1)%Z.
Definition free : Z := 0%Z.
Definition occupied : Z := 100%Z.
