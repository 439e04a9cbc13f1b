(** Specification vocabulary for the well-definedness of building a map and
    matching a scan against it, in double arithmetic. *)

From Coq Require Import ZArith Reals List.
From Flocq Require Import Core BinarySingleNaN.
From Verif Require Import Outcome Arith TypesModel ScanModel MatcherModel SpecPlace64.
Local Open Scope R_scope.

(** A scan taken within [M] of the origin (in x and in y), seeing points within
    [M] of the robot. *)
Definition scan_upto (M : R) (s : scan b64) : Prop := pose_upto M (s_pose s) /\ Forall (point_upto M) (s_pts s).

(** Cells and laser range: the map reaches at most 9000 cells from the origin. *)
Definition fits_map (M : R) (m : matcher b64) : Prop :=
  is_finite (k_resolution m) = true /\ 0 < B2R (k_resolution m) /\ M <= 9000 * B2R (k_resolution m) /\
  upto M (k_range m) /\ 0 <= B2R (k_range m).

(** A search window and its step: the step is positive and not lost in rounding. *)
Definition sane_window (W : R) (size res : b64) : Prop :=
  upto W size /\ is_finite res = true /\ 0 < B2R res <= bpow radix2 400 /\ B2R size * bpow radix2 (-51) <= B2R res.
