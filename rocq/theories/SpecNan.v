(** Specification for C182: numbers that are not numbers. *)

From Coq Require Import ZArith List Bool.
From Flocq Require Import Core BinarySingleNaN.
From Verif Require Import Outcome Arith TypesModel FilterModel.
Import ListNotations.

(** nanoflann's radiusSearch in double arithmetic, as far as used here: a result is a
    point whose computed squared distance compares as less than the radius. *)
Definition computed_sq (p q : point b64) : b64 :=
  Bplus mode_NE
    (Bmult mode_NE (Bminus mode_NE (px p) (px q)) (Bminus mode_NE (px p) (px q)))
    (Bmult mode_NE (Bminus mode_NE (py p) (py q)) (Bminus mode_NE (py p) (py q))).
Definition honest (search : list (point b64) -> point b64 -> b64 -> list nat) : Prop :=
  forall pts q r i, In i (search pts q r) -> exists p, nth_error pts i = Some p /\ Bltb (computed_sq p q) r = true.

(** A position one of whose coordinates is not a number. *)
Definition nowhere (m : pose_msg b64) : Prop := is_nan (ps_x m) = true \/ is_nan (ps_y m) = true.

(** cos, sin and atan2 of something that is not a number are not numbers (C17, F.10). *)
Definition spreads_nan (lm : libm) : libm := {|
  lm_cos := fun x => if is_nan x then B754_nan else lm_cos lm x;
  lm_sin := fun x => if is_nan x then B754_nan else lm_sin lm x;
  lm_exp := lm_exp lm;
  lm_atan2 := fun y x => if is_nan y || is_nan x then B754_nan else lm_atan2 lm y x;
  lm_hypot := lm_hypot lm;
  lm_fmod := lm_fmod lm
|}.
