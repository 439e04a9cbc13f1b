(** Specification vocabulary for rotating and moving points in double
    arithmetic. *)

From Coq Require Import ZArith Reals List.
From Flocq Require Import Core BinarySingleNaN.
From Verif Require Import Outcome Arith TypesModel.
Local Open Scope R_scope.

(** The sine and cosine of the library are within one unit in the last place
    of one half of the true values. *)
Definition accurate_trig (lm : libm) : Prop := forall x : b64, is_finite x = true ->
  (is_finite (lm_cos lm x) = true /\ Rabs (B2R (lm_cos lm x) - cos (B2R x)) <= bpow radix2 (-52)) /\
  (is_finite (lm_sin lm x) = true /\ Rabs (B2R (lm_sin lm x) - sin (B2R x)) <= bpow radix2 (-52)).

(** Sizes for which nothing overflows or underflows. *)
Definition usual_size (M : R) : Prop := bpow radix2 (-400) <= M <= bpow radix2 400.

(** A finite double of magnitude at most [M]. *)
Definition upto (M : R) (x : b64) : Prop := is_finite x = true /\ Rabs (B2R x) <= M.

(** A double close to a real number. *)
Definition close (e : R) (x : b64) (v : R) : Prop := is_finite x = true /\ Rabs (B2R x - v) <= e.

(** The point a pair of doubles stands for. *)
Definition real_point (p : point b64) : point R := mkPoint (B2R (px p)) (B2R (py p)).

(** [q], as seen from a robot at [p], in the frame of [p]. *)
Definition seen_x (p : pose b64) (q : point b64) : R :=
  B2R (pox p) + (cos (B2R (poth p)) * B2R (px q) - sin (B2R (poth p)) * B2R (py q)).
Definition seen_y (p : pose b64) (q : point b64) : R :=
  B2R (poy p) + (sin (B2R (poth p)) * B2R (px q) + cos (B2R (poth p)) * B2R (py q)).

(** The point [q'] is where a robot at [p] sees [q], up to [e] in each
    coordinate. *)
Definition lands (e : R) (p : pose b64) (q q' : point b64) : Prop :=
  close e (px q') (seen_x p q) /\ close e (py q') (seen_y p q).

(** Positions and points of magnitude at most [M]; finite headings. *)
Definition pose_upto (M : R) (p : pose b64) : Prop := upto M (pox p) /\ upto M (poy p) /\ is_finite (poth p) = true.
Definition point_upto (M : R) (q : point b64) : Prop := upto M (px q) /\ upto M (py q).

(** [q'] is where a robot at [p] moved by the correction ([dx], [dy], [dth])
    sees [q], up to [e] in each coordinate. *)
Definition shifted (e : R) (p : pose b64) (dx dy dth : b64) (q q' : point b64) : Prop :=
  let h := B2R (poth p) + B2R dth in
  close e (px q') (B2R (pox p) + B2R dx + (cos h * B2R (px q) - sin h * B2R (py q))) /\
  close e (py q') (B2R (poy p) + B2R dy + (sin h * B2R (px q) + cos h * B2R (py q))).
