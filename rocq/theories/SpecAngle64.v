(** Specification vocabulary for angles in double arithmetic. *)

From Coq Require Import ZArith Reals List.
From Flocq Require Import Core BinarySingleNaN.
From Verif Require Import Outcome Arith.
Local Open Scope R_scope.

(** fmod, as the C standard defines it (7.12.10.1; exact, F.10.7.1): x - n y for
    some integer n, smaller than y, with the sign of x. *)
Definition exact_fmod (lm : libm) : Prop :=
  forall x y : b64, is_finite x = true -> is_finite y = true -> B2R y <> 0 ->
    is_finite (lm_fmod lm x y) = true /\
    (exists n : Z, B2R (lm_fmod lm x y) = B2R x - IZR n * B2R y) /\
    Rabs (B2R (lm_fmod lm x y)) < Rabs (B2R y) /\ 0 <= B2R (lm_fmod lm x y) * B2R x.

(** The double [r] stands for the direction [a], up to [e] and whole turns. *)
Definition heading_within (e : R) (r : b64) (a : R) : Prop :=
  is_finite r = true /\ exists k : Z, Rabs (B2R r - (a + 2 * PI * IZR k)) <= e.

(** The size of the error when an angle [a] is normalised. *)
Definition angle_error (a : R) : R := bpow radix2 (-51) * (Rabs a + 8).
