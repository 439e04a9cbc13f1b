(** Specification vocabulary for measuring and resampling particles in double
    arithmetic. *)

From Coq Require Import ZArith Reals List.
From Flocq Require Import Core BinarySingleNaN.
From Verif Require Import Outcome Arith TypesModel SpecPlace64.
Local Open Scope R_scope.

(** A particle within [M] of the origin (in x and in y), with a heading between -4
    and 4. *)
Definition particle_upto (M : R) (p : vec3 b64) : Prop := upto M (v0 p) /\ upto M (v1 p) /\ upto 4 (v2 p).

(** KLD parameters for which the number of particles asked for fits a size_t: at
    most 2^p particles, an error of at least 2^-e, a quantile of at most 2^q. *)
Definition sane_kld (mx : Z) (err z : b64) : Prop :=
  exists p e q : Z, (mx <= 2 ^ p)%Z /\ (0 <= p <= 40)%Z /\ (-100 <= e)%Z /\ (1 <= q)%Z /\ (p + e + 3 * q <= 64)%Z /\
    is_finite err = true /\ bpow radix2 (- e) <= B2R err <= bpow radix2 900 /\ is_finite z = true /\ 0 <= B2R z <= bpow radix2 q.
