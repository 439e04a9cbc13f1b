(** Specification vocabulary for the number of particles after resampling
    (KLD sampling, Probabilistic Robotics, table 8.4). *)

From Coq Require Import ZArith Reals List Bool.
From Flocq Require Import Core.
From Verif Require Import Outcome Arith TypesModel MotionModel FilterModel SpecFilter.
Import ListNotations.

(** Bins are half a metre wide and 0.2671 rad (about 15 degrees) high. *)
Definition occupied_bins (ps : list (vec3 R)) : nat :=
  distinct (map (bin_of (mkVec3 (1 / 2) (1 / 2) (2671 / 10000))%R) ps).

(** The number of samples that bounds the KL distance by [err] with the upper
    quantile [z] of the normal distribution, for [k] occupied bins. *)
Definition kld_number (err z : R) (k : nat) : R :=
  let n := (INR k - 1)%R in
  (n / (2 * err) * (1 - 2 / (9 * n) + sqrt (2 / (9 * n)) * z) ^ 3)%R.

(** Enough particles have been drawn: as many as the bound asks for and no fewer
    than the minimum, or the maximum.  Up to one occupied bin the maximum is asked for. *)
Definition drawn_enough (mn mx : Z) (err z : R) (ps : list (vec3 R)) : Prop :=
  let n := Z.of_nat (length ps) in
  let k := occupied_bins ps in
  (mx <= n)%Z \/
  ((mn <= n)%Z /\ (1 < k)%nat /\ (Ztrunc (kld_number err z k) <= n)%Z).

(** * Bins and noise *)
Local Open Scope R_scope.

Definition coord (c : vec3 R) (i : nat) : R := match i with O => v0 c | 1%nat => v1 c | _ => v2 c end.

(** Two keys differ by at least the bin size in some coordinate. *)
Definition bin_apart (size a b : vec3 R) (i : nat) : Prop := coord size i <= Rabs (coord a i - coord b i).
Definition one_side (a b : vec3 R) (i : nat) : Prop :=
  (0 <= coord a i /\ 0 <= coord b i) \/ (coord a i <= 0 /\ coord b i <= 0).

(** Three standard deviations, none of them larger. *)
Definition no_more (a b : R * R * R) : Prop :=
  fst (fst a) <= fst (fst b) /\ snd (fst a) <= snd (fst b) /\ snd a <= snd b.

(** Two sources of normal deviates that agree wherever the standard says what
    std::normal_distribution does: its standard deviation has to be positive
    ([rand.dist.norm.normal]). *)
Definition same_where_specified (n n' : normal_source R) : Prop :=
  forall i mean sigma, 0 < sigma -> n i mean sigma = n' i mean sigma.
