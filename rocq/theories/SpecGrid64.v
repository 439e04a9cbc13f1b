(** Specification vocabulary: squares of the NDT seen by double arithmetic. *)

From Coq Require Import ZArith Reals List.
From Flocq Require Import Core BinarySingleNaN.
From Verif Require Import Arith TypesModel ScanModel.
Import ListNotations.
Local Open Scope R_scope.

(** Finite coordinates. *)
Definition finite_point (p : point b64) : Prop := is_finite (px p) = true /\ is_finite (py p) = true.
Definition finite_scan_pose (s : scan b64) : Prop := is_finite (pox (s_pose s)) = true /\ is_finite (poy (s_pose s)) = true.

(** [x] lies in interval number [a] of width [w] from [o], at least (a+2) 2^-52
    widths away from its ends; the lower end of interval 0 may be touched. *)
Definition clearly_in_interval (o w : R) (a : Z) (x : R) : Prop :=
  let m := (IZR a + 2) * bpow radix2 (-52) in
  o <= x /\ (a = 0%Z \/ o + (IZR a + m) * w <= x) /\ x <= o + (IZR a + 1 - m) * w.
Definition clearly_in_square (ox oy w : R) (a b : Z) (p : point b64) : Prop :=
  clearly_in_interval ox w a (B2R (px p)) /\ clearly_in_interval oy w b (B2R (py p)).
