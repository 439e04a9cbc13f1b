(** Tactics exposing the exact-real instance of the arithmetic. *)
From Coq Require Import ZArith Reals List Bool Lra.
From Flocq Require Import Core.
From Verif Require Import Outcome Arith.
Local Open Scope R_scope.

Ltac ra_in H :=
  cbn [nadd nsub nmul ndiv nopp nabs nsqrt nlt nle neqb nofZ ntrunc nfloor nceil
       nfmod ncos nsin nexp natan2 nhypot npi nmaxval nminpos nfinite nisnan nsingle RA] in H;
  unfold nzero, none_, nlit, nmin, nmax in H;
  cbn [nadd nsub nmul ndiv nopp nabs nsqrt nlt nle neqb nofZ ntrunc nfloor nceil
       nfmod ncos nsin nexp natan2 nhypot npi nmaxval nminpos nfinite nisnan nsingle RA] in H.

Ltac ra :=
  unfold nzero, none_, nlit, nmin, nmax;
  cbn [nadd nsub nmul ndiv nopp nabs nsqrt nlt nle neqb nofZ ntrunc nfloor nceil
       nfmod ncos nsin nexp natan2 nhypot npi nmaxval nminpos nfinite nisnan nsingle RA].

(** Case analysis on one real comparison. *)
Ltac rlt x y := destruct (Rlt_bool_spec x y).
Ltac rle x y := destruct (Rle_bool_spec x y).

Lemma Rlt_bool_t (x y : R) : x < y -> Rlt_bool x y = true.
Proof. apply Rlt_bool_true. Qed.
Lemma Rlt_bool_f (x y : R) : y <= x -> Rlt_bool x y = false.
Proof. apply Rlt_bool_false. Qed.
