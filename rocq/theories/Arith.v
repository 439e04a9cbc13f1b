(** The arithmetic the modelled code computes with.

    The C++ code computes with [double].  Every modelled function below is
    written once, over an abstract arithmetic [Arith T], and is instantiated at
    two number types:

    - [RA : Arith R]      exact real arithmetic (used for the algebraic
                          properties; rounding is not modelled there);
    - [BA lm : Arith b64] IEEE-754 binary64 with round-to-nearest-even, as
                          formalised by Flocq, for ANY implementation [lm] of the
                          mathematical library (cos, sin, exp, ...).

    Theorems that mention neither instance hold for every arithmetic. *)

From Coq Require Import ZArith Reals List Bool.
From Flocq Require Import Core BinarySingleNaN.
From Verif Require Import Outcome.
Import ListNotations.

Class Arith (T : Type) : Type := {
  nadd : T -> T -> T;
  nsub : T -> T -> T;
  nmul : T -> T -> T;
  ndiv : T -> T -> T;
  nopp : T -> T;
  nabs : T -> T;                     (* std::fabs *)
  nsqrt : T -> T;                    (* std::sqrt *)
  nlt : T -> T -> bool;              (* operator<  (false when unordered) *)
  nle : T -> T -> bool;              (* operator<= (false when unordered) *)
  neqb : T -> T -> bool;             (* operator== (false when unordered) *)
  nofZ : Z -> T;                     (* integer -> double conversion *)
  ntrunc : T -> option Z;            (* truncation toward zero; None = NaN or infinity *)
  nfloor : T -> T;                   (* std::floor *)
  nceil : T -> T;                    (* std::ceil *)
  nfmod : T -> T -> T;               (* fmod *)
  ncos : T -> T;
  nsin : T -> T;
  nexp : T -> T;
  natan2 : T -> T -> T;              (* atan2(y, x) *)
  nhypot : T -> T -> T;              (* std::hypot *)
  npi : T;                           (* M_PI *)
  nmaxval : T;                       (* std::numeric_limits<double>::max() *)
  nminpos : T;                       (* std::numeric_limits<double>::min(): smallest POSITIVE normal *)
  nfinite : T -> bool;               (* std::isfinite *)
  nisnan : T -> bool;                (* std::isnan *)
  nsingle : T -> T                   (* double -> float -> double *)
}.

Declare Scope num_scope.
Delimit Scope num_scope with num.
Notation "x + y" := (nadd x y) : num_scope.
Notation "x - y" := (nsub x y) : num_scope.
Notation "x * y" := (nmul x y) : num_scope.
Notation "x / y" := (ndiv x y) : num_scope.
Notation "- x" := (nopp x) : num_scope.
Notation "x <? y" := (nlt x y) : num_scope.
Notation "x <=? y" := (nle x y) : num_scope.

Section Derived.
Context {T : Type} {A : Arith T}.
Local Open Scope num_scope.

Definition nzero : T := nofZ 0.
Definition none_ : T := nofZ 1.

(** A decimal literal p/q of the source.  In binary64 this is the correctly
    rounded quotient of two exactly represented integers, i.e. the double the
    compiler produces for the literal. *)
Definition nlit (p q : Z) : T := nofZ p / nofZ q.

(** std::min(a, b) and std::max(a, b): [(b < a) ? b : a] and [(a < b) ? b : a]
    - the exact definition matters for NaN. *)
Definition nmin (a b : T) : T := if b <? a then b else a.
Definition nmax (a b : T) : T := if a <? b then b else a.

(** Conversion of a double to an unsigned integer of [bits] bits: the truncated
    value must be representable, otherwise the behaviour is undefined. *)
Definition cast_unsigned (bits : Z) (x : T) : outcome Z :=
  match ntrunc x with
  | None => Fault BadCast
  | Some z => if ((0 <=? z) && (z <? 2 ^ bits))%Z then Ok z else Fault BadCast
  end.

(** Conversion of a double to a signed 32-bit int. *)
Definition cast_int32 (x : T) : outcome Z :=
  match ntrunc x with
  | None => Fault BadCast
  | Some z => if ((- 2 ^ 31 <=? z) && (z <? 2 ^ 31))%Z then Ok z else Fault BadCast
  end.

End Derived.

(** Wrap-around of unsigned arithmetic and the (implementation-defined, modular)
    conversion of a 64-bit unsigned value to a 32-bit int. *)
Definition wrap64 (z : Z) : Z := (z mod 2 ^ 64)%Z.
Definition wrap32 (z : Z) : Z := (z mod 2 ^ 32)%Z.
Definition to_int32 (z : Z) : Z :=
  let w := wrap32 z in if (w <? 2 ^ 31)%Z then w else (w - 2 ^ 32)%Z.

(** * Exact real arithmetic *)

(** Quadrant-correct arctangent on the reals. *)
Definition Ratan2 (y x : R) : R :=
  if Rlt_bool 0 x then atan (y / x)
  else if Rlt_bool x 0 then
    (if Rle_bool 0 y then atan (y / x) + PI else atan (y / x) - PI)%R
  else if Rlt_bool 0 y then (PI / 2)%R
  else if Rlt_bool y 0 then (- (PI / 2))%R
  else 0%R.

Definition Rfmod (x y : R) : R := (x - IZR (Ztrunc (x / y)) * y)%R.

#[global] Instance RA : Arith R := {|
  nadd := Rplus; nsub := Rminus; nmul := Rmult; ndiv := Rdiv;
  nopp := Ropp; nabs := Rabs; nsqrt := sqrt;
  nlt := Rlt_bool; nle := Rle_bool; neqb := Req_bool;
  nofZ := IZR;
  ntrunc := fun x => Some (Ztrunc x);
  nfloor := fun x => IZR (Zfloor x);
  nceil := fun x => IZR (Zceil x);
  nfmod := Rfmod;
  ncos := cos; nsin := sin; nexp := exp;
  natan2 := Ratan2;
  nhypot := fun x y => sqrt (x * x + y * y);
  npi := PI;
  nmaxval := (bpow radix2 1024 - bpow radix2 971)%R;
  nminpos := bpow radix2 (-1022);
  nfinite := fun _ => true;
  nisnan := fun _ => false;
  nsingle := fun x => x
|}.

(** * IEEE-754 binary64 *)

Definition b64 : Type := binary_float 53 1024.

#[global] Instance prec64_gt_0 : Prec_gt_0 53 := eq_refl.
#[global] Instance prec64_lt_emax : Prec_lt_emax 53 1024 := eq_refl.
#[global] Instance prec32_gt_0 : Prec_gt_0 24 := eq_refl.
#[global] Instance prec32_lt_emax : Prec_lt_emax 24 128 := eq_refl.

(** The mathematical library: arbitrary functions on doubles.  Nothing is
    assumed about them; theorems that need a fact (e.g. cos 0 = 1) state it. *)
Record libm : Type := {
  lm_cos : b64 -> b64;
  lm_sin : b64 -> b64;
  lm_exp : b64 -> b64;
  lm_atan2 : b64 -> b64 -> b64;
  lm_hypot : b64 -> b64 -> b64;
  lm_fmod : b64 -> b64 -> b64
}.

(** m * 2^e as a double (rounded to nearest even). *)
Definition b64_of (m e : Z) : b64 :=
  binary_normalize 53 1024 prec64_gt_0 prec64_lt_emax mode_NE m e false.

Definition b64_nan : b64 := B754_nan.
Definition b64_inf : b64 := B754_infinity false.
Definition b64_ninf : b64 := B754_infinity true.

Definition b64_trunc (x : b64) : option Z :=
  if is_finite x then Some (Btrunc x) else None.

(** Round to binary32 and back (assignment to a C++ float). *)
Definition b64_single (x : b64) : b64 :=
  match x with
  | B754_finite s m e _ =>
    match binary_normalize 24 128 prec32_gt_0 prec32_lt_emax mode_NE
            (cond_Zopp s (Zpos m)) e s with
    | B754_finite s' m' e' _ => b64_of (cond_Zopp s' (Zpos m')) e'
    | B754_zero s' => B754_zero s'
    | B754_infinity s' => B754_infinity s'
    | B754_nan => B754_nan
    end
  | _ => x
  end.

(** M_PI = 884279719003555 * 2^-48. *)
Definition b64_pi : b64 := b64_of 884279719003555 (-48).

Definition BA (lm : libm) : Arith b64 := {|
  nadd := Bplus mode_NE; nsub := Bminus mode_NE;
  nmul := Bmult mode_NE; ndiv := Bdiv mode_NE;
  nopp := Bopp; nabs := Babs; nsqrt := Bsqrt mode_NE;
  nlt := Bltb; nle := Bleb; neqb := Beqb;
  nofZ := fun z => b64_of z 0;
  ntrunc := b64_trunc;
  nfloor := Bnearbyint mode_DN;
  nceil := Bnearbyint mode_UP;
  nfmod := lm_fmod lm;
  ncos := lm_cos lm; nsin := lm_sin lm; nexp := lm_exp lm;
  natan2 := lm_atan2 lm; nhypot := lm_hypot lm;
  npi := b64_pi;
  nmaxval := Bmax_float;
  nminpos := b64_of 1 (-1022);
  nfinite := is_finite;
  nisnan := is_nan;
  nsingle := b64_single
|}.
