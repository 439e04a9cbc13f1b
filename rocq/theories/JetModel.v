(** Ceres evaluates the error term of ceres_solver_pose.hpp:86-108 with Jets
    (AutoDiffCostFunction, ceres_solver_pose.hpp:110-118) to obtain its
    derivatives.  This is the arithmetic of ceres::Jet (ceres/jet.h, external
    code) for one direction of differentiation: a value and a derivative.
    Simplifications: exact reals; one direction at a time (Ceres carries all six
    parameters along; its components do not interact); functions the error term
    does not use are given their textbook derivatives. *)

From Coq Require Import ZArith Reals List Bool.
From Flocq Require Import Core.
From Verif Require Import Outcome Arith TypesModel.
Local Open Scope R_scope.

Definition jet : Type := (R * R)%type.

(** Jet(c): a constant. *)
Definition jet_of (c : R) : jet := (c, 0).

Definition JA : Arith jet := {|
  nadd := fun x y => (fst x + fst y, snd x + snd y);
  nsub := fun x y => (fst x - fst y, snd x - snd y);
  nmul := fun x y => (fst x * fst y, fst x * snd y + snd x * fst y);
  ndiv := fun x y => (fst x / fst y, (snd x - fst x / fst y * snd y) / fst y);
  nopp := fun x => (- fst x, - snd x);
  nabs := fun x => if Rlt_bool (fst x) 0 then (- fst x, - snd x) else x;
  nsqrt := fun x => (sqrt (fst x), snd x / (2 * sqrt (fst x)));
  nlt := fun x y => Rlt_bool (fst x) (fst y);
  nle := fun x y => Rle_bool (fst x) (fst y);
  neqb := fun x y => Req_bool (fst x) (fst y);
  nofZ := fun z => jet_of (IZR z);
  ntrunc := fun x => Some (Ztrunc (fst x));
  nfloor := fun x => jet_of (IZR (Zfloor (fst x)));
  nceil := fun x => jet_of (IZR (Zceil (fst x)));
  nfmod := fun x y => (Rfmod (fst x) (fst y), snd x);
  ncos := fun x => (cos (fst x), - sin (fst x) * snd x);
  nsin := fun x => (sin (fst x), cos (fst x) * snd x);
  nexp := fun x => (exp (fst x), exp (fst x) * snd x);
  natan2 := fun y x => (Ratan2 (fst y) (fst x), (fst x * snd y - fst y * snd x) / (fst x * fst x + fst y * fst y));
  nhypot := fun x y => (sqrt (fst x * fst x + fst y * fst y), (fst x * snd x + fst y * snd y) / sqrt (fst x * fst x + fst y * fst y));
  npi := jet_of PI;
  nmaxval := jet_of (bpow radix2 1024 - bpow radix2 971);
  nminpos := jet_of (bpow radix2 (-1022));
  nfinite := fun _ => true;
  nisnan := fun _ => false;
  nsingle := fun x => x
|}.

(** [p_ab_.cast<T>()] and [sqrt_information_.template cast<T>()]
    (ceres_solver_pose.hpp:100-105): constants. *)
Definition cast_vec (v : vec3 R) : vec3 jet := mkVec3 (jet_of (v0 v)) (jet_of (v1 v)) (jet_of (v2 v)).
Definition cast_mat (m : mat3 R) : mat3 jet :=
  mkMat3 (jet_of (a00 m)) (jet_of (a01 m)) (jet_of (a02 m)) (jet_of (a10 m)) (jet_of (a11 m)) (jet_of (a12 m))
         (jet_of (a20 m)) (jet_of (a21 m)) (jet_of (a22 m)).

(** The parameters [v] with the derivatives [d] (AutoDiffCostFunction). *)
Definition seeded (v d : vec3 R) : vec3 jet := mkVec3 (v0 v, v0 d) (v1 v, v1 d) (v2 v, v2 d).
