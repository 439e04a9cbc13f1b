(** Specification vocabulary for the position covariance of the particle filter
    in double arithmetic. *)

From Coq Require Import ZArith Reals List.
From Flocq Require Import Core BinarySingleNaN.
From Verif Require Import Outcome Arith TypesModel FilterModel SpecWeights64.
Import ListNotations.
Local Open Scope R_scope.

(** The weighted mean of a coordinate. *)
Definition centre (g : vec3 b64 -> b64) (f : pfilter b64) : R :=
  wsum64 g (pf_parts f) (pf_wts f) / total64 (pf_wts f).

(** The weighted sum of the products of two deviations. *)
Fixpoint deviations (g h : vec3 b64 -> b64) (a b : R) (ps : list (vec3 b64)) (ws : list b64) : R :=
  match ps, ws with
  | p :: ps', w :: ws' => B2R w * ((B2R (g p) - a) * (B2R (h p) - b)) + deviations g h a b ps' ws'
  | _, _ => 0
  end.

(** The weighted covariance of two coordinates of the particles. *)
Definition covariance (g h : vec3 b64 -> b64) (f : pfilter b64) : R :=
  deviations g h (centre g f) (centre h f) (pf_parts f) (pf_wts f) / total64 (pf_wts f).
