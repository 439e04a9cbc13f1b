(** Specification vocabulary for the weights of the particle filter in double
    arithmetic. *)

From Coq Require Import ZArith Reals List.
From Flocq Require Import Core BinarySingleNaN.
From Verif Require Import Outcome Arith TypesModel FilterModel.
Import ListNotations.
Local Open Scope R_scope.

(** The exact sum of some doubles. *)
Definition total64 (ws : list b64) : R := fold_right (fun w t => B2R w + t) 0 ws.

(** The exact weighted sum of a coordinate. *)
Fixpoint wsum64 (g : vec3 b64 -> b64) (ps : list (vec3 b64)) (ws : list b64) : R :=
  match ps, ws with
  | p :: ps', w :: ws' => B2R w * B2R (g p) + wsum64 g ps' ws'
  | _, _ => 0
  end.

(** The weights are probabilities of the particles, up to the precision of
    the arithmetic. *)
Definition distribution64 (f : pfilter b64) : Prop :=
  length (pf_wts f) = length (pf_parts f) /\
  Forall (fun w => is_finite w = true /\ 0 <= B2R w <= 1) (pf_wts f) /\
  Rabs (total64 (pf_wts f) - 1) <= bpow radix2 (-51) * (INR (length (pf_parts f)) + 1).

(** Conditions on one call: a score is a finite number, not positive (and not
    absurdly large), and some particle has a score that is not zero; a discrete
    distribution only returns indices of positive weight. *)
Definition op_ok64 (f : pfilter b64) (o : filter_op b64) : Prop :=
  match o with
  | FMeasure score =>
      (forall p s, In p (pf_parts f) -> score (mkPose (v0 p) (v1 p) (v2 p)) = Ok s -> is_finite s = true /\ - bpow radix2 900 <= B2R s <= 0) /\
      (exists p s, In p (pf_parts f) /\ score (mkPose (v0 p) (v1 p) (v2 p)) = Ok s /\ B2R s <> 0)
  | FResample draws _ _ => Forall (fun i => exists w, vec_get (pf_wts f) i = Ok w /\ 0 < B2R w) draws
  | _ => True
  end.
Fixpoint ops_ok64 (lm : libm) (f : pfilter b64) (ops : list (filter_op b64)) : Prop :=
  match ops with
  | [] => True
  | o :: rest => op_ok64 f o /\ forall f', filter_step (A := BA lm) f o = Ok f' -> ops_ok64 lm f' rest
  end.

(** The coordinates of the particles are finite and at most [M]. *)
Definition within64 (g : vec3 b64 -> b64) (M : R) (ps : list (vec3 b64)) : Prop :=
  Forall (fun p => is_finite (g p) = true /\ Rabs (B2R (g p)) <= M) ps.
