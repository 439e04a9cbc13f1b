(** Specification vocabulary for histories of calls of the particle filter in
    double arithmetic. *)

From Coq Require Import ZArith Reals List.
From Flocq Require Import Core BinarySingleNaN.
From Verif Require Import Outcome Arith TypesModel FilterModel SpecPlace64 SpecResample64.
Local Open Scope R_scope.

(** What a caller of the filter has to see to: noise of at most [N]; scores that
    exist, are not positive and are not all zero; KLD parameters of an ordinary
    size and a discrete distribution that returns (often enough) indices of
    positive weight. *)
Definition call_ok64 (N : R) (f : pfilter b64) (o : filter_op b64) : Prop :=
  match o with
  | FInit normal _ _ _ _ _ _ | FUpdate normal _ _ _ => forall i mean sigma, upto N (normal i mean sigma)
  | FMeasure score =>
      (forall p, In p (pf_parts f) -> exists s, score (mkPose (v0 p) (v1 p) (v2 p)) = Ok s /\
         is_finite s = true /\ - bpow radix2 900 <= B2R s <= 0) /\
      (exists p s, In p (pf_parts f) /\ score (mkPose (v0 p) (v1 p) (v2 p)) = Ok s /\ B2R s <> 0)
  | FResample draws err z =>
      sane_kld (pf_max f) err z /\ (pf_max f <= Z.of_nat (length draws))%Z /\
      Forall (fun i => (0 <= i)%Z /\ exists w, nth_error (pf_wts f) (Z.to_nat i) = Some w /\ 0 < B2R w) draws
  end.

(** Every call of a history, on the filter the earlier calls left. *)
Fixpoint calls_ok64 (lm : libm) (N : R) (f : pfilter b64) (ops : list (filter_op b64)) : Prop :=
  match ops with
  | nil => True
  | cons o rest => call_ok64 N f o /\ forall f', filter_step (A := BA lm) f o = Ok f' -> calls_ok64 lm N f' rest
  end.
