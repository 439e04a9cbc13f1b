(** Specification vocabulary: particle clouds that differ in their order only. *)

From Coq Require Import Reals List Permutation.
From Verif Require Import Outcome TypesModel FilterModel.
Import ListNotations.

Section Spec.
Context {T : Type}.

(** The same particles with the same weights, stored in any order. *)
Definition same_cloud (f g : pfilter T) : Prop :=
  Permutation (combine (pf_parts f) (pf_wts f)) (combine (pf_parts g) (pf_wts g)).
(** What getMean and getCovariance return. *)
Definition same_estimate (f g : pfilter T) : Prop := pf_mean f = pf_mean g /\ pf_cov f = pf_cov g.
End Spec.
