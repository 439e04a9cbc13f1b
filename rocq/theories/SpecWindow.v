(** Specification vocabulary: how far a match may move a scan. *)

From Coq Require Import ZArith Reals List Bool.
From Flocq Require Import Core BinarySingleNaN.
From Verif Require Import Outcome Arith SpecOrigin TypesModel ScanModel MatcherModel MapperModel SpecNode.
Import ListNotations.

Section Spec.
Context {T : Type} {A : Arith T}.

(** From [q] to [q'] by a correction that satisfies [Q]. *)
Definition moved_by (Q : pose T -> Prop) (q q' : pose T) : Prop := exists c, Q c /\ q' = corrected q c.

(** The changes of the pose of a scan object that a step [l] of the node may make:
    none; by the executor thread, a filter estimate or a correction from [L] or [G]
    for a scan that is not in the graph yet; by the loop closure thread, a correction
    from [G] or an optimization. *)
Definition allowed_move (cf : config T) (L G : pose T -> Prop) (l : label T) (m m' : mapper T) (p : nat) (q q' : pose T) : Prop :=
  q' = q \/
  (l = Spin /\ ~ In p (sh_scans (mp_sh m)) /\ (use_filter cf = true \/ moved_by L q q' \/ moved_by G q q')) \/
  (l = Loop /\ (moved_by G q q' \/ exists n, sh_trace (mp_sh m') = ObOptimize n :: sh_trace (mp_sh m))).
End Spec.

(** Nothing, or at most the search window of the matcher; exact arithmetic. *)
Definition within_R (k : matcher R) (c : pose R) : Prop :=
  (Rabs (pox c) <= Rabs (k_lin_size k) /\ Rabs (poy c) <= Rabs (k_lin_size k) /\ Rabs (poth c) <= Rabs (k_ang_size k))%R.
(** The same in doubles. *)
Definition within_64 (k : matcher b64) (c : pose b64) : Prop :=
  let inside v size := is_finite v = true /\ (Rabs (B2R v) <= Rabs (B2R size))%R in
  inside (pox c) (k_lin_size k) /\ inside (poy c) (k_lin_size k) /\ inside (poth c) (k_ang_size k).

Definition counting_R (k : matcher R) : Prop := (0 < k_ang_res k /\ 0 < k_lin_res k)%R.
Definition counting_64 (k : matcher b64) : Prop :=
  (is_finite (k_ang_size k) = true /\ is_finite (k_ang_res k) = true /\ 0 <= B2R (k_ang_res k) /\
   is_finite (k_lin_size k) = true /\ is_finite (k_lin_res k) = true /\ 0 <= B2R (k_lin_res k))%R.
