(** Property C27: the barycenter of a scan. *)

From Coq Require Import ZArith Reals List.
From Verif Require Import Outcome Arith SpecOrigin TypesModel ScanModel SpecStats SpecPose SpecScan ScanProofs.
Import ListNotations.
Local Open Scope R_scope.

(** In every arithmetic: the cached value is always the freshly computed one. *)
Theorem C27_barycenter_never_stale : forall {T} {A : Arith T} (id : Z) (ops : list (scan_op T)),
  fst (scan_get_bary (scan_run id ops)) =
  fst (scan_get_bary (scan_run id [SSetPose (last_pose ops origin); SSetPoints (last_points ops [])])).
Proof.
  exact (fun T A id ops => eq_trans (scan_bary_fresh id ops)
    (eq_sym (scan_bary_fresh id [SSetPose (last_pose ops origin); SSetPoints (last_points ops [])]))).
Qed.
Print Assumptions C27_barycenter_never_stale.

Theorem C27_barycenter_is_centroid : forall (id : Z) (ops : list (scan_op R)),
  let p := last_pose ops origin in
  let pts := last_points ops [] in
  let b := fst (scan_get_bary (scan_run id ops)) in
  (pts = [] -> b = p) /\
  (pts <> [] -> mkPoint (pox b) (poy b) = act p (mean_point pts) /\ poth b = poth p).
Proof. exact barycenter_spec. Qed.
Print Assumptions C27_barycenter_is_centroid.

(** The getters return what was set last. *)
Theorem C27_getters : forall {T} {A : Arith T} (id : Z) (ops : list (scan_op T)),
  s_id (scan_run id ops) = id /\ s_pose (scan_run id ops) = last_pose ops origin /\
  s_pts (scan_run id ops) = last_points ops [].
Proof. exact (fun T A id ops => conj (scan_run_id id ops) (conj (scan_run_pose id ops) (scan_run_pts id ops))). Qed.
Print Assumptions C27_getters.

(** A history with reads between writes. *)
Example C27_nonvacuous :
  last_points demo_history [] <> [] /\ fst (scan_get_bary (scan_run 0 demo_history)) = mkPose 7 5 0.
Proof. split; [discriminate | exact demo_history_bary]. Qed.
