(** Properties C37 - C42: the occupancy grid. *)

From Coq Require Import ZArith Reals List Bool Lia Lra.
From Flocq Require Import Core BinarySingleNaN.
From Verif Require Import Outcome Arith TypesModel ScanModel OccGridModel SpecGrid SpecRay SpecOcc B64Lemmas
  RayProofs OccProofs OccProofs2 OccWitness.
Import ListNotations.
Local Open Scope R_scope.

(** C37. *)
Theorem C37_ray_confined : forall s e : Z * Z,
  (2 * (Z.abs (fst e - fst s) + Z.abs (snd e - snd s)) < 2 ^ 31)%Z ->
  exists free hit, trace_ray s e = Ok (free, hit) /\
    Forall (in_rect s e) free /\ in_rect s e hit /\ NoDup free /\
    (exists r, free ++ [e] = s :: r /\ connected s r).
Proof. intros s e F. destruct (trace_ray_spec s e F) as (es & h & H). exists es, h. tauto. Qed.
Print Assumptions C37_ray_confined.

Example C37_nonvacuous : trace_ray (0, 0)%Z (-3, 1)%Z = Ok ([(0, 0); (-1, 1); (-2, 1)], (-3, 1))%Z.
Proof. vm_compute. reflexivity. Qed.

(** C38 is false as stated: the hit of a ray of slope between 1/2 and 1 is put
    in the cell before the last. *)
Theorem C38_hit_cell_refuted :
  ~ (forall s e free hit, ray_fits s e -> trace_ray s e = Ok (free, hit) -> hit = e).
Proof. exact hit_misplaced. Qed.
Print Assumptions C38_hit_cell_refuted.

(** Exactly which rays are right, and what the others do. *)
Theorem C38_hit_cell_partial : forall s e free hit, trace_ray s e = Ok (free, hit) ->
  (~ half_diagonal s e -> hit = e /\ ~ In hit free) /\
  (half_diagonal s e -> hit = (fst e - Z.sgn (fst e - fst s), snd e)%Z /\ In hit free /\ hit <> e).
Proof. exact hit_exact. Qed.
Print Assumptions C38_hit_cell_partial.

Example C38_nonvacuous :
  trace_ray (0, 0)%Z (4, 1)%Z = Ok ([(0, 0); (1, 1); (2, 1); (3, 1)], (4, 1))%Z /\ ~ half_diagonal (0, 0)%Z (4, 1)%Z /\
  trace_ray (0, 0)%Z (3, 2)%Z = Ok ([(0, 0); (1, 1); (2, 2)], (2, 2))%Z /\ half_diagonal (0, 0)%Z (3, 2)%Z.
Proof.
  split; [vm_compute; reflexivity|]. split; [unfold half_diagonal; cbn; lia|].
  split; [vm_compute; reflexivity|]. unfold half_diagonal. cbn. lia.
Qed.

(** C39: exact arithmetic. *)
Theorem C39_cell_values : forall (o o' : occ R) scans m, occ_get_msg o scans = Ok (o', m) ->
  exists rays ms,
    Forall2 (fun b r => cell_at m (fst b) (fst r) /\ cell_at m (snd b) (snd r)) (beams scans) rays /\
    Forall2 (fun r t => trace_ray (fst r) (snd r) = Ok t) rays ms /\
    forall k v, nth_error (om_data m) k = Some v ->
      let h := hits (om_width m) ms k in
      let n := (h + frees (om_width m) ms k)%nat in
      (v = -1 \/ v = 0 \/ v = 100)%Z /\
      (v = (-1)%Z <-> n = 0%nat) /\
      (v = 100%Z <-> (0 < n)%nat /\ og_thresh o < INR h / INR n).
Proof. exact occ_values. Qed.
Print Assumptions C39_cell_values.

(** C39 in binary64: the fraction is the correctly rounded one. *)
Theorem C39_cell_values_b64 : forall (lm : libm) (thresh : b64) (h f : nat), is_finite thresh = true ->
  (Z.of_nat (h + f) <= 2 ^ 53)%Z ->
  let v := cell_value (A := BA lm) thresh (Z.of_nat h) (Z.of_nat f) in
  (v = -1 \/ v = 0 \/ v = 100)%Z /\
  (v = (-1)%Z <-> (h + f = 0)%nat) /\
  (v = 100%Z <-> (0 < h + f)%nat /\ B2R thresh < rnd (INR h / INR (h + f))).
Proof. exact cell_value_b64. Qed.
Print Assumptions C39_cell_values_b64.

Example C39_nonvacuous : exists m, occ_get_msg (occ_new 1 (1 / 2)) [ray_scan 0 3] = Ok (batch 1 (1 / 2) [ray_scan 0 3], m) /\
  om_data m <> [].
Proof. exact demo_render. Qed.

(** C40 is false as stated: the bounds ignore the sensor poses. *)
Theorem C40_grid_contains_scans_refuted :
  ~ (forall res thresh scans, 0 < res -> grid_fits (batch res thresh scans) ->
      exists o m, occ_get_msg (occ_new res thresh) scans = Ok (o, m)).
Proof. exact sensor_outside. Qed.
Print Assumptions C40_grid_contains_scans_refuted.

(** Safe, and everything covered, when the sensors are within five cells of the
    box of the origin and the points. *)
Theorem C40_grid_contains_scans_partial : forall res thresh scans, 0 < res -> grid_fits (batch res thresh scans) ->
  (forall s, In s scans -> inside (batch res thresh scans) (sensor s)) ->
  exists m, occ_get_msg (occ_new res thresh) scans = Ok (batch res thresh scans, m) /\
    length (om_data m) = Z.to_nat (om_width m * om_height m) /\
    covers m (mkPoint 0 0) /\ (forall p, In p (worlds scans) -> covers m p) /\
    (forall s, In s scans -> covers m (sensor s)).
Proof. exact first_render_safe. Qed.
Print Assumptions C40_grid_contains_scans_partial.

Example C40_nonvacuous : grid_fits (batch 1 (1 / 2) [ray_scan 0 3]) /\
  forall s, In s [ray_scan 0 3] -> inside (batch 1 (1 / 2) [ray_scan 0 3]) (sensor s).
Proof. exact demo_fits. Qed.

(** C41 is false as stated: the bounds are only updated when the number of scans
    changes. *)
Theorem C41_render_after_change_refuted :
  ~ (forall res thresh old scans, 0 < res -> grid_fits (batch res thresh old) -> grid_fits (batch res thresh scans) ->
      length scans = length old ->
      (forall s, In s scans -> inside (batch res thresh scans) (sensor s)) ->
      exists o m, occ_get_msg (batch res thresh old) scans = Ok (o, m)).
Proof. exact moved_unsafe. Qed.
Print Assumptions C41_render_after_change_refuted.

(** Histories in which scans are only added are safe. *)
Theorem C41_render_growing_partial : forall res thresh calls, 0 < res -> growing [] calls ->
  (forall c, In c calls -> grid_fits (batch res thresh c) /\ forall s, In s c -> inside (batch res thresh c) (sensor s)) ->
  occ_run (occ_new res thresh) calls = Ok (batch res thresh (last calls [])).
Proof. exact growing_safe_new. Qed.
Print Assumptions C41_render_growing_partial.

(** After poses moved: safe if the old bounds still contain everything. *)
Theorem C41_render_moved_partial : forall res thresh old scans, 0 < res -> grid_fits (batch res thresh old) ->
  length scans = length old ->
  (forall s, In s scans -> inside (batch res thresh old) (sensor s)) ->
  (forall p, In p (worlds scans) -> inside (batch res thresh old) p) ->
  exists m, occ_get_msg (batch res thresh old) scans = Ok (batch res thresh old, m).
Proof. exact moved_safe. Qed.
Print Assumptions C41_render_moved_partial.

Example C41_nonvacuous : growing [] [[ray_scan 0 3]; [ray_scan 0 3]] /\
  forall c, In c [[ray_scan 0 3]; [ray_scan 0 3]] -> grid_fits (batch 1 (1 / 2) c) /\
    forall s, In s c -> inside (batch 1 (1 / 2) c) (sensor s).
Proof.
  split.
  - cbn [growing]. split; [exists [ray_scan 0 3]; reflexivity|]. split; [exists []; reflexivity|exact I].
  - intros c [<-|[<-|[]]]; exact demo_fits.
Qed.

(** C42: exact arithmetic. *)
Theorem C42_incremental_bounds_partial : forall res thresh calls, 0 < res -> growing [] calls ->
  fold_left refresh calls (occ_new res thresh) = batch res thresh (last calls []) /\
  batch res thresh (last calls []) = refresh (occ_new res thresh) (last calls []).
Proof. exact incremental_new. Qed.
Print Assumptions C42_incremental_bounds_partial.

Theorem C42_no_new_points_partial : forall res thresh a b, worlds b = [] ->
  og_minx (batch res thresh (a ++ b)) = og_minx (batch res thresh a) /\
  og_maxx (batch res thresh (a ++ b)) = og_maxx (batch res thresh a) /\
  og_miny (batch res thresh (a ++ b)) = og_miny (batch res thresh a) /\
  og_maxy (batch res thresh (a ++ b)) = og_maxy (batch res thresh a).
Proof. exact no_new_points. Qed.
Print Assumptions C42_no_new_points_partial.

(** In binary64 the bounds drift: resolution 0.05, a point at 0.12, then a scan
    without points. *)
Theorem C42_incremental_bounds_b64_refuted : forall (lm : libm) thresh,
  lm_cos lm z64 = b64_of 1 0 -> lm_sin lm z64 = z64 ->
  og_maxx (refresh (A := BA lm) (refresh (A := BA lm) (occ_new (A := BA lm) res005 thresh) [drift_scan]) [drift_scan; empty_scan]) <>
  og_maxx (refresh (A := BA lm) (occ_new (A := BA lm) res005 thresh) [drift_scan; empty_scan]).
Proof. exact drift. Qed.
Print Assumptions C42_incremental_bounds_b64_refuted.

Example C42_nonvacuous : growing [] [[ray_scan 0 3]; [ray_scan 0 3; ray_scan 1 7]].
Proof. cbn [growing]. split; [exists [ray_scan 0 3]; reflexivity|]. split; [exists [ray_scan 1 7]; reflexivity|exact I]. Qed.

(** C81 is false as stated: 4,4 is 8/7 of a cell off the line to 7,5. *)
Theorem C81_free_cells_on_line_refuted :
  ~ (forall s e free hit, ray_fits s e -> trace_ray s e = Ok (free, hit) -> Forall (near_line s e 2) free).
Proof. exact ray_far. Qed.
Print Assumptions C81_free_cells_on_line_refuted.

(** One and a half cells always; half a cell for rays closer to the y axis. *)
Theorem C81_free_cells_on_line_partial : forall s e free hit, trace_ray s e = Ok (free, hit) ->
  Forall (near_line s e 3) free /\
  ((Z.abs (fst e - fst s) < Z.abs (snd e - snd s))%Z -> Forall (near_line s e 1) free).
Proof. exact ray_near. Qed.
Print Assumptions C81_free_cells_on_line_partial.

Example C81_nonvacuous : trace_ray (0, 0)%Z (1, 3)%Z = Ok ([(0, 0); (0, 1); (1, 2)], (1, 3))%Z.
Proof. vm_compute. reflexivity. Qed.
