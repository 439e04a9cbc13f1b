(** Properties of the KD-tree, the motion model and the particle filter. *)

From Coq Require Import ZArith Reals List Bool Lra Lia.
From Flocq Require Import Core BinarySingleNaN.
From Verif Require Import Outcome Arith TypesModel SpecPose RTactics ConstraintProofs NdtProofs KdModel MotionModel FilterModel SpecFilter
  AngleProofs KdProofs MotionProofs FilterProofs FilterProofs2 FilterWitness.
Import ListNotations.
Local Open Scope R_scope.

(** C43: exact and double arithmetic. *)
Theorem C43_leaf_count_exact : forall (size : vec3 R) (cs : list (vec3 R * R)) t,
  kd_add_all size kd_empty cs = Ok t -> kd_leaf_count t = distinct (map (fun cv => bin_of size (fst cv)) cs).
Proof. exact kd_counts_bins_R. Qed.
Print Assumptions C43_leaf_count_exact.

Theorem C43_leaf_count_double : forall (lm : libm) (size : vec3 b64) (cs : list (vec3 b64 * b64)) t,
  kd_add_all (A := BA lm) size kd_empty cs = Ok t -> kd_leaf_count t = distinct (map (fun cv => bin_of_b64 size (fst cv)) cs).
Proof. exact kd_counts_bins_b64. Qed.
Print Assumptions C43_leaf_count_double.

(** No insertion fails as long as all keys are below 2^30. *)
Theorem C43_insert_total : forall {T} {A : Arith T} (size : vec3 T) (cs : list (vec3 T * T)),
  (forall cv, In cv cs -> exists k, kd_key size (fst cv) = Ok k /\ (forall i, Z.abs (kget k i) < 2 ^ 30)%Z) ->
  exists t, kd_add_all size kd_empty cs = Ok t.
Proof. exact @kd_total. Qed.
Print Assumptions C43_insert_total.

Example C43_nonvacuous : exists t, kd_add_all bin_size kd_empty [(mkVec3 0 0 0, 1); (mkVec3 4 0 0, 1); (mkVec3 0 0 0, 1)] = Ok t /\ kd_leaf_count t = 2%nat.
Proof.
  pose proof PI_RGT_0. pose proof (IZR_le 4 (2 ^ 28) ltac:(lia)).
  destruct (kd_total bin_size [(mkVec3 0 0 0, 1); (mkVec3 4 0 0, 1); (mkVec3 0 0 0, 1)]) as (t & Ht).
  - intros cv Hcv. cbn [In] in Hcv.
    assert (E : fst cv = mkVec3 0 0 0 \/ fst cv = mkVec3 4 0 0) by (destruct Hcv as [<-|[<-|[<-|[]]]]; auto).
    destruct E as [-> | ->]; apply particle_key; cbn [v0 v1 v2]; try (apply Rabs_le); lra.
  - exists t. split; [exact Ht|]. rewrite (kd_counts_bins_R _ _ _ Ht). unfold bin_size, bin_of. ra. cbn [map fst v0 v1 v2].
    replace (0 / (1 / 2)) with (IZR 0) by (simpl; lra). replace (0 / (2671 / 10000)) with (IZR 0) by (simpl; lra).
    replace (4 / (1 / 2)) with (IZR 8) by lra. rewrite !Ztrunc_IZR. reflexivity.
Qed.

(** C44: exact arithmetic, every history. *)
Theorem C44_weights_distribution : forall (mn mx : Z) (m : motion_params R) (ops : list (filter_op R)) (f0 f : pfilter R),
  (1 <= mn)%Z -> filter_new mn mx m = Ok f0 -> ops_ok f0 ops -> filter_run f0 ops = Ok f ->
  length (pf_wts f) = length (pf_parts f) /\ Forall (fun w => 0 <= w) (pf_wts f) /\ total (pf_wts f) = 1.
Proof. exact weights_distribution. Qed.
Print Assumptions C44_weights_distribution.

Theorem C44_construction_and_motion_total : forall {T} {A : Arith T} (mn mx : Z) (m : motion_params T), exists f, filter_new mn mx m = Ok f.
Proof. exact @filter_new_total. Qed.
Print Assumptions C44_construction_and_motion_total.

Example C44_nonvacuous : exists f0 f, filter_new 2 2 still = Ok f0 /\ ops_ok f0 [FMeasure (fun _ => Ok (-1))] /\
  filter_run f0 [FMeasure (fun _ => Ok (-1))] = Ok f.
Proof.
  destruct (filter_new_total R RA 2 2 still) as (f0 & H0). exists f0.
  destruct (filter_new_ok 2 2 still f0 ltac:(lia) H0) as (D & _ & _). pose proof (distribution_nonempty f0 D) as NE.
  destruct D as (L & _ & _).
  assert (S : exists f, filter_measure (fun _ => Ok (-1)) f0 = Ok f).
  { unfold filter_measure. rewrite L, Nat.ltb_irrefl.
    assert (W : mapM (fun _ : vec3 R => Ok (-1)) (pf_parts f0) = Ok (repeat (-1) (length (pf_parts f0)))).
    { generalize (pf_parts f0). intro l. induction l as [|p l IH]; [reflexivity|]. cbn [mapM bind]. rewrite IH. reflexivity. }
    rewrite W. cbn [bind]. apply update_stats_total. cbn [with_parts pf_parts pf_wts]. rewrite app_length, repeat_length. lia. }
  destruct S as (f & Hf). exists f. split; [exact H0|]. split.
  - cbn [ops_ok op_ok]. split; [|trivial]. split.
    + intros p s _ E. injection E as <-. lra.
    + destruct (pf_parts f0) as [|p ps]; [contradiction|]. exists p, (-1). split; [left; reflexivity|]. split; [reflexivity|lra].
  - unfold filter_run. cbn [foldM filter_step]. rewrite Hf. reflexivity.
Qed.

(** C45: every arithmetic; [draws] are the indices returned by the random
    generator, at least max_particles of them are available. *)
Theorem C45_resample_size : forall {T} {A : Arith T} (draws : list Z) (err z : T) (f : pfilter T),
  (0 <= pf_min f <= pf_max f)%Z -> (1 <= pf_max f)%Z -> length (pf_parts f) = length (pf_wts f) ->
  Forall (fun i => 0 <= i < Z.of_nat (length (pf_parts f)))%Z draws -> (pf_max f <= Z.of_nat (length draws))%Z ->
  match filter_resample draws err z f with
  | Ok f' =>
      (pf_min f <= Z.of_nat (length (pf_parts f')) <= pf_max f)%Z /\ length (pf_wts f') = length (pf_parts f') /\
      exists s used, (exists rest, draws = used ++ rest) /\
        Forall2 (fun i p => vec_get (pf_parts f) i = Ok p) used (pf_parts f') /\
        Forall2 (fun i w' => exists w, vec_get (pf_wts f) i = Ok w /\ w' = ndiv w s) used (pf_wts f')
  | Fault e => (e = BadDistribution /\ dist_ok (pf_wts f) = false) \/ e = BadCast \/ e = IntOverflow
  end.
Proof. exact @resample_spec. Qed.
Print Assumptions C45_resample_size.

(** No fault at all in exact arithmetic for particles within 2^28 m of the origin. *)
Theorem C45_resample_total : forall (draws : list Z) (err z : R) (f : pfilter R),
  distribution f -> (0 <= pf_min f <= pf_max f)%Z -> (1 <= pf_max f)%Z ->
  Forall (fun i => 0 <= i < Z.of_nat (length (pf_parts f)))%Z draws -> (pf_max f <= Z.of_nat (length draws))%Z ->
  0 < err -> 0 <= z -> IZR (pf_max f) / (2 * err) * ((1 + z) * (1 + z) * (1 + z)) < IZR (2 ^ 64) ->
  Forall (fun p => Rabs (v0 p) <= IZR (2 ^ 28) /\ Rabs (v1 p) <= IZR (2 ^ 28) /\ - PI < v2 p <= PI) (pf_parts f) ->
  exists f', filter_resample draws err z f = Ok f'.
Proof. exact resample_total. Qed.
Print Assumptions C45_resample_total.

Example C45_nonvacuous : exists f', filter_resample four_draws (1 / 100) 0 lopsided = Ok f' /\ length (pf_parts f') = 4%nat.
Proof. exact four_draws_ok. Qed.

(** C46: exact arithmetic, every history. *)
Theorem C46_weighted_statistics : forall (mn mx : Z) (m : motion_params R) (ops : list (filter_op R)) (f0 f : pfilter R),
  (1 <= mn)%Z -> filter_new mn mx m = Ok f0 -> ops_ok f0 ops -> filter_run f0 ops = Ok f ->
  weighted_stats f /\
  forall u v, 0 <= u * u * a00 (pf_cov f) + 2 * u * v * a01 (pf_cov f) + v * v * a11 (pf_cov f).
Proof. exact statistics_correct. Qed.
Print Assumptions C46_weighted_statistics.

Example C46_nonvacuous : exists f0 f, filter_new 2 2 still = Ok f0 /\ ops_ok f0 turning_ops /\ filter_run f0 turning_ops = Ok f.
Proof. destruct heading_variance_grows as (f0 & f & H1 & H2 & H3 & _). exists f0, f. auto. Qed.

(** C47: false, the heading variance is never reset. *)
Theorem C47_heading_variance_refuted : exists f0 f,
  filter_new 2 2 still = Ok f0 /\ ops_ok f0 turning_ops /\ filter_run f0 turning_ops = Ok f /\
  ~ heading_variance (pf_parts f) (pf_wts f) (v2 (pf_mean f)) (a22 (pf_cov f)).
Proof. exact heading_variance_grows. Qed.
Print Assumptions C47_heading_variance_refuted.

(** What holds: it is right after construction, and every later call adds the
    variance of the current particles to it. *)
Theorem C47_heading_variance_initial_partial : forall (mn mx : Z) (m : motion_params R) (f : pfilter R),
  (1 <= mn)%Z -> filter_new mn mx m = Ok f ->
  heading_variance (pf_parts f) (pf_wts f) (v2 (pf_mean f)) (a22 (pf_cov f)).
Proof. exact (fun mn mx m f M H => proj2 (proj2 (filter_new_ok mn mx m f M H))). Qed.
Print Assumptions C47_heading_variance_initial_partial.

Theorem C47_heading_variance_accumulates_partial : forall (f f' : pfilter R) (o : filter_op R),
  distribution f -> (1 <= pf_min f \/ 1 <= pf_max f)%Z -> op_ok f o -> filter_step f o = Ok f' ->
  exists v, heading_variance (pf_parts f') (pf_wts f') (v2 (pf_mean f')) v /\ 0 <= v /\ a22 (pf_cov f') = a22 (pf_cov f) + v.
Proof. exact (fun f f' o => heading_variance_accumulates f o f'). Qed.
Print Assumptions C47_heading_variance_accumulates_partial.

(** C48: false, drawn particles keep their weights and count twice. *)
Theorem C48_resample_bias_refuted : exists f',
  distribution lopsided /\ proportional (pf_wts lopsided) four_draws /\
  filter_resample four_draws (1 / 100) 0 lopsided = Ok f' /\ length (pf_parts f') = length four_draws /\
  v0 (pf_mean f') <> wsum v0 (pf_parts lopsided) (pf_wts lopsided).
Proof. exact resampling_biased. Qed.
Print Assumptions C48_resample_bias_refuted.

(** What holds: the mean after resampling is the mean under the squared weights;
    it is unbiased for equal weights. *)
Theorem C48_squared_weights_partial : forall (draws : list Z) (err z : R) (f f' : pfilter R),
  distribution f -> (0 <= pf_min f <= pf_max f)%Z -> (1 <= pf_max f)%Z ->
  length draws = Z.to_nat (pf_max f) -> length (pf_parts f') = length draws ->
  proportional (pf_wts f) draws -> filter_resample draws err z f = Ok f' ->
  let sq := map (fun w => w * w) (pf_wts f) in
  0 < total sq /\
  v0 (pf_mean f') = wsum v0 (pf_parts f) sq / total sq /\ v1 (pf_mean f') = wsum v1 (pf_parts f) sq / total sq.
Proof. exact resample_law. Qed.
Print Assumptions C48_squared_weights_partial.

Theorem C48_uniform_weights_partial : forall (draws : list Z) (err z : R) (f f' : pfilter R) (w : R),
  distribution f -> (0 <= pf_min f <= pf_max f)%Z -> (1 <= pf_max f)%Z ->
  length draws = Z.to_nat (pf_max f) -> length (pf_parts f') = length draws ->
  proportional (pf_wts f) draws -> Forall (fun v => v = w) (pf_wts f) -> filter_resample draws err z f = Ok f' ->
  v0 (pf_mean f') = wsum v0 (pf_parts f) (pf_wts f) /\ v1 (pf_mean f') = wsum v1 (pf_parts f) (pf_wts f).
Proof. exact resample_unbiased_uniform. Qed.
Print Assumptions C48_uniform_weights_partial.

(** C49: false in double arithmetic for every filter. *)
Theorem C49_unexplained_measure_refuted : forall (lm : libm) (f : pfilter b64),
  pf_parts f <> [] -> length (pf_wts f) = length (pf_parts f) ->
  exists f', filter_measure (A := BA lm) (fun _ => Ok (nzero (A := BA lm))) f = Ok f' /\
    Forall (fun w => is_nan w = true) (pf_wts f') /\ is_nan (v0 (pf_mean f')) = true.
Proof. exact unexplained_measure. Qed.
Print Assumptions C49_unexplained_measure_refuted.

(** What holds: with scores in [-1, 0], not all zero, the weights are finite. *)
Theorem C49_explained_measure_partial : forall (lm : libm) (score : pose b64 -> outcome b64) (f f' : pfilter b64),
  length (pf_wts f) = length (pf_parts f) -> (Z.of_nat (length (pf_parts f)) <= 2 ^ 52)%Z ->
  (forall p s, In p (pf_parts f) -> score (mkPose (v0 p) (v1 p) (v2 p)) = Ok s -> is_finite s = true /\ -1 <= B2R s <= 0) ->
  (exists p s, In p (pf_parts f) /\ score (mkPose (v0 p) (v1 p) (v2 p)) = Ok s /\ B2R s <> 0) ->
  filter_measure (A := BA lm) score f = Ok f' ->
  Forall (fun w => is_finite w = true /\ 0 <= B2R w <= 1) (pf_wts f').
Proof. exact explained_measure_b64. Qed.
Print Assumptions C49_explained_measure_partial.

(** C50: exact arithmetic. *)
Theorem C50_noise_free_motion : forall (normal : normal_source R) (m : motion_params R) (dx dy dth : R) (ps : list (vec3 R)),
  (forall i mean sigma, normal i mean sigma = mean) ->
  1 / 100 < sqrt (dx * dx + dy * dy) ->
  Forall2 (fun p q =>
      mkPoint (v0 q) (v1 q) = act (pose_of p) (mkPoint dx dy) /\
      - PI < v2 q <= PI /\ same_heading (v2 q) (v2 p + dth))
    ps (motion_sample normal m dx dy dth ps).
Proof. exact noise_free_motion. Qed.
Print Assumptions C50_noise_free_motion.

(** For shorter motions the direction is replaced by the heading. *)
Theorem C50_short_motion : forall (normal : normal_source R) (m : motion_params R) (dx dy dth : R) (ps : list (vec3 R)),
  (forall i mean sigma, normal i mean sigma = mean) ->
  sqrt (dx * dx + dy * dy) <= 1 / 100 ->
  Forall2 (fun p q =>
      mkPoint (v0 q) (v1 q) = act (pose_of p) (mkPoint (sqrt (dx * dx + dy * dy)) 0) /\
      - PI < v2 q <= PI /\ same_heading (v2 q) (v2 p + dth))
    ps (motion_sample normal m dx dy dth ps).
Proof. exact noise_free_motion_small. Qed.
Print Assumptions C50_short_motion.

Theorem C50_count : forall {T} {A : Arith T} (normal : normal_source T) (m : motion_params T) (dx dy dth : T) (ps : list (vec3 T)),
  length (motion_sample normal m dx dy dth ps) = length ps.
Proof. exact @motion_length. Qed.
Print Assumptions C50_count.

Example C50_nonvacuous : (forall i mean sigma, no_noise i mean sigma = mean) /\ 1 / 100 < sqrt (1 * 1 + 0 * 0).
Proof. split; [reflexivity|]. replace (1 * 1 + 0 * 0) with (1 * 1) by ring. rewrite sqrt_square; lra. Qed.

(** C51: exact arithmetic. *)
Theorem C51_reverse_noise : forall (m : motion_params R) (dx dy dth : R),
  motion_sigmas m (- dx) (- dy) dth = motion_sigmas m dx dy dth.
Proof. exact motion_sigmas_reverse. Qed.
Print Assumptions C51_reverse_noise.

Theorem C51_noise_inputs : forall (m : motion_params R) (dx dy dth : R),
  exists r1 r2,
    let t := sqrt (dx * dx + dy * dy) in
    0 <= r1 <= PI / 2 /\ 0 <= r2 <= PI / 2 /\
    (1 / 100 < t -> t * cos r1 = Rabs dx /\ t * cos r2 = Rabs (dx * cos dth + dy * sin dth)) /\
    (t <= 1 / 100 -> r1 = 0 /\ cos r2 = Rabs (cos dth)) /\
    motion_sigmas m dx dy dth =
      (sqrt (mo_a1 m * r1 * r1 + mo_a2 m * t * t),
       sqrt (mo_a3 m * t * t + mo_a4 m * r1 * r1 + mo_a4 m * r2 * r2),
       sqrt (mo_a1 m * r2 * r2 + mo_a2 m * t * t)).
Proof. exact motion_sigmas_spec. Qed.
Print Assumptions C51_noise_inputs.

(** The noise parameters are really used: pure translation along x. *)
Example C51_nonvacuous : motion_sigmas (mkMotion 1 1 1 1 1) 2 0 0 = (2, 2, 2).
Proof.
  destruct (motion_sigmas_spec (mkMotion 1 1 1 1 1) 2 0 0) as (r1 & r2 & B1 & B2 & H & _ & ->). cbv zeta in *. cbn [mo_a1 mo_a2 mo_a3 mo_a4].
  replace (2 * 2 + 0 * 0) with (2 * 2) in * by ring. rewrite sqrt_square in * by lra.
  destruct H as (H1 & H2); [lra|]. rewrite cos_0, sin_0 in H2. 
  replace (Rabs (2 * 1 + 0 * 0)) with 2 in H2 by (rewrite Rabs_pos_eq; lra). rewrite Rabs_pos_eq in H1 by lra.
  assert (r1 = 0) by (apply quarter_unique; [assumption|pose proof PI_RGT_0; lra|rewrite cos_0; lra]).
  assert (r2 = 0) by (apply quarter_unique; [assumption|pose proof PI_RGT_0; lra|rewrite cos_0; lra]). subst.
  replace (1 * 0 * 0 + 1 * 2 * 2) with (2 * 2) by ring. replace (1 * 2 * 2 + 1 * 0 * 0 + 1 * 0 * 0) with (2 * 2) by ring.
  rewrite sqrt_square by lra. reflexivity.
Qed.

(** C52: exact arithmetic, every history. *)
Theorem C52_cloud_message : forall (mn mx : Z) (m : motion_params R) (ops : list (filter_op R)) (f0 f : pfilter R),
  filter_new mn mx m = Ok f0 -> filter_run f0 ops = Ok f ->
  map from_msg (filter_msg f) = map pose_of (pf_parts f) /\
  Forall (fun q => ps_z q = 0 /\ ps_qx q = 0 /\ ps_qy q = 0 /\
                   ps_qx q * ps_qx q + ps_qy q * ps_qy q + ps_qz q * ps_qz q + ps_qw q * ps_qw q = 1) (filter_msg f).
Proof. exact cloud_message. Qed.
Print Assumptions C52_cloud_message.

Example C52_nonvacuous : exists f0 f, filter_new 2 2 still = Ok f0 /\ filter_run f0 turning_ops = Ok f /\ pf_parts f <> [].
Proof.
  destruct heading_variance_grows as (f0 & f & H1 & H2 & H3 & _). exists f0, f. split; [exact H1|]. split; [exact H3|].
  apply distribution_nonempty. exact (weights_distribution 2 2 still turning_ops f0 f ltac:(lia) H1 H2 H3).
Qed.
