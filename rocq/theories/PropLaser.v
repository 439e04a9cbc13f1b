(** Properties of the laser callback and of the published transform. *)

From Coq Require Import ZArith Reals List Bool Lra Lia String.
From Flocq Require Import Core BinarySingleNaN.
From Verif Require Import Outcome Arith TypesModel ScanModel NdtModel MatcherModel MotionModel LaserModel FilterModel MapperModel
  SpecPose SpecLaser SpecMapper RTactics NdtProofs MatcherProofs AngleProofs LaserProofs LaserB64 MapperProofs LaserWitness.
Import ListNotations.
Local Open Scope R_scope.

(** C57 *)
Theorem C57_enough_motion : forall (cf : config R) s sp e s' sp',
  0 <= cf_min_dist cf -> sp_pc sp = SIdle -> sh_scans s <> [] ->
  laser_begin cf s sp e = Ok (s', sp') ->
  (busy sp' -> exists start, le_start e = Some start /\
     moved (cf_min_dist cf) (cf_min_rot cf) (sh_odom s) (from_msg start)) /\
  (forall start, le_start e = Some start ->
     ~ moved (cf_min_dist cf) (cf_min_rot cf) (sh_odom s) (from_msg start) ->
     ~ busy sp' /\ untouched s s' /\ sp_filter sp' = sp_filter sp).
Proof. exact laser_begin_moved. Qed.
Print Assumptions C57_enough_motion.

(** In every arithmetic: a message that is not processed changes nothing but the
    laser parameters and the global matcher. *)
Theorem C57_ignored_scan : forall {T} {A : Arith T} (cf : config T) s sp e s' sp', sp_pc sp = SIdle ->
  laser_begin cf s sp e = Ok (s', sp') -> ~ busy sp' -> untouched s s' /\ sp_filter sp' = sp_filter sp.
Proof.
  intros T A cf s sp e s' sp' I H B. apply laser_begin_cases in H; [|exact I].
  destruct H as [(P & U & F)|(start & end_ & guess & pts & sc & s1 & sp1 & _ & _ & _ & _ & _ & _ & _ & _ & _ & _ & P)].
  - split; assumption.
  - exfalso. apply B. unfold busy. rewrite P. destruct (use_filter cf), (sh_enable s); discriminate.
Qed.
Print Assumptions C57_ignored_scan.

Example C57_nonvacuous : moved 1 (1/2) (mkPose 0 0 0) (mkPose 2 0 0) /\ ~ moved 1 (1/2) (mkPose 0 0 0) (mkPose (1/2) 0 (1/4)).
Proof.
  split.
  - left. unfold sq_dist. cbn [px py pox poy]. replace ((0 - 2) * (0 - 2) + (0 - 0) * (0 - 0)) with (2 * 2) by ring.
    rewrite sqrt_square; lra.
  - apply small_motion_spec; [lra|]. unfold small_motion. cbn [pox poy poth]. apply andb_true_intro.
    assert (E : angle_diff 0 (1 / 4) = 1 / 4).
    { unfold angle_diff. ra. rewrite Rminus_0_r. apply normalize_angle_id. pose proof PI2_3_2. lra. }
    rewrite E. split; ra; apply Rlt_bool_true; [lra|rewrite Rabs_pos_eq; lra].
Qed.

(** C58 *)
Theorem C58_odometry_rigid : forall robot odom0 odom1 d : pose R,
  same_pose (compose odom0 d) odom1 -> same_pose (compose robot d) (odom_guess robot odom0 odom1).
Proof. exact odom_guess_rigid. Qed.
Print Assumptions C58_odometry_rigid.

(** The relative motion exists, and the guess is the pose a processed scan starts
    from. *)
Theorem C58_relative_motion_exists : forall a b : pose R, exists d, same_pose (compose a d) b.
Proof. exact relative_exists. Qed.
Print Assumptions C58_relative_motion_exists.

Theorem C58_scan_pose : forall (cf : config R) s sp e s' sp', sp_pc sp = SIdle -> sh_scans s <> [] ->
  laser_begin cf s sp e = Ok (s', sp') -> busy sp' ->
  exists start sc, le_start e = Some start /\ sh_heap s' = sh_heap s ++ [sc] /\
    s_id sc = Z.of_nat (List.length (sh_scans s)) /\
    forall d, same_pose (compose (sh_odom s) d) (from_msg start) -> same_pose (compose (sh_robot s) d) (s_pose sc).
Proof.
  intros cf s sp e s' sp' I N H B. apply laser_begin_cases in H; [|exact I].
  destruct H as [(P & _)|(start & end_ & guess & pts & sc & s1 & sp1 & _ & _ & _ & Es & _ & Hg & _ & -> & -> & _)].
  - exfalso. apply B. exact P.
  - exists start. eexists. split; [exact Es|]. split; [reflexivity|]. split; [reflexivity|]. cbn.
    intros d Hd. unfold guess_pose in Hg. destruct (sh_scans s); [contradiction|].
    destruct (small_motion _ _ _ _); [discriminate Hg|]. injection Hg as <-. apply odom_guess_rigid. exact Hd.
Qed.
Print Assumptions C58_scan_pose.

Example C58_nonvacuous : same_pose (compose (mkPose 1 2 0) (mkPose 3 0 0)) (mkPose 4 2 0).
Proof. unfold same_pose, compose, act. cbn. rewrite cos_0, sin_0. split; [ring|split; [ring|exists 0%Z; ring]]. Qed.

(** C59 *)
Theorem C59_transform_consistent : forall (robot odom : pose R) (q : point R),
  iso_act (map_to_odom robot odom) (act odom q) = act robot q.
Proof. exact map_to_odom_act. Qed.
Print Assumptions C59_transform_consistent.

(** ... and it is a rigid motion. *)
Theorem C59_transform_rigid : forall robot odom : pose R, exists p : pose R, forall q,
  iso_act (map_to_odom robot odom) q = act p q.
Proof. exact map_to_odom_rigid. Qed.
Print Assumptions C59_transform_rigid.

Example C59_nonvacuous : iso_act (map_to_odom (mkPose 5 0 0) (mkPose 1 0 0)) (mkPoint 1 0) = mkPoint 5 0.
Proof.
  pose proof (map_to_odom_act (mkPose 5 0 0) (mkPose 1 0 0) (mkPoint 0 0)) as H. unfold act in H.
  cbn [pox poy poth px py] in H. rewrite cos_0, sin_0 in H.
  replace (1 + (1 * 0 - 0 * 0)) with 1 in H by ring. replace (0 + (0 * 0 + 1 * 0)) with 0 in H by ring.
  replace (5 + (1 * 0 - 0 * 0)) with 5 in H by ring. exact H.
Qed.

(** C60: upright laser, exact arithmetic: which points, in which order, where. *)
Theorem C60_upright_points : forall (m : laser_msg R) rm laser o e,
  scan_points false rm laser o e m =
  Ok (map (fun ir => act (mkPose (INR (fst ir) * ((pox e - pox o) / INR (List.length (lr_ranges m))))
                                 (INR (fst ir) * ((poy e - poy o) / INR (List.length (lr_ranges m))))
                                 (INR (fst ir) * ((poth e - poth o) / INR (List.length (lr_ranges m)))))
                         (act laser (polar (lr_angle_min m + INR (fst ir) * lr_angle_inc m) (snd ir))))
          (filter (fun ir => Rle_bool (snd ir) rm) (indexed (lr_ranges m)))).
Proof. exact upright_R. Qed.
Print Assumptions C60_upright_points.

(** Upright laser, doubles: one point per reading that is a number not above the
    maximum, in order; where it is depends only on its index and its value. *)
Theorem C60_upright_filter_double : forall (lm : libm) rm laser o e amin ainc rmax n, is_nan rm = false ->
  exists f : nat -> b64 -> point b64, forall ranges, List.length ranges = n ->
    scan_points (A := BA lm) false rm laser o e (mkLaser amin ainc rmax ranges) =
    Ok (map (fun ir => f (fst ir) (snd ir)) (filter (fun ir => Bleb (snd ir) rm) (indexed ranges))).
Proof.
  intros lm rm laser o e amin ainc rmax n N.
  exists (fun i r => move_point (A := BA lm) (upright_shift (A := BA lm) (per_measurement (A := BA lm) (sweep_translation (A := BA lm) o e) n) i)
      (to_robot (A := BA lm) laser (beam_angle (A := BA lm) (mkLaser amin ainc rmax []) i) r)).
  intros ranges L. unfold scan_points. cbn [lr_ranges]. rewrite L, upright_points_filter. f_equal.
  unfold indexed. f_equal. apply filter_ext. intros [i r]. cbn [snd]. rewrite skipped_b64 by exact N. apply negb_involutive.
Qed.
Print Assumptions C60_upright_filter_double.

(** False for an inverted laser: reading 0 is never used ... *)
Theorem C60_inverted_refuted :
  scan_points true 10 (mkPose 0 0 0) (mkPose 0 0 0) (mkPose 0 0 0) (mkLaser 0 1 10 [2]) = Ok [].
Proof. exact inverted_drops_first. Qed.
Print Assumptions C60_inverted_refuted.

(** ... and a message without readings makes it read outside the vector. *)
Theorem C60_inverted_empty_refuted : forall {T} {A : Arith T} rm laser o e amin ainc rmax,
  scan_points true rm laser o e (mkLaser amin ainc rmax []) = @Fault (list (point T)) OutOfBounds.
Proof. reflexivity. Qed.
Print Assumptions C60_inverted_empty_refuted.

(** All readings but number 0, last to first. *)
Theorem C60_inverted_points_partial : forall (m : laser_msg R) rm laser o e, lr_ranges m <> [] ->
  scan_points true rm laser o e m =
  Ok (map (fun ir => act (mkPose ((pox e - pox o) - INR (fst ir) * ((pox e - pox o) / INR (List.length (lr_ranges m))))
                                 ((poy e - poy o) - INR (fst ir) * ((poy e - poy o) / INR (List.length (lr_ranges m))))
                                 ((poth e - poth o) - INR (fst ir) * ((poth e - poth o) / INR (List.length (lr_ranges m)))))
                         (act laser (polar (- (lr_angle_min m + INR (fst ir) * lr_angle_inc m)) (snd ir))))
          (filter (fun ir => Rle_bool (snd ir) rm) (rev (tl (indexed (lr_ranges m)))))).
Proof. exact inverted_R. Qed.
Print Assumptions C60_inverted_points_partial.

Example C60_nonvacuous : exists a b, scan_points false 10 (mkPose 0 0 0) (mkPose 0 0 0) (mkPose 0 0 0) (mkLaser 0 1 10 [2; 20; 3]) = Ok [a; b].
Proof.
  eexists _, _. rewrite upright_R. unfold indexed. cbn [lr_ranges List.length seq combine filter fst snd].
  rewrite (Rle_bool_true 2 10), (Rle_bool_false 20 10), (Rle_bool_true 3 10) by lra. cbn [map]. reflexivity.
Qed.

(** C61: a reading of minus infinity (too close, REP-117) gives a point that is
    not finite, for every mathematical library. *)
Theorem C61_finite_points_refuted : forall (lm : libm) rm laser o e amin ainc rmax ranges, In b64_ninf ranges ->
  exists pts p, scan_points (A := BA lm) false rm laser o e (mkLaser amin ainc rmax ranges) = Ok pts /\
    In p pts /\ is_finite (px p) = false.
Proof.
  intros lm rm laser o e amin ainc rmax ranges I. apply In_nth_error in I. destruct I as [i I].
  eexists. eexists. split; [unfold scan_points; rewrite upright_points_filter; reflexivity|]. cbn [lr_ranges].
  split.
  - apply in_map with (x := (i, b64_ninf)). apply filter_In. split.
    + apply nth_error_In with (n := i). rewrite (combine_seq_nth ranges 0 i b64_ninf I). reflexivity.
    + cbn [snd]. rewrite ninf_not_skipped. reflexivity.
  - cbn [fst snd]. apply ninf_point.
Qed.
Print Assumptions C61_finite_points_refuted.

(** Without such a reading all points are finite (readings below 2^128, which
    every float is; angles, transforms and odometry of any reasonable size). *)
Theorem C61_finite_points_partial : forall (lm : libm) (inv : bool) (rm : b64) (laser o e : pose b64) (m : laser_msg b64) pts,
  trig_ok lm -> is_finite rm = true ->
  bnd (lr_angle_min m) 64 -> bnd (lr_angle_inc m) 10 -> (Z.of_nat (List.length (lr_ranges m)) <= 2 ^ 53)%Z ->
  pose_bnd laser 100 -> pose_bnd o 100 -> pose_bnd e 100 ->
  (forall r, In r (lr_ranges m) -> is_finite r = true -> (Rabs (B2R r) <= bpow radix2 128)%R) ->
  ~ In b64_ninf (lr_ranges m) ->
  scan_points (A := BA lm) inv rm laser o e m = Ok pts ->
  Forall (fun p => is_finite (px p) = true /\ is_finite (py p) = true) pts.
Proof. exact points_finite. Qed.
Print Assumptions C61_finite_points_partial.

Example C61_nonvacuous : exists lm, trig_ok lm.
Proof.
  exists {| lm_cos := fun _ => b64_of 1 0; lm_sin := fun _ => b64_of 0 0; lm_exp := fun x => x;
            lm_atan2 := fun x _ => x; lm_hypot := fun x _ => x; lm_fmod := fun x _ => x |}.
  intros x _. cbn [lm_cos lm_sin]. split; apply b64_of_bnd; cbn; try lia; rewrite Rmult_1_r; [rewrite Rabs_R1|rewrite Rabs_R0]; lra.
Qed.

(** C62: false, even for odometry aligned with the robot: the motion of the
    sweep is spread over one reading too many ... *)
Theorem C62_motion_compensation_refuted : exists (m : laser_msg R) (laser o : pose R) (P p0 p1 : point R),
  act (path o 1 0 0 0) (act laser (polar (lr_angle_min m) 2)) = P /\
  act (path o 1 0 0 1) (act laser (polar (lr_angle_min m + lr_angle_inc m) 1)) = P /\
  lr_ranges m = [2; 1] /\
  scan_points false 10 laser o (path o 1 0 0 1) m = Ok [p0; p1] /\ p0 <> p1.
Proof. exact sweep_witness. Qed.
Print Assumptions C62_motion_compensation_refuted.

(** ... and for odometry with another heading the error exceeds the motion. *)
Theorem C62_heading_refuted : exists (m : laser_msg R) (laser o : pose R) (P p0 p1 : point R),
  act (path o (-1) 0 0 0) (act laser (polar (lr_angle_min m) 2)) = P /\
  act (path o (-1) 0 0 1) (act laser (polar (lr_angle_min m + lr_angle_inc m) 1)) = P /\
  lr_ranges m = [2; 1] /\
  scan_points false 10 laser o (path o (-1) 0 0 1) m = Ok [p0; p1] /\ 1 < sq_dist p0 p1.
Proof. exact sweep_heading_witness. Qed.
Print Assumptions C62_heading_refuted.

(** Where a reading of a static point [P] is put: without rotation ... *)
Theorem C62_translation_partial : forall (o laser : pose R) vx vy n i a r P, (0 < n)%nat ->
  act (path o vx vy 0 i) (act laser (polar a r)) = P ->
  move_point (upright_shift (per_measurement (sweep_translation o (path o vx vy 0 (n - 1))) n) i) (to_robot laser a r) =
  mkPoint (px (into o P) + INR i * (INR (n - 1) / INR n * vx - (cos (poth o) * vx + sin (poth o) * vy)))
          (py (into o P) + INR i * (INR (n - 1) / INR n * vy - (- sin (poth o) * vx + cos (poth o) * vy))).
Proof.
  intros o laser vx vy n i a r P H E. rewrite (converted_reading o laser vx vy 0 n i a r P H E). apply converted_translation.
Qed.
Print Assumptions C62_translation_partial.

(** ... and without translation; a robot at rest gets exact points. *)
Theorem C62_rotation_partial : forall (o laser : pose R) w n i a r P, (0 < n)%nat ->
  act (path o 0 0 w i) (act laser (polar a r)) = P ->
  move_point (upright_shift (per_measurement (sweep_translation o (path o 0 0 w (n - 1))) n) i) (to_robot laser a r) =
  act (mkPose 0 0 (- (INR i / INR n * w))) (into o P).
Proof.
  intros o laser w n i a r P H E. rewrite (converted_reading o laser 0 0 w n i a r P H E). apply converted_rotation. exact H.
Qed.
Print Assumptions C62_rotation_partial.

(** The second of two readings of an obstacle two metres ahead: after driving one
    metre towards it, and after a quarter turn. *)
Example C62_nonvacuous : let o := mkPose 0 0 0 in
  act (path o 1 0 0 1) (act o (polar 0 1)) = mkPoint 2 0 /\
  act (path o 0 0 (PI / 2) 1) (act o (polar (- (PI / 2)) 2)) = mkPoint 2 0 /\
  move_point (upright_shift (per_measurement (sweep_translation o (path o 1 0 0 1)) 2) 1) (to_robot o 0 1) = mkPoint (3 / 2) 0.
Proof.
  cbv zeta. assert (H : act (path (mkPose 0 0 0) 1 0 0 1) (act (mkPose 0 0 0) (polar 0 1)) = mkPoint 2 0).
  { unfold act, path, polar. cbn [pox poy poth px py INR]. rewrite !Rmult_0_r, !Rplus_0_r, cos_0, sin_0. f_equal; ring. }
  split; [exact H|]. split.
  - unfold act, path, polar. cbn [pox poy poth px py INR]. rewrite !Rmult_1_l, !Rplus_0_l, cos_neg, sin_neg, cos_PI2, sin_PI2, cos_0, sin_0. f_equal; ring.
  - etransitivity; [exact (C62_translation_partial (mkPose 0 0 0) (mkPose 0 0 0) 1 0 2 1 0 1 (mkPoint 2 0) ltac:(lia) H)|].
    unfold into. cbn [pox poy poth px py INR Nat.sub]. rewrite cos_0, sin_0. f_equal; field.
Qed.

(** C63: false unless rolling_depth is 10: a depth of 5 uses 10 scans ... *)
Theorem C63_rolling_window_refuted : rolling_window 5 (seq 0 12) = Ok (seq 2 10).
Proof. reflexivity. Qed.
Print Assumptions C63_rolling_window_refuted.

(** ... or leaves the vector; a depth of 20 uses 10 scans. *)
Theorem C63_rolling_window_fault_refuted : rolling_window 5 (seq 0 6) = Fault BadIterator /\ rolling_window 20 (seq 0 21) = Ok (seq 11 10).
Proof. split; reflexivity. Qed.
Print Assumptions C63_rolling_window_fault_refuted.

(** The exact behaviour. *)
Theorem C63_rolling_window_partial : forall X depth (l : list X), (0 <= depth)%Z -> (Z.of_nat (List.length l) < 2 ^ 64)%Z ->
  ((Z.of_nat (List.length l) <= depth)%Z -> rolling_window depth l = Ok l) /\
  ((depth < Z.of_nat (List.length l))%Z -> (10 <= List.length l)%nat -> rolling_window depth l = Ok (last_n 10 l)) /\
  ((depth < Z.of_nat (List.length l))%Z -> (List.length l < 10)%nat -> rolling_window depth l = Fault BadIterator).
Proof.
  intros X depth l H0 H. split; [apply rolling_window_all|split]; intros H1 H2.
  - apply rolling_window_ten; lia.
  - apply rolling_window_fault; lia.
Qed.
Print Assumptions C63_rolling_window_partial.

(** With the default depth of 10 a scan is matched against a map of the last ten
    scans. *)
Theorem C63_default_depth_partial : forall {T} {A : Arith T} (cf : config T) s sp p s' sp' cov,
  cf_depth cf = 10%Z -> (Z.of_nat (List.length (sh_scans s)) < 2 ^ 64)%Z ->
  local_match cf s sp p = Ok (s', sp', cov) ->
  exists scans m m', graph_scans s = Ok scans /\ sp_local sp = Some m /\ sp_local sp' = Some m' /\
    add_scans (en_eig cf) (matcher_reset m) (last_n 10 scans) = Ok m'.
Proof.
  intros T A cf s sp p s' sp' cov D B H. unfold local_match in H.
  apply bind_ok in H. destruct H as (scans & G & H). apply bind_ok in H. destruct H as (w & W & H).
  destruct (sp_local sp) as [m|] eqn:L; [|discriminate H].
  apply bind_ok in H. destruct H as (m' & M & H). apply bind_ok in H. destruct H as (sc & _ & H).
  apply bind_ok in H. destruct H as (u & _ & H). apply bind_ok in H. destruct H as ([[sr co] cv] & _ & H).
  injection H as _ <- _. exists scans, m, m'. split; [exact G|]. split; [reflexivity|]. split; [reflexivity|].
  rewrite D in W.
  assert (Len : List.length scans = List.length (sh_scans s)).
  { exact (MatcherProofs.mapM_length _ _ _ G). }
  destruct (Z.leb_spec (Z.of_nat (List.length scans)) 10) as [Le|Gt].
  - rewrite rolling_window_all in W by exact Le. injection W as <-.
    unfold last_n. replace (List.length scans - 10)%nat with 0%nat by lia. exact M.
  - rewrite rolling_window_ten in W by lia. injection W as <-. exact M.
Qed.
Print Assumptions C63_default_depth_partial.

Example C63_nonvacuous : rolling_window 10 (seq 0 12) = Ok (last_n 10 (seq 0 12)).
Proof. reflexivity. Qed.
