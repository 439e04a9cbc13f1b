(** Concrete inputs for the refuted claims about the laser callback. *)

From Coq Require Import ZArith Reals List Bool Lia Lra String.
From Flocq Require Import Core.
From Verif Require Import Outcome Arith TypesModel ScanModel MotionModel LaserModel FilterModel MapperModel
  SpecPose SpecLaser SpecMapper RTactics NdtProofs LaserProofs MapperProofs ConstraintProofs AngleProofs.
Import ListNotations.
Local Open Scope R_scope.

Lemma skipped_R : forall rm r : R, skipped rm r = negb (Rle_bool r rm).
Proof.
  intros rm r. unfold skipped. ra. cbn [orb].
  destruct (Rlt_bool_spec rm r); destruct (Rle_bool_spec r rm); try reflexivity; exfalso; lra.
Qed.

(** ** C57 *)
Lemma laser_begin_moved : forall (cf : config R) s sp e s' sp', 0 <= cf_min_dist cf -> sp_pc sp = SIdle -> sh_scans s <> [] ->
  laser_begin cf s sp e = Ok (s', sp') ->
  (busy sp' -> exists start, le_start e = Some start /\ moved (cf_min_dist cf) (cf_min_rot cf) (sh_odom s) (from_msg start)) /\
  (forall start, le_start e = Some start -> ~ moved (cf_min_dist cf) (cf_min_rot cf) (sh_odom s) (from_msg start) ->
     ~ busy sp' /\ untouched s s' /\ sp_filter sp' = sp_filter sp).
Proof.
  intros cf s sp e s' sp' D I N H.
  assert (G : forall start guess, guess_pose cf s (from_msg start) = Some guess ->
             moved (cf_min_dist cf) (cf_min_rot cf) (sh_odom s) (from_msg start)).
  { intros start guess Hg. unfold guess_pose in Hg. destruct (sh_scans s); [contradiction|].
    destruct (small_motion (cf_min_dist cf) (cf_min_rot cf) (sh_odom s) (from_msg start)) eqn:S; [discriminate Hg|].
    destruct (Classical_Prop.classic (moved (cf_min_dist cf) (cf_min_rot cf) (sh_odom s) (from_msg start))) as [M|M]; [exact M|].
    apply small_motion_spec in M; [|exact D]. rewrite M in S. discriminate S. }
  apply laser_begin_cases in H; [|exact I].
  destruct H as [(P & U & F)|(start & end_ & guess & pts & sc & s1 & sp1 & L & U1 & In & Es & Ee & Hg & _ & _ & _ & _ & P)].
  - split; [intro B; exfalso; apply B; exact P|]. intros start Es M. split; [intro B; apply B; exact P|]. split; assumption.
  - split.
    + intros _. exists start. split; [exact Es|]. apply (G start guess Hg).
    + intros start' Es' M. exfalso. rewrite Es in Es'. injection Es' as <-. apply M. apply (G start guess Hg).
Qed.

(** ** C60 *)
Lemma upright_R : forall (m : laser_msg R) rm laser o e,
  scan_points false rm laser o e m =
  Ok (map (fun ir => act (mkPose (INR (fst ir) * ((pox e - pox o) / INR (List.length (lr_ranges m))))
                                 (INR (fst ir) * ((poy e - poy o) / INR (List.length (lr_ranges m))))
                                 (INR (fst ir) * ((poth e - poth o) / INR (List.length (lr_ranges m)))))
                         (act laser (polar (lr_angle_min m + INR (fst ir) * lr_angle_inc m) (snd ir))))
          (filter (fun ir => Rle_bool (snd ir) rm) (indexed (lr_ranges m)))).
Proof.
  intros m rm laser o e. unfold scan_points. rewrite upright_points_filter. f_equal.
  rewrite (filter_ext (fun ir => negb (skipped rm (snd ir))) (fun ir : nat * R => Rle_bool (snd ir) rm)).
  2:{ intros ir. rewrite skipped_R, negb_involutive. reflexivity. }
  apply map_ext. intros [i r]. cbn [fst snd]. rewrite move_point_act, to_robot_act, beam_angle_R. f_equal.
  unfold upright_shift, per_measurement, sweep_translation. cbn [pox poy poth]. ra. rewrite <- !INR_IZR_INZ. f_equal; ring.
Qed.

Lemma inverted_R : forall (m : laser_msg R) rm laser o e, lr_ranges m <> [] ->
  scan_points true rm laser o e m =
  Ok (map (fun ir => act (mkPose ((pox e - pox o) - INR (fst ir) * ((pox e - pox o) / INR (List.length (lr_ranges m))))
                                 ((poy e - poy o) - INR (fst ir) * ((poy e - poy o) / INR (List.length (lr_ranges m))))
                                 ((poth e - poth o) - INR (fst ir) * ((poth e - poth o) / INR (List.length (lr_ranges m)))))
                         (act laser (polar (- (lr_angle_min m + INR (fst ir) * lr_angle_inc m)) (snd ir))))
          (filter (fun ir => Rle_bool (snd ir) rm) (rev (tl (indexed (lr_ranges m)))))).
Proof.
  intros m rm laser o e N. unfold scan_points, indexed.
  destruct (List.length (lr_ranges m)) as [|k] eqn:L; [destruct (lr_ranges m); [contradiction|discriminate L]|].
  rewrite inverted_points_filter by lia. f_equal. rewrite L.
  rewrite (filter_ext (fun ir => negb (skipped rm (snd ir))) (fun ir : nat * R => Rle_bool (snd ir) rm)).
  2:{ intros ir. rewrite skipped_R, negb_involutive. reflexivity. }
  rewrite firstn_all2 by (rewrite combine_length, seq_length; lia).
  change (skipn 1 (combine (seq 0 (S k)) (lr_ranges m))) with (tl (combine (seq 0 (S k)) (lr_ranges m))).
  apply map_ext. intros [i r]. cbn [fst snd]. rewrite move_point_act, to_robot_act, beam_angle_R. f_equal.
  unfold inverted_shift, per_measurement, sweep_translation. cbn [pox poy poth]. ra. rewrite <- !INR_IZR_INZ. f_equal; ring.
Qed.

Lemma inverted_drops_first :
  scan_points true 10 (mkPose 0 0 0) (mkPose 0 0 0) (mkPose 0 0 0) (mkLaser 0 1 10 [2]) = Ok [].
Proof. rewrite inverted_R by discriminate. reflexivity. Qed.

(** ** C62 *)
Definition m62 : laser_msg R := mkLaser 0 0 10 [2; 1].

Lemma conv62 : forall o laser e, scan_points false 10 laser o e m62 =
  Ok [act (mkPose 0 0 0) (act laser (polar 0 2));
      act (mkPose ((pox e - pox o) / 2) ((poy e - poy o) / 2) ((poth e - poth o) / 2)) (act laser (polar 0 1))].
Proof.
  intros o laser e. rewrite upright_R. unfold indexed, m62. cbn [lr_ranges lr_angle_min lr_angle_inc List.length seq combine filter map fst snd].
  rewrite (Rle_bool_true 2 10) by lra. rewrite (Rle_bool_true 1 10) by lra. cbn [map fst snd].
  assert (E1 : INR 2 = 2) by (simpl; lra). assert (E0 : INR 0 = 0) by reflexivity. assert (E2 : INR 1 = 1) by reflexivity.
  rewrite E0, E1, E2, !Rmult_0_l, !Rmult_0_r, !Rplus_0_r, !Rmult_1_l. reflexivity.
Qed.

(** Odometry heading zero, moving ahead one metre between two readings of a
    point two metres ahead: the readings are converted to points half a metre
    apart. *)
Lemma sweep_witness : exists (m : laser_msg R) (laser o : pose R) (P p0 p1 : point R),
  act (path o 1 0 0 0) (act laser (polar (lr_angle_min m) 2)) = P /\
  act (path o 1 0 0 1) (act laser (polar (lr_angle_min m + lr_angle_inc m) 1)) = P /\
  lr_ranges m = [2; 1] /\
  scan_points false 10 laser o (path o 1 0 0 1) m = Ok [p0; p1] /\ p0 <> p1.
Proof.
  exists m62, (mkPose 0 0 0), (mkPose 0 0 0), (mkPoint 2 0). eexists _, _.
  unfold m62 at 1 2 3. cbn [lr_angle_min lr_angle_inc].
  split; [|split; [|split; [reflexivity|split]]].
  - unfold path, act, polar. cbn [pox poy poth px py INR]. rewrite !Rmult_0_l, !Rplus_0_r, cos_0, sin_0. f_equal; ring.
  - unfold path, act, polar. cbn [pox poy poth px py INR]. rewrite Rmult_0_r, !Rplus_0_r, cos_0, sin_0. f_equal; ring.
  - apply conv62.
  - unfold path, act, polar. cbn [pox poy poth px py INR]. replace ((0 + 1 * 0 - 0) / 2) with 0 by field. rewrite ?Rplus_0_r, cos_0, sin_0.
    intro E. injection E as E. lra.
Qed.

(** Odometry heading pi: the correction has the wrong sign; two readings of the
    same point, taken one metre apart, are converted to points 1.5 m apart. *)
Lemma sweep_heading_witness : exists (m : laser_msg R) (laser o : pose R) (P p0 p1 : point R),
  act (path o (-1) 0 0 0) (act laser (polar (lr_angle_min m) 2)) = P /\
  act (path o (-1) 0 0 1) (act laser (polar (lr_angle_min m + lr_angle_inc m) 1)) = P /\
  lr_ranges m = [2; 1] /\
  scan_points false 10 laser o (path o (-1) 0 0 1) m = Ok [p0; p1] /\ 1 < sq_dist p0 p1.
Proof.
  exists m62, (mkPose 0 0 0), (mkPose 0 0 PI), (mkPoint (-2) 0). eexists _, _.
  unfold m62 at 1 2 3. cbn [lr_angle_min lr_angle_inc].
  split; [|split; [|split; [reflexivity|split]]].
  - unfold path, act, polar. cbn [pox poy poth px py INR]. rewrite !Rmult_0_l, !Rplus_0_r, cos_0, sin_0, cos_PI, sin_PI. f_equal; ring.
  - unfold path, act, polar. cbn [pox poy poth px py INR]. rewrite !Rmult_0_r, !Rplus_0_r, cos_0, sin_0, cos_PI, sin_PI. f_equal; ring.
  - apply conv62.
  - unfold path, act, polar, sq_dist. cbn [pox poy poth px py INR].
    replace ((PI + 1 * 0 - PI) / 2) with 0 by field. rewrite ?Rplus_0_r, cos_0, sin_0. lra.
Qed.
