(** C161: the map does not depend on where odometry starts. *)

From Coq Require Import ZArith Reals List Bool Lia Lra String.
From Flocq Require Import Core.
From Verif Require Import Outcome Arith TypesModel ScanModel NdtModel MotionModel FilterModel LaserModel MapperModel SpecPose SpecLaser SpecFrame
  RTactics AngleProofs ConstraintProofs LaserProofs MapperWitness MapperWitness2 LaserWitness NodeProofs3 FrameSim.
Import ListNotations.
Local Open Scope R_scope.

(** ** The arithmetic *)
Lemma turn_diff : forall g a a' b b', same_heading a' (g + a) -> same_heading b' (g + b) -> angle_diff a' b' = angle_diff a b.
Proof.
  intros g a a' b b' (i & Hi) (j & Hj). unfold angle_diff. apply normalize_angle_same. exists (j - i)%Z. rewrite minus_IZR. ra. lra.
Qed.
Lemma seen_pos : forall g p p' q q', seen_from g p p' -> seen_from g q q' ->
  pox q' - pox p' = cos (poth g) * (pox q - pox p) - sin (poth g) * (poy q - poy p) /\
  poy q' - poy p' = sin (poth g) * (pox q - pox p) + cos (poth g) * (poy q - poy p).
Proof.
  intros g p p' q q' (X & Y & _) (X' & Y' & _). cbn [compose act px py pox poy] in *. split; lra.
Qed.
Lemma seen_turn : forall g p p' q q', seen_from g p p' -> seen_from g q q' -> angle_diff (poth p') (poth q') = angle_diff (poth p) (poth q).
Proof. intros g p p' q q' (_ & _ & P) (_ & _ & Q). exact (turn_diff (poth g) _ _ _ _ P Q). Qed.

Lemma seen_small : forall g md mr p p' q q', seen_from g p p' -> seen_from g q q' -> small_motion md mr p' q' = small_motion md mr p q.
Proof.
  intros g md mr p p' q q' P Q. unfold small_motion. rewrite (seen_turn g _ _ _ _ P Q). f_equal.
  destruct (seen_pos g _ _ _ _ P Q) as [E1 E2]. ra. rewrite E1, E2. f_equal.
  pose proof (sin2_cos2 (poth g)) as S. unfold Rsqr in S.
  transitivity ((sin (poth g) * sin (poth g) + cos (poth g) * cos (poth g)) * ((pox q - pox p) * (pox q - pox p) + (poy q - poy p) * (poy q - poy p))); [ring|rewrite S; ring].
Qed.
Lemma seen_guess : forall g r p p' q q', seen_from g p p' -> seen_from g q q' -> odom_guess r p' q' = odom_guess r p q.
Proof.
  intros g r p p' q q' P Q. unfold odom_guess. rewrite (seen_turn g _ _ _ _ P Q).
  destruct (seen_pos g _ _ _ _ P Q) as [E1 E2]. ra. rewrite E1, E2.
  assert (C : forall a b : R, cos (angle_diff a b) = cos (b - a) /\ sin (angle_diff a b) = sin (b - a)).
  { intros a b. unfold angle_diff. rewrite normalize_angle_cos, normalize_angle_sin. ra. split; reflexivity. }
  destruct (C (poth p') (poth r)) as [C1 S1]. destruct (C (poth p) (poth r)) as [C2 S2]. rewrite C1, S1, C2, S2.
  destruct P as (_ & _ & (k & E)). cbn [compose poth] in E.
  assert (Hc : cos (poth r - poth p') = cos (poth r - poth p - poth g)).
  { replace (poth r - poth p') with (poth r - poth p - poth g + 2 * PI * IZR (- k)) by (rewrite opp_IZR; lra). apply cos_turn. }
  assert (Hs : sin (poth r - poth p') = sin (poth r - poth p - poth g)).
  { replace (poth r - poth p') with (poth r - poth p - poth g + 2 * PI * IZR (- k)) by (rewrite opp_IZR; lra). apply sin_turn. }
  rewrite Hc, Hs, (cos_minus (poth r - poth p) (poth g)), (sin_minus (poth r - poth p) (poth g)). pose proof (sin2_cos2 (poth g)) as S. unfold Rsqr in S.
  set (c := cos (poth g)) in *. set (s := sin (poth g)) in *. set (C0 := cos (poth r - poth p)). set (S0 := sin (poth r - poth p)).
  set (x := pox q - pox p). set (y := poy q - poy p). f_equal.
  - transitivity (pox r + (s * s + c * c) * (x * C0 - y * S0)); [ring|rewrite S; ring].
  - transitivity (poy r + (s * s + c * c) * (x * S0 + y * C0)); [ring|rewrite S; ring].
Qed.
Lemma act_same : forall p p' q, same_pose p' p -> act p' q = act p q.
Proof. intros p p' q (X & Y & (k & E)). unfold act. rewrite X, Y, E, cos_turn, sin_turn. reflexivity. Qed.
Lemma act_compose : forall g p q, act (compose g p) q = act g (act p q).
Proof. intros g p q. unfold act, compose, act. cbn [pox poy poth px py]. rewrite cos_plus, sin_plus. f_equal; ring. Qed.
Lemma act_onto : forall p q, exists q0, act p q0 = q.
Proof.
  intros p [x y]. pose proof (sin2_cos2 (poth p)) as S. unfold Rsqr in S.
  exists (mkPoint (cos (poth p) * (x - pox p) + sin (poth p) * (y - poy p)) (cos (poth p) * (y - poy p) - sin (poth p) * (x - pox p))). unfold act. cbn [px py].
  set (c := cos (poth p)) in *. set (s := sin (poth p)) in *. f_equal.
  - transitivity (pox p + (s * s + c * c) * (x - pox p)); [ring|rewrite S; ring].
  - transitivity (poy p + (s * s + c * c) * (y - poy p)); [ring|rewrite S; ring].
Qed.
Lemma seen_tf : forall g r p p', seen_from g p p' -> via g (map_to_odom r p) (map_to_odom r p').
Proof.
  intros g r p p' P q. destruct (act_onto p q) as (q0 & <-). rewrite <- act_compose, <- (act_same _ _ q0 P), !map_to_odom_act. reflexivity.
Qed.

Lemma end_result : forall {T} {A : Arith T} (rel : pose T -> pose T -> Prop) tf a b, end_rel rel tf a b -> same_result rel tf a b.
Proof.
  intros T A rel tf a b H. destruct a as [m|f], b as [m'|f']; cbn [end_rel same_result] in *; try exact H.
  destruct H as ((o' & tr' & E & Tr & _) & _). rewrite E. cbn. auto.
Qed.

(** ** The claim, when the displacement during each sweep has the same coordinates *)
Theorem C161_odometry_frame_partial : forall (cf : config R) g ls ls', Forall2 (same_label (seen_from g)) ls ls' -> Forall2 same_sweep ls ls' ->
  same_result (seen_from g) (via g) (run cf ls) (run cf ls').
Proof.
  intros cf g ls ls' F W. apply end_result. apply run_sim; [exact (seen_small g)|exact (seen_guess g)|exact (seen_tf g)|].
  revert W. induction F as [|l l' ls ls' H F IH]; intro W; [constructor|]. inversion W; subst. constructor; [split; assumption|apply IH; assumption].
Qed.

Print Assumptions C161_odometry_frame_partial.

Lemma shifted_seen : forall dx dy p p', shifted_by dx dy p p' -> seen_from (mkPose dx dy 0) p p'.
Proof.
  intros dx dy p p' ->. unfold seen_from, same_pose, compose, act. cbn [pox poy poth px py]. rewrite cos_0, sin_0. repeat split; [ring..|]. exists 0%Z. ring.
Qed.

(** ** Frames with parallel axes: no further condition *)
Theorem C161_translated : forall (cf : config R) dx dy ls ls', Forall2 (same_label (shifted_by dx dy)) ls ls' ->
  same_result (shifted_by dx dy) (via (mkPose dx dy 0)) (run cf ls) (run cf ls').
Proof.
  intros cf dx dy ls ls' F. apply end_result. apply run_sim.
  - intros md mr p p' q q' P Q. apply (seen_small (mkPose dx dy 0)); apply shifted_seen; assumption.
  - intros r p p' q q' P Q. apply (seen_guess (mkPose dx dy 0)); apply shifted_seen; assumption.
  - intros r p p' P. apply seen_tf. apply shifted_seen. exact P.
  - induction F as [|l l' ls ls' H F IH]; constructor; [|exact IH]. split; [exact H|]. clear F IH.
    destruct l as [[e|e|a f]| | |], l' as [[e'|e'|a' f']| | |]; try exact I. destruct H as (_ & _ & _ & _ & _ & _ & Hs & He).
    intros ns a b a' b' S1 E1 S2 E2. specialize (He ns). rewrite S1, S2 in Hs. rewrite E1, E2 in He. cbn [answers] in Hs, He. unfold shifted_by in Hs, He.
    assert (X : ps_x a' = ps_x a + dx) by exact (f_equal pox Hs). assert (Y : ps_y a' = ps_y a + dy) by exact (f_equal poy Hs).
    assert (X' : ps_x b' = ps_x b + dx) by exact (f_equal pox He). assert (Y' : ps_y b' = ps_y b + dy) by exact (f_equal poy He).
    rewrite Hs, He, X, Y, X', Y'. cbn [poth]. ra. repeat split; ring.
Qed.
Print Assumptions C161_translated.

(** ** Turning the frame: the displacement during a sweep is added to the points
    in coordinates of the odometry frame *)
Definition sweep_ev (a b : pose_msg R) : laser_ev R :=
  mkLaserEv (mkLaser 0 0 2 [1; 1]) "laser" (Some (pose_at 0 0)) (Some a) 0 (fun _ => Some b) (fun _ _ _ => 0) [].
Lemma level_yaw : forall x y, from_msg (pose_at x y) = mkPose x y 0.
Proof.
  intros x y. unfold from_msg, pose_at. cbn [ps_x ps_y ps_qx ps_qy ps_qz ps_qw]. f_equal. unfold get_yaw. ra. cbv zeta.
  replace (-2 * (0 * 0 - 1 * 0) / (0 * 0 + 0 * 0 + 0 * 0 + 1 * 1)) with 0 by field.
  rewrite !Rle_bool_false by lra. unfold Ratan2. rewrite Rlt_bool_true by lra. replace (2 * (0 * 0 + 1 * 0) / (1 * 1 + 0 * 0 - 0 * 0 - 0 * 0)) with 0 by field. apply atan_0.
Qed.
Definition left_at (x y : R) : pose_msg R := mkPoseMsg x y 0 0 0 1 1.
Lemma left_yaw : forall x y, from_msg (left_at x y) = mkPose x y (PI / 2).
Proof.
  intros x y. unfold from_msg, left_at. cbn [ps_x ps_y ps_qx ps_qy ps_qz ps_qw]. f_equal. unfold get_yaw. ra. cbv zeta.
  replace (-2 * (0 * 1 - 1 * 0) / (0 * 0 + 0 * 0 + 1 * 1 + 1 * 1)) with 0 by field.
  rewrite !Rle_bool_false by lra. unfold Ratan2. rewrite !Rlt_bool_false by lra. rewrite Rlt_bool_true by lra. reflexivity.
Qed.

Lemma first_sweep : forall a b, exists m pts rest, run plain_cf (Deliver (EvLaser (sweep_ev a b)) :: repeat Spin 5) = Ok m /\
  scan_points false 1 (mkPose 0 0 0) (from_msg a) (from_msg b) (mkLaser 0 0 2 [1; 1]) = Ok pts /\
  sh_heap (mp_sh m) = [scan_set_points (scan_set_pose (scan_new 0) pose0) pts] /\ sh_scans (mp_sh m) = [0%nat] /\
  sh_trace (mp_sh m) = ObPoses pose0 (from_msg a) :: rest.
Proof.
  intros a b. destruct (sweep_exact 2 0) as (ns & Ns & _); [lia|lia|lra|cbn [Nat.sub INR]; lra|].
  destruct (scan_points false 1 (mkPose 0 0 0) (from_msg a) (from_msg b) (mkLaser 0 0 2 [1; 1])) as [pts|] eqn:P; [|discriminate P].
  assert (Rm : nlt 1 nzero = false) by (ra; apply Rlt_bool_false; lra).
  assert (I0 : nlt (nlit 2 100) (nabs 0) = false) by (ra; rewrite Rabs_R0; apply Rlt_bool_false; lra).
  pose (s0 := mkShared [] [] [] false None None pose0 pose0 (nopp (nlit 1 2)) true true None [] : shared R).
  pose (sp0 := mkSpin SIdle 1 "" pose0 false None None : spin R).
  assert (L : exists g l, learn_laser plain_cf s0 (learn_range sp0 (mkLaser 0 0 2 [1; 1])) (sweep_ev a b) = Ok (Some (set_global s0 g, mkSpin SIdle 1 "laser" (mkPose 0 0 0) false l None))).
  { unfold learn_laser, learn_range. cbn [sp_range_max sp0]. rewrite Rm. cbn [sp_frame String.eqb le_laser sweep_ev]. rewrite level_yaw. unfold pose_at. cbn [ps_qx ps_qy]. rewrite I0. eexists _, _. reflexivity. }
  destruct L as (g & l & L).
  assert (D : laser_begin plain_cf s0 sp0 (sweep_ev a b) =
    Ok (set_heap (set_global s0 g) [scan_set_points (scan_set_pose (scan_new 0) pose0) pts], mkSpin (SMatch 0 (from_msg a)) 1 "laser" (mkPose 0 0 0) false l None)).
  { unfold laser_begin. cbn [le_msg sweep_ev]. fold (sweep_ev a b). rewrite L. cbn [bind sh_init set_global s0 le_start sweep_ev guess_pose sh_scans lr_ranges List.length le_time_inc].
    rewrite Ns. cbn [bind le_end le_msg sweep_ev sp_inverted sp_range_max sp_laser]. rewrite P. reflexivity. }
  unfold run, mapper_init. cbn [cf_filter plain_cf demo_cf bind cf_file exec]. cbn [step mp_sh mp_spin deliver sp_pc].
  match goal with |- context [laser_begin plain_cf ?s ?p ?e] => change (laser_begin plain_cf s p e) with (laser_begin plain_cf s0 sp0 (sweep_ev a b)) end.
  rewrite D. cbn [option_map bind]. eexists _, pts, _. split; [reflexivity|]. split; [reflexivity|]. repeat split; reflexivity.
Qed.

Lemma seen_left : forall x y x' y', x' = - y -> y' = x -> seen_from (mkPose 0 0 (PI / 2)) (from_msg (pose_at x y)) (from_msg (left_at x' y')).
Proof.
  intros x y x' y' -> ->. rewrite level_yaw, left_yaw. unfold seen_from, same_pose, compose, act. cbn [pox poy poth px py]. rewrite cos_PI2, sin_PI2.
  repeat split; [ring..|]. exists 0%Z. ring.
Qed.

Theorem C161_odometry_frame_refuted : exists (cf : config R) g ls ls' m m', Forall2 (same_label (seen_from g)) ls ls' /\
  run cf ls = Ok m /\ run cf ls' = Ok m' /\ map s_pts (sh_heap (mp_sh m')) <> map s_pts (sh_heap (mp_sh m)).
Proof.
  destruct (first_sweep (pose_at 0 0) (pose_at 1 0)) as (m & pts & rest & E & P & H & _).
  destruct (first_sweep (left_at 0 0) (left_at 0 1)) as (m' & pts' & rest' & E' & P' & H' & _).
  exists plain_cf, (mkPose 0 0 (PI / 2)). eexists _, _, m, m'. split; [|split; [exact E|split; [exact E'|]]].
  - constructor; [|repeat (constructor; [exact I|]); constructor]. do 6 (split; [reflexivity|]).
    split; [apply seen_left; lra|]. intro ns. apply seen_left; lra.
  - rewrite H, H'. rewrite upright_R, !level_yaw in P. rewrite upright_R, !left_yaw in P'. injection P as <-. injection P' as <-.
    unfold indexed. cbn [lr_ranges List.length List.seq combine filter fst snd map s_pts scan_set_points pox poy poth INR lr_angle_min lr_angle_inc].
    rewrite !Rle_bool_true by lra. cbn [map]. intro Q. injection Q as _ _ Q _. revert Q. unfold act, polar. cbn [pox poy poth px py fst snd].
    replace (1 * ((PI / 2 - PI / 2) / (1 + 1))) with 0 by field. replace (1 * ((0 - 0) / (1 + 1))) with 0 by field. rewrite cos_0, sin_0.
    replace (0 + 1 * 0) with 0 by ring. rewrite cos_0, sin_0. lra.
Qed.
Print Assumptions C161_odometry_frame_refuted.

(** A standing robot seen from a turned frame, and a moving robot from a shifted
    frame: the scan is stored, with different odometry. *)
Example C161_nonvacuous : exists ls ls' m m', Forall2 (same_label (seen_from (mkPose 0 0 (PI / 2)))) ls ls' /\ Forall2 same_sweep ls ls' /\
  run plain_cf ls = Ok m /\ run plain_cf ls' = Ok m' /\ sh_scans (mp_sh m) = [0%nat] /\ sh_trace (mp_sh m') <> sh_trace (mp_sh m).
Proof.
  destruct (first_sweep (pose_at 5 0) (pose_at 5 0)) as (m & pts & rest & E & _ & _ & S & Tr).
  destruct (first_sweep (left_at 0 5) (left_at 0 5)) as (m' & pts' & rest' & E' & _ & _ & _ & Tr').
  eexists _, _, m, m'. split; [|split; [|split; [exact E|split; [exact E'|split; [exact S|]]]]].
  - constructor; [|repeat (constructor; [exact I|]); constructor]. do 6 (split; [reflexivity|]).
    split; [apply seen_left; lra|]. intro ns. apply seen_left; lra.
  - constructor; [|repeat constructor]. intros ns a b a' b' H1 H2 H3 H4. cbn in H1, H2, H3, H4.
    injection H1 as <-. injection H2 as <-. injection H3 as <-. injection H4 as <-. ra. repeat split; ring.
  - rewrite Tr, Tr', level_yaw, left_yaw. intro Q. injection Q as Q _ _ _. lra.
Qed.
Example C161_translated_nonvacuous : exists ls ls' m m', Forall2 (same_label (shifted_by 3 0)) ls ls' /\
  run plain_cf ls = Ok m /\ run plain_cf ls' = Ok m' /\ sh_scans (mp_sh m) = [0%nat] /\ sh_trace (mp_sh m') <> sh_trace (mp_sh m).
Proof.
  destruct (first_sweep (pose_at 5 0) (pose_at 6 0)) as (m & pts & rest & E & _ & _ & S & Tr).
  destruct (first_sweep (pose_at (5 + 3) (0 + 0)) (pose_at (6 + 3) (0 + 0))) as (m' & pts' & rest' & E' & _ & _ & _ & Tr').
  eexists _, _, m, m'. split; [|split; [exact E|split; [exact E'|split; [exact S|]]]].
  - constructor; [|repeat (constructor; [exact I|]); constructor]. do 6 (split; [reflexivity|]).
    split; [cbn [answers le_start sweep_ev]; unfold shifted_by; rewrite !level_yaw; reflexivity|]. intro ns. cbn [answers le_end sweep_ev]. unfold shifted_by. rewrite !level_yaw. reflexivity.
  - rewrite Tr, Tr', !level_yaw. intro Q. injection Q as Q _ _. lra.
Qed.
