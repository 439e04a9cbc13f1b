(** A node in exact arithmetic that uses two messages, for the example of C180. *)

From Coq Require Import ZArith Reals List Bool Lia Lra String.
From Flocq Require Import Core.
From Verif Require Import Outcome Arith TypesModel ScanModel NdtModel ConstraintModel MatcherModel MotionModel GraphModel FilterModel LaserModel MapperModel SpecPose SpecGraph SpecLaser SpecFrame SpecMapper SpecMapper2 SpecNode
  SpecDrift RTactics NdtProofs GraphProofs AngleProofs ConstraintProofs LaserProofs MatcherWitness MapperWitness MapperWitness2 LaserWitness NodeProofs3 MapperInv5 NodeLive PropFrame.
Import ListNotations.
Local Open Scope R_scope.

(** A local matcher that looks at no other pose. *)
Definition still_matcher : matcher R := mkMatcher None 1 1 0 1 0 100 1.
Definition drift_cf : config R :=
  mkConfig R 1 1 10 false 1 0 0 None 1 1 true 1 1 1 None
    (fun m => (m00 m, m11 m)) search_exact no_ceres 10 mat3_zero (fun _ => still_matcher) (fun _ => still_matcher).

(** A sweep in which nothing is near enough. *)
Definition far_ev (a : pose_msg R) : laser_ev R :=
  mkLaserEv (mkLaser 0 0 1 [2; 2]) "laser" (Some (pose_at 0 0)) (Some a) 0 (fun _ => Some a) (fun _ _ _ => 0) [].

Lemma far_points (o e : pose R) : scan_points false 1 (mkPose 0 0 0) o e (mkLaser 0 0 1 [2; 2]) = Ok [].
Proof.
  rewrite upright_R. unfold indexed. cbn [lr_ranges List.length List.seq combine filter fst snd]. rewrite !Rle_bool_false by lra. reflexivity.
Qed.

Lemma far_learned s l (a : pose_msg R) g : sh_init s = true -> sh_enable s = true -> guess_pose drift_cf s (from_msg a) = Some g ->
  laser_begin drift_cf s (mkSpin SIdle 1 "laser" (mkPose 0 0 0) false l None) (far_ev a) =
  Ok (set_heap s (sh_heap s ++ [scan_set_points (scan_set_pose (scan_new (num_scans s)) g) []]),
      mkSpin (SMatch (List.length (sh_heap s)) (from_msg a)) 1 "laser" (mkPose 0 0 0) false l None).
Proof.
  intros In En Gu. destruct (sweep_exact 2 0) as (ns & Ns & _); [lia|lia|lra|cbn [Nat.sub INR]; lra|].
  assert (Rm : nlt 1 nzero = false) by (ra; apply Rlt_bool_false; lra).
  unfold laser_begin, learn_range. cbn [le_msg far_ev sp_range_max sp_pc sp_frame sp_laser sp_inverted sp_local sp_filter]. rewrite Rm.
  unfold learn_laser. cbn [sp_frame String.eqb Ascii.eqb Bool.eqb bind]. rewrite In. cbn [le_start far_ev]. rewrite Gu.
  cbn [lr_ranges List.length le_time_inc far_ev le_msg]. rewrite Ns. cbn [bind le_end far_ev sp_inverted sp_range_max sp_laser]. rewrite far_points. cbn [bind].
  unfold alloc. cbv zeta. unfold use_filter. cbn [cf_filter drift_cf]. unfold set_heap. cbn [sh_enable]. rewrite En. reflexivity.
Qed.

(** The match against one scan without points at the origin. *)
Definition bare (id : Z) (p : pose R) : scan R := scan_set_points (scan_set_pose (scan_new id) p) [].
Lemma still_grid : exists g, add_scans (en_eig drift_cf) (matcher_reset still_matcher) [bare 0 pose0] = Ok (with_ndt still_matcher (Some g)).
Proof.
  unfold add_scans. cbn [matcher_reset with_ndt k_range k_resolution still_matcher]. rewrite demo_box; [|cbn; lra..]. cbn [b_minx b_maxx b_miny b_maxy bare scan_set_points scan_set_pose s_pose pose0 pox poy].
  unfold ndt_new, cast_unsigned. ra. replace ((0 + 1 - (0 - 1)) / 1 + 1) with (IZR 3) by lra. rewrite Ztrunc_IZR.
  cbn [bind Z.leb Z.ltb Z.compare Z.pow Z.pow_pos Pos.iter Z.mul Pos.mul Pos.compare Pos.compare_cont andb foldM]. eexists. reflexivity.
Qed.

Lemma still_match s l p pose' : sh_scans s = [0%nat] -> sh_heap s = [bare 0 pose0; bare 1 pose'] -> p = 1%nat -> 
  exists s' l' cov c, local_match drift_cf s (mkSpin (SMatch p l) 1 "laser" (mkPose 0 0 0) false (Some still_matcher) None) p = 
     Ok (s', mkSpin (SMatch p l) 1 "laser" (mkPose 0 0 0) false (Some l') None, cov) /\
   (exists t, s' = put (set_typical s t) p (bare 1 (add_correction pose' c))) /\ c = pose0.
Proof.
  intros S H ->. unfold local_match, graph_scans. rewrite S, H. cbn [mapM cf_depth drift_cf].
  change (deref [bare 0 pose0; bare 1 pose'] 0) with (Ok (bare 0 pose0)). change (deref [bare 0 pose0; bare 1 pose'] 1) with (Ok (bare 1 pose')). cbn [bind].
  change (rolling_window 10 [bare 0 pose0]) with (Ok [bare 0 pose0]). cbn [bind sp_local].
  destruct still_grid as [g G]. cbn [en_eig drift_cf] in G. cbn [en_eig drift_cf]. rewrite G. cbn [bind].
  unfold score_scan, score_points. cbn [k_ndt with_ndt s_pts bare scan_set_points]. 
  unfold beams_used. cbn [k_beams with_ndt still_matcher List.length Z.of_nat Z.min Z.compare Z.to_nat seq map foldM bind].
  unfold match_scan. cbn [k_ndt with_ndt k_ang_size k_lin_size k_ang_res k_lin_res still_matcher en_fuel drift_cf loop_values].
  assert (N : nlt (nopp 0) 0 = false) by (ra; apply Rlt_bool_false; lra). rewrite N. cbn [bind foldM w_pose].
  do 4 eexists. split; [reflexivity|]. split; [eexists; reflexivity|reflexivity].
Qed.

Lemma exec_reach_R (cf : config R) (ok : mapper R -> label R -> Prop) ls : forall m m', (forall l, In l ls -> forall m, ok m l) -> reach_if cf ok m -> exec cf m ls = Ok m' -> reach_if cf ok m'.
Proof.
  induction ls as [|l ls IH]; intros m m' H R E; cbn [exec] in E; [injection E as <-; exact R|].
  destruct (step cf l m) as [[m1|f]|] eqn:St; [|discriminate E|].
  - apply (IH m1 m'); [intros l' I; apply H; right; exact I| |exact E]. eapply reach_step; [exact R|apply (H l); left; reflexivity|exact St].
  - apply (IH m m'); [intros l' I; apply H; right; exact I|exact R|exact E].
Qed.

Lemma finish6 (cf : config R) a b cons fl od rb ty en ini gl tr odom c rm fr la iv lm fi lo pu : exists m,
  exec cf (mkMapper (mkShared [a; b] [0%nat] cons fl None None od rb ty en ini gl tr) (mkSpin (SConsLock 1 odom c) rm fr la iv lm fi) lo pu) (repeat Spin 6) = Ok m /\
  sh_trace (mp_sh m) = ObPoses (s_pose b) odom :: ObScan ALaser 1 :: ObConstraint ALaser c :: tr.
Proof. vm_compute. eexists. split; reflexivity. Qed.
Lemma finish (cf : config R) a b cons fl od rb ty en ini gl tr odom cov rm fr la iv lm fi lo pu : exists m c,
  exec cf (mkMapper (mkShared [a; b] [0%nat] cons fl None None od rb ty en ini gl tr) (mkSpin (SMake 1 odom cov) rm fr la iv lm fi) lo pu) (Spin :: repeat Spin 6) = Ok m /\
  sh_trace (mp_sh m) = ObPoses (s_pose b) odom :: ObScan ALaser 1 :: ObConstraint ALaser c :: tr.
Proof.
  destruct (finish6 cf a b cons fl od rb ty en ini gl tr odom (make_constraint a b cov) rm fr la iv lm fi lo pu) as (m & E & Tr).
  exists m, (make_constraint a b cov). split; [|exact Tr]. rewrite <- E. cbn [exec step mp_sh mp_spin spin_step sp_pc sh_scans rev app deref nth_error sh_heap bind option_map].
  unfold at_pc. reflexivity.
Qed.

Lemma two_used (x : R) : 1 <= x -> exists m r, run drift_cf (Deliver (EvLaser (far_ev (pose_at 0 0))) :: repeat Spin 5 ++ Deliver (EvLaser (far_ev (pose_at x 0))) :: repeat Spin 8) = Ok m /\
  tracked (sh_trace (mp_sh m)) = [(pose0, mkPose 0 0 0); (r, mkPose x 0 0)].
Proof.
  intro Hx.
  assert (Rm : nlt 1 nzero = false) by (ra; apply Rlt_bool_false; lra).
  assert (I0 : nlt (nlit 2 100) (nabs 0) = false) by (ra; rewrite Rabs_R0; apply Rlt_bool_false; lra).
  pose (s0 := mkShared [] [] [] false None None pose0 pose0 (nopp (nlit 1 2)) true true None [] : shared R).
  pose (sp0 := mkSpin SIdle 1 "" pose0 false None None : spin R).
  assert (D0 : laser_begin drift_cf s0 sp0 (far_ev (pose_at 0 0)) = Ok (set_heap (set_global s0 (Some still_matcher)) [bare 0 pose0],
    mkSpin (SMatch 0 (mkPose 0 0 0)) 1 "laser" (mkPose 0 0 0) false (Some still_matcher) None)).
  { pose proof (far_learned (set_global s0 (Some still_matcher)) (Some still_matcher) (pose_at 0 0) pose0 eq_refl eq_refl eq_refl) as Fl. rewrite level_yaw in Fl.
    transitivity (laser_begin drift_cf (set_global s0 (Some still_matcher)) (mkSpin SIdle 1 "laser" (mkPose 0 0 0) false (Some still_matcher) None) (far_ev (pose_at 0 0))); [|exact Fl].
    unfold laser_begin. cbn [le_msg far_ev]. fold (far_ev (pose_at 0 0)).
    assert (L0 : learn_laser drift_cf s0 (learn_range sp0 (mkLaser 0 0 1 [2; 2])) (far_ev (pose_at 0 0)) = Ok (Some (set_global s0 (Some still_matcher), mkSpin SIdle 1 "laser" (mkPose 0 0 0) false (Some still_matcher) None))).
    { unfold learn_laser, learn_range. cbn [sp_range_max sp0]. rewrite Rm. cbn [sp_frame String.eqb le_laser far_ev]. rewrite level_yaw. unfold pose_at. cbn [ps_qx ps_qy]. rewrite I0. reflexivity. }
    assert (L1 : learn_laser drift_cf (set_global s0 (Some still_matcher)) (learn_range (mkSpin SIdle 1 "laser" (mkPose 0 0 0) false (Some still_matcher) None) (mkLaser 0 0 1 [2; 2])) (far_ev (pose_at 0 0)) =
      Ok (Some (set_global s0 (Some still_matcher), mkSpin SIdle 1 "laser" (mkPose 0 0 0) false (Some still_matcher) None))).
    { unfold learn_laser, learn_range. cbn [sp_range_max]. rewrite Rm. reflexivity. }
    rewrite L0, L1. reflexivity. }
  pose (s1 := mkShared [bare 0 pose0] [0%nat] [] true None None (mkPose 0 0 0) pose0 (nopp (nlit 1 2)) true true (Some still_matcher)
    [ObPoses pose0 (mkPose 0 0 0); ObScan ALaser 0] : shared R).
  pose (sp1 := mkSpin SIdle 1 "laser" (mkPose 0 0 0) false (Some still_matcher) None : spin R).
  destruct (mapper_init drift_cf) as [m0|] eqn:Mi; [|discriminate Mi]. unfold run. rewrite Mi. cbn [bind].
  assert (M0 : exists lo pu, m0 = mkMapper s0 sp0 lo pu).
  { unfold mapper_init in Mi. cbn [cf_filter drift_cf bind cf_file] in Mi. injection Mi as <-. eexists _, _. reflexivity. }
  destruct M0 as (lo & pu & ->). clear Mi. change (?a :: ?b ++ ?c) with ((a :: b) ++ c).
  assert (E1 : exec drift_cf (mkMapper s0 sp0 lo pu) (Deliver (EvLaser (far_ev (pose_at 0 0))) :: repeat Spin 5) = Ok (mkMapper s1 sp1 lo pu)).
  { cbn [exec step mp_sh mp_spin deliver sp_pc sp0]. fold sp0. rewrite D0. reflexivity. }
  rewrite exec_app, E1. cbn [bind].
  assert (Sm : small_motion 1 1 (mkPose 0 0 0) (mkPose x 0 0) = false).
  { unfold small_motion. ra. cbn [pox poy poth]. rewrite Rlt_bool_false; [reflexivity|]. nra. }
  set (q := odom_guess pose0 (mkPose 0 0 0) (mkPose x 0 0)).
  pose proof (far_learned s1 (Some still_matcher) (pose_at x 0) q eq_refl eq_refl) as Fl. rewrite level_yaw in Fl.
  assert (Gu : guess_pose drift_cf s1 (mkPose x 0 0) = Some q).
  { unfold guess_pose. cbn [sh_scans s1 cf_min_dist cf_min_rot drift_cf sh_odom sh_robot]. rewrite Sm. reflexivity. }
  specialize (Fl Gu).
  set (s2 := set_heap s1 [bare 0 pose0; bare 1 q]).
  change (Deliver (EvLaser (far_ev (pose_at x 0))) :: repeat Spin 8) with ([Deliver (EvLaser (far_ev (pose_at x 0))) : label R] ++ repeat Spin 8).
  rewrite exec_app.
  match goal with |- context [exec drift_cf ?m [?l]] => assert (E2 : exec drift_cf m [l] = Ok (mkMapper s2 (mkSpin (SMatch 1 (mkPose x 0 0)) 1 "laser" (mkPose 0 0 0) false (Some still_matcher) None) lo pu)) end.
  { cbn [exec step mp_sh mp_spin deliver sp_pc sp1]. fold sp1. unfold sp1. rewrite Fl. reflexivity. }
  rewrite E2. cbn [bind repeat].
  destruct (still_match s2 (mkPose x 0 0) 1 q eq_refl eq_refl eq_refl) as (s3 & l' & cov & c & Lm & (t & E3) & ->).
  assert (Lm' : spin_step drift_cf s2 (mkSpin (SMatch 1 (mkPose x 0 0)) 1 "laser" (mkPose 0 0 0) false (Some still_matcher) None) =
    Some (Ok (s3, mkSpin (SMake 1 (mkPose x 0 0) cov) 1 "laser" (mkPose 0 0 0) false (Some l') None))).
  { unfold spin_step at 1. cbn [sp_pc]. change (sh_scans s2) with [0%nat]. cbv iota beta. rewrite Lm. reflexivity. }
  change (Spin :: ?l) with ([Spin : label R] ++ l). rewrite exec_app.
  cbn [exec step mp_sh mp_spin]. rewrite Lm'. cbn [bind option_map app].
  assert (F : exists m c, exec drift_cf (mkMapper s3 (mkSpin (SMake 1 (mkPose x 0 0) cov) 1 "laser" (mkPose 0 0 0) false (Some l') None) lo pu) (Spin :: repeat Spin 6) = Ok m /\
    sh_trace (mp_sh m) = ObPoses (add_correction q pose0) (mkPose x 0 0) :: ObScan ALaser 1 :: ObConstraint ALaser c :: sh_trace s1).
  { rewrite E3. exact (finish drift_cf (bare 0 pose0) (bare 1 (add_correction q pose0)) _ _ _ _ t _ _ _ _ _ _ _ _ _ _ _ _ _ _). }
  destruct F as (m & c & F & Tr). exists m, (add_correction q pose0). split; [exact F|]. rewrite Tr. reflexivity.
Qed.
