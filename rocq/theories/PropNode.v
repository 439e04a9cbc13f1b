(** Properties C82 - C89: what the node learns about its laser, and the callbacks
    from beginning to end. *)

From Coq Require Import ZArith Reals List Bool Lia Lra String.
From Flocq Require Import Core BinarySingleNaN.
From Verif Require Import Outcome Arith SpecOrigin TypesModel ScanModel CellModel NdtModel MatcherModel ConstraintModel SolverModel GraphModel
  OccGridModel MotionModel FilterModel LaserModel MapperModel SpecPose SpecLaser SpecMapper SpecMapper2 SpecNode
  MapperInv1 MapperInv6 NodeProofs NodeProofs2 NodeProofs3 MapperWitness2.
Import ListNotations.

(** C82, every arithmetic and schedule. *)
Theorem C82_mounting_learned_once : forall {T} {A : Arith T} (cf : config T) ls m,
  run cf ls = Ok m -> Forall named (received cf ls) ->
  match first_mounted (received cf ls) with
  | None => sp_frame (mp_spin m) = EmptyString /\ sp_laser (mp_spin m) = origin /\ sp_inverted (mp_spin m) = false
  | Some e => exists t, le_laser e = Some t /\ sp_frame (mp_spin m) = le_frame e /\ sp_laser (mp_spin m) = from_msg t
  end.
Proof.
  intros T A cf ls m H F. pose proof (mount_run cf ls m H F) as M. destruct (first_mounted (received cf ls)) as [e|] eqn:E.
  - unfold first_mounted in E. apply find_some in E. destruct E as [_ E]. unfold mounted in E. unfold mount_after in M.
    destruct (le_laser e) as [t|]; [|discriminate E]. exists t. unfold mount in M. split; [reflexivity|]. split; congruence.
  - cbn [mount_after] in M. unfold mount in M. injection M as M1 M2 M3. repeat split; assumption.
Qed.
Print Assumptions C82_mounting_learned_once.

(** Nothing later changes it. *)
Theorem C82_mounting_kept : forall {T} {A : Arith T} (cf : config T) ls m m',
  sp_frame (mp_spin m) <> EmptyString -> exec cf m ls = Ok m' -> Forall named (received_from cf m ls) ->
  sp_frame (mp_spin m') = sp_frame (mp_spin m) /\ sp_laser (mp_spin m') = sp_laser (mp_spin m) /\ sp_inverted (mp_spin m') = sp_inverted (mp_spin m).
Proof.
  intros T A cf ls m m' N E F. pose proof (mount_exec cf ls m m' E F) as M. destruct (String.eqb_spec (sp_frame (mp_spin m)) "") as [Q|_]; [contradiction|].
  unfold mount in M. injection M as M1 M2 M3. repeat split; assumption.
Qed.
Print Assumptions C82_mounting_kept.

Definition mounted_ev (fr : string) (t : pose_msg R) : laser_ev R :=
  mkLaserEv (mkLaser 0%R 0%R 2%R []) fr (Some t) None 0%R (fun _ => None) (fun _ _ _ => 0%R) [].
Definition cfR : config R :=
  mkConfig R 1%R 1%R 10 false 4%R 1 0 None 1%R 1%R true 2%R 1%R 1%R None
    (fun _ => (0%R, 0%R)) (fun _ _ _ => []) (fun _ _ nodes => (false, nodes)) 10 mat3_zero
    (fun r => mkMatcher None 1%R 1%R 1%R 1%R 1%R 100 r) (fun r => mkMatcher None 1%R 1%R 1%R 1%R 1%R 100 r).

Example C82_nonvacuous : forall t, exists m, run cfR [Deliver (EvLaser (mounted_ev "laser" t))] = Ok m /\
  Forall named (received cfR [Deliver (EvLaser (mounted_ev "laser" t))]) /\
  first_mounted (received cfR [Deliver (EvLaser (mounted_ev "laser" t))]) = Some (mounted_ev "laser" t).
Proof.
  intro t. destruct (learn_run cfR (mounted_ev "laser" t) eq_refl eq_refl eq_refl eq_refl) as (m & E & Re). exists m. split; [exact E|].
  rewrite Re. split; [|reflexivity]. constructor; [|constructor]. intros _. discriminate.
Qed.

(** C83: false as stated.  A laser tilted by less than 5 degrees counts as
    mounted upside down. *)
Theorem C83_upside_down_refuted : exists (cf : config R) ls m e t,
  run cf ls = Ok m /\ Forall named (received cf ls) /\ first_mounted (received cf ls) = Some e /\ le_laser e = Some t /\
  unit_quat t /\ (99 / 100 < z_up t)%R /\ sp_inverted (mp_spin m) = true.
Proof.
  set (t := mkPoseMsg 0%R 0%R 0%R 0%R (100 / 2501)%R 0%R (2499 / 2501)%R).
  destruct (C82_nonvacuous t) as (m & E & F & Fm). exists cfR, [Deliver (EvLaser (mounted_ev "laser" t))], m, (mounted_ev "laser" t), t.
  split; [exact E|]. split; [exact F|]. split; [exact Fm|]. split; [reflexivity|].
  pose proof (mount_run cfR _ m E F) as M. rewrite Fm in M. cbn [mount_after le_laser mounted_ev] in M. unfold mount in M.
  injection M as _ _ M3. unfold unit_quat, z_up. cbn [ps_qx ps_qy ps_qz ps_qw t]. split; [lra|]. split; [lra|].
  rewrite M3. rewrite (proj2 (tilted_spec t)); [reflexivity|]. right. cbn [t ps_qy]. rewrite Rabs_pos_eq; lra.
Qed.
Print Assumptions C83_upside_down_refuted.

(** An upside-down laser is recognised, and one mounted level is not mistaken. *)
Theorem C83_upside_down_partial : forall (cf : config R) ls m e t,
  run cf ls = Ok m -> Forall named (received cf ls) -> first_mounted (received cf ls) = Some e -> le_laser e = Some t ->
  unit_quat t ->
  ((z_up t < 0)%R -> sp_inverted (mp_spin m) = true) /\
  ((Rabs (ps_qx t) <= 2 / 100)%R -> (Rabs (ps_qy t) <= 2 / 100)%R -> sp_inverted (mp_spin m) = false).
Proof.
  intros cf ls m e t E F Fm L U. pose proof (mount_run cf ls m E F) as M. rewrite Fm in M. cbn [mount_after] in M. rewrite L in M.
  unfold mount in M. injection M as _ _ M. cbn [snd] in M. rewrite orb_false_r in M. rewrite M.
  split; [apply upside_down_tilted; exact U|apply level_not_tilted].
Qed.
Print Assumptions C83_upside_down_partial.

Example C83_nonvacuous : unit_quat (mkPoseMsg 0 0 0 1 0 0 0)%R /\ (z_up (mkPoseMsg 0 0 0 1 0 0 0) < 0)%R /\
  unit_quat (mkPoseMsg 0 0 0 0 0 0 1)%R /\ (0 < z_up (mkPoseMsg 0 0 0 0 0 0 1))%R.
Proof. unfold unit_quat, z_up. cbn. lra. Qed.

(** C84, every arithmetic and schedule. *)
Theorem C84_range_limit : forall {T} {A : Arith T} (cf : config T) ls m, run cf ls = Ok m ->
  Forall (fun e => nlt (lr_range_max (le_msg e)) nzero = false) (received cf ls) ->
  sp_range_max (mp_spin m) =
    if nlt (cf_range_max cf) nzero
    then match received cf ls with [] => cf_range_max cf | e :: _ => lr_range_max (le_msg e) end
    else cf_range_max cf.
Proof. intros T A cf. exact (limit_run cf). Qed.
Print Assumptions C84_range_limit.

Theorem C84_matcher_settings : forall {T} {A : Arith T} (cf : config T) ls m, run cf ls = Ok m ->
  Forall (fun e => named e /\ nlt (lr_range_max (le_msg e)) nzero = false) (received cf ls) ->
  (forall k, sp_local (mp_spin m) = Some k -> same_settings k (en_local cf (sp_range_max (mp_spin m)))) /\
  (forall k, sh_global (mp_sh m) = Some k -> same_settings k (en_global cf (sp_range_max (mp_spin m)))).
Proof. intros T A cf. exact (settings_run cf). Qed.
Print Assumptions C84_matcher_settings.

Example C84_nonvacuous : forall t, exists m, run cfR [Deliver (EvLaser (mounted_ev "laser" t))] = Ok m /\
  Forall (fun e => named e /\ nlt (lr_range_max (le_msg e)) nzero = false) (received cfR [Deliver (EvLaser (mounted_ev "laser" t))]).
Proof.
  intro t. destruct (learn_run cfR (mounted_ev "laser" t) eq_refl eq_refl eq_refl eq_refl) as (m & E & Re). exists m. split; [exact E|].
  rewrite Re. constructor; [|constructor]. split; [intros _; discriminate|]. cbn. apply Rlt_bool_false. lra.
Qed.

(** C85, every arithmetic. *)
Theorem C85_mapping_scan : forall {T} {A : Arith T} (cf : config T) m e start guess pts g b back score corr cov,
  accepted cf m e start guess pts -> cf_filter cf = None -> sh_enable (mp_sh m) = true -> mutexes m = (None, None) ->
  the_graph cf (mp_sh m) = Ok g -> gr_scans g = b ++ [back] ->
  matched_locally cf m (fresh_scan (Z.of_nat (List.length (gr_scans g))) guess pts) score corr cov ->
  exists m' sc, exec cf m (Deliver (EvLaser e) :: repeat Spin 8) = Ok m' /\ sp_pc (mp_spin m') = SIdle /\
    s_id sc = Z.of_nat (List.length (gr_scans g)) /\ s_pose sc = corrected guess corr /\ s_pts sc = pts /\
    the_graph cf (mp_sh m') = Ok (mkGraph (cf_use_bary cf) (gr_scans g ++ [sc]) (gr_constraints g ++ [make_constraint back sc cov])) /\
    sh_robot (mp_sh m') = s_pose sc /\ sh_odom (mp_sh m') = from_msg start /\ sh_flag (mp_sh m') = true /\
    sh_typical (mp_sh m') = nadd (nmul (nlit 95 100) (sh_typical (mp_sh m))) (nmul (nlit 5 100) score) /\
    mutexes m' = (None, None) /\ sh_global (mp_sh m') = sh_global (mp_sh m).
Proof.
  intros T A cf m e start guess pts g b back score corr cov (Id & In & Fr & Es & Eg & ns & end_ & Ens & Ee & Ep) Fi En Mu G Gb
    (g' & w & k & k' & u & G' & W & K & K' & U & Ma).
  rewrite G in G'. injection G' as <-. unfold mutexes in Mu. injection Mu as Gl Pl.
  assert (N : Z.of_nat (List.length (gr_scans g)) = num_scans (mp_sh m)).
  { destruct (MapperInv3.the_graph_length cf _ _ G) as (L & _). unfold num_scans. rewrite L. reflexivity. }
  rewrite N in *.
  destruct (mapping_scan cf m e start ns end_ guess pts g b back w k k' u score corr cov) as (m' & X & I & Gr & Ro & Od & Fl & Ty & Mu & En' & In' & Gg & _);
    try assumption.
  { unfold use_filter. rewrite Fi. reflexivity. }
  exists m'. eexists. split; [exact X|]. split; [exact I|]. split; [|split; [|split; [|split; [exact Gr|]]]]; try reflexivity.
  repeat split; try assumption. rewrite Mu. unfold mutexes. rewrite Gl, Pl. reflexivity.
Qed.
Print Assumptions C85_mapping_scan.

(** The first scan of a map is put at the origin. *)
Theorem C85_first_scan : forall {T} {A : Arith T} (cf : config T) m e start guess pts,
  accepted cf m e start guess pts -> cf_filter cf = None -> sh_enable (mp_sh m) = true -> mutexes m = (None, None) ->
  sh_scans (mp_sh m) = [] ->
  exists m' sc, exec cf m (Deliver (EvLaser e) :: repeat Spin 5) = Ok m' /\ sp_pc (mp_spin m') = SIdle /\
    s_id sc = 0%Z /\ s_pose sc = origin /\ s_pts sc = pts /\
    the_graph cf (mp_sh m') = Ok (mkGraph (cf_use_bary cf) [sc] (sh_cons (mp_sh m))) /\
    sh_robot (mp_sh m') = origin /\ sh_odom (mp_sh m') = from_msg start /\ sh_flag (mp_sh m') = true /\
    sh_typical (mp_sh m') = sh_typical (mp_sh m) /\ mutexes m' = (None, None) /\ sh_global (mp_sh m') = sh_global (mp_sh m).
Proof.
  intros T A cf m e start guess pts (Id & In & Fr & Es & Eg & ns & end_ & Ens & Ee & Ep) Fi En Mu Sn. unfold mutexes in Mu. injection Mu as Gl Pl.
  destruct (first_scan cf m e start ns end_ pts) as (m' & X & I & Gr & Ro & Od & Fl & Ty & Mu & Gg); try assumption.
  { unfold use_filter. rewrite Fi. reflexivity. }
  exists m'. eexists. split; [exact X|]. split; [exact I|]. split; [|split; [|split; [|split; [exact Gr|]]]]; try reflexivity.
  repeat split; try assumption. rewrite Mu. unfold mutexes. rewrite Gl, Pl. reflexivity.
Qed.
Print Assumptions C85_first_scan.

Definition beam_ev (ranges : list b64) (x y : Z) : laser_ev b64 :=
  mkLaserEv (mkLaser (z64 0) (z64 0) (z64 2) ranges) "laser" (Some (at64 0 0)) (Some (at64 x y)) (z64 0) (fun _ => Some (at64 x y)) (fun _ _ _ => z64 0) [].
Definition free_locks {T} (m : mapper T) : bool := match mutexes m with (None, None) => true | _ => false end.
Lemma free_locks_sound : forall {T} (m : mapper T), free_locks m = true -> mutexes m = (None, None).
Proof. intros T m H. unfold free_locks in H. destruct (mutexes m) as [[?|] [?|]]; try discriminate H. reflexivity. Qed.

Example C85_nonvacuous : forall lm : libm, let cf := cf64 lm 10 1 0 None true None in
  exists m e start guess pts g b back score corr cov,
  reachable (A := BA (easy lm)) cf m /\ accepted (A := BA (easy lm)) cf m e start guess pts /\ sh_enable (mp_sh m) = true /\ mutexes m = (None, None) /\
  the_graph cf (mp_sh m) = Ok g /\ gr_scans g = b ++ [back] /\
  matched_locally (A := BA (easy lm)) cf m (fresh_scan (A := BA (easy lm)) (Z.of_nat (List.length (gr_scans g))) guess pts) score corr cov.
Proof.
  intros lm cf. pose (e := beam_ev [z64 1] 2 0).
  destruct (ends64_in (run (A := BA (easy lm)) cf (firstn 17 laser_schedule))
    (fun m => sh_enable (mp_sh m) && free_locks m && match ready (A := BA (easy lm)) cf m e with
      | Some (_, guess, pts) =>
        match the_graph cf (mp_sh m) with
        | Ok g =>
          match rev (gr_scans g), local_ready (A := BA (easy lm)) cf m (fresh_scan (A := BA (easy lm)) (Z.of_nat (List.length (gr_scans g))) guess pts) with
          | _ :: _, Some _ => true
          | _, _ => false
          end
        | _ => false
        end
      | None => false
      end)) as (m & E & H); [vm_compute; reflexivity|].
  apply andb_prop in H. destruct H as [H H3]. apply andb_prop in H. destruct H as [H1 H2].
  destruct (ready (A := BA (easy lm)) cf m e) as [[[start guess] pts]|] eqn:R; [|discriminate H3].
  destruct (the_graph cf (mp_sh m)) as [g|] eqn:G; [|discriminate H3].
  destruct (rev (gr_scans g)) as [|back rb] eqn:Rv; [discriminate H3|].
  destruct (local_ready cf m _) as [[[score corr] cov]|] eqn:L; [|discriminate H3].
  exists m, e, start, guess, pts, g, (rev rb), back, score, corr, cov.
  split; [exists (firstn 17 laser_schedule); exact E|]. split; [apply ready_sound; exact R|]. split; [exact H1|]. split; [apply free_locks_sound; exact H2|].
  split; [exact G|]. split; [rewrite <- (rev_involutive (gr_scans g)), Rv; reflexivity|]. apply local_ready_sound. exact L.
Qed.

(** C86, every arithmetic. *)
Theorem C86_tracking_scan : forall {T} {A : Arith T} (cf : config T) m e start guess pts u k score corr cov,
  accepted cf m e start guess pts -> cf_filter cf = None -> sh_enable (mp_sh m) = false -> sh_plock (mp_sh m) = None ->
  sh_global (mp_sh m) = Some k -> score_scan k (fresh_scan (num_scans (mp_sh m)) guess pts) = Ok u ->
  match_scan (en_fuel cf) k (fresh_scan (num_scans (mp_sh m)) guess pts) origin (en_garbage cf) = Ok (score, corr, cov) ->
  exists m', exec cf m (Deliver (EvLaser e) :: repeat Spin 3) = Ok m' /\ sp_pc (mp_spin m') = SIdle /\
    (forall g, the_graph cf (mp_sh m) = Ok g -> the_graph cf (mp_sh m') = Ok g) /\
    sh_robot (mp_sh m') = corrected guess corr /\ sh_odom (mp_sh m') = from_msg start /\
    sh_flag (mp_sh m') = sh_flag (mp_sh m) /\ sh_typical (mp_sh m') = sh_typical (mp_sh m) /\ mutexes m' = mutexes m /\
    sh_global (mp_sh m') = sh_global (mp_sh m).
Proof.
  intros T A cf m e start guess pts u k score corr cov (Id & In & Fr & Es & Eg & ns & end_ & Ens & Ee & Ep) Fi En Pl K U Ma.
  destruct (tracking_scan cf m e start ns end_ guess pts k u score corr cov) as (m' & X & I & Gr & Ro & Od & Fl & Ty & Mu & Gg & _); try assumption.
  { unfold use_filter. rewrite Fi. reflexivity. }
  exists m'. repeat split; assumption.
Qed.
Print Assumptions C86_tracking_scan.

(** The laser is learned, the map matched against is the loaded one. *)
Definition tracking_schedule : list (label b64) := [Deliver (beam64 [] 0 0); Deliver (pose_ev64 (z64 0) (z64 0) 0 0)] ++ repeat Spin 9.

Example C86_nonvacuous : forall lm : libm, let cf := cf64 lm 10 1 0 None false (Some two_scans) in
  exists m e start guess pts score corr cov,
  reachable (A := BA (easy lm)) cf m /\ accepted (A := BA (easy lm)) cf m e start guess pts /\ sh_enable (mp_sh m) = false /\ mutexes m = (None, None) /\
  matched_globally (A := BA (easy lm)) cf m (fresh_scan (A := BA (easy lm)) (num_scans (mp_sh m)) guess pts) score corr cov.
Proof.
  intros lm cf. pose (e := beam_ev [z64 1] 2 0).
  destruct (ends64_in (run (A := BA (easy lm)) cf tracking_schedule)
    (fun m => negb (sh_enable (mp_sh m)) && free_locks m && match ready (A := BA (easy lm)) cf m e with
      | Some (_, guess, pts) =>
        match global_ready (A := BA (easy lm)) cf m (fresh_scan (A := BA (easy lm)) (num_scans (mp_sh m)) guess pts) with Some _ => true | _ => false end
      | None => false
      end)) as (m & E & H); [vm_compute; reflexivity|].
  apply andb_prop in H. destruct H as [H H3]. apply andb_prop in H. destruct H as [H1 H2].
  destruct (ready (A := BA (easy lm)) cf m e) as [[[start guess] pts]|] eqn:R; [|discriminate H3].
  destruct (global_ready cf m _) as [[[score corr] cov]|] eqn:L; [|discriminate H3].
  exists m, e, start, guess, pts, score, corr, cov.
  split; [exists tracking_schedule; exact E|]. split; [apply ready_sound; exact R|].
  split; [destruct (sh_enable (mp_sh m)); [discriminate H1|reflexivity]|]. split; [apply free_locks_sound; exact H2|].
  apply global_ready_sound. exact L.
Qed.

(** C87, every arithmetic. *)
Theorem C87_filter_scan : forall {T} {A : Arith T} (cf : config T) m e start guess pts f,
  accepted cf m e start guess pts -> cf_filter cf <> None -> sh_plock (mp_sh m) = None ->
  filtered cf m e (robot_delta (sh_robot (mp_sh m)) guess) pts f ->
  exists m', exec cf m (Deliver (EvLaser e) :: repeat Spin 3) = Ok m' /\ sp_pc (mp_spin m') = SIdle /\
    sp_filter (mp_spin m') = Some f /\
    (forall g, the_graph cf (mp_sh m) = Ok g -> the_graph cf (mp_sh m') = Ok g) /\
    sh_robot (mp_sh m') = mkPose (v0 (pf_mean f)) (v1 (pf_mean f)) (v2 (pf_mean f)) /\ sh_odom (mp_sh m') = from_msg start /\
    sh_flag (mp_sh m') = sh_flag (mp_sh m) /\ sh_typical (mp_sh m') = sh_typical (mp_sh m) /\ mutexes m' = mutexes m /\
    sh_global (mp_sh m') = sh_global (mp_sh m).
Proof.
  intros T A cf m e start guess pts f (Id & In & Fr & Es & Eg & ns & end_ & Ens & Ee & Ep) Fi Pl (k & f0 & f1 & f2 & K & F0 & F1 & F2 & F3).
  destruct (filter_scan cf m e start ns end_ guess pts k f0 f1 f2 f) as (m' & X & I & Pf & Gr & Ro & Od & Fl & Ty & Mu & Gg & _); try assumption.
  { unfold use_filter. destruct (cf_filter cf); [reflexivity|contradiction Fi; reflexivity]. }
  exists m'. repeat split; assumption.
Qed.
Print Assumptions C87_filter_scan.

(** In exact arithmetic: the filter is moved by the motion odometry measured, in
    the frame of the robot. *)
Theorem C87_filter_motion : forall (cf : config R) m e start guess pts d, accepted cf m e start guess pts -> sh_scans (mp_sh m) <> [] ->
  same_pose (compose (sh_odom (mp_sh m)) d) (from_msg start) ->
  same_pose (vec_pose (robot_delta (sh_robot (mp_sh m)) guess)) d.
Proof.
  intros cf m e start guess pts d (_ & _ & _ & _ & Eg & _) N D. exact (filter_motion cf _ _ _ d N Eg D).
Qed.
Print Assumptions C87_filter_motion.

Definition draw_ev (x y : Z) : laser_ev b64 :=
  mkLaserEv (mkLaser (z64 0) (z64 0) (z64 2) [z64 0]) "laser" (Some (at64 0 0)) (Some (at64 x y)) (z64 0) (fun _ => Some (at64 x y)) (fun _ _ _ => z64 0)
    [0%Z; 0%Z; 0%Z; 0%Z; 0%Z; 0%Z].

Example C87_nonvacuous : forall lm : libm, let cf := cf64 lm 10 1 0 (Some (1%Z, 2%Z, motion64)) true (Some one_scan) in
  exists m e start guess pts f,
  reachable (A := BA (easy lm)) cf m /\ accepted (A := BA (easy lm)) cf m e start guess pts /\ mutexes m = (None, None) /\
  sh_scans (mp_sh m) <> [] /\ filtered (A := BA (easy lm)) cf m e (robot_delta (A := BA (easy lm)) (sh_robot (mp_sh m)) guess) pts f.
Proof.
  intros lm cf. pose (e := draw_ev 2 0).
  destruct (ends64_in (run (A := BA (easy lm)) cf tracking_schedule)
    (fun m => match sh_scans (mp_sh m) with [] => false | _ => true end && free_locks m && match ready (A := BA (easy lm)) cf m e with
      | Some (_, guess, pts) =>
        match filter_ready (A := BA (easy lm)) cf m e (robot_delta (A := BA (easy lm)) (sh_robot (mp_sh m)) guess) pts with Some _ => true | _ => false end
      | None => false
      end)) as (m & E & H); [vm_compute; reflexivity|].
  apply andb_prop in H. destruct H as [H H3]. apply andb_prop in H. destruct H as [H1 H2].
  destruct (ready (A := BA (easy lm)) cf m e) as [[[start guess] pts]|] eqn:R; [|discriminate H3].
  destruct (filter_ready cf m e _ pts) as [f|] eqn:L; [|discriminate H3].
  exists m, e, start, guess, pts, f.
  split; [exists tracking_schedule; exact E|]. split; [apply ready_sound; exact R|].
  split; [apply free_locks_sound; exact H2|]. split; [intro Q; rewrite Q in H1; discriminate H1|].
  apply filter_ready_sound. exact L.
Qed.

(** C88, every arithmetic. *)
Theorem C88_loop_closed : forall {T} {A : Arith T} (cf : config T) m c i cand sc csc score corr cov,
  lp_pc (mp_loop m) = LMatch c i cand -> nth_error (sh_heap (mp_sh m)) (lc_scan c) = Some sc -> nth_error (sh_heap (mp_sh m)) cand = Some csc ->
  cand <> lc_scan c -> sh_glock (mp_sh m) = None -> matched_globally cf m sc score corr cov ->
  nfinite score = true -> nlt score (sh_typical (mp_sh m)) = true ->
  exists m' sc', exec cf m (repeat Loop 6) = Ok m' /\
    s_id sc' = s_id sc /\ s_pts sc' = s_pts sc /\ s_pose sc' = corrected (s_pose sc) corr /\
    sh_heap (mp_sh m') = list_set (sh_heap (mp_sh m)) (lc_scan c) sc' /\ sh_scans (mp_sh m') = sh_scans (mp_sh m) /\
    (exists k, sh_cons (mp_sh m') = sh_cons (mp_sh m) ++ [k] /\ c_switchable k = true /\ c_begin k = s_id csc /\ c_end k = s_id sc /\
       c_transform k = c_transform (make_constraint csc sc' cov) /\ c_information k = c_information (make_constraint csc sc' cov)) /\
    sh_flag (mp_sh m') = true /\ mutexes m' = mutexes m /\ same_poses (mp_sh m) (mp_sh m') /\
    sh_typical (mp_sh m') = sh_typical (mp_sh m).
Proof.
  intros T A cf m c i cand sc csc score corr cov P N1 N2 Ne Gl (k & K & Ma) F L.
  destruct (closing_scan cf m c i cand sc csc k score corr cov P N1 N2 Ne Gl K Ma) as (m' & X & H & S & C & Fl & Mu & Po & Ty & _).
  { rewrite F, L. reflexivity. }
  exists m'. eexists. split; [exact X|]. split; [|split; [|split; [|split; [exact H|]]]]; try reflexivity.
  split; [exact S|]. split; [eexists; split; [exact C|]; repeat split|]. split; [exact Fl|]. split; [exact Mu|]. split; [exact Po|exact Ty].
Qed.
Print Assumptions C88_loop_closed.

Definition match_ready {T} {A : Arith T} (cf : config T) (m : mapper T) : bool :=
  match lp_pc (mp_loop m) with
  | LMatch c i cand =>
    match nth_error (sh_heap (mp_sh m)) (lc_scan c), nth_error (sh_heap (mp_sh m)) cand with
    | Some sc, Some csc =>
      negb (cand =? lc_scan c)%nat &&
      match global_ready cf m sc with Some (score, _, _) => nfinite score && nlt score (sh_typical (mp_sh m)) | None => false end
    | _, _ => false
    end
  | _ => false
  end.

Example C88_nonvacuous : forall lm : libm, let cf := cf64 lm 0 1 0 None true (Some two_scans) in
  exists m c i cand sc csc score corr cov,
  reachable (A := BA (easy lm)) cf m /\ lp_pc (mp_loop m) = LMatch c i cand /\
  nth_error (sh_heap (mp_sh m)) (lc_scan c) = Some sc /\ nth_error (sh_heap (mp_sh m)) cand = Some csc /\ cand <> lc_scan c /\
  mutexes m = (None, None) /\ matched_globally (A := BA (easy lm)) cf m sc score corr cov /\
  nfinite (Arith := BA (easy lm)) score = true /\ nlt (Arith := BA (easy lm)) score (sh_typical (mp_sh m)) = true.
Proof.
  intros lm cf.
  destruct (ends64_in (run (A := BA (easy lm)) cf (firstn 9 closure_schedule))
    (fun m => free_locks m && match_ready (A := BA (easy lm)) cf m)) as (m & E & H); [vm_compute; reflexivity|].
  apply andb_prop in H. destruct H as [H1 H2]. unfold match_ready in H2.
  destruct (lp_pc (mp_loop m)) as [| | | | | | | |c i cand| | | | | | | |] eqn:P; try discriminate H2.
  destruct (nth_error (sh_heap (mp_sh m)) (lc_scan c)) as [sc|] eqn:N1; [|discriminate H2].
  destruct (nth_error (sh_heap (mp_sh m)) cand) as [csc|] eqn:N2; [|discriminate H2].
  apply andb_prop in H2. destruct H2 as [Ne H2]. destruct (global_ready cf m sc) as [[[score corr] cov]|] eqn:G; [|discriminate H2].
  apply andb_prop in H2. destruct H2 as [F L].
  exists m, c, i, cand, sc, csc, score, corr, cov. split; [exists (firstn 9 closure_schedule); exact E|]. split; [exact P|]. split; [exact N1|]. split; [exact N2|].
  split; [destruct (Nat.eqb_spec cand (lc_scan c)); [discriminate Ne|assumption]|]. split; [apply free_locks_sound; exact H1|].
  split; [apply global_ready_sound; exact G|]. split; [exact F|exact L].
Qed.

(** C89: false as stated.  The sweep of a message without readings is computed
    with a length of 2^64 - 1: the conversion to int64_t is undefined. *)
Theorem C89_sweep_time_refuted : exists (cf : config R) e, lr_ranges (le_msg e) = [] /\ (le_time_inc e = 1 / 1000)%R /\
  run cf [Deliver (EvLaser e)] = Fault BadCast.
Proof.
  set (t := mkPoseMsg 0%R 0%R 0%R 0%R 0%R 0%R 1%R).
  exists cfR, (mkLaserEv (mkLaser 0%R 0%R 2%R []) "laser" (Some t) (Some t) (1 / 1000)%R (fun _ => None) (fun _ _ _ => 0%R) []).
  split; [reflexivity|]. split; [reflexivity|].
  apply first_message with (start := t); try reflexivity. cbn [le_msg le_time_inc lr_ranges List.length]. apply sweep_empty. lra.
Qed.
Print Assumptions C89_sweep_time_refuted.

(** With a reading, the pose at the end of the sweep is looked up (n - 1) time
    increments after the beginning, rounded down to nanoseconds. *)
Theorem C89_sweep_time_partial : forall (cf : config R) s sp e s' sp', sp_pc sp = SIdle -> laser_begin cf s sp e = Ok (s', sp') -> busy sp' ->
  let n := List.length (lr_ranges (le_msg e)) in
  (1 <= n)%nat -> (Z.of_nat n < 2 ^ 64)%Z -> (0 <= le_time_inc e)%R ->
  (INR (n - 1) * le_time_inc e * 1000000000 < IZR (2 ^ 63))%R ->
  exists ns end_, le_end e ns = Some end_ /\ (IZR ns <= INR (n - 1) * le_time_inc e * 1000000000 < IZR ns + 1)%R.
Proof.
  intros cf s sp e s' sp' I H Bu n N N2 D B. apply MapperProofs.laser_begin_cases in H; [|exact I].
  destruct H as [(P & _)|(start & end_ & guess & pts & sc & s1 & sp1 & _ & _ & _ & _ & (ns & Sw & Ee) & _)].
  - exfalso. apply Bu. exact P.
  - destruct (sweep_exact n (le_time_inc e) N N2 D B) as (ns' & Sw' & Q). unfold n in Sw'. rewrite Sw in Sw'. injection Sw' as <-.
    exists ns, end_. split; [exact Ee|exact Q].
Qed.
Print Assumptions C89_sweep_time_partial.

(** ... and such messages do not fault there. *)
Theorem C89_sweep_defined_partial : forall n (dt : R), (1 <= n)%nat -> (Z.of_nat n < 2 ^ 64)%Z ->
  (0 <= dt)%R -> (INR (n - 1) * dt * 1000000000 < IZR (2 ^ 63))%R -> exists ns, sweep_ns n dt = Ok ns.
Proof. intros n dt N N2 D B. destruct (sweep_exact n dt N N2 D B) as (ns & E & _). exists ns. exact E. Qed.
Print Assumptions C89_sweep_defined_partial.

Example C89_nonvacuous : (1 <= 1081)%nat /\ (Z.of_nat 1081 < 2 ^ 64)%Z /\ (0 <= 1 / 50000)%R /\
  (INR (1081 - 1) * (1 / 50000) * 1000000000 < IZR (2 ^ 63))%R.
Proof.
  split; [lia|]. split; [reflexivity|]. split; [lra|]. rewrite INR_IZR_INZ. change (Z.of_nat (1081 - 1)) with 1080%Z.
  change (2 ^ 63)%Z with 9223372036854775808%Z. lra.
Qed.
