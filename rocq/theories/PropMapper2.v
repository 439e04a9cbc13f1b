(** Properties C64 - C66, C70, C72, C75 - C79: the graph across threads, loop
    closure, publication. *)

From Coq Require Import ZArith Reals List Bool Lia Lra String.
From Flocq Require Import Core BinarySingleNaN.
From Verif Require Import Outcome Arith TypesModel ScanModel CellModel NdtModel MatcherModel ConstraintModel SolverModel GraphModel
  OccGridModel MotionModel FilterModel LaserModel MapperModel SpecPose SpecStats SpecLaser SpecMapper SpecMapper2 SpecMapper3
  MapperInv3 MapperInv4 MapperInv5 MapperInv6 MapperInv7 MapperInv8 MapperWitness2.
Import ListNotations.

(** C64: false as stated.  A smaller map is loaded between the two halves of a
    loop closure: the callback is over, and a constraint ends at a scan that does
    not exist. *)
Theorem C64_graph_well_formed_refuted : forall lm : libm, exists cf ls m,
  (0 <= cf_depth cf)%Z /\ search_in_range (en_search cf) /\ good_start (A := BA (easy lm)) cf /\ good_loads (A := BA (easy lm)) cf ls /\
  run (A := BA (easy lm)) cf ls = Ok m /\ sp_pc (mp_spin m) = SIdle /\ dangling (mp_sh m).
Proof.
  intro lm. destruct (ends64_in (run (A := BA (easy lm)) (cf64 lm 0 1 0 None true (Some two_scans)) dangling_schedule)
    (fun m => idle64 m && has_dangling m)) as (m & E & H); [vm_compute; reflexivity|].
  apply andb_prop in H. destruct H as [H1 H2].
  exists (cf64 lm 0 1 0 None true (Some two_scans)), dangling_schedule, m. split; [apply Z.le_refl|]. split; [exact search64_in_range|].
  split; [intros f F; injection F as <-; exact (two_scans_ok (easy lm))|].
  split; [apply loads_sound; [reflexivity|vm_compute; reflexivity]|].
  split; [exact E|]. split; [apply idle64_sound; exact H1|apply has_dangling_sound; exact H2].
Qed.
Print Assumptions C64_graph_well_formed_refuted.

(** Maps are loaded only while the loop closure thread sleeps: whenever the scan
    of the message is in the graph, the graph is well formed. *)
Theorem C64_graph_well_formed_partial : forall {T} {A : Arith T} (cf : config T),
  (0 <= cf_depth cf)%Z -> search_in_range (en_search cf) -> good_start cf -> forall m, reach_if cf (calm cf) m ->
  pending_scan (sp_pc (mp_spin m)) = 0%nat -> exists g, the_graph cf (mp_sh m) = Ok g /\ well_formed g.
Proof. intros T A cf. exact (graph_wf cf). Qed.
Print Assumptions C64_graph_well_formed_partial.

Example C64_nonvacuous : forall lm : libm, exists m,
  (0 <= cf_depth (cf64 lm 10 1 0 None true None))%Z /\ search_in_range (en_search (cf64 lm 10 1 0 None true None)) /\
  good_start (A := BA (easy lm)) (cf64 lm 10 1 0 None true None) /\
  reach_if (A := BA (easy lm)) (cf64 lm 10 1 0 None true None) (calm (A := BA (easy lm)) (cf64 lm 10 1 0 None true None)) m /\
  sp_pc (mp_spin m) = SIdle /\ List.length (sh_scans (mp_sh m)) = 2%nat /\ List.length (sh_cons (mp_sh m)) = 1%nat.
Proof.
  intro lm. destruct (ends64_in (run (A := BA (easy lm)) (cf64 lm 10 1 0 None true None) laser_schedule)
    (fun m => idle64 m && (List.length (sh_scans (mp_sh m)) =? 2)%nat && (List.length (sh_cons (mp_sh m)) =? 1)%nat)) as (m & E & H); [vm_compute; reflexivity|].
  apply andb_prop in H. destruct H as [H H3]. apply andb_prop in H. destruct H as [H1 H2].
  exists m. split; [discriminate|]. split; [exact search64_in_range|]. split; [intros f F; discriminate F|].
  split; [apply (run_reach (easy lm) _ simple_ok) with (ls := laser_schedule); [intros m0 l0; apply simple_calm|vm_compute; reflexivity|exact E]|].
  split; [apply idle64_sound; exact H1|]. split; apply Nat.eqb_eq; assumption.
Qed.

(** C65: false as stated.  Without any request: the publisher takes the lock
    between the two critical sections of a laser callback, when the constraint of
    the new scan is in the graph and the scan is not. *)
Theorem C65_graph_well_formed_for_others_refuted : forall lm : libm, exists cf ls m,
  (0 <= cf_depth cf)%Z /\ search_in_range (en_search cf) /\ cf_file cf = None /\ no_requests ls /\
  run (A := BA (easy lm)) cf ls = Ok m /\ sh_glock (mp_sh m) = Some TPub /\ dangling (mp_sh m).
Proof.
  intro lm. destruct (ends64_in (run (A := BA (easy lm)) (cf64 lm 10 1 0 None true None) early_schedule)
    (fun m => pub_locked m && has_dangling m)) as (m & E & H); [vm_compute; reflexivity|].
  apply andb_prop in H. destruct H as [H1 H2].
  exists (cf64 lm 10 1 0 None true None), early_schedule, m. split; [discriminate|]. split; [exact search64_in_range|]. split; [reflexivity|].
  split; [apply no_requests_sound; reflexivity|]. split; [exact E|].
  split; [apply pub_locked_sound; exact H1|apply has_dangling_sound; exact H2].
Qed.
Print Assumptions C65_graph_well_formed_for_others_refuted.

(** The publisher reads past the scans when the graph of C64 is published. *)
Theorem C65_publisher_out_of_bounds_refuted : forall lm : libm, exists cf ls,
  (0 <= cf_depth cf)%Z /\ search_in_range (en_search cf) /\ good_start (A := BA (easy lm)) cf /\ good_loads (A := BA (easy lm)) cf ls /\
  run (A := BA (easy lm)) cf ls = Fault OutOfBounds.
Proof.
  intro lm. exists (cf64 lm 0 1 0 None true (Some two_scans)), (dangling_schedule ++ repeat Pub 6). split; [apply Z.le_refl|]. split; [exact search64_in_range|].
  split; [intros f F; injection F as <-; exact (two_scans_ok (easy lm))|].
  split; [apply loads_sound; [reflexivity|vm_compute; reflexivity]|]. vm_compute. reflexivity.
Qed.
Print Assumptions C65_publisher_out_of_bounds_refuted.

(** Maps loaded only while the loop closure thread sleeps: the only constraint
    without its end is the one of the scan that is about to be added. *)
Theorem C65_graph_well_formed_for_others_partial : forall {T} {A : Arith T} (cf : config T),
  (0 <= cf_depth cf)%Z -> search_in_range (en_search cf) -> good_start cf -> forall m, reach_if cf (calm cf) m ->
  exists g, the_graph cf (mp_sh m) = Ok g /\ numbered (gr_scans g) /\
    Forall (joins (List.length (gr_scans g) + pending_scan (sp_pc (mp_spin m)))) (gr_constraints g).
Proof. intros T A cf. exact (graph_ends cf). Qed.
Print Assumptions C65_graph_well_formed_for_others_partial.

(** The state of the witness satisfies the guard. *)
Example C65_nonvacuous : forall lm : libm, exists m,
  reach_if (A := BA (easy lm)) (cf64 lm 10 1 0 None true None) (calm (A := BA (easy lm)) (cf64 lm 10 1 0 None true None)) m /\
  pending_scan (sp_pc (mp_spin m)) = 1%nat.
Proof.
  intro lm. destruct (ends64_in (run (A := BA (easy lm)) (cf64 lm 10 1 0 None true None) early_schedule)
    (fun m => (pending_scan (sp_pc (mp_spin m)) =? 1)%nat)) as (m & E & H); [vm_compute; reflexivity|].
  exists m. split; [|apply Nat.eqb_eq; exact H].
  apply (run_reach (easy lm) _ simple_ok) with (ls := early_schedule); [intros m0 l0; apply simple_calm|vm_compute; reflexivity|exact E].
Qed.

(** C66: false as stated (an initial pose adds a scan without setting the flag;
    the statement speaks of the graph, so this counts). *)
Theorem C66_updates_published_refuted : forall lm : libm, exists cf ls m,
  no_requests ls /\ run (A := BA (easy lm)) cf ls = Ok m /\ quiescent m /\ sh_flag (mp_sh m) = false /\
  ~ map_current (mp_sh m) /\ ~ markers_current cf (mp_sh m).
Proof.
  intro lm. destruct (ends64_in (run (A := BA (easy lm)) (cf64 lm 0 1 0 None true (Some two_scans)) unpublished_schedule) stale_map)
    as (m & E & H); [vm_compute; reflexivity|].
  destruct (stale_sound (cf64 lm 0 1 0 None true (Some two_scans)) m H) as (Q & F & M1 & M2).
  exists (cf64 lm 0 1 0 None true (Some two_scans)), unpublished_schedule, m.
  split; [apply no_requests_sound; reflexivity|]. repeat (split; [assumption|]). exact M2.
Qed.
Print Assumptions C66_updates_published_refuted.

(** That is the only exception, in every arithmetic ... *)
Theorem C66_updates_published_partial : forall {T} {A : Arith T} (cf : config T) m, reachable cf m -> quiescent m -> sh_flag (mp_sh m) = false ->
  (map_current (mp_sh m) \/ pose_since_map (sh_trace (mp_sh m))) /\
  (markers_current cf (mp_sh m) \/ pose_since_markers (sh_trace (mp_sh m))).
Proof. intros T A cf. exact (updates_published cf). Qed.
Print Assumptions C66_updates_published_partial.

(** ... and when the flag is set, six steps of the publisher publish the graph. *)
Theorem C66_flag_publishes : forall {T} {A : Arith T} (cf : config T) m g grid msg ms,
  pb_pc (mp_pub m) = PTop -> sh_flag (mp_sh m) = true -> sh_glock (mp_sh m) = None ->
  the_graph cf (mp_sh m) = Ok g -> occ_get_msg (pb_grid (mp_pub m)) (gr_scans g) = Ok (grid, msg) -> graph_get_msg g [] = Ok ms ->
  exists m', exec cf m [Pub; Pub; Pub; Pub; Pub; Pub] = Ok m' /\ sh_flag (mp_sh m') = false /\
    sh_trace (mp_sh m') = ObMarkers g ms :: ObMap (gr_scans g) msg :: sh_trace (mp_sh m) /\
    sh_scans (mp_sh m') = sh_scans (mp_sh m) /\ sh_heap (mp_sh m') = sh_heap (mp_sh m) /\ sh_cons (mp_sh m') = sh_cons (mp_sh m) /\
    mp_spin m' = mp_spin m /\ mp_loop m' = mp_loop m.
Proof. intros T A cf. exact (publishes cf). Qed.
Print Assumptions C66_flag_publishes.

(** A published map: quiescent with the flag clear, map and markers current. *)
Example C66_nonvacuous : forall lm : libm, exists m, reachable (A := BA (easy lm)) (cf64 lm 10 1 0 None true None) m /\
  sp_pc (mp_spin m) = SIdle /\ sh_flag (mp_sh m) = false /\ List.length (sh_scans (mp_sh m)) = 1%nat.
Proof.
  intro lm. destruct (ends64_in (run (A := BA (easy lm)) (cf64 lm 10 1 0 None true None) (firstn 17 laser_schedule))
    (fun m => idle64 m && negb (sh_flag (mp_sh m)) && (List.length (sh_scans (mp_sh m)) =? 1)%nat)) as (m & E & H); [vm_compute; reflexivity|].
  apply andb_prop in H. destruct H as [H H3]. apply andb_prop in H. destruct H as [H1 H2].
  exists m. split; [exists (firstn 17 laser_schedule); exact E|]. split; [apply idle64_sound; exact H1|].
  split; [destruct (sh_flag (mp_sh m)); [discriminate H2|reflexivity]|apply Nat.eqb_eq; exact H3].
Qed.

(** C70, every arithmetic. *)
Theorem C70_loop_closures_vetted : forall {T} {A : Arith T} (cf : config T),
  (0 <= cf_depth cf)%Z -> search_in_range (en_search cf) -> (1 <= cf_search_limit cf < 2 ^ 64)%Z ->
  numbered_start cf -> forall m, reach_if cf (tame cf) m ->
  closures_vetted (cf_depth cf) (sh_trace (mp_sh m)) /\ matches_in_order (sh_trace (mp_sh m)) /\
  (forall d, Z.of_nat (matches d (sh_trace (mp_sh m))) <= cf_search_limit cf)%Z.
Proof.
  intros T A cf D S L N m R. destruct (loop_reach cf D S L N m R) as (H1 & H2 & _ & H4 & _). split; [exact H1|split; [exact H2|exact H4]].
Qed.
Print Assumptions C70_loop_closures_vetted.

Example C70_nonvacuous : forall lm : libm, exists m,
  reach_if (A := BA (easy lm)) (cf64 lm 0 1 0 None true (Some two_scans)) (tame (A := BA (easy lm)) (cf64 lm 0 1 0 None true (Some two_scans))) m /\
  numbered_start (A := BA (easy lm)) (cf64 lm 0 1 0 None true (Some two_scans)) /\
  existsb (fun o => match o with ObConstraint ALoop _ => true | _ => false end) (sh_trace (mp_sh m)) = true.
Proof.
  intro lm. destruct (ends64_in (run (A := BA (easy lm)) (cf64 lm 0 1 0 None true (Some two_scans)) closure_schedule)
    (fun m => existsb (fun o => match o with ObConstraint ALoop _ => true | _ => false end) (sh_trace (mp_sh m)))) as (m & E & H); [vm_compute; reflexivity|].
  exists m. split; [apply (run_reach (easy lm) _ simple_ok) with (ls := closure_schedule); [intros m0 l0; apply simple_tame|vm_compute; reflexivity|exact E]|].
  split; [intros f F; injection F as <-; exact (proj1 (two_scans_ok (easy lm)))|exact H].
Qed.

(** C72: false as stated.  After a scan without returns is matched, the typical
    response is NaN. *)
Theorem C72_typical_response_refuted : forall lm : libm, exists cf ls m,
  no_requests ls /\ run (A := BA (easy lm)) cf ls = Ok m /\ is_nan (sh_typical (mp_sh m)) = true.
Proof.
  intro lm. destruct (ends64_in (run (A := BA (easy lm)) (cf64 lm 10 1 0 None true None) empty_schedule)
    (fun m => is_nan (sh_typical (mp_sh m)))) as (m & E & H); [vm_compute; reflexivity|].
  exists (cf64 lm 10 1 0 None true None), empty_schedule, m. split; [apply no_requests_sound; reflexivity|split; [exact E|exact H]].
Qed.
Print Assumptions C72_typical_response_refuted.

(** Every empty scan does this ... *)
Theorem C72_empty_scan_spoils : forall (lm : libm) (cf : config b64) m m' p odom sc,
  (forall r, (0 <= k_beams (en_local cf r))%Z) -> reachable (A := BA lm) cf m ->
  sp_pc (mp_spin m) = SMatch p odom -> sh_scans (mp_sh m) <> [] -> nth_error (sh_heap (mp_sh m)) p = Some sc -> s_pts sc = [] ->
  step (A := BA lm) cf Spin m = Some (Ok m') -> is_nan (sh_typical (mp_sh m')) = true.
Proof. exact empty_scan_spoils. Qed.
Print Assumptions C72_empty_scan_spoils.

(** ... and from then on there are no loop closures. *)
Theorem C72_nan_is_final : forall (lm : libm) (cf : config b64) ls m m', exec (A := BA lm) cf m ls = Ok m' ->
  is_nan (sh_typical (mp_sh m)) = true -> undecided m ->
  is_nan (sh_typical (mp_sh m')) = true /\
  exists new, sh_trace (mp_sh m') = new ++ sh_trace (mp_sh m) /\ Forall no_closure new.
Proof. exact nan_is_final. Qed.
Print Assumptions C72_nan_is_final.

(** Exact arithmetic, scans with points spread out in each cell. *)
Theorem C72_typical_response_partial : forall cf : config R, eigen_contract (en_eig cf) -> (forall r, usable_matcher (en_local cf r)) ->
  forall m, reach_if cf (measurable cf) m -> (-1 <= sh_typical (mp_sh m) <= 0)%R.
Proof. exact typical_range_R. Qed.
Print Assumptions C72_typical_response_partial.

(** Binary64: the smoothing keeps the range if the scores are in it. *)
Theorem C72_typical_response_b64_partial : forall (lm : libm) (cf : config b64) m,
  reach_if (A := BA lm) cf (scored (A := BA lm) cf (fun x => is_finite x = true /\ (-1 <= B2R x <= 0)%R)) m ->
  is_finite (sh_typical (mp_sh m)) = true /\ (-1 <= B2R (sh_typical (mp_sh m)) <= 0)%R.
Proof. exact typical_range_b64. Qed.
Print Assumptions C72_typical_response_b64_partial.

(** Two laser scans, the second matched. *)
Definition scored_b (lm : libm) (cf : config b64) (m : mapper b64) (l : label b64) : bool :=
  match sp_pc (mp_spin m) with
  | SMatch p _ =>
    match graph_scans (mp_sh m) with
    | Ok scans =>
      match rolling_window (cf_depth cf) scans, nth_error (sh_heap (mp_sh m)) p, sp_local (mp_spin m) with
      | Ok w, Some sc, Some k =>
        match add_scans (A := BA lm) (en_eig cf) (matcher_reset k) w with
        | Ok k' => match match_scan (A := BA lm) (en_fuel cf) k' sc (SpecOrigin.origin (A := BA lm)) (en_garbage cf) with
                   | Ok (score, _, _) => is_finite score && Bleb (z64 (-1)) score && Bleb score (z64 0)
                   | Fault _ => true
                   end
        | Fault _ => true
        end
      | _, _, _ => true
      end
    | Fault _ => true
    end
  | _ => true
  end.
Example C72_nonvacuous : forall lm : libm, exists m,
  reach_if (A := BA (easy lm)) (cf64 lm 10 1 0 None true None)
    (scored (A := BA (easy lm)) (cf64 lm 10 1 0 None true None) (fun x => is_finite x = true /\ (-1 <= B2R x <= 0)%R)) m /\
  List.length (sh_scans (mp_sh m)) = 2%nat.
Proof.
  intro lm. destruct (ends64_in (run (A := BA (easy lm)) (cf64 lm 10 1 0 None true None) laser_schedule)
    (fun m => (List.length (sh_scans (mp_sh m)) =? 2)%nat)) as (m & E & H); [vm_compute; reflexivity|].
  exists m. split; [|apply Nat.eqb_eq; exact H].
  apply (run_reach (easy lm) _ (scored_b (easy lm) (cf64 lm 10 1 0 None true None))) with (ls := laser_schedule); [|vm_compute; reflexivity|exact E].
  clear. set (cf := cf64 lm 10 1 0 None true None). clearbody cf.
  intros m l H. unfold scored_b in H. intros _ p odom sc scans w k k' score corr cov E1 E2 E3 E4 E5 E6 E7.
  rewrite E1, E3, E4, E2, E5, E6, E7 in H. apply andb_prop in H. destruct H as [H H3]. apply andb_prop in H. destruct H as [H1 H2].
  split; [exact H1|].
  rewrite Bleb_correct in H2 by (first [exact H1|vm_compute; reflexivity]). rewrite Bleb_correct in H3 by (first [exact H1|vm_compute; reflexivity]).
  match type of H2 with Rle_bool ?a ?b = _ => destruct (Rle_bool_spec a b) as [L2|L2]; [|discriminate H2] end.
  match type of H3 with Rle_bool ?a ?b = _ => destruct (Rle_bool_spec a b) as [L3|L3]; [|discriminate H3] end.
  assert (V1 : B2R (z64 (-1)) = (-1)%R).
  { rewrite <- (SF2R_B2SF 53 1024 (z64 (-1))). replace (B2SF (z64 (-1))) with (SpecFloat.S754_finite true 4503599627370496 (-52)) by (vm_compute; reflexivity).
    cbn. unfold F2R. cbn. lra. }
  assert (V0 : B2R (z64 0) = 0%R) by (vm_compute; reflexivity).
  rewrite V1 in L2. rewrite V0 in L3. split; assumption.
Qed.

(** C75: false as stated: with a map file, no laser message yet ... *)
Theorem C75_missing_matcher_refuted : forall lm : libm, exists cf ls m,
  (0 <= cf_depth cf)%Z /\ search_in_range (en_search cf) /\ good_start (A := BA (easy lm)) cf /\ no_requests ls /\
  run (A := BA (easy lm)) cf ls = Ok m /\ matching m /\ sh_global (mp_sh m) = None /\ run (A := BA (easy lm)) cf (ls ++ [Loop]) = Fault NullDeref.
Proof.
  intro lm. destruct (ends64_in (run (A := BA (easy lm)) (cf64 lm 0 1 0 None true (Some two_scans)) (loops 7)) no_global)
    as (m & E & H); [vm_compute; reflexivity|]. apply no_global_sound in H. destruct H as [H1 H2].
  exists (cf64 lm 0 1 0 None true (Some two_scans)), (loops 7), m. split; [apply Z.le_refl|]. split; [exact search64_in_range|].
  split; [intros f F; injection F as <-; exact (two_scans_ok (easy lm))|]. split; [apply no_requests_sound; reflexivity|].
  split; [exact E|]. split; [exact H1|]. split; [exact H2|]. vm_compute. reflexivity.
Qed.
Print Assumptions C75_missing_matcher_refuted.

(** ... and when a smaller map is loaded while the loop closure thread counts. *)
Theorem C75_missing_scan_refuted : forall lm : libm, exists cf ls m,
  (0 <= cf_depth cf)%Z /\ search_in_range (en_search cf) /\ good_start (A := BA (easy lm)) cf /\ good_loads (A := BA (easy lm)) cf ls /\
  run (A := BA (easy lm)) cf ls = Ok m /\ (exists i, reads m i /\ (List.length (sh_scans (mp_sh m)) <= i)%nat) /\
  run (A := BA (easy lm)) cf (ls ++ [Loop]) = Fault OutOfBounds.
Proof.
  intro lm. destruct (ends64_in (run (A := BA (easy lm)) (cf64 lm 0 1 0 None true (Some two_scans))
    (Deliver (beam64 [] 0 0) :: loops 4 ++ load64 one_scan ++ loops 1)) reads_past) as (m & E & H); [vm_compute; reflexivity|].
  apply reads_past_sound in H.
  exists (cf64 lm 0 1 0 None true (Some two_scans)), (Deliver (beam64 [] 0 0) :: loops 4 ++ load64 one_scan ++ loops 1), m.
  split; [apply Z.le_refl|]. split; [exact search64_in_range|].
  split; [intros f F; injection F as <-; exact (two_scans_ok (easy lm))|]. split; [apply loads_sound; [reflexivity|vm_compute; reflexivity]|].
  split; [exact E|]. split; [exact H|]. vm_compute. reflexivity.
Qed.
Print Assumptions C75_missing_scan_refuted.

(** Maps loaded only while the loop closure thread sleeps: it reads scans that
    exist ... *)
Theorem C75_reads_in_range_partial : forall {T} {A : Arith T} (cf : config T), (0 <= cf_depth cf)%Z -> search_in_range (en_search cf) -> good_start cf ->
  forall m i, reach_if cf (calm cf) m -> reads m i ->
  exists p sc, nth_error (sh_scans (mp_sh m)) i = Some p /\ nth_error (sh_heap (mp_sh m)) p = Some sc.
Proof. intros T A cf. exact (reads_in_range cf). Qed.
Print Assumptions C75_reads_in_range_partial.

(** ... and has a matcher if maps are loaded only after the first laser message. *)
Theorem C75_matcher_exists_partial : forall {T} {A : Arith T} (cf : config T), (0 <= cf_depth cf)%Z -> search_in_range (en_search cf) -> cf_file cf = None ->
  forall m, reach_if cf (fun m l => calm cf m l /\ warm m l) m -> matching m -> sh_global (mp_sh m) <> None.
Proof. intros T A cf. exact (matching_has_matcher cf). Qed.
Print Assumptions C75_matcher_exists_partial.

(** The laser callback always has its matchers. *)
Theorem C75_laser_matchers_exist : forall {T} {A : Arith T} (cf : config T) m, reachable cf m -> laser_matching m ->
  sh_global (mp_sh m) <> None /\ sp_local (mp_spin m) <> None /\ (use_filter cf = true -> sp_filter (mp_spin m) <> None).
Proof. intros T A cf. exact (laser_has_matchers cf). Qed.
Print Assumptions C75_laser_matchers_exist.

(** A map loaded after a laser message: the loop closure thread matches its scans. *)
Definition beam_and_load : list (label b64) :=
  [Deliver (beam64 [z64 1] 0 0); Spin; Spin; Spin; Spin; Spin] ++ load64 two_scans ++ loops 7.
Definition warm_load_b (lm : libm) (m : mapper b64) (l : label b64) : bool :=
  (num_scans (mp_sh m) <? 2 ^ 31)%Z &&
  match sp_pc (mp_spin m) with
  | SLoad f => match lp_pc (mp_loop m), sh_global (mp_sh m) with LSleep, Some _ => well_formed_b (graph_load (A := BA lm) false f) | _, _ => false end
  | _ => true
  end.
Example C75_nonvacuous : forall lm : libm, exists m, reach_if (A := BA (easy lm)) (cf64 lm 0 1 0 None true None)
    (fun m l => calm (A := BA (easy lm)) (cf64 lm 0 1 0 None true None) m l /\ warm m l) m /\ matching m /\ exists i, reads m i.
Proof.
  intro lm. destruct (ends64_in (run (A := BA (easy lm)) (cf64 lm 0 1 0 None true None) beam_and_load)
    (fun m => match lp_pc (mp_loop m) with LRegion _ _ => true | _ => false end)) as (m & E & H); [vm_compute; reflexivity|].
  exists m. split.
  - apply (run_reach (easy lm) _ (warm_load_b (easy lm))) with (ls := beam_and_load); [|vm_compute; reflexivity|exact E].
    intros m0 l0 H0. apply andb_prop in H0. destruct H0 as [H1 H2]. apply Z.ltb_lt in H1.
    split; [split; [exact H1|]|]; intros _ file F; rewrite F in H2;
      destruct (lp_pc (mp_loop m0)) eqn:Pc; try discriminate H2; destruct (sh_global (mp_sh m0)) eqn:Gl; try discriminate H2.
    + split; [reflexivity|]. apply well_formed_sound. exact H2.
    + discriminate.
  - destruct (lp_pc (mp_loop m)) eqn:Pc; try discriminate H. split; [left; eexists _, _; exact Pc|]. eexists. eapply reads_candidate. exact Pc.
Qed.

(** C76: false as stated. *)
Theorem C76_global_map_kept_refuted : forall lm : libm, exists cf ls m,
  use_filter cf = true /\ good_start (A := BA (easy lm)) cf /\ no_requests ls /\ run (A := BA (easy lm)) cf ls = Ok m /\
  ~ whole_map (A := BA (easy lm)) cf m.
Proof.
  intro lm. destruct (ends64_in (run (A := BA (easy lm)) (cf64 lm 0 1 0 (Some (1, 1, motion64)%Z) true (Some two_scans)) filter_schedule)
    (partial_map (easy lm) (cf64 lm 0 1 0 (Some (1, 1, motion64)%Z) true (Some two_scans)))) as (m & E & H); [vm_compute; reflexivity|].
  exists (cf64 lm 0 1 0 (Some (1, 1, motion64)%Z) true (Some two_scans)), filter_schedule, m. split; [reflexivity|].
  split; [intros f F; injection F as <-; exact (two_scans_ok (easy lm))|]. split; [apply no_requests_sound; reflexivity|].
  split; [exact E|]. apply partial_sound; [reflexivity|exact H].
Qed.
Print Assumptions C76_global_map_kept_refuted.

(** With mapping disabled and no requests the map is kept. *)
Theorem C76_global_map_kept_partial : forall {T} {A : Arith T} (cf : config T), cf_enable cf = false ->
  forall m, reach_if cf no_request m -> whole_map cf m.
Proof. intros T A cf. exact (localization_keeps_map cf). Qed.
Print Assumptions C76_global_map_kept_partial.

Definition no_request_b (m : mapper b64) (l : label b64) : bool := match l with Deliver (EvConfigure _ _) => false | _ => true end.
Example C76_nonvacuous : forall lm : libm, exists m,
  reach_if (A := BA (easy lm)) (cf64 lm 0 1 0 (Some (1, 1, motion64)%Z) false (Some two_scans)) no_request m /\
  sh_global (mp_sh m) <> None /\ List.length (sh_scans (mp_sh m)) = 2%nat.
Proof.
  intro lm. destruct (ends64_in (run (A := BA (easy lm)) (cf64 lm 0 1 0 (Some (1, 1, motion64)%Z) false (Some two_scans)) filter_schedule)
    (fun m => (List.length (sh_scans (mp_sh m)) =? 2)%nat && match sh_global (mp_sh m) with Some _ => true | None => false end)) as (m & E & H); [vm_compute; reflexivity|].
  apply andb_prop in H. destruct H as [H1 H2]. apply Nat.eqb_eq in H1.
  exists m. split; [|split; [destruct (sh_global (mp_sh m)); [discriminate|discriminate H2]|exact H1]].
  apply (run_reach (easy lm) _ no_request_b) with (ls := filter_schedule); [|vm_compute; reflexivity|exact E].
  intros m0 l0 H0 a f ->. discriminate H0.
Qed.

(** C77: false as stated. *)
Theorem C77_transform_pairs_refuted : forall lm : libm, exists cf ls m r o tf,
  run (A := BA (easy lm)) cf ls = Ok m /\ In (ObTf r o tf) (sh_trace (mp_sh m)) /\ ~ stored_together (A := BA (easy lm)) m r o.
Proof.
  intro lm. destruct (ends64_in (run (A := BA (easy lm)) (cf64 lm 10 1 0 None true None) torn_schedule) mixed_tf) as (m & E & H); [vm_compute; reflexivity|].
  destruct (mixed_sound (easy lm) m H) as (r & o & tf & I & N).
  exists (cf64 lm 10 1 0 None true None), torn_schedule, m, r, o, tf. split; [exact E|split; [exact I|exact N]].
Qed.
Print Assumptions C77_transform_pairs_refuted.

(** If the publisher never reads while an initial pose is stored. *)
Theorem C77_transform_pairs_partial : forall {T} {A : Arith T} (cf : config T) m r o tf, reach_if cf (fun m l => ~ torn m) m ->
  In (ObTf r o tf) (sh_trace (mp_sh m)) -> stored_together m r o /\ tf = map_to_odom r o.
Proof. intros T A cf. exact (tf_pairs cf). Qed.
Print Assumptions C77_transform_pairs_partial.

Example C77_nonvacuous : forall lm : libm, exists m r o,
  reach_if (A := BA (easy lm)) (cf64 lm 10 1 0 None true None) (fun m l => ~ torn m) m /\ first_tf (sh_trace (mp_sh m)) = Some (r, o).
Proof.
  intro lm. destruct (ends64_in (run (A := BA (easy lm)) (cf64 lm 10 1 0 None true None) laser_schedule)
    (fun m => match first_tf (sh_trace (mp_sh m)) with Some _ => true | None => false end)) as (m & E & H); [vm_compute; reflexivity|].
  destruct (first_tf (sh_trace (mp_sh m))) as [[r o]|] eqn:F; [|discriminate H].
  exists m, r, o. split; [|exact F].
  apply (run_reach (easy lm) _ simple_ok) with (ls := laser_schedule); [intros m0 l0; apply simple_torn|vm_compute; reflexivity|exact E].
Qed.

(** C78: false as stated. *)
Theorem C78_optimization_cadence_refuted : forall lm : libm, exists cf ls m,
  good_start (A := BA (easy lm)) cf /\ good_loads (A := BA (easy lm)) cf ls /\ run (A := BA (easy lm)) cf ls = Ok m /\
  ~ cadence (cf_node_limit cf) (sh_trace (mp_sh m)).
Proof.
  intro lm. destruct (ends64_in (run (A := BA (easy lm)) (cf64 lm 0 1 1 None true (Some two_scans)) wrap_schedule) (early_opt 1)) as (m & E & H); [vm_compute; reflexivity|].
  exists (cf64 lm 0 1 1 None true (Some two_scans)), wrap_schedule, m.
  split; [intros f F; injection F as <-; exact (two_scans_ok (easy lm))|]. split; [apply loads_sound; [reflexivity|vm_compute; reflexivity]|].
  split; [exact E|]. exact (early_opt_sound 1 m H).
Qed.
Print Assumptions C78_optimization_cadence_refuted.

(** Without load requests. *)
Theorem C78_optimization_cadence_partial : forall {T} {A : Arith T} (cf : config T) m, reach_if cf no_load m ->
  cadence (cf_node_limit cf) (sh_trace (mp_sh m)).
Proof. intros T A cf m R. exact (proj1 (opt_reach cf m R)). Qed.
Print Assumptions C78_optimization_cadence_partial.

Example C78_nonvacuous : forall lm : libm, exists m,
  reach_if (A := BA (easy lm)) (cf64 lm 0 1 0 None true (Some two_scans)) no_load m /\
  existsb (fun o => match o with ObOptimize _ => true | _ => false end) (sh_trace (mp_sh m)) = true.
Proof.
  intro lm. destruct (ends64_in (run (A := BA (easy lm)) (cf64 lm 0 1 0 None true (Some two_scans)) closure_schedule)
    (fun m => existsb (fun o => match o with ObOptimize _ => true | _ => false end) (sh_trace (mp_sh m)))) as (m & E & H); [vm_compute; reflexivity|].
  exists m. split; [|exact H].
  apply (run_reach (easy lm) _ simple_ok) with (ls := closure_schedule); [intros m0 l0; apply simple_no_load|vm_compute; reflexivity|exact E].
Qed.

(** C79: false as stated.  The robot is at (1/2, 1/2, 0) and moves two metres
    straight ahead, the correction is 0, and the constraint says that it moved more
    than one metre sideways: a loop closure has moved the previous scan. *)
Theorem C79_measured_motion_refuted : forall lm : libm, exists cf ls m p odom c k sc score corr cov,
  use_filter cf = false /\ good_start (A := BA (easy lm)) cf /\ run (A := BA (easy lm)) cf ls = Ok m /\ sp_pc (mp_spin m) = SConsLock p odom c /\
  near (sh_robot (mp_sh m)) half64 half64 (z64 0) /\ near (sh_odom (mp_sh m)) (z64 0) (z64 0) (z64 0) /\ near odom (z64 2) (z64 0) (z64 0) /\
  sp_local (mp_spin m) = Some k /\ nth_error (sh_heap (mp_sh m)) p = Some sc /\
  match_scan (A := BA (easy lm)) (en_fuel cf) k sc (pose0 (A := BA (easy lm))) (en_garbage cf) = Ok (score, corr, cov) /\
  near corr (z64 0) (z64 0) (z64 0) /\ Bltb (z64 1) (v1 (c_transform c)) = true.
Proof.
  intro lm. destruct (ends64_in (run (A := BA (easy lm)) (cf64 lm 9 1 1 None false (Some eleven_scans)) moved_schedule)
    (drifted (easy lm) (cf64 lm 9 1 1 None false (Some eleven_scans)))) as (m & E & H); [vm_compute; reflexivity|].
  apply drifted_sound in H. destruct H as (p & odom & c & k & sc & score & corr & cov & H1 & H2 & H3 & H4 & H5 & H6 & H7 & H8 & H9).
  exists (cf64 lm 9 1 1 None false (Some eleven_scans)), moved_schedule, m, p, odom, c, k, sc, score, corr, cov.
  split; [reflexivity|]. split; [intros f F; injection F as <-; exact (eleven_scans_ok (easy lm))|].
  repeat (split; [assumption|]). assumption.
Qed.
Print Assumptions C79_measured_motion_refuted.

(** Exact arithmetic, laser messages only, no map file: the transform is the
    motion of the robot given by odometry, corrected by the scan matcher. *)
Theorem C79_measured_motion_partial : forall cf : config R, use_filter cf = false -> cf_file cf = None -> forall m p odom m1 m2, reach_if cf laser_only m ->
  sp_pc (mp_spin m) = SMatch p odom -> sh_scans (mp_sh m) <> [] -> step cf Spin m = Some (Ok m1) -> step cf Spin m1 = Some (Ok m2) ->
  exists sc k score corr cov c, nth_error (sh_heap (mp_sh m)) p = Some sc /\
    sp_local (mp_spin m2) = Some k /\ match_scan (en_fuel cf) k sc pose0 (en_garbage cf) = Ok (score, corr, cov) /\
    sp_pc (mp_spin m2) = SConsLock p odom c /\
    forall d, same_pose (compose (sh_odom (mp_sh m)) d) odom ->
      exists g, same_pose (compose (sh_robot (mp_sh m)) d) g /\
        compose (sh_robot (mp_sh m)) (mkPose (v0 (c_transform c)) (v1 (c_transform c)) (v2 (c_transform c))) =
        mkPose (pox g + pox corr)%R (poy g + poy corr)%R (poth g + poth corr)%R.
Proof. exact measured_motion. Qed.
Print Assumptions C79_measured_motion_partial.
