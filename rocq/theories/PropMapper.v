(** Properties C67, C68, C69, C71, C73, C74: requests, initial poses, thread
    roles and mutexes. *)

From Coq Require Import ZArith Reals List Bool Lia Lra String Sorted.
From Verif Require Import Outcome Arith TypesModel ScanModel MatcherModel ConstraintModel SolverModel GraphModel
  OccGridModel MotionModel FilterModel LaserModel MapperModel SpecPose SpecGraph SpecMapper RTactics GraphProofs
  MapperProofs MapperSteps MapperInv1 MapperInv2 MapperWitness.
Import ListNotations.

(** C67: once paused, until an initial pose is delivered, in every arithmetic and
    for every schedule: still paused, tracked poses and filter as they were, no
    scan or constraint added by a laser message, and the scans of the graph are
    those of the start (only their poses may have been optimised) unless another
    map was loaded. *)
Theorem C67_paused_until_initial_pose : forall {T} {A : Arith T} (cf : config T) m ls m',
  sh_init (mp_sh m) = false -> ~ busy (mp_spin m) -> Forall (fun l => ~ is_pose l) ls -> exec cf m ls = Ok m' ->
  sh_init (mp_sh m') = false /\ same_poses (mp_sh m) (mp_sh m') /\ sp_filter (mp_spin m') = sp_filter (mp_spin m) /\
  exists new, sh_trace (mp_sh m') = new ++ sh_trace (mp_sh m) /\ Forall (fun o => ~ mapping_obs o) new /\
    (In ObLoad new \/ (sh_scans (mp_sh m') = sh_scans (mp_sh m) /\ only_poses (sh_heap (mp_sh m)) (sh_heap (mp_sh m')))).
Proof.
  intros T A cf m ls m' I B F E. destruct (paused_exec cf m ls m' I B F E) as (H1 & _ & H2 & H3 & H4).
  split; [exact H1|]. split; [exact H2|]. split; [exact H3|exact H4].
Qed.
Print Assumptions C67_paused_until_initial_pose.

(** A load pauses ... *)
Theorem C67_load_pauses : forall {T} {A : Arith T} (cf : config T) m m',
  step cf Spin m = Some (Ok m') -> sh_trace (mp_sh m') = ObLoad :: sh_trace (mp_sh m) ->
  sh_init (mp_sh m') = false /\ ~ busy (mp_spin m').
Proof. exact @load_pauses. Qed.
Print Assumptions C67_load_pauses.

(** ... so does a disable request (enable not set) ... *)
Theorem C67_disable_pauses : forall {T} {A : Arith T} (cf : config T) m a file,
  sp_pc (mp_spin m) = SIdle -> Z.testbit a 0 = false -> Z.testbit a 1 = true ->
  exists m1, step cf (Deliver (EvConfigure a file)) m = Some (Ok m1) /\ sh_init (mp_sh m1) = false.
Proof.
  intros T A cf m a file I B0 B1. destruct (configure_bits cf m a file I) as (m1 & S & _ & E & _).
  exists m1. split; [exact S|]. rewrite E. unfold after_mapping_bits. rewrite B0, B1. reflexivity.
Qed.
Print Assumptions C67_disable_pauses.

(** ... and starting from a map file. *)
Theorem C67_file_start_pauses : forall {T} {A : Arith T} (cf : config T) m file,
  mapper_init cf = Ok m -> cf_file cf = Some file -> sh_init (mp_sh m) = false /\ ~ busy (mp_spin m).
Proof. exact @init_pauses. Qed.
Print Assumptions C67_file_start_pauses.

(** Enabling mapping does not localize. *)
Theorem C67_enable_does_not_resume : forall {T} {A : Arith T} (cf : config T) m a file m1,
  sh_init (mp_sh m) = false -> step cf (Deliver (EvConfigure a file)) m = Some (Ok m1) -> sh_init (mp_sh m1) = false.
Proof.
  intros T A cf m a file m1 I S.
  assert (Id : sp_pc (mp_spin m) = SIdle).
  { cbn [step] in S. unfold deliver in S. destruct (sp_pc (mp_spin m)); try discriminate S. reflexivity. }
  destruct (configure_bits cf m a file Id) as (m2 & S2 & _ & E & _). rewrite S in S2. injection S2 as <-.
  rewrite E, I. unfold after_mapping_bits. destruct (Z.testbit a 0), (Z.testbit a 1); reflexivity.
Qed.
Print Assumptions C67_enable_does_not_resume.

Example C67_nonvacuous : exists m m',
  run plain_cf [Deliver (EvConfigure 2 [])] = Ok m /\ sh_init (mp_sh m) = false /\ ~ busy (mp_spin m) /\
  exec plain_cf m [Loop; Deliver (EvConfigure 1 []); Pub; Loop; Loop] = Ok m' /\ sh_enable (mp_sh m') = true.
Proof.
  destruct (ends_in (run plain_cf [Deliver (EvConfigure 2 [])])
    (fun m => negb (sh_init (mp_sh m)) && idle m &&
       ends (exec plain_cf m [Loop; Deliver (EvConfigure 1 []); Pub; Loop; Loop]) (fun m' => sh_enable (mp_sh m')))) as (m & E & H).
  { reflexivity. }
  apply andb_prop in H. destruct H as [H H3]. apply andb_prop in H. destruct H as [H1 H2].
  apply ends_in in H3. destruct H3 as (m' & E' & H3).
  exists m, m'. split; [exact E|]. split; [destruct (sh_init (mp_sh m)); [discriminate H1|reflexivity]|].
  split; [intro B; apply B; apply idle_pc; exact H2|]. split; assumption.
Qed.

(** C68: the mapping part ... *)
Theorem C68_configure_mapping_bits : forall {T} {A : Arith T} (cf : config T) m a file,
  sp_pc (mp_spin m) = SIdle ->
  exists m1, step cf (Deliver (EvConfigure a file)) m = Some (Ok m1) /\
    sh_enable (mp_sh m1) = after_mapping_bits a true false (sh_enable (mp_sh m)) /\
    sh_init (mp_sh m1) = after_mapping_bits a (sh_init (mp_sh m)) false (sh_init (mp_sh m)) /\
    same_graph (mp_sh m) (mp_sh m1) /\ same_poses (mp_sh m) (mp_sh m1) /\ mutexes m1 = mutexes m /\
    sh_flag (mp_sh m1) = sh_flag (mp_sh m) /\ sh_typical (mp_sh m1) = sh_typical (mp_sh m) /\
    sh_global (mp_sh m1) = sh_global (mp_sh m) /\ sh_trace (mp_sh m1) = sh_trace (mp_sh m) /\
    sp_filter (mp_spin m1) = sp_filter (mp_spin m) /\ mp_loop m1 = mp_loop m /\ mp_pub m1 = mp_pub m /\
    (busy (mp_spin m1) <-> Z.testbit a 2 = true \/ Z.testbit a 3 = true).
Proof. exact @configure_bits. Qed.
Print Assumptions C68_configure_mapping_bits.

(** ... loading, whatever the save bit ... *)
Theorem C68_configure_load : forall {T} {A : Arith T} (cf : config T) m a file,
  sp_pc (mp_spin m) = SIdle -> sh_glock (mp_sh m) = None -> Z.testbit a 2 = true ->
  exists m2, exec cf m [Deliver (EvConfigure a file); Spin; Spin] = Ok m2 /\
    ~ busy (mp_spin m2) /\ the_graph cf (mp_sh m2) = Ok (graph_load (cf_use_bary cf) file) /\
    sh_flag (mp_sh m2) = true /\ sh_init (mp_sh m2) = false /\
    sh_enable (mp_sh m2) = after_mapping_bits a true false (sh_enable (mp_sh m)) /\
    same_poses (mp_sh m) (mp_sh m2) /\ mutexes m2 = mutexes m /\
    sh_typical (mp_sh m2) = sh_typical (mp_sh m) /\ sh_global (mp_sh m2) = sh_global (mp_sh m) /\
    sh_trace (mp_sh m2) = ObLoad :: sh_trace (mp_sh m) /\
    sp_filter (mp_spin m2) = sp_filter (mp_spin m) /\ mp_loop m2 = mp_loop m /\ mp_pub m2 = mp_pub m.
Proof. exact @configure_load. Qed.
Print Assumptions C68_configure_load.

(** ... saving ... *)
Theorem C68_configure_save : forall {T} {A : Arith T} (cf : config T) m a file g,
  sp_pc (mp_spin m) = SIdle -> sh_glock (mp_sh m) = None -> Z.testbit a 2 = false -> Z.testbit a 3 = true ->
  the_graph cf (mp_sh m) = Ok g ->
  exists m2, exec cf m [Deliver (EvConfigure a file); Spin; Spin] = Ok m2 /\
    ~ busy (mp_spin m2) /\ same_graph (mp_sh m) (mp_sh m2) /\ same_poses (mp_sh m) (mp_sh m2) /\
    sh_flag (mp_sh m2) = sh_flag (mp_sh m) /\
    sh_init (mp_sh m2) = after_mapping_bits a (sh_init (mp_sh m)) false (sh_init (mp_sh m)) /\
    sh_enable (mp_sh m2) = after_mapping_bits a true false (sh_enable (mp_sh m)) /\
    mutexes m2 = mutexes m /\ sh_typical (mp_sh m2) = sh_typical (mp_sh m) /\ sh_global (mp_sh m2) = sh_global (mp_sh m) /\
    sh_trace (mp_sh m2) = ObSave (graph_save g) :: sh_trace (mp_sh m) /\
    sp_filter (mp_spin m2) = sp_filter (mp_spin m) /\ mp_loop m2 = mp_loop m /\ mp_pub m2 = mp_pub m.
Proof. exact @configure_save. Qed.
Print Assumptions C68_configure_save.

(** ... and no other bit matters. *)
Theorem C68_configure_other_bits : forall {T} {A : Arith T} (cf : config T) m a b file,
  (forall k, (0 <= k < 4)%Z -> Z.testbit a k = Z.testbit b k) ->
  step cf (Deliver (EvConfigure a file)) m = step cf (Deliver (EvConfigure b file)) m.
Proof. exact @configure_low_bits. Qed.
Print Assumptions C68_configure_other_bits.

Example C68_nonvacuous : exists m g, run plain_cf [] = Ok m /\ sp_pc (mp_spin m) = SIdle /\ sh_glock (mp_sh m) = None /\
  the_graph plain_cf (mp_sh m) = Ok g.
Proof. eexists _, _. repeat split. Qed.
Example C68_bits_nonvacuous : (forall k, (0 <= k < 4)%Z -> Z.testbit 8 k = Z.testbit 24 k) /\ Z.testbit 12 2 = true /\ Z.testbit 8 2 = false.
Proof.
  split; [|split; reflexivity]. intros k K.
  assert (E : (k = 0 \/ k = 1 \/ k = 2 \/ k = 3)%Z) by lia. destruct E as [->|[->|[->| ->]]]; reflexivity.
Qed.

(** C69: ignored, every arithmetic: nothing at all changes. *)
Theorem C69_initial_pose_ignored : forall {T} {A : Arith T} (cf : config T) m e, sp_pc (mp_spin m) = SIdle ->
  (sh_enable (mp_sh m) = true /\ sh_init (mp_sh m) = true) \/ pe_frame e <> "map"%string \/ pe_odom e = None ->
  step cf (Deliver (EvPose e)) m = Some (Ok m).
Proof. exact @pose_ignored. Qed.
Print Assumptions C69_initial_pose_ignored.

(** While mapping: connected to the nearest scan of the graph if one is closer
    than the square root of 10 metres (see C34), rejected otherwise. *)
Theorem C69_initial_pose_mapping : forall (cf : config R) m e t g,
  radius_contract (en_search cf) -> cf_use_bary cf = false ->
  sp_pc (mp_spin m) = SIdle -> sh_glock (mp_sh m) = None ->
  sh_enable (mp_sh m) = true -> sh_init (mp_sh m) = false ->
  pe_frame e = "map"%string -> pe_odom e = Some t -> sp_filter (mp_spin m) = None ->
  the_graph cf (mp_sh m) = Ok g ->
  let P := from_msg (pe_pose e) in
  let d2 i := match nth_error (gr_scans g) i with
              | Some sc => sq_dist (mkPoint (pox (s_pose sc)) (poy (s_pose sc))) (mkPoint (pox P) (poy P))
              | None => 10%R
              end in
  (exists m2, exec cf m [Deliver (EvPose e); Spin; Spin] = Ok m2 /\ ~ busy (mp_spin m2) /\
     (forall i, (10 <= d2 i)%R) /\
     same_graph (mp_sh m) (mp_sh m2) /\ same_poses (mp_sh m) (mp_sh m2) /\ sh_init (mp_sh m2) = false) \/
  (exists m2 i from sc, exec cf m [Deliver (EvPose e); Spin; Spin; Spin; Spin; Spin] = Ok m2 /\ ~ busy (mp_spin m2) /\
     nth_error (gr_scans g) i = Some from /\ (d2 i < 10)%R /\ (forall j, (d2 i <= d2 j)%R) /\
     s_id sc = Z.of_nat (List.length (sh_scans (mp_sh m))) /\ s_pose sc = P /\ s_pts sc = [] /\
     the_graph cf (mp_sh m2) = Ok (mkGraph (gr_use_bary g) (gr_scans g ++ [sc])
       (gr_constraints g ++ [make_constraint from sc (diag3 (pe_c0 e) (pe_c7 e) (pe_c35 e))])) /\
     sh_robot (mp_sh m2) = P /\ sh_odom (mp_sh m2) = from_msg t /\ sh_init (mp_sh m2) = true).
Proof.
  intros cf m e t g C Ub I G En In_ F O N Gr P d2.
  assert (Gb : gr_use_bary g = false).
  { unfold the_graph in Gr. destruct (graph_scans (mp_sh m)); [|discriminate Gr]. injection Gr as <-. exact Ub. }
  set (sc := scan_set_pose (scan_new (num_scans (mp_sh m))) P).
  destruct (find_nearest (en_search cf) g sc (nofZ 10) (-1)) as [near|f] eqn:Ne.
  2:{ rewrite find_nearest_defined in Ne. destruct (Z.ltb_spec (Z.of_nat (List.length (gr_scans g))) (-1)); [lia|discriminate Ne]. }
  pose proof (find_nearest_exact _ _ _ _ _ _ C Ne) as (_ & Ex & Srt).
  assert (D2 : forall i a, nth_error (gr_scans g) i = Some a ->
     d2 i = sq_dist (scan_position (gr_use_bary g) a) (scan_position (gr_use_bary g) sc)).
  { intros i a E. unfold d2. rewrite E, Gb. reflexivity. }
  assert (Ten : nofZ 10 = 10%R) by reflexivity.
  assert (Far : forall i, ~ In i near -> (10 <= d2 i)%R).
  { intros i Ni. unfold d2. destruct (nth_error (gr_scans g) i) as [a|] eqn:E; [|lra].
    apply Rnot_lt_le. intro L. apply Ni. apply Ex. split.
    - unfold below_limit. split; [apply nth_error_Some; rewrite E; discriminate|]. intro Z0. exfalso. lia.
    - exists a. split; [exact E|]. rewrite Gb. exact L. }
  destruct (pose_connects cf m e t g near I G En In_ F O N Gr Ne) as [Rej Acc].
  destruct near as [|i rest].
  - left. destruct (Rej eq_refl) as (m2 & E & B & S1 & S2 & S3). exists m2. repeat (split; [first [exact E|exact B|exact S1|exact S2|exact S3|idtac]|]); try exact S3.
    intro i. apply Far. intros [].
  - right. pose proof (proj1 (Ex i) (or_introl eq_refl)) as (_ & from & E & L).
    destruct (Acc i rest from eq_refl E) as (m2 & Ex2 & B & Tg & R1 & R2 & R3).
    exists m2, i, from, sc. split; [exact Ex2|]. split; [exact B|]. split; [exact E|].
    assert (Lt : (d2 i < 10)%R) by (rewrite (D2 i from E); exact L).
    split; [exact Lt|]. split.
    { intro j. destruct (in_dec Nat.eq_dec j (i :: rest)) as [[<-|J]|J].
      - apply Rle_refl.
      - apply StronglySorted_inv in Srt. destruct Srt as [_ Fo]. rewrite Forall_forall in Fo.
        pose proof (proj1 (Ex j) (or_intror J)) as (_ & b & Eb & _). rewrite (D2 i from E), (D2 j b Eb). apply (Fo j J); assumption.
      - apply Rle_trans with 10%R; [apply Rlt_le; exact Lt|apply Far; exact J]. }
    split; [reflexivity|]. split; [reflexivity|]. split; [reflexivity|]. split; [exact Tg|]. split; [exact R1|]. split; [exact R2|exact R3].
Qed.
Print Assumptions C69_initial_pose_mapping.

(** Localization without mapping: the tracked poses are set, nothing else. *)
Theorem C69_initial_pose_localizing : forall {T} {A : Arith T} (cf : config T) m e t,
  sp_pc (mp_spin m) = SIdle -> sh_enable (mp_sh m) = false ->
  pe_frame e = "map"%string -> pe_odom e = Some t -> sp_filter (mp_spin m) = None ->
  exists m2, exec cf m [Deliver (EvPose e); Spin; Spin; Spin] = Ok m2 /\ ~ busy (mp_spin m2) /\
    same_graph (mp_sh m) (mp_sh m2) /\ sh_robot (mp_sh m2) = from_msg (pe_pose e) /\ sh_odom (mp_sh m2) = from_msg t /\
    sh_init (mp_sh m2) = true.
Proof. exact @pose_localizes. Qed.
Print Assumptions C69_initial_pose_localizing.

(** With the particle filter, which is initialised at that pose. *)
Theorem C69_initial_pose_filter : forall {T} {A : Arith T} (cf : config T) m e t f f',
  sp_pc (mp_spin m) = SIdle -> sh_enable (mp_sh m) && sh_init (mp_sh m) = false ->
  pe_frame e = "map"%string -> pe_odom e = Some t -> sp_filter (mp_spin m) = Some f ->
  filter_init (pe_normal e) (ps_x (pe_pose e)) (ps_y (pe_pose e)) (poth (from_msg (pe_pose e)))
    (nsqrt (pe_c0 e)) (nsqrt (pe_c7 e)) (nsqrt (pe_c35 e)) f = Ok f' ->
  exists m2, exec cf m [Deliver (EvPose e); Spin; Spin; Spin] = Ok m2 /\ ~ busy (mp_spin m2) /\
    same_graph (mp_sh m) (mp_sh m2) /\ sh_robot (mp_sh m2) = from_msg (pe_pose e) /\ sh_odom (mp_sh m2) = from_msg t /\
    sh_init (mp_sh m2) = true /\ sp_filter (mp_spin m2) = Some f'.
Proof. exact @pose_filter. Qed.
Print Assumptions C69_initial_pose_filter.

Example C69_nonvacuous : exists m g, run (demo_cf 0 1 0 None true (Some [scan_file 0 0 0 []])) [] = Ok m /\
  radius_contract (en_search (demo_cf 0 1 0 None true (Some [scan_file 0 0 0 []]))) /\
  sp_pc (mp_spin m) = SIdle /\ sh_glock (mp_sh m) = None /\ sh_enable (mp_sh m) = true /\ sh_init (mp_sh m) = false /\
  sp_filter (mp_spin m) = None /\ the_graph (demo_cf 0 1 0 None true (Some [scan_file 0 0 0 []])) (mp_sh m) = Ok g /\
  List.length (gr_scans g) = 1%nat.
Proof.
  set (cf := demo_cf 0 1 0 None true (Some [scan_file 0 0 0 []])).
  destruct (ends_in (run cf []) (fun m => idle m && gfree m && sh_enable (mp_sh m) && negb (sh_init (mp_sh m)) &&
    match sp_filter (mp_spin m) with None => true | _ => false end &&
    match the_graph cf (mp_sh m) with Ok g => Nat.eqb (List.length (gr_scans g)) 1 | _ => false end)) as (m & E & H).
  { reflexivity. }
  repeat (apply andb_prop in H; destruct H as [H ?]).
  destruct (the_graph cf (mp_sh m)) as [g|] eqn:G; [|discriminate].
  exists m, g. split; [exact E|]. split; [exact search_exact_contract|]. split; [apply idle_pc; assumption|].
  split; [apply gfree_eq; assumption|]. split; [assumption|]. split; [destruct (sh_init (mp_sh m)); [discriminate|reflexivity]|].
  split; [destruct (sp_filter (mp_spin m)); [discriminate|reflexivity]|]. split; [exact G|]. apply Nat.eqb_eq. assumption.
Qed.

(** C71: false.  The region ends before the scan after the candidate. *)
Theorem C71_region_refuted : exists (scans : list (scan R)) reg,
  region 1 5 scans = Ok reg /\ reg <> around 1 scans.
Proof.
  exists (map scan_new [0; 1; 2; 3; 4; 5]%Z). eexists. split; [reflexivity|]. intro E. discriminate E.
Qed.
Print Assumptions C71_region_refuted.

(** What the global matcher is built from: the candidate and the scan before it. *)
Theorem C71_region_partial : forall {T} {A : Arith T} (cf : config T) m m' c i scans cand,
  lp_pc (mp_loop m) = LRegion c i -> (Z.of_nat i < rolling_start cf (mp_loop m))%Z -> step cf Loop m = Some (Ok m') ->
  graph_scans (mp_sh m) = Ok scans -> nth_error scans i = Some cand -> s_pts cand <> [] ->
  exists g g', sh_global (mp_sh m) = Some g /\ sh_global (mp_sh m') = Some g' /\
    add_scans (en_eig cf) (matcher_reset g) (before_and_at i scans) = Ok g'.
Proof. exact @region_step. Qed.
Print Assumptions C71_region_partial.

Example C71_nonvacuous : before_and_at 1 [10; 20; 30] = [10; 20] /\ around 1 [10; 20; 30] = [10; 20; 30].
Proof. split; reflexivity. Qed.

(** C73, every arithmetic. *)
Theorem C73_publisher_role : forall {T} {A : Arith T} (cf : config T) m m', step cf Pub m = Some (Ok m') ->
  same_graph (mp_sh m) (mp_sh m') /\ same_poses (mp_sh m) (mp_sh m') /\ mp_spin m' = mp_spin m /\ mp_loop m' = mp_loop m /\
  sh_typical (mp_sh m') = sh_typical (mp_sh m) /\ sh_enable (mp_sh m') = sh_enable (mp_sh m) /\
  sh_init (mp_sh m') = sh_init (mp_sh m) /\ sh_global (mp_sh m') = sh_global (mp_sh m).
Proof. intros T A cf m m' H. apply pub_frame with (cf := cf). apply step_cases. exact H. Qed.
Print Assumptions C73_publisher_role.

Theorem C73_loop_closure_role : forall {T} {A : Arith T} (cf : config T) m m', step cf Loop m = Some (Ok m') ->
  sh_scans (mp_sh m') = sh_scans (mp_sh m) /\ only_poses (sh_heap (mp_sh m)) (sh_heap (mp_sh m')) /\
  same_poses (mp_sh m) (mp_sh m') /\ mp_spin m' = mp_spin m /\ mp_pub m' = mp_pub m /\
  sh_typical (mp_sh m') = sh_typical (mp_sh m) /\ sh_enable (mp_sh m') = sh_enable (mp_sh m) /\
  sh_init (mp_sh m') = sh_init (mp_sh m) /\ sh_plock (mp_sh m') = sh_plock (mp_sh m) /\
  (exists more, sh_cons (mp_sh m') = sh_cons (mp_sh m) ++ more).
Proof. intros T A cf m m' H. apply loop_frame with (cf := cf). apply step_cases. exact H. Qed.
Print Assumptions C73_loop_closure_role.

Example C73_nonvacuous : exists m m1 m2, run plain_cf [] = Ok m /\ step plain_cf Pub m = Some (Ok m1) /\ step plain_cf Loop m = Some (Ok m2).
Proof. eexists _, _, _. repeat split. Qed.

(** C74, every arithmetic: a thread that cannot go on waits for another thread
    which can go on ... *)
Theorem C74_waiting_for_a_running_thread : forall {T} {A : Arith T} (cf : config T) m t, reachable cf m -> stuck cf t m ->
  exists t', t' <> t /\ holds t' m /\ step cf (thread t') m <> None.
Proof. intros T A cf m t R. apply stuck_waits. apply (lock_inv_reachable cf). exact R. Qed.
Print Assumptions C74_waiting_for_a_running_thread.

(** ... no thread holds both mutexes, or waits while holding one ... *)
Theorem C74_holder_never_waits : forall {T} {A : Arith T} (cf : config T) m t, reachable cf m -> holds t m ->
  step cf (thread t) m <> None /\ ~ (sh_glock (mp_sh m) = Some t /\ sh_plock (mp_sh m) = Some t).
Proof.
  intros T A cf m t R H. pose proof (lock_inv_reachable cf m R) as I. split; [apply holder_moves; assumption|].
  intros [G P]. exact (one_mutex m t I G P).
Qed.
Print Assumptions C74_holder_never_waits.

(** ... and a mutex is released within two steps of its holder. *)
Theorem C74_released_soon : forall {T} {A : Arith T} (cf : config T) m t m1 m2, reachable cf m -> holds t m ->
  step cf (thread t) m = Some (Ok m1) -> step cf (thread t) m1 = Some (Ok m2) -> ~ holds t m1 \/ ~ holds t m2.
Proof.
  intros T A cf m t m1 m2 R H S1 S2. apply (release_soon cf m t); [apply (lock_inv_reachable cf); exact R|exact H| |]; apply step_cases; assumption.
Qed.
Print Assumptions C74_released_soon.

(** The publisher holds the graph; a save request and the loop closure wait. *)
Example C74_nonvacuous : exists m, reachable (demo_cf 0 1 0 None true (Some [])) m /\
  stuck (demo_cf 0 1 0 None true (Some [])) TSpin m /\ stuck (demo_cf 0 1 0 None true (Some [])) TLoop m /\ holds TPub m.
Proof.
  set (cf := demo_cf 0 1 0 None true (Some [])).
  destruct (ends_in (run cf [Pub; Pub; Pub; Deliver (EvConfigure 8 []); Loop])
    (fun m => negb (idle m) && blocked cf Spin m && blocked cf Loop m && glocked_by TPub m)) as (m & E & H).
  { reflexivity. }
  apply andb_prop in H. destruct H as [H H4]. apply andb_prop in H. destruct H as [H H3]. apply andb_prop in H. destruct H as [H1 H2].
  exists m. split; [exists [Pub; Pub; Pub; Deliver (EvConfigure 8 []); Loop]; exact E|].
  split; [split; [apply blocked_none; exact H2|intros [_ Id]; unfold idle in H1; rewrite Id in H1; discriminate H1]|].
  split; [split; [apply blocked_none; exact H3|intros [F _]; discriminate F]|]. left. apply glocked_by_eq. exact H4.
Qed.
