(** C95-C99: how the graph grows, the optimizer, who writes what. *)

From Coq Require Import ZArith List Bool String Lia.
From Flocq Require Import Core BinarySingleNaN.
From Verif Require Import Outcome Arith SpecOrigin TypesModel ScanModel MatcherModel ConstraintModel
  SolverModel GraphModel OccGridModel MotionModel FilterModel LaserModel MapperModel SpecSolver SpecGraph SpecMapper SpecMapper2 SpecMapper4 SpecNode
  MapperSteps MapperInv2 MapperInv5 MapperInv6 MapperInv7 MapperInv8 MapperProofs MapperInv1 MapperInv3 MapperInv4 MapperWitness2 MapperInv9 MapperInv10 MapperInv11.
Import ListNotations.

(** ** C95 *)
Theorem C95_graph_grows : forall {T} {A : Arith T} (cf : config T) m ls m', reachable cf m -> exec cf m ls = Ok m' -> no_load_since m m' ->
  exists g g', the_graph cf (mp_sh m) = Ok g /\ the_graph cf (mp_sh m') = Ok g' /\ extends g g'.
Proof. exact @graph_grows. Qed.
Print Assumptions C95_graph_grows.

(** ** C96 *)
Theorem C96_spanning : forall {T} {A : Arith T} (cf : config T), (0 <= cf_depth cf)%Z -> search_in_range (en_search cf) -> chained_start cf ->
  forall m, reach_if cf (chained cf) m -> ~ half_added m ->
  exists g, the_graph cf (mp_sh m) = Ok g /\ spanning g /\
    forall i, (i < List.length (gr_scans g))%nat -> linked g (Z.of_nat i).
Proof.
  intros T A cf D S st m R N. destruct (graph_spanning cf D S st m R N) as (g & G & Sp). exists g. split; [exact G|]. split; [exact Sp|].
  apply spanning_linked. exact Sp.
Qed.
Print Assumptions C96_spanning.

(** Such a map is loaded again after it was saved. *)
Theorem C96_saved_spanning : forall {T} {A : Arith T} ub (g : graph T) file, fits64 g -> same_topics file (graph_save g) -> spanning g ->
  spanning (graph_load ub file).
Proof. exact @saved_spanning. Qed.
Print Assumptions C96_saved_spanning.

(** ** Witnesses *)
(** Eleven scans joined one after the other; closing the loop moves the last one. *)
Definition chain11 : list (bag_msg b64) := eleven_scans ++ map (fun i => edge64 (Z.of_nat i) (Z.of_nat i + 1)) (seq 0 10).
Definition cf11 (lm : libm) : config b64 := cf64 lm 9 1 1 None false (Some chain11).
Definition start11 : list (label b64) :=
  [Deliver (beam64 [] 0 0); Deliver (pose_ev64 half64 half64 0 0); Spin; Spin; Spin; Deliver (EvConfigure 1 [])].

Definition spanning_b (g : graph b64) : bool :=
  forallb (fun p => (s_id (fst p) =? Z.of_nat (snd p))%Z) (combine (gr_scans g) (seq 0 (List.length (gr_scans g)))) &&
  (if list_eq_dec Z.eq_dec (map c_end (chain g)) (map Z.of_nat (seq 1 (List.length (gr_scans g) - 1))) then true else false) &&
  forallb (fun c => (0 <=? c_begin c)%Z && (c_begin c <? c_end c)%Z) (chain g).
Lemma spanning_sound : forall g, spanning_b g = true -> spanning g.
Proof.
  intros g H. unfold spanning_b in H. apply andb_prop in H. destruct H as [H H3]. apply andb_prop in H. destruct H as [H1 H2].
  rewrite forallb_forall in H1, H3. split; [|split].
  - intros i sc E. specialize (H1 _ (combine_nth_seq _ 0 _ _ E)). cbn [fst snd] in H1. apply Z.eqb_eq in H1. exact H1.
  - destruct (list_eq_dec Z.eq_dec _ _) as [E|]; [exact E|discriminate H2].
  - apply Forall_forall. intros c I. specialize (H3 c I). apply andb_prop in H3. destruct H3 as [H3 H4].
    apply Z.leb_le in H3. apply Z.ltb_lt in H4. lia.
Qed.
Lemma chain11_ok : forall lm, spanning (graph_load (A := BA lm) false chain11).
Proof. intro lm. apply spanning_sound. vm_compute. reflexivity. Qed.
Lemma chain11_good : forall lm, well_formed (graph_load (A := BA lm) false chain11).
Proof. intro lm. apply well_formed_sound. vm_compute. reflexivity. Qed.
Lemma cf11_chained : forall lm, chained_start (A := BA (easy lm)) (cf11 lm).
Proof. intros lm f F. injection F as <-. exact (chain11_ok (easy lm)). Qed.
Lemma cf11_good : forall lm, good_start (A := BA (easy lm)) (cf11 lm).
Proof. intros lm f F. injection F as <-. exact (chain11_good (easy lm)). Qed.

Definition unloaded_b (m : mapper b64) (l : label b64) : bool :=
  (num_scans (mp_sh m) <? 2 ^ 31)%Z && match sp_pc (mp_spin m) with SLoad _ => false | _ => true end.
Lemma unloaded_sound : forall m l, unloaded_b m l = true -> unloaded m l.
Proof.
  intros m l H. apply andb_prop in H. destruct H as [H1 H2]. apply Z.ltb_lt in H1. split; [exact H1|].
  intros _ file E. rewrite E in H2. discriminate H2.
Qed.
Definition half_b (m : mapper b64) : bool := match sp_pc (mp_spin m) with SScanLock _ _ | SScanPush _ _ => true | _ => false end.
Lemma half_sound : forall m, half_b m = false -> ~ half_added m.
Proof. intros m H [(p & o & E)|(p & o & E)]; unfold half_b in H; rewrite E in H; discriminate H. Qed.
Definition separate_b (m : mapper b64) (l : label b64) : bool := unloaded_b m l && negb (half_b m).
Lemma separate_sound : forall m l, separate_b m l = true -> separate m l.
Proof.
  intros m l H. apply andb_prop in H. destruct H as [H1 H2]. split; [apply unloaded_sound; exact H1|].
  intros _ _. apply half_sound. destruct (half_b m); [discriminate H2|reflexivity].
Qed.
Definition optimizing_b (m : mapper b64) : bool := match lp_pc (mp_loop m) with LOptRun => true | _ => false end.
Lemma optimizing_sound : forall m, optimizing_b m = true -> optimizing m.
Proof. intros m H. unfold optimizing_b in H. unfold optimizing. destruct (lp_pc (mp_loop m)); try discriminate H. reflexivity. Qed.

(** A loop is closed, then an odometry scan is added: the graph grows. *)
Definition more11 : list (label b64) := loops 14 ++ [Deliver (beam64 [z64 1] 2 0); Spin; Spin; Spin; Spin; Spin; Spin].
Definition sizes (m : mapper b64) (scans cons : nat) : bool := (List.length (sh_scans (mp_sh m)) =? scans)%nat && (List.length (sh_cons (mp_sh m)) =? cons)%nat.
Definition fresh_obs (m m' : mapper b64) : list (obs b64) := firstn (List.length (sh_trace (mp_sh m')) - List.length (sh_trace (mp_sh m))) (sh_trace (mp_sh m')).
Example C95_nonvacuous : forall lm : libm, exists m m' g g',
  run (A := BA (easy lm)) (cf11 lm) start11 = Ok m /\ exec (A := BA (easy lm)) (cf11 lm) m more11 = Ok m' /\ no_load_since m m' /\
  the_graph (cf11 lm) (mp_sh m) = Ok g /\ the_graph (cf11 lm) (mp_sh m') = Ok g' /\ extends g g' /\
  List.length (gr_scans g) = 11%nat /\ List.length (gr_scans g') = 12%nat /\ List.length (gr_constraints g) = 10%nat /\ List.length (gr_constraints g') = 12%nat.
Proof.
  intro lm.
  destruct (ends64_in (run (A := BA (easy lm)) (cf11 lm) start11) (fun m => ends64 (exec (A := BA (easy lm)) (cf11 lm) m more11) (fun m' =>
    sizes m 11 10 && sizes m' 12 12 && forallb (fun x => match x with ObLoad => false | _ => true end) (fresh_obs m m')))) as (m & E & H); [vm_compute; reflexivity|].
  apply ends64_in in H. destruct H as (m' & E' & H). apply andb_prop in H. destruct H as [H H3]. apply andb_prop in H. destruct H as [H1 H2].
  apply andb_prop in H1. destruct H1 as [H1 H1']. apply andb_prop in H2. destruct H2 as [H2 H2'].
  apply Nat.eqb_eq in H1. apply Nat.eqb_eq in H1'. apply Nat.eqb_eq in H2. apply Nat.eqb_eq in H2'.
  assert (R : reachable (A := BA (easy lm)) (cf11 lm) m) by (exists start11; exact E).
  assert (N : no_load_since m m').
  { destruct (exec_ext (A := BA (easy lm)) (cf11 lm) more11 m m' E') as (new & Tr & _). exists new. split; [exact Tr|].
    unfold fresh_obs in H3. rewrite Tr, app_length in H3. replace (List.length new + List.length (sh_trace (mp_sh m)) - List.length (sh_trace (mp_sh m)))%nat with (List.length new + 0)%nat in H3 by lia.
    rewrite firstn_app_2, app_nil_r in H3. rewrite forallb_forall in H3. intro I. specialize (H3 _ I). discriminate H3. }
  destruct (C95_graph_grows (cf11 lm) m more11 m' R E' N) as (g & g' & G & G' & X).
  destruct (the_graph_length _ _ _ G) as (L1 & L2 & _). destruct (the_graph_length _ _ _ G') as (L1' & L2' & _).
  exists m, m', g, g'. repeat (split; [first [assumption|congruence]|]). congruence.
Qed.

Definition linked_chain (m : mapper b64) : bool := sizes m 12 12 && negb (half_b m).
(** The same history: a map whose scans are all linked, with a loop closure. *)
Example C96_nonvacuous : forall lm : libm, chained_start (A := BA (easy lm)) (cf11 lm) /\
  exists m, reach_if (A := BA (easy lm)) (cf11 lm) (chained (A := BA (easy lm)) (cf11 lm)) m /\ ~ half_added m /\ num_scans (mp_sh m) = 12%Z.
Proof.
  intro lm. split; [apply cf11_chained|].
  destruct (ends64_in (run (A := BA (easy lm)) (cf11 lm) (start11 ++ more11)) linked_chain) as (m & E & H); [vm_compute; reflexivity|].
  apply andb_prop in H. destruct H as [H1 H2]. apply andb_prop in H1. destruct H1 as [H1 _]. apply Nat.eqb_eq in H1. exists m.
  split; [apply (run_reach (easy lm) _ unloaded_b) with (ls := start11 ++ more11); [|vm_compute; reflexivity|exact E]|].
  - intros m0 l H. apply unloaded_sound in H. destruct H as [B N]. split; [exact B|]. intros S file P. contradiction (N S file P).
  - split; [apply half_sound; destruct (half_b m); [discriminate H2|reflexivity]|]. unfold num_scans. rewrite H1. reflexivity.
Qed.

(** ** C97 *)
(** False: the optimizer reads the scan of a constraint before the scan is in
    the graph. *)
Theorem C97_optimizer_safe_refuted : forall lm : libm, exists cf ls m,
  (0 <= cf_depth cf)%Z /\ search_in_range (en_search cf) /\ chained_start (A := BA (easy lm)) cf /\ good_start (A := BA (easy lm)) cf /\
  run (A := BA (easy lm)) cf ls = Ok m /\ reach_if (A := BA (easy lm)) cf unloaded m /\ optimizing m /\
  step (A := BA (easy lm)) cf Loop m = Some (Fault OutOfBounds).
Proof.
  intro lm.
  set (ls := start11 ++ loops 16 ++ [Deliver (beam64 [z64 1] 2 0); Spin; Spin; Spin; Spin] ++ loops 1).
  destruct (ends64_in (run (A := BA (easy lm)) (cf11 lm) ls)
    (fun m => optimizing_b m && match step (A := BA (easy lm)) (cf11 lm) Loop m with Some (Fault OutOfBounds) => true | _ => false end)) as (m & E & H); [vm_compute; reflexivity|].
  apply andb_prop in H. destruct H as [H1 H2]. exists (cf11 lm), ls, m. split; [discriminate|]. split; [exact search64_in_range|].
  split; [apply cf11_chained|]. split; [apply cf11_good|]. split; [exact E|].
  split; [apply (run_reach (easy lm) _ unloaded_b) with (ls := ls); [exact unloaded_sound|vm_compute; reflexivity|exact E]|].
  split; [apply optimizing_sound; exact H1|].
  destruct (step (A := BA (easy lm)) (cf11 lm) Loop m) as [[|[]]|]; try discriminate H2. reflexivity.
Qed.
Print Assumptions C97_optimizer_safe_refuted.

(** No map is loaded while the node runs (the one it starts with is of the kind
    of C96) and the optimizer does not start while a scan is half added. *)
Theorem C97_optimizer_safe_partial : forall {T} {A : Arith T} (cf : config T), (0 <= cf_depth cf)%Z -> search_in_range (en_search cf) ->
  chained_start cf -> good_start cf ->
  forall m, reach_if cf separate m -> (num_scans (mp_sh m) < 2 ^ 31)%Z -> optimizing m -> exists m', step cf Loop m = Some (Ok m').
Proof. exact @optimizer_runs. Qed.
Print Assumptions C97_optimizer_safe_partial.

Example C97_nonvacuous : forall lm : libm, chained_start (A := BA (easy lm)) (cf11 lm) /\ good_start (A := BA (easy lm)) (cf11 lm) /\
  exists m, reach_if (A := BA (easy lm)) (cf11 lm) separate m /\ optimizing m /\ num_scans (mp_sh m) = 11%Z.
Proof.
  intro lm. split; [apply cf11_chained|]. split; [apply cf11_good|].
  destruct (ends64_in (run (A := BA (easy lm)) (cf11 lm) (start11 ++ loops 17)) (fun m => optimizing_b m && sizes m 11 11)) as (m & E & H); [vm_compute; reflexivity|].
  apply andb_prop in H. destruct H as [H1 H2]. apply andb_prop in H2. destruct H2 as [H2 _]. apply Nat.eqb_eq in H2. exists m.
  split; [apply (run_reach (easy lm) _ separate_b) with (ls := start11 ++ loops 17); [exact separate_sound|vm_compute; reflexivity|exact E]|].
  split; [apply optimizing_sound; exact H1|]. unfold num_scans. rewrite H2. reflexivity.
Qed.

(** ** C98 *)
Theorem C98_first_scan_stays : forall {T} {A : Arith T} (cf : config T), (0 <= cf_depth cf)%Z -> search_in_range (en_search cf) ->
  keeps_constant (en_ceres cf) -> keeps_nodes (en_ceres cf) -> numbered_start cf ->
  forall m l m', reach_if cf (tame cf) m -> unloaded m l -> sh_scans (mp_sh m) <> [] ->
  step cf l m = Some (Ok m') -> first_pose (mp_sh m') = first_pose (mp_sh m).
Proof. exact @first_scan_stays. Qed.
Print Assumptions C98_first_scan_stays.

Theorem C98_map_at_origin : forall {T} {A : Arith T} (cf : config T), (0 <= cf_depth cf)%Z -> search_in_range (en_search cf) ->
  keeps_constant (en_ceres cf) -> keeps_nodes (en_ceres cf) -> cf_file cf = None ->
  forall m, reach_if cf unloaded m -> sh_scans (mp_sh m) <> [] -> first_pose (mp_sh m) = Some origin.
Proof. exact @map_at_origin. Qed.
Print Assumptions C98_map_at_origin.

(** A map built by the laser, with two scans. *)
Example C98_nonvacuous : forall lm : libm, let cf := cf64 lm 10 1 0 None true None in
  keeps_constant (en_ceres cf) /\ keeps_nodes (en_ceres cf) /\ cf_file cf = None /\
  exists m, reach_if (A := BA (easy lm)) cf unloaded m /\ num_scans (mp_sh m) = 2%Z.
Proof.
  intros lm cf. split; [intros blocks const ns k I; reflexivity|]. split; [intros blocks const ns k N; exact N|].
  split; [reflexivity|].
  destruct (ends64_in (run (A := BA (easy lm)) (cf64 lm 10 1 0 None true None) laser_schedule) (fun m => sizes m 2 1)) as (m & E & H); [vm_compute; reflexivity|].
  apply andb_prop in H. destruct H as [H _]. apply Nat.eqb_eq in H. exists m.
  split; [apply (run_reach (easy lm) _ unloaded_b) with (ls := laser_schedule); [exact unloaded_sound|vm_compute; reflexivity|exact E]|].
  unfold num_scans. rewrite H. reflexivity.
Qed.

(** ** C99 *)
Theorem C99_graph_guarded : forall {T} {A : Arith T} (cf : config T) m l m', reachable cf m -> step cf l m = Some (Ok m') -> graph_changed m m' ->
  exists t, l = thread t /\ sh_glock (mp_sh m) = Some t.
Proof. exact @graph_guarded. Qed.
Print Assumptions C99_graph_guarded.

(** False for the poses of the scans: the loop closure thread moves the newest
    scan of the graph without any mutex, while the laser callback is about to
    measure the motion since that scan; the constraint depends on who is first. *)
Definition goes (o : option (outcome (mapper b64))) (P : mapper b64 -> bool) : bool := match o with Some r => ends64 r P | None => false end.
Lemma goes_in : forall o P, goes o P = true -> exists m, o = Some (Ok m) /\ P m = true.
Proof. intros [r|] P H; [|discriminate H]. destruct (ends64_in r P H) as (m & -> & H'). exists m. split; [reflexivity|exact H']. Qed.
Definition differ (x y : b64) : bool := beq x x && negb (beq x y).
Lemma differ_sound : forall x y, differ x y = true -> x <> y.
Proof. intros x y H E. subst y. unfold differ in H. destruct (beq x x); discriminate H. Qed.
Definition moved_b (m m' : mapper b64) (p : nat) : bool :=
  existsb (Nat.eqb p) (sh_scans (mp_sh m)) &&
  match nth_error (sh_heap (mp_sh m)) p, nth_error (sh_heap (mp_sh m')) p with Some a, Some b => differ (pox (s_pose a)) (pox (s_pose b)) | _, _ => false end.
Lemma moved_sound : forall m m' p, moved_b m m' p = true -> scan_changed m m' p.
Proof.
  intros m m' p H. unfold moved_b in H. apply andb_prop in H. destruct H as [H1 H2]. split.
  - apply existsb_exists in H1. destruct H1 as (q & I & E). apply Nat.eqb_eq in E. subst q. exact I.
  - intro E. rewrite E in H2. destruct (nth_error (sh_heap (mp_sh m)) p) as [sc|]; [|discriminate H2]. apply differ_sound in H2. apply H2. reflexivity.
Qed.
Definition made (m : mapper b64) : option (constraint b64) := match sp_pc (mp_spin m) with SConsLock _ _ c => Some c | _ => None end.
Lemma made_in : forall m c, made m = Some c -> exists p odom, sp_pc (mp_spin m) = SConsLock p odom c.
Proof. intros m c H. unfold made in H. destruct (sp_pc (mp_spin m)); try discriminate H. injection H as <-. eauto. Qed.

Theorem C99_scans_guarded_refuted : forall lm : libm, exists cf ls m m1 m2 m3 c c',
  reachable (A := BA (easy lm)) cf m /\ run (A := BA (easy lm)) cf ls = Ok m /\ reach_if (A := BA (easy lm)) cf unloaded m /\
  sh_glock (mp_sh m) = None /\ sh_plock (mp_sh m) = None /\
  step (A := BA (easy lm)) cf Loop m = Some (Ok m1) /\ scan_changed m m1 (last (sh_scans (mp_sh m)) 0%nat) /\
  step (A := BA (easy lm)) cf Spin m = Some (Ok m2) /\ (exists p odom, sp_pc (mp_spin m2) = SConsLock p odom c) /\
  step (A := BA (easy lm)) cf Spin m1 = Some (Ok m3) /\ (exists p odom, sp_pc (mp_spin m3) = SConsLock p odom c') /\
  v0 (c_transform c) <> v0 (c_transform c').
Proof.
  intro lm. set (ls := start11 ++ loops 9 ++ [Deliver (beam64 [z64 1] 2 0); Spin]).
  destruct (ends64_in (run (A := BA (easy lm)) (cf11 lm) ls) (fun m =>
    match sh_glock (mp_sh m), sh_plock (mp_sh m) with None, None => true | _, _ => false end &&
    goes (step (A := BA (easy lm)) (cf11 lm) Loop m) (fun m1 => moved_b m m1 (last (sh_scans (mp_sh m)) 0%nat) &&
      goes (step (A := BA (easy lm)) (cf11 lm) Spin m) (fun m2 => goes (step (A := BA (easy lm)) (cf11 lm) Spin m1) (fun m3 =>
        match made m2, made m3 with Some c, Some c' => differ (v0 (c_transform c)) (v0 (c_transform c')) | _, _ => false end))))) as (m & E & H); [vm_compute; reflexivity|].
  apply andb_prop in H. destruct H as [H1 H2]. apply goes_in in H2. destruct H2 as (m1 & E1 & H2). apply andb_prop in H2. destruct H2 as [H2 H3].
  apply goes_in in H3. destruct H3 as (m2 & E2 & H3). apply goes_in in H3. destruct H3 as (m3 & E3 & H3).
  destruct (made m2) as [c|] eqn:M2; [|discriminate H3]. destruct (made m3) as [c'|] eqn:M3; [|discriminate H3].
  exists (cf11 lm), ls, m, m1, m2, m3, c, c'. split; [exists ls; exact E|]. split; [exact E|].
  split; [apply (run_reach (easy lm) _ unloaded_b) with (ls := ls); [exact unloaded_sound|vm_compute; reflexivity|exact E]|].
  split; [destruct (sh_glock (mp_sh m)); [discriminate H1|reflexivity]|].
  split; [destruct (sh_glock (mp_sh m)), (sh_plock (mp_sh m)); try discriminate H1; reflexivity|].
  split; [exact E1|]. split; [apply moved_sound; exact H2|]. split; [exact E2|]. split; [apply made_in; exact M2|]. split; [exact E3|].
  split; [apply made_in; exact M3|]. apply differ_sound. exact H3.
Qed.
Print Assumptions C99_scans_guarded_refuted.

(** The exception is that move; everything else that changes a scan of the graph
    holds the mutex of the graph. *)
Theorem C99_scans_guarded_partial : forall {T} {A : Arith T} (cf : config T) m l m' p, reachable cf m -> step cf l m = Some (Ok m') -> scan_changed m m' p ->
  (exists t, l = thread t /\ sh_glock (mp_sh m) = Some t) \/ (l = Loop /\ exists q, sh_trace (mp_sh m') = ObMove p q :: sh_trace (mp_sh m)).
Proof. exact @scans_guarded. Qed.
Print Assumptions C99_scans_guarded_partial.

(** The poses the publisher reads are written by callbacks only, under the other
    mutex except for an initial pose. *)
Theorem C99_poses_guarded_partial : forall {T} {A : Arith T} (cf : config T) m l m', reachable cf m -> step cf l m = Some (Ok m') -> poses_changed m m' ->
  l = Spin /\ (sh_plock (mp_sh m) = Some TSpin \/ initial_pose_stored m).
Proof. exact @poses_guarded. Qed.
Print Assumptions C99_poses_guarded_partial.

(** A state in which the laser callback adds a constraint, under the mutex. *)
Example C99_nonvacuous : forall lm : libm, exists m m', reachable (A := BA (easy lm)) (cf11 lm) m /\ sh_glock (mp_sh m) = Some TSpin /\
  step (A := BA (easy lm)) (cf11 lm) Spin m = Some (Ok m') /\ graph_changed m m'.
Proof.
  intro lm. set (ls := start11 ++ [Deliver (beam64 [z64 1] 2 0); Spin; Spin; Spin]).
  destruct (ends64_in (run (A := BA (easy lm)) (cf11 lm) ls) (fun m => match sh_glock (mp_sh m) with Some TSpin => true | _ => false end && sizes m 11 10 &&
    goes (step (A := BA (easy lm)) (cf11 lm) Spin m) (fun m' => sizes m' 11 11))) as (m & E & H); [vm_compute; reflexivity|].
  apply andb_prop in H. destruct H as [H H2]. apply andb_prop in H. destruct H as [H1 H3]. apply goes_in in H2. destruct H2 as (m' & E' & H2).
  exists m, m'. split; [exists ls; exact E|]. split; [destruct (sh_glock (mp_sh m)) as [[]|]; try discriminate H1; reflexivity|]. split; [exact E'|].
  right. intro C. apply andb_prop in H2. apply andb_prop in H3. destruct H2 as [_ H2], H3 as [_ H3]. apply Nat.eqb_eq in H2. apply Nat.eqb_eq in H3.
  rewrite C in H2. congruence.
Qed.
