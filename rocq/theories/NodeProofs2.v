(** The callbacks from beginning to end, when no other thread interferes
    (C85-C88). *)

From Coq Require Import ZArith List Bool String Lia.
From Verif Require Import Outcome Arith TypesModel ScanModel MatcherModel ConstraintModel
  SolverModel GraphModel OccGridModel MotionModel FilterModel LaserModel MapperModel SpecMapper SpecNode
  NdtProofs MapperProofs MapperSteps MapperInv1 MapperInv2 MapperInv3 MapperInv5 MapperInv6 NodeProofs.
Import ListNotations.
Local Open Scope outcome_scope.

Section P.
Context {T : Type} {A : Arith T}.
Context (cf : config T).

Lemma exec_spin : forall ls s sp l p s' sp', spin_step cf s sp = Some (Ok (s', sp')) ->
  exec cf (mkMapper s sp l p) (Spin :: ls) = exec cf (mkMapper s' sp' l p) ls.
Proof. intros ls s sp l p s' sp' H. cbn [exec step mp_sh mp_pub mp_spin mp_loop]. rewrite H. reflexivity. Qed.

Lemma exec_loop : forall ls s sp l p s' l', loop_step cf s l = Some (Ok (s', l')) ->
  exec cf (mkMapper s sp l p) (Loop :: ls) = exec cf (mkMapper s' sp l' p) ls.
Proof. intros ls s sp l p s' l' H. cbn [exec step mp_sh mp_pub mp_spin mp_loop]. rewrite H. reflexivity. Qed.

Lemma exec_laser : forall ls s sp l p e s' sp', sp_pc sp = SIdle -> laser_begin cf s sp e = Ok (s', sp') ->
  exec cf (mkMapper s sp l p) (Deliver (EvLaser e) :: ls) = exec cf (mkMapper s' sp' l p) ls.
Proof.
  intros ls s sp l p e s' sp' I H. cbn [exec step mp_sh mp_pub mp_spin mp_loop]. unfold deliver. rewrite I, H. reflexivity.
Qed.

(** The pointers of a graph that can be read are allocated. *)
Lemma graph_scans_alloced : forall (s : shared T) scans, graph_scans s = Ok scans ->
  Forall (fun p => (p < List.length (sh_heap s))%nat) (sh_scans s).
Proof.
  intros s scans H. unfold graph_scans in H. apply Forall_forall. intros p I. revert scans H.
  induction (sh_scans s) as [|q l IH]; intros scans H; [contradiction I|]. cbn [mapM] in H. apply bind_ok in H. destruct H as (sc & D & H).
  apply bind_ok in H. destruct H as (rest & R & H). destruct I as [->|I]; [|apply (IH I rest R)].
  apply deref_nth in D. apply nth_error_Some. rewrite D. discriminate.
Qed.

Lemma deref_new : forall (h : list (scan T)) v, deref (h ++ [v]) (List.length h) = Ok v.
Proof. intros h v. apply deref_nth. rewrite nth_error_app2, Nat.sub_diag by lia. reflexivity. Qed.
Lemma list_set_new : forall (h : list (scan T)) v w, list_set (h ++ [v]) (List.length h) w = h ++ [w].
Proof. intros h v w. induction h as [|a h IH]; cbn; [reflexivity|]. rewrite IH. reflexivity. Qed.

(** A graph with one more scan object that is not part of it. *)
Lemma graph_scans_new : forall (s : shared T) scans v, graph_scans s = Ok scans -> mapM (deref (sh_heap s ++ [v])) (sh_scans s) = Ok scans.
Proof.
  intros s scans v H. rewrite <- H. apply mapM_ext. intros p I.
  pose proof (graph_scans_alloced s scans H) as F. rewrite Forall_forall in F. specialize (F p I).
  unfold deref, vec_get. destruct (Z.ltb_spec (Z.of_nat p) 0); [reflexivity|]. rewrite Nat2Z.id, nth_error_app1 by exact F. reflexivity.
Qed.

Lemma mapM_snoc : forall {X Y} (f : X -> outcome Y) l x ys y, mapM f l = Ok ys -> f x = Ok y -> mapM f (l ++ [x]) = Ok (ys ++ [y]).
Proof.
  intros X Y f l. induction l as [|a l IH]; intros x ys y H E; cbn [app mapM] in *.
  - injection H as <-. rewrite E. reflexivity.
  - apply bind_ok in H. destruct H as (b & Fa & H). apply bind_ok in H. destruct H as (bs & Fl & H). injection H as <-.
    rewrite Fa. cbn [bind]. rewrite (IH x bs y Fl E). reflexivity.
Qed.

(** The scan object a message gives. *)
Definition message_scan (n : Z) (guess : pose T) (pts : list (point T)) : scan T :=
  scan_set_points (scan_set_pose (scan_new n) guess) pts.

(** Delivery of a message that is processed. *)
Lemma laser_begin_run : forall s sp e start ns end_ guess pts, sp_frame sp <> EmptyString -> sh_init s = true ->
  le_start e = Some start -> guess_pose cf s (from_msg start) = Some guess ->
  sweep_ns (List.length (lr_ranges (le_msg e))) (le_time_inc e) = Ok ns -> le_end e ns = Some end_ ->
  scan_points (sp_inverted sp) (new_limit (sp_range_max sp) e) (sp_laser sp) (from_msg start) (from_msg end_) (le_msg e) = Ok pts ->
  laser_begin cf s sp e = Ok (set_heap s (sh_heap s ++ [message_scan (num_scans s) guess pts]),
    at_pc (learn_range sp (le_msg e)) (run_pc cf s (List.length (sh_heap s)) (from_msg start) e)).
Proof.
  intros s sp e start ns end_ guess pts Fr In Es Eg En Ee Ep. unfold laser_begin, learn_laser. cbv zeta. cbn [sp_frame learn_range].
  destruct (String.eqb_spec (sp_frame sp) "") as [Q|Q]; [contradiction|]. cbn [bind]. rewrite In, Es, Eg. rewrite En. cbn [bind]. rewrite Ee.
  cbn [sp_inverted sp_range_max sp_laser learn_range]. unfold new_limit in Ep. rewrite Ep. cbn [bind]. unfold alloc. cbv beta iota zeta. reflexivity.
Qed.

Lemma mapping_scan : forall m e start ns end_ guess pts g b back w k k' u score corr cov,
  let s := mp_sh m in let sp := mp_spin m in
  sp_pc sp = SIdle -> use_filter cf = false -> sh_enable s = true -> sh_init s = true -> sp_frame sp <> EmptyString ->
  sh_glock s = None -> sh_plock s = None ->
  le_start e = Some start -> guess_pose cf s (from_msg start) = Some guess ->
  sweep_ns (List.length (lr_ranges (le_msg e))) (le_time_inc e) = Ok ns -> le_end e ns = Some end_ ->
  scan_points (sp_inverted sp) (new_limit (sp_range_max sp) e) (sp_laser sp) (from_msg start) (from_msg end_) (le_msg e) = Ok pts ->
  the_graph cf s = Ok g -> gr_scans g = b ++ [back] -> rolling_window (cf_depth cf) (gr_scans g) = Ok w ->
  sp_local sp = Some k -> add_scans (en_eig cf) (matcher_reset k) w = Ok k' ->
  score_scan k' (message_scan (num_scans s) guess pts) = Ok u ->
  match_scan (en_fuel cf) k' (message_scan (num_scans s) guess pts) pose0 (en_garbage cf) = Ok (score, corr, cov) ->
  let sc := scan_set_pose (message_scan (num_scans s) guess pts) (add_correction guess corr) in
  let c := make_constraint back sc cov in
  exists m', exec cf m (Deliver (EvLaser e) :: repeat Spin 8) = Ok m' /\ sp_pc (mp_spin m') = SIdle /\
    the_graph cf (mp_sh m') = Ok (mkGraph (cf_use_bary cf) (gr_scans g ++ [sc]) (gr_constraints g ++ [c])) /\
    sh_robot (mp_sh m') = s_pose sc /\ sh_odom (mp_sh m') = from_msg start /\ sh_flag (mp_sh m') = true /\
    sh_typical (mp_sh m') = smooth_response (sh_typical s) score /\ mutexes m' = mutexes m /\
    sh_enable (mp_sh m') = true /\ sh_init (mp_sh m') = true /\ sh_global (mp_sh m') = sh_global s /\
    mp_loop m' = mp_loop m /\ mp_pub m' = mp_pub m.
Proof.
  intros m e start ns end_ guess pts g b back w k k' u score corr cov s sp Id Uf En In Fr Gl Pl Es Eg Ens Ee Ep G Gb W K K' U Ma sc c.
  destruct m as [s0 sp0 lo pu]. cbn [mp_sh mp_spin] in s, sp. subst s sp. cbn [mp_sh mp_spin mp_loop mp_pub] in *.
  rename s0 into s. rename sp0 into sp.
  assert (Gs : graph_scans s = Ok (gr_scans g) /\ g = mkGraph (cf_use_bary cf) (gr_scans g) (sh_cons s)).
  { unfold the_graph in G. apply bind_ok in G. destruct G as (x & Gx & G). injection G as <-. split; [exact Gx|reflexivity]. }
  destruct Gs as [Gs Ge].
  assert (Gc : gr_constraints g = sh_cons s) by (rewrite Ge; reflexivity).
  assert (Nn : sh_scans s <> []).
  { intro Q. unfold graph_scans in Gs. rewrite Q in Gs. injection Gs as Gs. rewrite <- Gs in Gb. destruct b; discriminate Gb. }
  set (n := num_scans s) in *. set (p := List.length (sh_heap s)).
  set (sc0 := message_scan n guess pts) in *.
  set (s1 := set_heap s (sh_heap s ++ [sc0])).
  set (sp1 := at_pc (learn_range sp (le_msg e)) (SMatch p (from_msg start))).
  rewrite (exec_laser _ s sp lo pu e s1 sp1 Id).
  2: { rewrite (laser_begin_run s sp e start ns end_ guess pts) by assumption. unfold run_pc. rewrite Uf, En. reflexivity. }
  set (s2 := put (set_typical s1 (smooth_response (sh_typical s1) score)) p sc).
  set (sp2 := at_pc (with_local sp1 (Some k')) (SMake p (from_msg start) cov)).
  cbn [repeat].
  assert (Hs2 : sh_heap s2 = sh_heap s ++ [sc]).
  { cbn [s2 put set_heap set_typical sh_heap s1]. apply list_set_new. }
  rewrite (exec_spin _ s1 sp1 lo pu s2 sp2).
  2: { unfold spin_step. cbn [sp1 sp_pc at_pc]. change (sh_scans s1) with (sh_scans s).
       destruct (sh_scans s) as [|x0 xs0] eqn:Sx; [contradiction Nn; reflexivity|]. rewrite <- Sx in *. clear Sx x0 xs0.
       unfold local_match.
       assert (G1 : graph_scans s1 = Ok (gr_scans g)) by (unfold graph_scans, s1; cbn [sh_heap sh_scans set_heap]; apply graph_scans_new; exact Gs).
       rewrite G1. cbn [bind]. rewrite W. cbn [bind]. change (sp_local sp1) with (sp_local sp). rewrite K, K'. cbn [bind].
       change (sh_heap s1) with (sh_heap s ++ [sc0]). unfold p. rewrite deref_new. cbn [bind]. rewrite U. cbn [bind]. rewrite Ma. reflexivity. }
  set (sp3 := at_pc sp2 (SConsLock p (from_msg start) c)).
  destruct (exists_last Nn) as (q & bp & Sq).
  assert (Hb : nth_error (sh_heap s) bp = Some back).
  { pose proof (graph_scans_nth s (gr_scans g) (List.length q) bp Gs) as X.
    rewrite Sq in X. rewrite nth_error_app2, Nat.sub_diag in X by lia. destruct (X eq_refl) as (y & Y1 & Y2).
    assert (L : List.length b = List.length q).
    { destruct (the_graph_length cf _ _ G) as (L & _). rewrite Sq, Gb in L. rewrite !app_length in L. cbn in L. lia. }
    rewrite Gb, <- L, nth_error_app2, Nat.sub_diag in Y1 by lia. injection Y1 as Y1. rewrite Y1. exact Y2. }
  assert (Lb : (bp < List.length (sh_heap s))%nat) by (apply nth_error_Some; rewrite Hb; discriminate).
  rewrite (exec_spin _ s2 sp2 lo pu s2 sp3).
  2: { unfold spin_step. cbn [sp2 sp_pc at_pc]. change (sh_scans s2) with (sh_scans s). rewrite Sq, rev_app_distr. cbn [rev app].
       rewrite Hs2. rewrite (proj2 (deref_nth _ bp back)); [|rewrite nth_error_app1 by exact Lb; exact Hb]. cbn [bind].
       unfold p. rewrite deref_new. reflexivity. }
  set (s4 := set_glock s2 (Some TSpin)). set (sp4 := at_pc sp3 (SConsPush p (from_msg start) c)).
  rewrite (exec_spin _ s2 sp3 lo pu s4 sp4).
  2: { unfold spin_step, lock_g. cbn [sp3 sp_pc at_pc]. change (sh_glock s2) with (sh_glock s). rewrite Gl. reflexivity. }
  set (s5 := unlock_g (note (set_cons s4 (sh_cons s4 ++ [c])) (ObConstraint ALaser c))). set (sp5 := at_pc sp4 (SScanLock p (from_msg start))).
  rewrite (exec_spin _ s4 sp4 lo pu s5 sp5) by reflexivity.
  set (s6 := set_glock s5 (Some TSpin)). set (sp6 := at_pc sp5 (SScanPush p (from_msg start))).
  rewrite (exec_spin _ s5 sp5 lo pu s6 sp6) by reflexivity.
  set (s7 := unlock_g (note (set_scans s6 (sh_scans s6 ++ [p])) (ObScan ALaser p))). set (sp7 := at_pc sp6 (SPoseLock p (from_msg start) true)).
  rewrite (exec_spin _ s6 sp6 lo pu s7 sp7) by reflexivity.
  set (s8 := set_plock s7 (Some TSpin)). set (sp8 := at_pc sp7 (SPoseWrite p (from_msg start) true)).
  rewrite (exec_spin _ s7 sp7 lo pu s8 sp8).
  2: { unfold spin_step, lock_p. cbn [sp7 sp_pc at_pc]. change (sh_plock s7) with (sh_plock s). rewrite Pl. reflexivity. }
  set (s9 := unlock_p (note (set_flag (set_robot (set_odom s8 (from_msg start)) (s_pose sc)) true) (ObPoses (s_pose sc) (from_msg start)))).
  set (sp9 := at_pc sp8 SIdle).
  rewrite (exec_spin _ s8 sp8 lo pu s9 sp9).
  2: { unfold spin_step. cbn [sp8 sp_pc at_pc]. change (sh_heap s8) with (sh_heap s2). rewrite Hs2. unfold p. rewrite deref_new. reflexivity. }
  exists (mkMapper s9 sp9 lo pu). split; [reflexivity|]. split; [reflexivity|]. cbn [mp_sh mp_loop mp_pub].
  assert (Gr : the_graph cf s9 = Ok (mkGraph (cf_use_bary cf) (gr_scans g ++ [sc]) (gr_constraints g ++ [c]))).
  { unfold the_graph, graph_scans. change (sh_heap s9) with (sh_heap s2). change (sh_scans s9) with (sh_scans s ++ [p]).
    change (sh_cons s9) with (sh_cons s ++ [c]). rewrite Hs2.
    rewrite (mapM_snoc _ _ p (gr_scans g) sc); [rewrite Gc; reflexivity| |apply deref_new].
    apply graph_scans_new. exact Gs. }
  split; [exact Gr|]. unfold mutexes. cbn [mp_sh]. rewrite Gl, Pl.
  change (sh_enable s9) with (sh_enable s). change (sh_init s9) with (sh_init s).
  repeat split; assumption.
Qed.

(** The first scan of a map. *)
Lemma first_scan : forall m e start ns end_ pts,
  let s := mp_sh m in let sp := mp_spin m in
  sp_pc sp = SIdle -> use_filter cf = false -> sh_enable s = true -> sh_init s = true -> sp_frame sp <> EmptyString ->
  sh_glock s = None -> sh_plock s = None -> sh_scans s = [] ->
  le_start e = Some start ->
  sweep_ns (List.length (lr_ranges (le_msg e))) (le_time_inc e) = Ok ns -> le_end e ns = Some end_ ->
  scan_points (sp_inverted sp) (new_limit (sp_range_max sp) e) (sp_laser sp) (from_msg start) (from_msg end_) (le_msg e) = Ok pts ->
  exists m', exec cf m (Deliver (EvLaser e) :: repeat Spin 5) = Ok m' /\ sp_pc (mp_spin m') = SIdle /\
    the_graph cf (mp_sh m') = Ok (mkGraph (cf_use_bary cf) [message_scan 0 pose0 pts] (sh_cons s)) /\
    sh_robot (mp_sh m') = pose0 /\ sh_odom (mp_sh m') = from_msg start /\ sh_flag (mp_sh m') = true /\
    sh_typical (mp_sh m') = sh_typical s /\ mutexes m' = mutexes m /\ sh_global (mp_sh m') = sh_global s.
Proof.
  intros m e start ns end_ pts s sp Id Uf En In Fr Gl Pl Sn Es Ens Ee Ep.
  destruct m as [s0 sp0 lo pu]. cbn [mp_sh mp_spin] in s, sp. subst s sp. cbn [mp_sh mp_spin mp_loop mp_pub] in *.
  rename s0 into s. rename sp0 into sp.
  set (p := List.length (sh_heap s)). set (sc0 := message_scan 0 pose0 pts).
  set (s1 := set_heap s (sh_heap s ++ [sc0])).
  set (sp1 := at_pc (learn_range sp (le_msg e)) (SMatch p (from_msg start))).
  assert (N0 : num_scans s = 0%Z) by (unfold num_scans; rewrite Sn; reflexivity).
  rewrite (exec_laser _ s sp lo pu e s1 sp1 Id).
  2: { rewrite (laser_begin_run s sp e start ns end_ pose0 pts); try assumption; [|unfold guess_pose; rewrite Sn; reflexivity].
       unfold run_pc. rewrite Uf, En, N0. reflexivity. }
  cbn [repeat]. set (sp2 := at_pc sp1 (SScanLock p (from_msg start))).
  rewrite (exec_spin _ s1 sp1 lo pu s1 sp2).
  2: { unfold spin_step. cbn [sp1 sp_pc at_pc]. change (sh_scans s1) with (sh_scans s). rewrite Sn. reflexivity. }
  set (s3 := set_glock s1 (Some TSpin)). set (sp3 := at_pc sp2 (SScanPush p (from_msg start))).
  rewrite (exec_spin _ s1 sp2 lo pu s3 sp3).
  2: { unfold spin_step, lock_g. cbn [sp2 sp_pc at_pc]. change (sh_glock s1) with (sh_glock s). rewrite Gl. reflexivity. }
  set (s4 := unlock_g (note (set_scans s3 (sh_scans s3 ++ [p])) (ObScan ALaser p))). set (sp4 := at_pc sp3 (SPoseLock p (from_msg start) true)).
  rewrite (exec_spin _ s3 sp3 lo pu s4 sp4) by reflexivity.
  set (s5 := set_plock s4 (Some TSpin)). set (sp5 := at_pc sp4 (SPoseWrite p (from_msg start) true)).
  rewrite (exec_spin _ s4 sp4 lo pu s5 sp5).
  2: { unfold spin_step, lock_p. cbn [sp4 sp_pc at_pc]. change (sh_plock s4) with (sh_plock s). rewrite Pl. reflexivity. }
  set (s6 := unlock_p (note (set_flag (set_robot (set_odom s5 (from_msg start)) (s_pose sc0)) true) (ObPoses (s_pose sc0) (from_msg start)))).
  set (sp6 := at_pc sp5 SIdle).
  rewrite (exec_spin _ s5 sp5 lo pu s6 sp6).
  2: { unfold spin_step. cbn [sp5 sp_pc at_pc]. change (sh_heap s5) with (sh_heap s ++ [sc0]). unfold p. rewrite deref_new. reflexivity. }
  exists (mkMapper s6 sp6 lo pu). split; [reflexivity|]. split; [reflexivity|]. cbn [mp_sh].
  split.
  { unfold the_graph, graph_scans. change (sh_heap s6) with (sh_heap s ++ [sc0]). change (sh_scans s6) with (sh_scans s ++ [p]).
    rewrite Sn. cbn [app mapM]. unfold p. rewrite deref_new. reflexivity. }
  unfold mutexes. cbn [mp_sh]. rewrite Gl, Pl. repeat split.
Qed.

(** Localization by matching against the map. *)
Lemma tracking_scan : forall m e start ns end_ guess pts k u score corr cov,
  let s := mp_sh m in let sp := mp_spin m in
  sp_pc sp = SIdle -> use_filter cf = false -> sh_enable s = false -> sh_init s = true -> sp_frame sp <> EmptyString ->
  sh_plock s = None ->
  le_start e = Some start -> guess_pose cf s (from_msg start) = Some guess ->
  sweep_ns (List.length (lr_ranges (le_msg e))) (le_time_inc e) = Ok ns -> le_end e ns = Some end_ ->
  scan_points (sp_inverted sp) (new_limit (sp_range_max sp) e) (sp_laser sp) (from_msg start) (from_msg end_) (le_msg e) = Ok pts ->
  sh_global s = Some k -> score_scan k (message_scan (num_scans s) guess pts) = Ok u ->
  match_scan (en_fuel cf) k (message_scan (num_scans s) guess pts) pose0 (en_garbage cf) = Ok (score, corr, cov) ->
  exists m', exec cf m (Deliver (EvLaser e) :: repeat Spin 3) = Ok m' /\ sp_pc (mp_spin m') = SIdle /\
    (forall g, the_graph cf s = Ok g -> the_graph cf (mp_sh m') = Ok g) /\
    sh_robot (mp_sh m') = add_correction guess corr /\ sh_odom (mp_sh m') = from_msg start /\
    sh_flag (mp_sh m') = sh_flag s /\ sh_typical (mp_sh m') = sh_typical s /\ mutexes m' = mutexes m /\
    sh_global (mp_sh m') = sh_global s /\ sh_enable (mp_sh m') = false /\ sh_init (mp_sh m') = true.
Proof.
  intros m e start ns end_ guess pts k u score corr cov s sp Id Uf En In Fr Pl Es Eg Ens Ee Ep K U Ma.
  destruct m as [s0 sp0 lo pu]. cbn [mp_sh mp_spin] in s, sp. subst s sp. cbn [mp_sh mp_spin mp_loop mp_pub] in *.
  rename s0 into s. rename sp0 into sp.
  set (p := List.length (sh_heap s)). set (sc0 := message_scan (num_scans s) guess pts) in *.
  set (s1 := set_heap s (sh_heap s ++ [sc0])).
  set (sp1 := at_pc (learn_range sp (le_msg e)) (STrack p (from_msg start))).
  rewrite (exec_laser _ s sp lo pu e s1 sp1 Id).
  2: { rewrite (laser_begin_run s sp e start ns end_ guess pts) by assumption. unfold run_pc. rewrite Uf, En. reflexivity. }
  cbn [repeat]. set (sc := scan_set_pose sc0 (add_correction guess corr)).
  set (s2 := put s1 p sc). set (sp2 := at_pc sp1 (SPoseLock p (from_msg start) false)).
  assert (Hs2 : sh_heap s2 = sh_heap s ++ [sc]) by apply list_set_new.
  rewrite (exec_spin _ s1 sp1 lo pu s2 sp2).
  2: { unfold spin_step. cbn [sp1 sp_pc at_pc]. unfold track_match. change (sh_heap s1) with (sh_heap s ++ [sc0]). unfold p.
       rewrite deref_new. cbn [bind]. change (sh_global s1) with (sh_global s). rewrite K, U. cbn [bind]. rewrite Ma. reflexivity. }
  set (s5 := set_plock s2 (Some TSpin)). set (sp5 := at_pc sp2 (SPoseWrite p (from_msg start) false)).
  rewrite (exec_spin _ s2 sp2 lo pu s5 sp5).
  2: { unfold spin_step, lock_p. cbn [sp2 sp_pc at_pc]. change (sh_plock s2) with (sh_plock s). rewrite Pl. reflexivity. }
  set (s6 := unlock_p (note (set_robot (set_odom s5 (from_msg start)) (s_pose sc)) (ObPoses (s_pose sc) (from_msg start)))).
  set (sp6 := at_pc sp5 SIdle).
  rewrite (exec_spin _ s5 sp5 lo pu s6 sp6).
  2: { unfold spin_step. cbn [sp5 sp_pc at_pc]. change (sh_heap s5) with (sh_heap s2). rewrite Hs2. unfold p. rewrite deref_new. reflexivity. }
  exists (mkMapper s6 sp6 lo pu). split; [reflexivity|]. split; [reflexivity|]. cbn [mp_sh]. split.
  { intros g G. unfold the_graph in *. apply bind_ok in G. destruct G as (x & Gx & G). injection G as <-.
    assert (Gy : graph_scans s6 = Ok x).
    { unfold graph_scans. change (sh_heap s6) with (sh_heap s2). rewrite Hs2. change (sh_scans s6) with (sh_scans s). apply graph_scans_new. exact Gx. }
    rewrite Gy. reflexivity. }
  unfold mutexes. cbn [mp_sh]. rewrite Pl. change (sh_enable s6) with (sh_enable s). change (sh_init s6) with (sh_init s). repeat split; assumption.
Qed.

(** Localization with the particle filter. *)
Lemma filter_scan : forall m e start ns end_ guess pts k f f1 f2 f3,
  let s := mp_sh m in let sp := mp_spin m in
  sp_pc sp = SIdle -> use_filter cf = true -> sh_init s = true -> sp_frame sp <> EmptyString -> sh_plock s = None ->
  le_start e = Some start -> guess_pose cf s (from_msg start) = Some guess ->
  sweep_ns (List.length (lr_ranges (le_msg e))) (le_time_inc e) = Ok ns -> le_end e ns = Some end_ ->
  scan_points (sp_inverted sp) (new_limit (sp_range_max sp) e) (sp_laser sp) (from_msg start) (from_msg end_) (le_msg e) = Ok pts ->
  sh_global s = Some k -> sp_filter sp = Some f ->
  let d := robot_delta (sh_robot s) guess in
  filter_update (le_normal e) (v0 d) (v1 d) (v2 d) f = Ok f1 ->
  filter_measure (score_points k pts) f1 = Ok f2 ->
  filter_resample (le_draws e) (cf_kld_err cf) (cf_kld_z cf) f2 = Ok f3 ->
  exists m', exec cf m (Deliver (EvLaser e) :: repeat Spin 3) = Ok m' /\ sp_pc (mp_spin m') = SIdle /\
    sp_filter (mp_spin m') = Some f3 /\
    (forall g, the_graph cf s = Ok g -> the_graph cf (mp_sh m') = Ok g) /\
    sh_robot (mp_sh m') = vec_pose (pf_mean f3) /\ sh_odom (mp_sh m') = from_msg start /\
    sh_flag (mp_sh m') = sh_flag s /\ sh_typical (mp_sh m') = sh_typical s /\ mutexes m' = mutexes m /\
    sh_global (mp_sh m') = sh_global s /\ sh_enable (mp_sh m') = sh_enable s /\ sh_init (mp_sh m') = true.
Proof.
  intros m e start ns end_ guess pts k f f1 f2 f3 s sp Id Uf In Fr Pl Es Eg Ens Ee Ep K F d F1 F2 F3.
  destruct m as [s0 sp0 lo pu]. cbn [mp_sh mp_spin] in s, sp. subst s sp. cbn [mp_sh mp_spin mp_loop mp_pub] in *.
  rename s0 into s. rename sp0 into sp.
  set (p := List.length (sh_heap s)). set (sc0 := message_scan (num_scans s) guess pts) in *.
  set (s1 := set_heap s (sh_heap s ++ [sc0])).
  set (sp1 := at_pc (learn_range sp (le_msg e)) (SFilter p (from_msg start) (le_normal e) (le_draws e))).
  rewrite (exec_laser _ s sp lo pu e s1 sp1 Id).
  2: { rewrite (laser_begin_run s sp e start ns end_ guess pts) by assumption. unfold run_pc. rewrite Uf. reflexivity. }
  cbn [repeat]. set (sc := scan_set_pose sc0 (vec_pose (pf_mean f3))).
  set (s2 := put s1 p sc). set (sp2 := at_pc (with_filter sp1 (Some f3)) (SPoseLock p (from_msg start) false)).
  assert (Hs2 : sh_heap s2 = sh_heap s ++ [sc]) by apply list_set_new.
  rewrite (exec_spin _ s1 sp1 lo pu s2 sp2).
  2: { unfold spin_step. cbn [sp1 sp_pc at_pc]. unfold filter_callback. change (sh_heap s1) with (sh_heap s ++ [sc0]). unfold p.
       rewrite deref_new. cbn [bind]. change (sp_filter sp1) with (sp_filter sp). rewrite F. cbv zeta.
       change (robot_delta (sh_robot s1) (s_pose sc0)) with d. rewrite F1. cbn [bind]. change (sh_global s1) with (sh_global s). rewrite K.
       change (s_pts sc0) with pts. rewrite F2. cbn [bind]. rewrite F3. reflexivity. }
  set (s5 := set_plock s2 (Some TSpin)). set (sp5 := at_pc sp2 (SPoseWrite p (from_msg start) false)).
  rewrite (exec_spin _ s2 sp2 lo pu s5 sp5).
  2: { unfold spin_step, lock_p. cbn [sp2 sp_pc at_pc]. change (sh_plock s2) with (sh_plock s). rewrite Pl. reflexivity. }
  set (s6 := unlock_p (note (set_robot (set_odom s5 (from_msg start)) (s_pose sc)) (ObPoses (s_pose sc) (from_msg start)))).
  set (sp6 := at_pc sp5 SIdle).
  rewrite (exec_spin _ s5 sp5 lo pu s6 sp6).
  2: { unfold spin_step. cbn [sp5 sp_pc at_pc]. change (sh_heap s5) with (sh_heap s2). rewrite Hs2. unfold p. rewrite deref_new. reflexivity. }
  exists (mkMapper s6 sp6 lo pu). split; [reflexivity|]. split; [reflexivity|]. split; [reflexivity|]. cbn [mp_sh]. split.
  { intros g G. unfold the_graph in *. apply bind_ok in G. destruct G as (x & Gx & G). injection G as <-.
    assert (Gy : graph_scans s6 = Ok x).
    { unfold graph_scans. change (sh_heap s6) with (sh_heap s2). rewrite Hs2. change (sh_scans s6) with (sh_scans s). apply graph_scans_new. exact Gx. }
    rewrite Gy. reflexivity. }
  unfold mutexes. cbn [mp_sh]. rewrite Pl. change (sh_enable s6) with (sh_enable s). change (sh_init s6) with (sh_init s). repeat split; assumption.
Qed.

(** Accepting a loop closure. *)
Lemma closing_scan : forall m c i cand sc csc k score corr cov,
  let s := mp_sh m in
  lp_pc (mp_loop m) = LMatch c i cand -> nth_error (sh_heap s) (lc_scan c) = Some sc -> nth_error (sh_heap s) cand = Some csc ->
  cand <> lc_scan c -> sh_glock s = None ->
  sh_global s = Some k -> match_scan (en_fuel cf) k sc pose0 (en_garbage cf) = Ok (score, corr, cov) ->
  nfinite score && nlt score (sh_typical s) = true ->
  let q := add_correction (s_pose sc) corr in
  let k0 := make_constraint csc (scan_set_pose sc q) cov in
  exists m', exec cf m (repeat Loop 6) = Ok m' /\
    sh_heap (mp_sh m') = list_set (sh_heap s) (lc_scan c) (scan_set_pose sc q) /\ sh_scans (mp_sh m') = sh_scans s /\
    sh_cons (mp_sh m') = sh_cons s ++ [mkConstraint (c_begin k0) (c_end k0) (c_transform k0) (c_information k0) true] /\
    sh_flag (mp_sh m') = true /\ mutexes m' = mutexes m /\ same_poses s (mp_sh m') /\ sh_typical (mp_sh m') = sh_typical s /\
    mp_spin m' = mp_spin m /\ mp_pub m' = mp_pub m.
Proof.
  intros m c i cand sc csc k score corr cov s P N1 N2 Ne Gl K Ma Ok_ q k0.
  destruct m as [s0 sp lo pu]. cbn [mp_sh] in s. subst s. cbn [mp_sh mp_spin mp_loop mp_pub] in *. rename s0 into s. cbn [repeat].
  set (s1 := note s (ObMatch (lp_done lo) (Z.of_nat i) score (sh_typical s) true)). set (c1 := ctx_new c).
  set (l1 := lat lo (LCorrect c1 i cand corr cov)).
  rewrite (exec_loop _ s sp lo pu s1 l1).
  2: { unfold loop_step. rewrite P. rewrite (proj2 (deref_nth _ _ _) N1). cbn [bind]. rewrite K, Ma. cbn [bind]. rewrite Ok_. reflexivity. }
  set (s2 := note (put s1 (lc_scan c) (scan_set_pose sc q)) (ObMove (lc_scan c) q)). set (l2 := lat l1 (LMake c1 i cand cov)).
  rewrite (exec_loop _ s1 sp l1 pu s2 l2).
  2: { unfold loop_step. cbn [l1 lp_pc lat]. change (sh_heap s1) with (sh_heap s). change (lc_scan c1) with (lc_scan c).
       rewrite (proj2 (deref_nth _ _ _) N1). reflexivity. }
  set (kc := mkConstraint (c_begin k0) (c_end k0) (c_transform k0) (c_information k0) true). set (l3 := lat l2 (LPushLock c1 kc)).
  assert (B : (lc_scan c < List.length (sh_heap s))%nat) by (apply nth_error_Some; rewrite N1; discriminate).
  rewrite (exec_loop _ s2 sp l2 pu s2 l3).
  2: { unfold loop_step. cbn [l2 lp_pc lat]. change (sh_heap s2) with (list_set (sh_heap s) (lc_scan c) (scan_set_pose sc q)).
       change (lc_scan c1) with (lc_scan c).
       rewrite deref_set_other by congruence. rewrite (proj2 (deref_nth _ cand csc) N2). cbn [bind].
       rewrite (proj2 (deref_nth _ (lc_scan c) (scan_set_pose sc q))); [reflexivity|].
       rewrite nth_error_list_set, Nat.eqb_refl, (proj2 (Nat.ltb_lt _ _) B). reflexivity. }
  set (s4 := set_glock s2 (Some TLoop)). set (l4 := lat l3 (LPush c1 kc)).
  rewrite (exec_loop _ s2 sp l3 pu s4 l4).
  2: { unfold loop_step, lock_g. cbn [l3 lp_pc lat]. change (sh_glock s2) with (sh_glock s). rewrite Gl. reflexivity. }
  set (s5 := note (set_cons s4 (sh_cons s4 ++ [kc])) (ObConstraint ALoop kc)). set (l5 := lat l4 (LFlag c1)).
  rewrite (exec_loop _ s4 sp l4 pu s5 l5) by reflexivity.
  rewrite (exec_loop _ s5 sp l5 pu (unlock_g (set_flag s5 true)) (after_candidate l5 c1)) by reflexivity.
  eexists. split; [reflexivity|]. cbn [mp_sh]. unfold mutexes. cbn [mp_sh mp_spin mp_pub]. rewrite Gl. repeat split.
Qed.

End P.
