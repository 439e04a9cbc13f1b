(** The transitions of the node, spelled out: what each step changes. *)

From Coq Require Import ZArith List Bool String Lia.
From Verif Require Import Outcome Arith TypesModel ScanModel MatcherModel ConstraintModel
  SolverModel GraphModel OccGridModel MotionModel FilterModel LaserModel MapperModel SpecMapper
  NdtProofs MapperProofs.
Import ListNotations.
Local Open Scope outcome_scope.

Section P.
Context {T : Type} {A : Arith T}.
Context (cf : config T).

Lemma deref_nth : forall (h : list (scan T)) p sc, deref h p = Ok sc <-> nth_error h p = Some sc.
Proof.
  intros h p sc. unfold deref, vec_get. destruct (Z.ltb_spec (Z.of_nat p) 0); [lia|]. rewrite Nat2Z.id.
  destruct (nth_error h p); split; intro E; inversion E; reflexivity.
Qed.

(** What learning the laser does to the global matcher and the frame. *)
Inductive learns (s : shared T) (sp : spin T) (g : option (matcher T)) (sp' : spin T) : Prop :=
| learns_nothing : g = sh_global s -> sp_frame sp' = sp_frame sp -> sp_local sp' = sp_local sp -> learns s sp g sp'
| learns_matcher r m : sp_frame sp = EmptyString -> g = Some m -> sp_local sp' = Some (en_local cf r) ->
    ((use_filter cf || negb (sh_enable s) = true /\ exists scans, graph_scans s = Ok scans /\
        add_scans (en_eig cf) (en_global cf r) scans = Ok m) \/
     (use_filter cf || negb (sh_enable s) = false /\ m = en_global cf r)) -> learns s sp g sp'.

Lemma set_global_id : forall s : shared T, set_global s (sh_global s) = s.
Proof. intros []. reflexivity. Qed.

Lemma learn_laser_learns : forall (s : shared T) sp e s' sp', learn_laser cf s sp e = Ok (Some (s', sp')) ->
  exists g, s' = set_global s g /\ learns s sp g sp' /\ (sp_frame sp = EmptyString -> g <> None /\ sp_local sp' <> None) /\
    sp_pc sp' = sp_pc sp /\ sp_filter sp' = sp_filter sp.
Proof.
  intros s sp e s' sp' H. unfold learn_laser in H.
  destruct (String.eqb_spec (sp_frame sp) "") as [E|E].
  - destruct (le_laser e) as [t|]; [|discriminate H].
    destruct (use_filter cf || negb (sh_enable s)) eqn:U.
    + apply bind_ok in H. destruct H as (scans & G & H). apply bind_ok in H. destruct H as (g' & M & H).
      injection H as <- <-. exists (Some g'). split; [reflexivity|]. split.
      * eapply learns_matcher; [exact E|reflexivity|reflexivity|]. left. split; [exact U|]. exists scans. split; [exact G|exact M].
      * split; [intros _; split; discriminate|]. split; reflexivity.
    + injection H as <- <-. eexists. split; [reflexivity|]. split.
      * eapply learns_matcher; [exact E|reflexivity|reflexivity|]. right. split; [exact U|reflexivity].
      * split; [intros _; split; discriminate|]. split; reflexivity.
  - injection H as <- <-. exists (sh_global s). split; [symmetry; apply set_global_id|]. split.
    + apply learns_nothing; reflexivity.
    + split; [intro; contradiction|]. split; reflexivity.
Qed.

Definition run_pc (s : shared T) (p : nat) (odom : pose T) (e : laser_ev T) : spin_pc T :=
  if use_filter cf then SFilter p odom (le_normal e) (le_draws e)
  else if sh_enable s then SMatch p odom else STrack p odom.

Inductive deliver_tr (s : shared T) (sp : spin T) : event T -> shared T -> spin T -> Prop :=
| D_laser_skip e g sp' : learns s sp g sp' -> sp_pc sp' = SIdle -> sp_filter sp' = sp_filter sp ->
    deliver_tr s sp (EvLaser e) (set_global s g) sp'
| D_laser_run e g sp' odom sc guess pts : sh_init s = true -> learns s sp g sp' ->
    (sp_frame sp = EmptyString -> g <> None /\ sp_local sp' <> None) -> sp_filter sp' = sp_filter sp ->
    guess_pose cf s odom = Some guess ->
    (exists start, le_start e = Some start /\ odom = from_msg start) ->
    sc = scan_set_points (scan_set_pose (scan_new (num_scans s)) guess) pts ->
    sp_pc sp' = run_pc s (List.length (sh_heap s)) odom e ->
    deliver_tr s sp (EvLaser e) (set_heap (set_global s g) (sh_heap s ++ [sc])) sp'
| D_pose_skip e : deliver_tr s sp (EvPose e) s sp
| D_pose_filter e t f f' : sp_filter sp = Some f -> pe_odom e = Some t -> pe_frame e = "map"%string ->
    sh_enable s && sh_init s = false ->
    deliver_tr s sp (EvPose e) s (at_pc (with_filter sp (Some f')) (SInitRobot (from_msg (pe_pose e)) (from_msg t)))
| D_pose_graph e t : sp_filter sp = None -> pe_odom e = Some t -> pe_frame e = "map"%string ->
    sh_enable s = true -> sh_init s = false ->
    deliver_tr s sp (EvPose e) s (at_pc sp (SGraphLock e (from_msg t)))
| D_pose_track e t : sp_filter sp = None -> pe_odom e = Some t -> pe_frame e = "map"%string ->
    sh_enable s = false ->
    deliver_tr s sp (EvPose e) s (at_pc sp (SInitRobot (from_msg (pe_pose e)) (from_msg t)))
| D_configure a file : deliver_tr s sp (EvConfigure a file) (fst (configure_begin s sp a file)) (snd (configure_begin s sp a file)).

Lemma deliver_cases : forall s sp e s' sp', deliver cf s sp e = Some (Ok (s', sp')) ->
  sp_pc sp = SIdle /\ deliver_tr s sp e s' sp'.
Proof.
  intros s sp e s' sp' H. unfold deliver in H.
  destruct (sp_pc sp) eqn:I; try discriminate H. split; [reflexivity|].
  injection H as H. destruct e as [e|e|a file].
  - unfold laser_begin in H. apply bind_ok in H. destruct H as (r & L & H).
    destruct r as [[s1 sp1]|].
    + apply learn_laser_learns in L. destruct L as (g & -> & L & N & P & F).
      assert (P' : sp_pc sp1 = SIdle) by (rewrite P; exact I).
      assert (F' : sp_filter sp1 = sp_filter sp) by (rewrite F; reflexivity).
      assert (L' : learns s sp g sp1).
      { destruct L as [L1 L2 L3|r m L1 L2 L3 L4]; [apply learns_nothing; assumption|apply (learns_matcher s sp g sp1 r m); assumption]. }
      assert (stop : Ok (set_global s g, sp1) = Ok (s', sp') -> deliver_tr s sp (EvLaser e) s' sp').
      { intro J. injection J as <- <-. apply D_laser_skip; assumption. }
      cbn [sh_init set_global] in H.
      destruct (sh_init s) eqn:In; [|apply stop; exact H].
      destruct (le_start e) as [start|] eqn:Es; [|apply stop; exact H].
      change (guess_pose cf (set_global s g) (from_msg start)) with (guess_pose cf s (from_msg start)) in H.
      destruct (guess_pose cf s (from_msg start)) as [guess|] eqn:Eg; [|apply stop; exact H].
      apply bind_ok in H. destruct H as (ns & Ns & H).
      destruct (le_end e ns) as [end_|]; [|apply stop; exact H].
      apply bind_ok in H. destruct H as (pts & _ & H). unfold alloc in H. cbv beta iota zeta in H.
      injection H as <- <-.
      apply (D_laser_run s sp e g _ (from_msg start) _ guess pts); try assumption.
      * destruct L' as [L1 L2 L3|r m L1 L2 L3 L4]; [apply learns_nothing; assumption|apply (learns_matcher s sp g _ r m); assumption].
      * exists start. split; [exact Es|reflexivity].
      * reflexivity.
      * reflexivity.
    + injection H as <- <-. rewrite <- (set_global_id s) at 2.
      apply D_laser_skip; [apply learns_nothing; reflexivity|exact I|reflexivity].
  - unfold pose_begin in H.
    destruct (sh_enable s && sh_init s) eqn:EI; [injection H as <- <-; apply D_pose_skip|].
    destruct (String.eqb_spec (pe_frame e) "map") as [M|M]; cbn [negb] in H; [|injection H as <- <-; apply D_pose_skip].
    destruct (pe_odom e) as [t|] eqn:Et; [|injection H as <- <-; apply D_pose_skip].
    destruct (sp_filter sp) as [f|] eqn:F.
    + apply bind_ok in H. destruct H as (f' & _ & H). injection H as <- <-.
      apply (D_pose_filter s sp e t f f'); assumption.
    + destruct (sh_enable s) eqn:En; injection H as <- <-.
      * apply D_pose_graph; assumption.
      * apply D_pose_track; assumption.
  - assert (E := D_configure s sp a file). injection H as E1 E2. rewrite <- E1, <- E2. exact E.
Qed.

Inductive spin_tr (s : shared T) (sp : spin T) : shared T -> spin T -> Prop :=
| S_filter p odom n d sc q f : sp_pc sp = SFilter p odom n d -> nth_error (sh_heap s) p = Some sc -> sh_global s <> None ->
    spin_tr s sp (put s p (scan_set_pose sc q)) (at_pc (with_filter sp (Some f)) (SPoseLock p odom false))
| S_first p odom : sp_pc sp = SMatch p odom -> sh_scans s = [] -> spin_tr s sp s (at_pc sp (SScanLock p odom))
| S_match p odom sc corr score m m' scans w cov : sp_pc sp = SMatch p odom -> sh_scans s <> [] ->
    nth_error (sh_heap s) p = Some sc -> graph_scans s = Ok scans -> rolling_window (cf_depth cf) scans = Ok w ->
    sp_local sp = Some m -> add_scans (en_eig cf) (matcher_reset m) w = Ok m' ->
    match_scan (en_fuel cf) m' sc pose0 (en_garbage cf) = Ok (score, corr, cov) ->
    spin_tr s sp (put (set_typical s (smooth_response (sh_typical s) score)) p
                    (scan_set_pose sc (add_correction (s_pose sc) corr)))
      (at_pc (with_local sp (Some m')) (SMake p odom cov))
| S_make p odom cov bp back sc : sp_pc sp = SMake p odom cov -> nth_error (rev (sh_scans s)) 0 = Some bp ->
    nth_error (sh_heap s) bp = Some back -> nth_error (sh_heap s) p = Some sc ->
    spin_tr s sp s (at_pc sp (SConsLock p odom (make_constraint back sc cov)))
| S_cons_lock p odom c : sp_pc sp = SConsLock p odom c -> sh_glock s = None ->
    spin_tr s sp (set_glock s (Some TSpin)) (at_pc sp (SConsPush p odom c))
| S_cons_push p odom c : sp_pc sp = SConsPush p odom c ->
    spin_tr s sp (unlock_g (note (set_cons s (sh_cons s ++ [c])) (ObConstraint ALaser c))) (at_pc sp (SScanLock p odom))
| S_scan_lock p odom : sp_pc sp = SScanLock p odom -> sh_glock s = None ->
    spin_tr s sp (set_glock s (Some TSpin)) (at_pc sp (SScanPush p odom))
| S_scan_push p odom : sp_pc sp = SScanPush p odom ->
    spin_tr s sp (unlock_g (note (set_scans s (sh_scans s ++ [p])) (ObScan ALaser p))) (at_pc sp (SPoseLock p odom true))
| S_track p odom sc corr g score cov : sp_pc sp = STrack p odom -> nth_error (sh_heap s) p = Some sc ->
    sh_global s = Some g -> match_scan (en_fuel cf) g sc pose0 (en_garbage cf) = Ok (score, corr, cov) ->
    spin_tr s sp (put s p (scan_set_pose sc (add_correction (s_pose sc) corr))) (at_pc sp (SPoseLock p odom false))
| S_pose_lock p odom upd : sp_pc sp = SPoseLock p odom upd -> sh_plock s = None ->
    spin_tr s sp (set_plock s (Some TSpin)) (at_pc sp (SPoseWrite p odom upd))
| S_pose_write p odom upd sc : sp_pc sp = SPoseWrite p odom upd -> nth_error (sh_heap s) p = Some sc ->
    spin_tr s sp (unlock_p (note (if upd then set_flag (set_robot (set_odom s odom) (s_pose sc)) true
                                  else set_robot (set_odom s odom) (s_pose sc)) (ObPoses (s_pose sc) odom)))
      (at_pc sp SIdle)
| S_graph_lock e odom : sp_pc sp = SGraphLock e odom -> sh_glock s = None ->
    spin_tr s sp (set_glock s (Some TSpin)) (at_pc sp (SGraph e odom))
| S_graph_far e odom g : sp_pc sp = SGraph e odom -> the_graph cf s = Ok g ->
    find_nearest (en_search cf) g (scan_set_pose (scan_new (num_scans s)) (from_msg (pe_pose e))) (nofZ 10) (-1) = Ok [] ->
    spin_tr s sp (unlock_g s) (at_pc sp SIdle)
| S_graph_near e odom g i rest from : sp_pc sp = SGraph e odom -> the_graph cf s = Ok g ->
    let sc := scan_set_pose (scan_new (num_scans s)) (from_msg (pe_pose e)) in
    find_nearest (en_search cf) g sc (nofZ 10) (-1) = Ok (i :: rest) ->
    nth_error (gr_scans g ++ [sc]) i = Some from ->
    let c := make_constraint from sc (diag3 (pe_c0 e) (pe_c7 e) (pe_c35 e)) in
    let p := List.length (sh_heap s) in
    spin_tr s sp (unlock_g (note (set_cons (note (set_scans (set_heap s (sh_heap s ++ [sc])) (sh_scans s ++ [p])) (ObScan APose p))
                    (sh_cons s ++ [c])) (ObConstraint APose c)))
      (at_pc sp (SInitRobot (from_msg (pe_pose e)) odom))
| S_init_robot r o : sp_pc sp = SInitRobot r o -> spin_tr s sp (set_robot s r) (at_pc sp (SInitOdom r o))
| S_init_odom r o : sp_pc sp = SInitOdom r o -> spin_tr s sp (set_odom s o) (at_pc sp (SInitDone r o))
| S_init_done r o : sp_pc sp = SInitDone r o -> spin_tr s sp (note (set_init s true) (ObInit r o)) (at_pc sp SIdle)
| S_load_lock file : sp_pc sp = SLoadLock file -> sh_glock s = None ->
    spin_tr s sp (set_glock s (Some TSpin)) (at_pc sp (SLoad file))
| S_load file : sp_pc sp = SLoad file ->
    spin_tr s sp (unlock_g (set_init (set_flag (load_graph cf s file) true) false)) (at_pc sp SIdle)
| S_save_lock : sp_pc sp = SSaveLock -> sh_glock s = None ->
    spin_tr s sp (set_glock s (Some TSpin)) (at_pc sp SSave)
| S_save g : sp_pc sp = SSave -> the_graph cf s = Ok g ->
    spin_tr s sp (unlock_g (note s (ObSave (graph_save g)))) (at_pc sp SIdle).

Lemma lock_g_inv : forall {X} (s : shared T) t (k : shared T -> X) o, lock_g s t k = Some o ->
  sh_glock s = None /\ o = Ok (k (set_glock s (Some t))).
Proof.
  intros X s t k o H. unfold lock_g in H. destruct (sh_glock s) eqn:E; [discriminate H|].
  injection H as <-. split; reflexivity.
Qed.
Lemma lock_p_inv : forall {X} (s : shared T) t (k : shared T -> X) o, lock_p s t k = Some o ->
  sh_plock s = None /\ o = Ok (k (set_plock s (Some t))).
Proof.
  intros X s t k o H. unfold lock_p in H. destruct (sh_plock s) eqn:E; [discriminate H|].
  injection H as <-. split; reflexivity.
Qed.

Lemma spin_cases : forall s sp s' sp', spin_step cf s sp = Some (Ok (s', sp')) -> spin_tr s sp s' sp'.
Proof.
  intros s sp s' sp' H. unfold spin_step in H.
  destruct (sp_pc sp) as [|p odom n d|p odom|p odom cov|p odom c|p odom c|p odom|p odom|p odom|p odom upd|p odom upd|e odom|e odom|r o|r o|r o|file|file| |] eqn:I.
  - discriminate H.
  - injection H as H. apply bind_ok in H. destruct H as ([s1 sp1] & E & H). injection H as <- <-.
    unfold filter_callback in E. apply bind_ok in E. destruct E as (sc & D & E). apply deref_nth in D.
    destruct (sp_filter sp) as [f|]; [|discriminate E].
    apply bind_ok in E. destruct E as (f1 & _ & E).
    destruct (sh_global s) as [g|] eqn:Eg; [|discriminate E].
    apply bind_ok in E. destruct E as (f2 & _ & E). apply bind_ok in E. destruct E as (f3 & _ & E).
    injection E as <- <-. apply (S_filter s sp p odom n d sc _ f3 I D). rewrite Eg. discriminate.
  - destruct (sh_scans s) as [|b l] eqn:L.
    + injection H as <- <-. eapply S_first; eassumption.
    + injection H as H. apply bind_ok in H. destruct H as ([[s1 sp1] cov] & E & H). injection H as <- <-.
      unfold local_match in E. apply bind_ok in E. destruct E as (scans & G & E).
      apply bind_ok in E. destruct E as (w & W & E).
      destruct (sp_local sp) as [m|] eqn:Lo; [|discriminate E].
      apply bind_ok in E. destruct E as (m' & M & E). apply bind_ok in E. destruct E as (sc & D & E).
      apply bind_ok in E. destruct E as (u & _ & E). apply bind_ok in E. destruct E as ([[score corr] cv] & Ma & E).
      injection E as <- <- <-. apply deref_nth in D.
      apply (S_match s sp p odom sc corr score m m' scans w cv); try assumption. rewrite L. discriminate.
  - injection H as H. apply bind_ok in H. destruct H as (back & B & H). apply bind_ok in H. destruct H as (sc & D & H).
    injection H as <- <-. destruct (rev (sh_scans s)) as [|bp l] eqn:R; [discriminate B|].
    apply deref_nth in D. apply deref_nth in B. apply (S_make s sp p odom cov bp back sc I); try assumption. rewrite R. reflexivity.
  - apply lock_g_inv in H. destruct H as (G & H). injection H as -> ->. eapply S_cons_lock; eassumption.
  - injection H as <- <-. eapply S_cons_push; eassumption.
  - apply lock_g_inv in H. destruct H as (G & H). injection H as -> ->. eapply S_scan_lock; eassumption.
  - injection H as <- <-. eapply S_scan_push; eassumption.
  - injection H as H. apply bind_ok in H. destruct H as (s1 & E & H). injection H as <- <-.
    unfold track_match in E. apply bind_ok in E. destruct E as (sc & D & E). apply deref_nth in D.
    destruct (sh_global s) as [g|] eqn:G; [|discriminate E].
    apply bind_ok in E. destruct E as (u & _ & E). apply bind_ok in E. destruct E as ([[score corr] cv] & Ma & E).
    injection E as <-. apply (S_track s sp p odom sc corr g score cv); assumption.
  - apply lock_p_inv in H. destruct H as (G & H). injection H as -> ->. eapply S_pose_lock; eassumption.
  - injection H as H. apply bind_ok in H. destruct H as (sc & D & H). apply deref_nth in D.
    injection H as <- <-. eapply S_pose_write; eassumption.
  - apply lock_g_inv in H. destruct H as (G & H). injection H as -> ->. eapply S_graph_lock; eassumption.
  - injection H as H. apply bind_ok in H. destruct H as ([s1 ok] & E & H). injection H as <- <-.
    unfold pose_graph in E. apply bind_ok in E. destruct E as (g & G & E).
    apply bind_ok in E. destruct E as (near & N & E). destruct near as [|i rest].
    + injection E as <- <-. apply (S_graph_far s sp e odom g); assumption.
    + unfold alloc in E. cbv beta iota zeta in E. apply bind_ok in E. destruct E as (from & F & E).
      injection E as <- <-.
      assert (F' : nth_error (gr_scans g ++ [scan_set_pose (scan_new (num_scans s)) (from_msg (pe_pose e))]) i = Some from)
        by (apply (proj1 (deref_nth _ _ _)); exact F).
      exact (S_graph_near s sp e odom g i rest from I G N F').
  - injection H as <- <-. eapply S_init_robot; eassumption.
  - injection H as <- <-. eapply S_init_odom; eassumption.
  - injection H as <- <-. eapply S_init_done; eassumption.
  - apply lock_g_inv in H. destruct H as (G & H). injection H as -> ->. eapply S_load_lock; eassumption.
  - injection H as <- <-. eapply S_load; eassumption.
  - apply lock_g_inv in H. destruct H as (G & H). injection H as -> ->. eapply S_save_lock; eassumption.
  - injection H as H. apply bind_ok in H. destruct H as (g & G & H). injection H as <- <-. eapply S_save; eassumption.
Qed.

Definition ctx_new (c : lctx) : lctx := mkCtx (lc_num c) true (lc_scan c) (lc_rest c) (lc_left c).
Definition first_done (l : looper T) : Z := if (lp_done l <=? cf_depth cf)%Z then wrap64 (cf_depth cf + 1) else lp_done l.

Inductive loop_tr (s : shared T) (l : looper T) : shared T -> looper T -> Prop :=
| L_asleep : lp_pc l = LSleep -> sh_enable s = false -> loop_tr s l s l
| L_wake : lp_pc l = LSleep -> sh_enable s = true -> loop_tr s l s (lat l LCountLock)
| L_count_lock : lp_pc l = LCountLock -> sh_glock s = None -> loop_tr s l (set_glock s (Some TLoop)) (lat l LCount)
| L_count_few : lp_pc l = LCount -> (num_scans s <= cf_depth cf)%Z -> loop_tr s l (unlock_g s) (lat l LSleep)
| L_count : lp_pc l = LCount -> (cf_depth cf < num_scans s)%Z ->
    loop_tr s l (unlock_g s) (mkLooper (LNext (num_scans s) false) (first_done l) (lp_opt l) (lp_solver l))
| L_next num new : lp_pc l = LNext num new -> (lp_done l < num)%Z -> loop_tr s l s (lat l (LFetchLock num new))
| L_end num new : lp_pc l = LNext num new -> (num <= lp_done l)%Z -> loop_tr s l s (lat l (LOpt num new))
| L_fetch_lock num new : lp_pc l = LFetchLock num new -> sh_glock s = None ->
    loop_tr s l (set_glock s (Some TLoop)) (lat l (LFetch num new))
| L_fetch num new p sc g near : lp_pc l = LFetch num new -> (0 <= lp_done l)%Z ->
    nth_error (sh_scans s) (Z.to_nat (lp_done l)) = Some p -> nth_error (sh_heap s) p = Some sc ->
    the_graph cf s = Ok g ->
    find_nearest (en_search cf) g sc (cf_search_size cf) (to_int32 (rolling_start cf l)) = Ok near ->
    loop_tr s l (unlock_g s) (lat l (LCand (mkCtx num new p near (cf_search_limit cf))))
| L_cand_none c : lp_pc l = LCand c -> lc_rest c = [] -> loop_tr s l s (next_scan l (lc_num c) (lc_new c))
| L_cand c i rest : lp_pc l = LCand c -> lc_rest c = i :: rest -> sh_glock s = None ->
    loop_tr s l (set_glock s (Some TLoop)) (lat l (LRegion (mkCtx (lc_num c) (lc_new c) (lc_scan c) rest (lc_left c)) i))
| L_region_empty c i cand sc : lp_pc l = LRegion c i -> nth_error (sh_scans s) i = Some cand ->
    nth_error (sh_heap s) cand = Some sc -> s_pts sc = [] -> loop_tr s l (unlock_g s) (lat l (LCand c))
| L_region c i cand sc scans reg g g' : lp_pc l = LRegion c i -> nth_error (sh_scans s) i = Some cand ->
    nth_error (sh_heap s) cand = Some sc -> s_pts sc <> [] -> graph_scans s = Ok scans ->
    region i (rolling_start cf l) scans = Ok reg -> sh_global s = Some g ->
    add_scans (en_eig cf) (matcher_reset g) reg = Ok g' ->
    loop_tr s l (unlock_g (set_global s (Some g'))) (lat l (LMatch c i cand))
| L_match_ok c i cand sc g score corr cov : lp_pc l = LMatch c i cand -> nth_error (sh_heap s) (lc_scan c) = Some sc ->
    sh_global s = Some g -> match_scan (en_fuel cf) g sc pose0 (en_garbage cf) = Ok (score, corr, cov) ->
    nfinite score = true -> nlt score (sh_typical s) = true ->
    loop_tr s l (note s (ObMatch (lp_done l) (Z.of_nat i) score (sh_typical s) true)) (lat l (LCorrect (ctx_new c) i cand corr cov))
| L_match_no c i cand sc g score corr cov : lp_pc l = LMatch c i cand -> nth_error (sh_heap s) (lc_scan c) = Some sc ->
    sh_global s = Some g -> match_scan (en_fuel cf) g sc pose0 (en_garbage cf) = Ok (score, corr, cov) ->
    nfinite score && nlt score (sh_typical s) = false ->
    loop_tr s l (note s (ObMatch (lp_done l) (Z.of_nat i) score (sh_typical s) false)) (after_candidate l c)
| L_correct c i cand corr cov sc : lp_pc l = LCorrect c i cand corr cov -> nth_error (sh_heap s) (lc_scan c) = Some sc ->
    let q := add_correction (s_pose sc) corr in
    loop_tr s l (note (put s (lc_scan c) (scan_set_pose sc q)) (ObMove (lc_scan c) q)) (lat l (LMake c i cand cov))
| L_make c i cand cov sc csc : lp_pc l = LMake c i cand cov -> nth_error (sh_heap s) (lc_scan c) = Some sc ->
    nth_error (sh_heap s) cand = Some csc ->
    let k := make_constraint csc sc cov in
    loop_tr s l s (lat l (LPushLock c (mkConstraint (c_begin k) (c_end k) (c_transform k) (c_information k) true)))
| L_push_lock c k : lp_pc l = LPushLock c k -> sh_glock s = None -> loop_tr s l (set_glock s (Some TLoop)) (lat l (LPush c k))
| L_push c k : lp_pc l = LPush c k ->
    loop_tr s l (note (set_cons s (sh_cons s ++ [k])) (ObConstraint ALoop k)) (lat l (LFlag c))
| L_flag c : lp_pc l = LFlag c -> loop_tr s l (unlock_g (set_flag s true)) (after_candidate l c)
| L_opt_no num new : lp_pc l = LOpt num new -> new && (cf_node_limit cf <? wrap64 (num - lp_opt l))%Z = false ->
    loop_tr s l s (lat l LSleep)
| L_opt num : lp_pc l = LOpt num true -> (cf_node_limit cf < wrap64 (num - lp_opt l))%Z -> loop_tr s l s (lat l LOptLock)
| L_opt_lock : lp_pc l = LOptLock -> sh_glock s = None -> loop_tr s l (set_glock s (Some TLoop)) (lat l LOptRun)
| L_optimize scans b sv scans' : lp_pc l = LOptRun -> graph_scans s = Ok scans ->
    optimize (en_ceres cf) (lp_solver l) (sh_cons s) scans = Ok (b, sv, scans') ->
    loop_tr s l (unlock_g (set_flag (note (put_all s (sh_scans s) scans') (ObOptimize (List.length scans))) true))
      (mkLooper LSleep (lp_done l) (num_scans s) sv).

Lemma loop_cases : forall s l s' l', loop_step cf s l = Some (Ok (s', l')) -> loop_tr s l s' l'.
Proof.
  intros s l s' l' H. unfold loop_step in H.
  destruct (lp_pc l) as [| | |num new|num new|num new|c|c i|c i cand|c i cand corr cov|c i cand cov|c k|c k|c|num new| |] eqn:I.
  - injection H as <- <-. destruct (sh_enable s) eqn:E; [apply L_wake|apply L_asleep]; assumption.
  - apply lock_g_inv in H. destruct H as (G & H). injection H as -> ->. eapply L_count_lock; eassumption.
  - injection H as <- <-. destruct (Z.leb_spec (num_scans s) (cf_depth cf)); [apply L_count_few|apply L_count]; assumption.
  - injection H as <- <-. destruct (Z.ltb_spec (lp_done l) num); [apply L_next|apply L_end]; assumption.
  - apply lock_g_inv in H. destruct H as (G & H). injection H as -> ->. eapply L_fetch_lock; eassumption.
  - injection H as H. apply bind_ok in H. destruct H as (p & P & H). apply vec_get_inv in P. destruct P as [B P].
    apply bind_ok in H. destruct H as (sc & D & H). apply deref_nth in D.
    apply bind_ok in H. destruct H as (g & G & H). apply bind_ok in H. destruct H as (near & N & H).
    injection H as <- <-. apply (L_fetch s l num new p sc g near); try assumption. apply B.
  - destruct (lc_rest c) as [|i rest] eqn:R.
    + injection H as <- <-. eapply L_cand_none; eassumption.
    + apply lock_g_inv in H. destruct H as (G & H). injection H as -> ->. eapply L_cand; eassumption.
  - injection H as H. apply bind_ok in H. destruct H as (scans & G & H). apply bind_ok in H. destruct H as (cand & C & H).
    apply (proj1 (vec_get_inv _ _ _)) in C || apply vec_get_inv in C. destruct C as [_ C]. rewrite Nat2Z.id in C.
    apply bind_ok in H. destruct H as (csc & D & H). apply deref_nth in D.
    destruct (s_pts csc) as [|q qs] eqn:P.
    + injection H as <- <-. apply (L_region_empty s l c i cand csc); assumption.
    + apply bind_ok in H. destruct H as (reg & R & H). destruct (sh_global s) as [g|] eqn:Gg; [|discriminate H].
      apply bind_ok in H. destruct H as (g' & M & H). injection H as <- <-.
      apply (L_region s l c i cand csc scans reg g g'); try assumption. rewrite P. discriminate.
  - injection H as H. apply bind_ok in H. destruct H as (sc & D & H). apply deref_nth in D.
    destruct (sh_global s) as [g|] eqn:Gg; [|discriminate H].
    apply bind_ok in H. destruct H as ([[score corr] cov] & M & H).
    destruct (nfinite score && nlt score (sh_typical s)) eqn:Ok_.
    + injection H as <- <-. pose proof Ok_ as Ok'. apply andb_prop in Ok'. destruct Ok' as [O1 O2].
      apply (L_match_ok s l c i cand sc g score corr cov); assumption.
    + injection H as <- <-. apply (L_match_no s l c i cand sc g score corr cov); assumption.
  - injection H as H. apply bind_ok in H. destruct H as (sc & D & H). apply deref_nth in D.
    injection H as <- <-. exact (L_correct s l c i cand corr cov sc I D).
  - injection H as H. apply bind_ok in H. destruct H as (csc & D & H). apply deref_nth in D.
    apply bind_ok in H. destruct H as (sc & D2 & H). apply deref_nth in D2.
    injection H as <- <-. exact (L_make s l c i cand cov sc csc I D2 D).
  - apply lock_g_inv in H. destruct H as (G & H). injection H as -> ->. eapply L_push_lock; eassumption.
  - injection H as <- <-. eapply L_push; eassumption.
  - injection H as <- <-. eapply L_flag; eassumption.
  - injection H as <- <-. destruct (new && (cf_node_limit cf <? wrap64 (num - lp_opt l))%Z) eqn:E.
    + apply andb_prop in E. destruct E as [-> E]. apply Z.ltb_lt in E. apply L_opt with (num := num); assumption.
    + apply L_opt_no with (num := num) (new := new); assumption.
  - apply lock_g_inv in H. destruct H as (G & H). injection H as -> ->. eapply L_opt_lock; eassumption.
  - injection H as H. apply bind_ok in H. destruct H as (scans & G & H).
    apply bind_ok in H. destruct H as ([[b sv] scans'] & O & H). injection H as <- <-.
    apply (L_optimize s l scans b sv scans'); assumption.
Qed.

Inductive pub_tr (s : shared T) (p : publisher T) : shared T -> publisher T -> Prop :=
| P_top : pb_pc p = PTop -> pub_tr s p s (pat p (if sh_flag s then PClear else PTf))
| P_clear : pb_pc p = PClear -> pub_tr s p (set_flag s false) (pat p PGridLock)
| P_grid_lock : pb_pc p = PGridLock -> sh_glock s = None -> pub_tr s p (set_glock s (Some TPub)) (pat p PGrid)
| P_grid scans grid m : pb_pc p = PGrid -> graph_scans s = Ok scans -> occ_get_msg (pb_grid p) scans = Ok (grid, m) ->
    pub_tr s p (unlock_g (note s (ObMap scans m))) (mkPub PGraphLock grid)
| P_graph_lock : pb_pc p = PGraphLock -> sh_glock s = None -> pub_tr s p (set_glock s (Some TPub)) (pat p PGraph)
| P_graph g ms : pb_pc p = PGraph -> the_graph cf s = Ok g -> graph_get_msg g [] = Ok ms ->
    pub_tr s p (unlock_g (note s (ObMarkers g ms))) (pat p PTf)
| P_tf : pb_pc p = PTf -> pub_tr s p s (pat p (match sh_scans s with [] => PTop | _ => PPoseLock end))
| P_pose_lock : pb_pc p = PPoseLock -> sh_plock s = None -> pub_tr s p (set_plock s (Some TPub)) (pat p PReadRobot)
| P_robot : pb_pc p = PReadRobot -> pub_tr s p s (pat p (PReadOdom (sh_robot s)))
| P_odom r : pb_pc p = PReadOdom r -> pub_tr s p (unlock_p s) (pat p (PSend r (sh_odom s)))
| P_send r o : pb_pc p = PSend r o -> pub_tr s p (note s (ObTf r o (map_to_odom r o))) (pat p PTop).

Lemma pub_cases : forall s p s' p', pub_step cf s p = Some (Ok (s', p')) -> pub_tr s p s' p'.
Proof.
  intros s p s' p' H. unfold pub_step in H.
  destruct (pb_pc p) as [| | | | | | | | |r|r o] eqn:I.
  - injection H as <- <-. eapply P_top; eassumption.
  - injection H as <- <-. eapply P_clear; eassumption.
  - apply lock_g_inv in H. destruct H as (G & H). injection H as -> ->. eapply P_grid_lock; eassumption.
  - injection H as H. apply bind_ok in H. destruct H as (scans & G & H). apply bind_ok in H. destruct H as ([grid m] & M & H).
    injection H as <- <-. apply (P_grid s p scans grid m); assumption.
  - apply lock_g_inv in H. destruct H as (G & H). injection H as -> ->. eapply P_graph_lock; eassumption.
  - injection H as H. apply bind_ok in H. destruct H as (g & G & H). apply bind_ok in H. destruct H as (ms & M & H).
    injection H as <- <-. apply (P_graph s p g ms); assumption.
  - injection H as <- <-. eapply P_tf; eassumption.
  - apply lock_p_inv in H. destruct H as (G & H). injection H as -> ->. eapply P_pose_lock; eassumption.
  - injection H as <- <-. eapply P_robot; eassumption.
  - injection H as <- <-. eapply P_odom; eassumption.
  - injection H as <- <-. eapply P_send; eassumption.
Qed.

(** One step of the node. *)
Inductive step_tr (m : mapper T) : label T -> mapper T -> Prop :=
| T_deliver e s' sp' : sp_pc (mp_spin m) = SIdle -> deliver_tr (mp_sh m) (mp_spin m) e s' sp' ->
    step_tr m (Deliver e) (mkMapper s' sp' (mp_loop m) (mp_pub m))
| T_spin s' sp' : spin_tr (mp_sh m) (mp_spin m) s' sp' -> step_tr m Spin (mkMapper s' sp' (mp_loop m) (mp_pub m))
| T_loop s' l' : loop_tr (mp_sh m) (mp_loop m) s' l' -> step_tr m Loop (mkMapper s' (mp_spin m) l' (mp_pub m))
| T_pub s' p' : pub_tr (mp_sh m) (mp_pub m) s' p' -> step_tr m Pub (mkMapper s' (mp_spin m) (mp_loop m) p').

Lemma step_cases : forall l m m', step cf l m = Some (Ok m') -> step_tr m l m'.
Proof.
  intros l m m' H. destruct l as [e| | |]; cbn [step] in H.
  - destruct (deliver cf (mp_sh m) (mp_spin m) e) as [o|] eqn:E; [|discriminate H]. cbn [option_map] in H. injection H as H.
    apply bind_ok in H. destruct H as ([s sp] & -> & H). injection H as <-. apply deliver_cases in E. destruct E. apply T_deliver; assumption.
  - destruct (spin_step cf (mp_sh m) (mp_spin m)) as [o|] eqn:E; [|discriminate H]. cbn [option_map] in H. injection H as H.
    apply bind_ok in H. destruct H as ([s sp] & -> & H). injection H as <-. apply spin_cases in E. apply T_spin; assumption.
  - destruct (loop_step cf (mp_sh m) (mp_loop m)) as [o|] eqn:E; [|discriminate H]. cbn [option_map] in H. injection H as H.
    apply bind_ok in H. destruct H as ([s sp] & -> & H). injection H as <-. apply loop_cases in E. apply T_loop; assumption.
  - destruct (pub_step cf (mp_sh m) (mp_pub m)) as [o|] eqn:E; [|discriminate H]. cbn [option_map] in H. injection H as H.
    apply bind_ok in H. destruct H as ([s sp] & -> & H). injection H as <-. apply pub_cases in E. apply T_pub; assumption.
Qed.

(** Invariants. *)
Lemma exec_inv (I : mapper T -> Prop) : (forall l m m', I m -> step_tr m l m' -> I m') ->
  forall ls m m', I m -> exec cf m ls = Ok m' -> I m'.
Proof.
  intros St. induction ls as [|l ls IH]; intros m m' H E; cbn [exec] in E; [injection E as <-; exact H|].
  destruct (step cf l m) as [o|] eqn:S; [|apply (IH m); assumption].
  apply bind_ok in E. destruct E as (m1 & -> & E). apply (IH m1); [|exact E]. apply (St l m m1 H). apply step_cases. exact S.
Qed.

Lemma exec_inv_labels (P : label T -> Prop) (I : mapper T -> Prop) :
  (forall l m m', P l -> I m -> step_tr m l m' -> I m') ->
  forall ls m m', Forall P ls -> I m -> exec cf m ls = Ok m' -> I m'.
Proof.
  intros St. induction ls as [|l ls IH]; intros m m' F H E; cbn [exec] in E; [injection E as <-; exact H|].
  inversion F as [|? ? Fl F']; subst.
  destruct (step cf l m) as [o|] eqn:S; [|apply (IH m); assumption].
  apply bind_ok in E. destruct E as (m1 & -> & E). apply (IH m1); [exact F'| |exact E]. apply (St l m m1 Fl H). apply step_cases. exact S.
Qed.

Lemma init_cases : forall m, mapper_init cf = Ok m ->
  exists s f, m = mkMapper s (mkSpin SIdle (cf_range_max cf) EmptyString pose0 false None f)
                 (mkLooper LSleep 0 0 solver_new) (mkPub PTop (occ_new (cf_resolution cf) (cf_occ_thresh cf))) /\
    (f = None <-> cf_filter cf = None) /\
    let s0 := mkShared [] [] [] false None None pose0 pose0 (nopp (nlit 1 2)) (cf_enable cf) true None [] in
    s = match cf_file cf with None => s0 | Some file => set_flag (set_init (load_graph cf s0 file) false) true end.
Proof.
  intros m H. unfold mapper_init in H. apply bind_ok in H. destruct H as (f & F & H). injection H as <-.
  exists (match cf_file cf with None => mkShared [] [] [] false None None pose0 pose0 (nopp (nlit 1 2)) (cf_enable cf) true None []
          | Some file => set_flag (set_init (load_graph cf (mkShared [] [] [] false None None pose0 pose0 (nopp (nlit 1 2)) (cf_enable cf) true None []) file) false) true end), f.
  split; [reflexivity|]. split; [|reflexivity].
  destruct (cf_filter cf) as [[[mn mx] mo]|].
  - apply bind_ok in F. destruct F as (f0 & _ & F). injection F as <-. split; discriminate.
  - injection F as <-. tauto.
Qed.

Lemma reachable_inv (I : mapper T -> Prop) : (forall m, mapper_init cf = Ok m -> I m) ->
  (forall l m m', I m -> step_tr m l m' -> I m') -> forall m, reachable cf m -> I m.
Proof.
  intros H0 St m [ls R]. unfold run in R. apply bind_ok in R. destruct R as (m0 & E & R).
  apply (exec_inv I St ls m0 m); [apply H0; exact E|exact R].
Qed.

End P.
