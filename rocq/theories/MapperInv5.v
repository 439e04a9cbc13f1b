(** Missing matchers and indices (C75), the map of the particle filter (C76),
    pairs of poses (C77), optimisation cadence (C78). *)

From Coq Require Import ZArith List Bool String Lia.
From Verif Require Import Outcome Arith TypesModel ScanModel MatcherModel ConstraintModel
  SolverModel GraphModel OccGridModel MotionModel FilterModel LaserModel MapperModel SpecMapper SpecMapper2
  NdtProofs MatcherProofs GraphProofs MapperProofs MapperSteps MapperInv1 MapperInv2 MapperInv3.
Import ListNotations.

Section P.
Context {T : Type} {A : Arith T}.
Context (cf : config T).

(** ** C75 *)
Definition in_laser (pc : spin_pc T) : bool :=
  match pc with
  | SFilter _ _ _ _ | SMatch _ _ | SMake _ _ _ | SConsLock _ _ _ | SConsPush _ _ _ | SScanLock _ _ | SScanPush _ _ | STrack _ _
  | SPoseLock _ _ _ | SPoseWrite _ _ _ => true
  | _ => false
  end.

Definition laser_inv (m : mapper T) : Prop :=
  (sp_frame (mp_spin m) <> EmptyString \/ in_laser (sp_pc (mp_spin m)) = true ->
    sh_global (mp_sh m) <> None /\ sp_local (mp_spin m) <> None) /\
  (use_filter cf = true -> sp_filter (mp_spin m) <> None) /\
  (forall c i cand, lp_pc (mp_loop m) = LMatch c i cand -> sh_global (mp_sh m) <> None).

Lemma run_pc_in : forall (s : shared T) p o e, in_laser (run_pc cf s p o e) = true.
Proof. intros. unfold run_pc. destruct (use_filter cf), (sh_enable s); reflexivity. Qed.

Lemma learns_some : forall (s : shared T) sp g sp', learns cf s sp g sp' -> sp_frame sp' <> EmptyString ->
  (sp_frame sp <> EmptyString -> sh_global s <> None /\ sp_local sp <> None) -> g <> None /\ sp_local sp' <> None.
Proof.
  intros s sp g sp' L N H. destruct L as [E1 E2 E3|r m E1 E2 E3 E4].
  - rewrite E2 in N. rewrite E1, E3. apply H. exact N.
  - split; [rewrite E2; discriminate|rewrite E3; discriminate].
Qed.
Lemma learns_keeps : forall (s : shared T) sp g sp', learns cf s sp g sp' -> sh_global s <> None -> g <> None.
Proof. intros s sp g sp' L N. destruct L as [E1 E2 E3|r m E1 E2 E3 E4]; [rewrite E1; exact N|rewrite E2; discriminate]. Qed.

Lemma global_keeps : forall l m m', step_tr cf m l m' -> sh_global (mp_sh m) <> None -> sh_global (mp_sh m') <> None.
Proof.
  intros l m m' H N. destruct H as [e s' sp' Id D|s' sp' D|s' l' D|s' p' D]; cbn [mp_sh].
  - destruct D; try exact N; try (apply (learns_keeps (mp_sh m) (mp_spin m) g sp'); assumption). rewrite configure_eq. exact N.
  - destruct D; try exact N. destruct upd; exact N.
  - destruct D; try exact N; [discriminate|]. destruct (put_all_frame (sh_scans (mp_sh m)) scans' (mp_sh m)) as [h E]. rewrite E. exact N.
  - destruct D; exact N.
Qed.

Lemma laser_inv_step : forall l m m', laser_inv m -> step_tr cf m l m' -> laser_inv m'.
Proof.
  intros l m m' (I1 & I2 & I3) H. pose proof (global_keeps _ _ _ H) as G.
  assert (L3 : lp_pc (mp_loop m') = lp_pc (mp_loop m) -> forall c i cand, lp_pc (mp_loop m') = LMatch c i cand -> sh_global (mp_sh m') <> None).
  { intros E c i cand P. apply G. apply (I3 c i cand). rewrite <- E, P. reflexivity. }
  destruct H as [e s' sp' Id D|s' sp' D|s' l' D|s' p' D]; cbn [mp_sh mp_spin mp_loop] in *.
  - split; [|split; [|apply L3; reflexivity]].
    + cbn [mp_sh mp_spin]. destruct D.
      * intros [F|F]; [|match goal with P : sp_pc sp' = SIdle |- _ => rewrite P in F; discriminate F end].
        apply (learns_some (mp_sh m) (mp_spin m)); [assumption|exact F|]. intro N. apply I1. left. exact N.
      * intros _. cbn [sh_global set_heap set_global].
        destruct (string_dec (sp_frame (mp_spin m)) EmptyString) as [E|E]; [auto|].
        match goal with L : learns _ _ _ _ _ |- _ => destruct L as [E1 E2 E3|r mm E1 E2 E3 E4] end.
        -- rewrite E1, E3. apply I1. left. exact E.
        -- contradiction.
      * exact I1.
      * intros [F|F]; [|discriminate F]. apply I1. left. exact F.
      * intros [F|F]; [|discriminate F]. apply I1. left. exact F.
      * intros [F|F]; [|discriminate F]. apply I1. left. exact F.
      * rewrite configure_eq. cbn [fst snd at_pc sp_frame sp_local sp_pc set_enable set_init sh_global]. intros [F|F]; [apply I1; left; exact F|].
        destruct (Z.testbit a 2), (Z.testbit a 3); discriminate F.
    + cbn [mp_spin]. intro U. specialize (I2 U). destruct D; cbn [sp_filter at_pc with_filter]; try exact I2; try discriminate;
        try (match goal with F : sp_filter sp' = _ |- _ => rewrite F; exact I2 end).
  - split; [|split; [|apply L3; reflexivity]].
    + cbn [mp_sh mp_spin]. destruct D; cbn [sh_global sp_frame sp_local sp_pc at_pc with_local with_filter put set_heap set_typical set_glock unlock_g
         set_plock unlock_p note set_cons set_scans set_flag set_robot set_odom set_init load_graph];
        match goal with P : sp_pc (mp_spin m) = _ |- _ => rewrite P in I1 end; cbn [in_laser] in I1;
        try (intros _; apply I1; right; reflexivity); try (intros [F|F]; [apply I1; left; exact F|discriminate F]).
      * intros _. split; [apply I1; right; reflexivity|discriminate].
      * intros [F|F]; [|discriminate F]. destruct upd; (apply I1; left; exact F).
    + cbn [mp_spin]. intro U. specialize (I2 U). destruct D; cbn [sp_filter at_pc with_filter with_local]; try exact I2; discriminate.
  - split; [intro F; split; [apply G; apply I1; exact F|apply I1; exact F]|]. split; [exact I2|].
    cbn [mp_loop mp_sh]. intros c i cand P. destruct D; try discriminate P; try discriminate;
      try (unfold after_candidate in P; destruct (_ =? 0)%Z in P; discriminate P).
    match goal with Q : lp_pc _ = LSleep |- _ => rewrite Q in P; discriminate P end.
  - split; [intro F; split; [apply G; apply I1; exact F|apply I1; exact F]|]. split; [exact I2|]. apply L3. reflexivity.
Qed.

Lemma laser_inv_reachable : forall m, reachable cf m -> laser_inv m.
Proof.
  apply reachable_inv; [|intros l m m' I H; apply (laser_inv_step l m m'); assumption].
  intros m H. unfold mapper_init in H. apply bind_ok in H. destruct H as (f & F & H). injection H as <-.
  split; [intros [E|E]; [contradiction E; reflexivity|discriminate E]|].
  split; [|intros c i cand P; discriminate P].
  intro U. unfold use_filter in U. cbn [mp_spin sp_filter]. destruct (cf_filter cf) as [[[mn mx] mo]|]; [|discriminate U].
  apply bind_ok in F. destruct F as (f0 & _ & F). injection F as <-. discriminate.
Qed.

Lemma laser_has_matchers : forall m, reachable cf m -> laser_matching m ->
  sh_global (mp_sh m) <> None /\ sp_local (mp_spin m) <> None /\ (use_filter cf = true -> sp_filter (mp_spin m) <> None).
Proof.
  intros m R L. destruct (laser_inv_reachable m R) as (I1 & I2 & _).
  assert (In_ : in_laser (sp_pc (mp_spin m)) = true).
  { destruct L as [(p & o & n & d & E)|[(p & o & E)|(p & o & E)]]; rewrite E; reflexivity. }
  destruct (I1 (or_intror In_)) as [G L']. split; [exact G|]. split; [exact L'|exact I2].
Qed.

(** Without an initial map, scans exist only after the matchers. *)
Definition scans_inv (m : mapper T) : Prop := sh_scans (mp_sh m) <> [] -> sh_global (mp_sh m) <> None.

Lemma reach_if_reachable : forall (ok : mapper T -> label T -> Prop) m, reach_if cf ok m -> reachable cf m.
Proof.
  intros ok m R. induction R as [m E|m l m' R IH O E].
  - exists []. unfold run. rewrite E. reflexivity.
  - destruct IH as (ls & H). exists (ls ++ [l]). unfold run in *. destruct (mapper_init cf) as [m0|f]; [|discriminate H].
    cbn [bind] in *. revert H. generalize m0. clear -E. induction ls as [|l0 ls IH]; intros m0 H.
    + cbn [exec] in H. injection H as ->. cbn [app exec]. rewrite E. reflexivity.
    + cbn [app exec] in *. destruct (step cf l0 m0) as [[m1|f]|]; try discriminate H; apply IH; exact H.
Qed.

Lemma scans_inv_reach : forall (ok : mapper T -> label T -> Prop), search_in_range (en_search cf) -> cf_file cf = None -> (forall m l, ok m l -> warm m l) ->
  forall m, reach_if cf ok m -> scans_inv m.
Proof.
  intros ok Sr F W. apply (reach_if_and cf ok scans_inv laser_inv).
  - intros m R. apply laser_inv_reachable. apply (reach_if_reachable ok). exact R.
  - intros m H. apply init_cases in H. destruct H as (s & f & -> & _ & ->). rewrite F. intro N. contradiction N. reflexivity.
  - intros l m m' O (I1 & _) S H. apply W in O. pose proof (global_keeps _ _ _ H) as G. unfold scans_inv in *.
    destruct H as [e s' sp' Id D|s' sp' D|s' l' D|s' p' D]; cbn [mp_sh mp_spin mp_loop] in *.
    + assert (E : sh_scans s' = sh_scans (mp_sh m)) by (destruct D; try reflexivity; rewrite configure_eq; reflexivity).
      rewrite E. intro N. apply G. apply S. exact N.
    + destruct D; try (intro N; apply G; apply S; exact N).
      * intros _. apply G. apply I1. right. match goal with P : sp_pc _ = SScanPush _ _ |- _ => rewrite P end. reflexivity.
      * destruct upd; (intro N; apply G; apply S; exact N).
      * intros _. apply G. apply S.
        match goal with Gr : the_graph cf _ = Ok g |- _ => destruct (the_graph_length cf _ _ Gr) as (Lg & _ & _) end.
        match goal with Fn : find_nearest _ _ _ _ _ = Ok (i :: rest) |- _ => destruct (nearest_bound cf _ _ _ _ _ i Sr Fn (or_introl eq_refl)) as [Li _] end.
        intro E. rewrite E in Lg. cbn [List.length] in Lg. lia.
      * intros _. apply G. match goal with P : sp_pc _ = SLoad file |- _ => exact (O eq_refl file P) end.
    + assert (E : sh_scans s' = sh_scans (mp_sh m)) by (apply (loop_frame cf m (mkMapper s' (mp_spin m) l' (mp_pub m))); apply T_loop; exact D).
      rewrite E. intro N. apply G. apply S. exact N.
    + assert (E : sh_scans s' = sh_scans (mp_sh m)) by (destruct D; reflexivity).
      rewrite E. intro N. apply G. apply S. exact N.
Qed.

Lemma reads_in_range : (0 <= cf_depth cf)%Z -> search_in_range (en_search cf) -> good_start cf ->
  forall m i, reach_if cf (calm cf) m -> reads m i ->
  exists p sc, nth_error (sh_scans (mp_sh m)) i = Some p /\ nth_error (sh_heap (mp_sh m)) p = Some sc.
Proof.
  intros Dp Sr St m i R H. destruct (wf_reach cf Dp Sr St m R) as ((I1 & _ & I0 & I4) & _ & I5).
  assert (L : (i < List.length (sh_scans (mp_sh m)))%nat).
  { destruct H as [num new P D|c i P]; rewrite P in I4, I5; cbn [counted] in I5.
    - destruct I4 as [K1 K2]. unfold num_scans in *. lia.
    - destruct I4 as [(K1 & K2 & K3 & _) K4]. unfold num_scans in *. lia. }
  destruct (nth_error (sh_scans (mp_sh m)) i) as [p|] eqn:E; [|apply nth_error_None in E; lia].
  destruct (I1 i p E) as (sc & N & _). exists p, sc. split; [reflexivity|exact N].
Qed.

Lemma matching_has_matcher : (0 <= cf_depth cf)%Z -> search_in_range (en_search cf) -> cf_file cf = None ->
  forall m, reach_if cf (fun m l => calm cf m l /\ warm m l) m -> matching m -> sh_global (mp_sh m) <> None.
Proof.
  intros Dp Sr F m R H. pose proof (reach_if_reachable _ _ R) as R0. destruct (laser_inv_reachable m R0) as (_ & _ & I3).
  destruct H as [(c & i & P)|(c & i & cand & P)]; [|exact (I3 c i cand P)].
  apply (scans_inv_reach _ Sr F (fun m l H => proj2 H) m R). intro E.
  destruct (reads_in_range Dp Sr) with m i as (p & sc & N & _).
  - intros file E'. rewrite F in E'. discriminate E'.
  - apply (reach_if_mono cf (fun m l => calm cf m l /\ warm m l)); [intros m0 l0 O; apply O|exact R].
  - apply (reads_candidate m c i). exact P.
  - rewrite E in N. destruct i; discriminate N.
Qed.

(** ** C76 *)
Definition tracks (pc : spin_pc T) (bound : nat) : Prop :=
  match pc with
  | SFilter p _ _ _ | STrack p _ => (bound <= p)%nat
  | SPoseLock _ _ _ | SPoseWrite _ _ _ | SIdle | SInitRobot _ _ | SInitOdom _ _ | SInitDone _ _ => True
  | _ => False
  end.

(** Nothing of the map changes while mapping is off. *)
Definition still_inv (m : mapper T) : Prop :=
  sh_enable (mp_sh m) = false /\ lp_pc (mp_loop m) = LSleep /\
  (exists n scans, sh_scans (mp_sh m) = seq 0 n /\ graph_scans (mp_sh m) = Ok scans /\ (n <= List.length (sh_heap (mp_sh m)))%nat /\
     tracks (sp_pc (mp_spin m)) n) /\ whole_map cf m.

Lemma mapM_ext : forall {X Y} (f g : X -> outcome Y) l, (forall x, In x l -> f x = g x) -> mapM f l = mapM g l.
Proof.
  intros X Y f g l. induction l as [|x l IH]; intro H; [reflexivity|]. cbn [mapM]. rewrite (H x (or_introl eq_refl)).
  rewrite IH; [reflexivity|]. intros y I. apply H. right. exact I.
Qed.

Lemma deref_set_other : forall (h : list (scan T)) p q v, p <> q -> deref (list_set h p v) q = deref h q.
Proof.
  intros h p q v N. unfold deref, vec_get. destruct (Z.ltb_spec (Z.of_nat q) 0); [reflexivity|]. rewrite Nat2Z.id.
  rewrite nth_error_list_set. destruct (Nat.eqb_spec p q) as [E|E]; [congruence|reflexivity].
Qed.

Lemma graph_scans_put : forall (s : shared T) n p v, sh_scans s = seq 0 n -> (n <= p)%nat -> graph_scans (put s p v) = graph_scans s.
Proof.
  intros s n p v E L. unfold graph_scans. cbn [put set_heap sh_heap sh_scans]. rewrite E. apply mapM_ext.
  intros q I. apply in_seq in I. apply deref_set_other. lia.
Qed.

Lemma graph_scans_alloc : forall (s s' : shared T) n v, sh_scans s = seq 0 n -> (n <= List.length (sh_heap s))%nat ->
  sh_scans s' = sh_scans s -> sh_heap s' = sh_heap s ++ [v] -> graph_scans s' = graph_scans s.
Proof.
  intros s s' n v E L E1 E2. unfold graph_scans. rewrite E1, E2, E. apply mapM_ext. intros q I. apply in_seq in I.
  unfold deref, vec_get. destruct (Z.ltb_spec (Z.of_nat q) 0); [reflexivity|]. rewrite Nat2Z.id, nth_error_app1 by lia. reflexivity.
Qed.

Lemma still_reach : cf_enable cf = false -> forall m, reach_if cf no_request m -> still_inv m.
Proof.
  intro En. apply reach_if_inv.
  - intros m H. apply init_cases in H. destruct H as (s & f & -> & _ & ->).
    assert (W : forall s, sh_global s = None -> forall a b c, whole_map cf (mkMapper s a b c)) by (intros s N a b c; left; exact N).
    destruct (cf_file cf) as [file|].
    + split; [exact En|]. split; [reflexivity|]. split; [|apply W; reflexivity].
      exists (List.length (gr_scans (graph_load (cf_use_bary cf) file))), (gr_scans (graph_load (cf_use_bary cf) file)).
      split; [reflexivity|]. split; [|split; [apply Nat.le_refl|exact I]].
      exact (deref_app (@nil (scan T)) (gr_scans (graph_load (cf_use_bary cf) file))).
    + split; [exact En|]. split; [reflexivity|]. split; [|apply W; reflexivity].
      exists O, []. split; [reflexivity|]. split; [reflexivity|]. split; [apply Nat.le_refl|exact I].
  - intros l m m' Nr (E & P & (n & scans & S1 & S2 & S3 & S4) & W) H.
    destruct H as [e s' sp' Id D|s' sp' D|s' l' D|s' p' D].
    + destruct D.
      * split; [exact E|]. split; [exact P|]. cbn [mp_sh mp_spin]. split.
        -- exists n, scans. split; [exact S1|]. split; [exact S2|]. split; [exact S3|].
           match goal with Q : sp_pc sp' = SIdle |- _ => rewrite Q end. exact I.
        -- match goal with L : learns _ _ _ _ _ |- _ => destruct L as [E1 E2 E3|r g0 E1 E2 E3 E4] end.
           ++ rewrite E1, set_global_id. destruct W as [W|(r & sc & g0 & W1 & W2 & W3)]; [left; exact W|right; exists r, sc, g0; auto].
           ++ right. destruct E4 as [(_ & sc & G & M)|(Q & _)]; [|rewrite E in Q; cbn [negb] in Q; rewrite orb_true_r in Q; discriminate Q].
              exists r, sc, g0. split; [exact G|]. split; [exact M|exact E2].
      * match goal with L : learns _ _ _ _ _ |- _ => destruct L as [E1 E2 E3|r g0 E1 E2 E3 E4] end.
        -- split; [exact E|]. split; [exact P|]. cbn [mp_sh mp_spin]. split.
           ++ exists n, scans. split; [exact S1|]. split; [erewrite (graph_scans_alloc (mp_sh m)); [exact S2|exact S1|exact S3|reflexivity|reflexivity]|].
              split; [cbn [sh_heap set_heap]; rewrite app_length; lia|].
              match goal with Q : sp_pc sp' = run_pc _ _ _ _ _ |- _ => rewrite Q end. unfold run_pc. rewrite E. destruct (use_filter cf); exact S3.
           ++ destruct W as [W|(r & sc0 & g0 & W1 & W2 & W3)]; [left; cbn [mp_sh sh_global set_heap set_global]; rewrite E1; exact W|].
              right. exists r, sc0, g0. split; [|split; [exact W2|cbn [mp_sh sh_global set_heap set_global]; rewrite E1; exact W3]].
              cbn [mp_sh]. erewrite (graph_scans_alloc (mp_sh m)); [exact W1|exact S1|exact S3|reflexivity|reflexivity].
        -- split; [exact E|]. split; [exact P|]. cbn [mp_sh mp_spin]. split.
           ++ exists n, scans. split; [exact S1|]. split; [erewrite (graph_scans_alloc (mp_sh m)); [exact S2|exact S1|exact S3|reflexivity|reflexivity]|].
              split; [cbn [sh_heap set_heap]; rewrite app_length; lia|].
              match goal with Q : sp_pc sp' = run_pc _ _ _ _ _ |- _ => rewrite Q end. unfold run_pc. rewrite E. destruct (use_filter cf); exact S3.
           ++ right. destruct E4 as [(_ & sc0 & G & M)|(Q & _)]; [|rewrite E in Q; cbn [negb] in Q; rewrite orb_true_r in Q; discriminate Q].
              exists r, sc0, g0. split; [|split; [exact M|exact E2]]. cbn [mp_sh].
              erewrite (graph_scans_alloc (mp_sh m)); [exact G|exact S1|exact S3|reflexivity|reflexivity].
      * split; [exact E|]. split; [exact P|]. split; [exists n, scans; split; [exact S1|split; [exact S2|split; [exact S3|exact S4]]]|exact W].
      * split; [exact E|]. split; [exact P|]. split; [exists n, scans; split; [exact S1|split; [exact S2|split; [exact S3|first [exact I|exact S4]]]]|exact W].
      * rewrite E in *. discriminate.
      * split; [exact E|]. split; [exact P|]. split; [exists n, scans; split; [exact S1|split; [exact S2|split; [exact S3|first [exact I|exact S4]]]]|exact W].
      * contradiction (Nr a file eq_refl).
    + assert (same : sh_enable s' = sh_enable (mp_sh m) -> sh_scans s' = sh_scans (mp_sh m) -> graph_scans s' = graph_scans (mp_sh m) ->
               sh_global s' = sh_global (mp_sh m) -> (List.length (sh_heap s') = List.length (sh_heap (mp_sh m))) ->
               tracks (sp_pc sp') n -> still_inv (mkMapper s' sp' (mp_loop m) (mp_pub m))).
      { intros A1 A2 A3 A4 A5 A6. split; [cbn [mp_sh]; congruence|]. split; [exact P|]. split.
        - exists n, scans. cbn [mp_sh mp_spin]. split; [congruence|]. split; [congruence|]. split; [lia|exact A6].
        - unfold whole_map. cbn [mp_sh]. rewrite A3, A4. exact W. }
      destruct D; match goal with Q : sp_pc (mp_spin m) = _ |- _ => rewrite Q in S4 end; cbn [tracks] in S4; try contradiction S4;
        try (apply same; try reflexivity; exact I).
      * apply same; try reflexivity; [|cbn [put set_heap sh_heap]; apply length_list_set]. apply (graph_scans_put _ n); assumption.
      * apply same; try reflexivity; [|cbn [put set_heap sh_heap]; apply length_list_set]. apply (graph_scans_put _ n); assumption.
      * destruct upd; apply same; try reflexivity; exact I.
    + destruct D; match goal with Q : lp_pc _ = _ |- _ => rewrite P in Q; try discriminate Q end.
      * split; [exact E|]. split; [exact P|]. split; [exists n, scans; split; [exact S1|split; [exact S2|split; [exact S3|first [exact I|exact S4]]]]|exact W].
      * rewrite E in *. discriminate.
    + destruct D; (split; [exact E|]; split; [exact P|]; split; [exists n, scans; split; [exact S1|split; [exact S2|split; [exact S3|first [exact I|exact S4]]]]|exact W]).
Qed.

Lemma localization_keeps_map : cf_enable cf = false -> forall m, reach_if cf no_request m -> whole_map cf m.
Proof. intros En m R. apply (still_reach En m R). Qed.

(** ** C77 *)
Definition tf_inv (m : mapper T) : Prop :=
  ((exists r o, sp_pc (mp_spin m) = SInitOdom r o) \/ stored_together m (sh_robot (mp_sh m)) (sh_odom (mp_sh m))) /\
  (forall r o, sp_pc (mp_spin m) = SInitOdom r o -> sh_robot (mp_sh m) = r) /\
  (forall r, pb_pc (mp_pub m) = PReadOdom r -> r = sh_robot (mp_sh m)) /\
  (forall r o, pb_pc (mp_pub m) = PSend r o -> stored_together m r o) /\
  (forall r o tf, In (ObTf r o tf) (sh_trace (mp_sh m)) -> stored_together m r o /\ tf = map_to_odom r o).

Lemma stored_grow : forall m m' new, sh_trace (mp_sh m') = new ++ sh_trace (mp_sh m) ->
  (forall r o, sp_pc (mp_spin m) = SInitDone r o -> sp_pc (mp_spin m') = SInitDone r o \/ In (ObInit r o) new) ->
  forall r o, stored_together m r o -> stored_together m' r o.
Proof.
  intros m m' new E N r o [H|[H|[H|H]]]; unfold stored_together; rewrite E.
  - left. exact H.
  - right. left. apply in_or_app. right. exact H.
  - right. right. left. apply in_or_app. right. exact H.
  - destruct (N r o H) as [H'|H']; [right; right; right; exact H'|]. right. right. left. apply in_or_app. left. exact H'.
Qed.

Definition trace_new (s s' : shared T) (new : list (obs T)) : Prop := sh_trace s' = new ++ sh_trace s.

Lemma tf_step : forall l m m', ~ torn m -> lock_inv m -> tf_inv m -> step_tr cf m l m' -> tf_inv m'.
Proof.
  intros l m m' Nt Lk (I1 & I2 & I3 & I4 & I5) H.
  (* steps of other threads that touch no pose *)
  assert (calm_ : forall s' sp' l' new, sh_trace s' = new ++ sh_trace (mp_sh m) -> (forall r o tf, ~ In (ObTf r o tf) new) ->
     sh_robot s' = sh_robot (mp_sh m) -> sh_odom s' = sh_odom (mp_sh m) ->
     (forall r o, sp_pc (mp_spin m) = SInitDone r o -> sp_pc sp' = SInitDone r o \/ In (ObInit r o) new) ->
     (forall r o, sp_pc sp' = SInitOdom r o <-> sp_pc (mp_spin m) = SInitOdom r o) ->
     tf_inv (mkMapper s' sp' l' (mp_pub m))).
  { intros s' sp' l' new E N R O Dn Io. pose proof (stored_grow m (mkMapper s' sp' l' (mp_pub m)) new E Dn) as St.
    unfold tf_inv. cbn [mp_sh mp_spin mp_pub] in *. rewrite R, O, E.
    split; [destruct I1 as [(r & o & Q)|Q]; [left; exists r, o; apply Io; exact Q|right; apply St; exact Q]|].
    split; [intros r o Q; apply (I2 r o); apply Io; exact Q|]. split; [exact I3|]. split; [intros r o Q; apply St; apply I4; exact Q|].
    intros r o tf J. apply in_app_or in J. destruct J as [J|J]; [contradiction (N _ _ _ J)|].
    destruct (I5 r o tf J) as [Q1 Q2]. split; [apply St; exact Q1|exact Q2]. }
  destruct H as [e s' sp' Id D|s' sp' D|s' l' D|s' p' D].
  - apply (calm_ s' sp' (mp_loop m) []).
    + destruct D; try reflexivity. rewrite configure_eq. reflexivity.
    + intros r o tf J. exact J.
    + destruct D; try reflexivity. rewrite configure_eq. cbn [fst]. destruct (Z.testbit a 0), (Z.testbit a 1); reflexivity.
    + destruct D; try reflexivity. rewrite configure_eq. cbn [fst]. destruct (Z.testbit a 0), (Z.testbit a 1); reflexivity.
    + intros r o Q. rewrite Id in Q. discriminate Q.
    + intros r o. rewrite Id. split; [|discriminate]. intro Q. exfalso. destruct D.
      * congruence.
      * match goal with P : sp_pc sp' = run_pc _ _ _ _ _ |- _ => rewrite P in Q end. unfold run_pc in Q. destruct (use_filter cf), (sh_enable (mp_sh m)); discriminate Q.
      * congruence.
      * discriminate Q.
      * discriminate Q.
      * discriminate Q.
      * rewrite configure_eq in Q. cbn [snd at_pc sp_pc] in Q. destruct (Z.testbit a 2), (Z.testbit a 3); discriminate Q.
  - assert (quiet_ : forall new, sh_trace s' = new ++ sh_trace (mp_sh m) -> (forall r o tf, ~ In (ObTf r o tf) new) ->
       sh_robot s' = sh_robot (mp_sh m) -> sh_odom s' = sh_odom (mp_sh m) ->
       (forall r o, sp_pc (mp_spin m) <> SInitDone r o) -> (forall r o, sp_pc (mp_spin m) <> SInitOdom r o) -> (forall r o, sp_pc sp' <> SInitOdom r o) ->
       tf_inv (mkMapper s' sp' (mp_loop m) (mp_pub m))).
    { intros new E N R O N1 N2 N3. apply (calm_ s' sp' (mp_loop m) new); try assumption.
      - intros r o Q. contradiction (N1 r o Q).
      - intros r o. split; intro Q; [contradiction (N3 r o Q)|contradiction (N2 r o Q)]. }
    destruct D; match goal with Q : sp_pc (mp_spin m) = _ |- _ => rename Q into Pc end;
      try (apply (quiet_ []); try reflexivity; try (intros; rewrite Pc; discriminate); try (intros; discriminate); intros r0 o0 tf0 J; exact J);
      try (eapply (quiet_ [_]); try reflexivity; try (intros; rewrite Pc; discriminate); try (intros; discriminate); intros r0 o0 tf0 [J|J]; [discriminate J|exact J]).
    + (* pose write *)
      destruct Lk as (_ & _ & _ & L1 & _ & L2). rewrite Pc in L1. cbn [spin_p] in L1.
      assert (L : pub_p (pb_pc (mp_pub m)) = false).
      { rewrite <- L2. destruct (sh_plock (mp_sh m)) as [[]|]; try discriminate L1; reflexivity. }
      assert (St : forall r o, stored_together m r o -> stored_together (mkMapper (unlock_p (note (if upd then set_flag (set_robot (set_odom (mp_sh m) odom) (s_pose sc)) true
          else set_robot (set_odom (mp_sh m) odom) (s_pose sc)) (ObPoses (s_pose sc) odom))) (at_pc (mp_spin m) SIdle) (mp_loop m) (mp_pub m)) r o).
      { apply (stored_grow m _ [ObPoses (s_pose sc) odom]); [destruct upd; reflexivity|]. intros r o Q. rewrite Pc in Q. discriminate Q. }
      split; [right; right; left; destruct upd; left; reflexivity|]. split; [intros r o Q; discriminate Q|].
      split; [intros r Q; cbn [mp_pub] in Q; rewrite Q in L; discriminate L|]. split; [intros r o Q; apply St; apply I4; exact Q|].
      intros r o tf J. assert (J' : In (ObTf r o tf) (sh_trace (mp_sh m))) by (destruct upd; destruct J as [J|J]; [discriminate J|exact J|discriminate J|exact J]).
      destruct (I5 r o tf J') as [Q1 Q2]. split; [apply St; exact Q1|exact Q2].
    + (* initial pose added to the graph *)
      apply (quiet_ [ObConstraint APose c; ObScan APose p]); try reflexivity; try (intros; rewrite Pc; discriminate); try (intros; discriminate).
      intros r0 o0 tf0 [J|[J|J]]; [discriminate J|discriminate J|exact J].
    + (* robot pose of an initial pose *)
      assert (St : forall r' o', stored_together m r' o' -> stored_together (mkMapper (set_robot (mp_sh m) r) (at_pc (mp_spin m) (SInitOdom r o)) (mp_loop m) (mp_pub m)) r' o').
      { apply (stored_grow m _ []); [reflexivity|]. intros r' o' Q. rewrite Pc in Q. discriminate Q. }
      split; [left; exists r, o; reflexivity|]. split; [intros r' o' Q; injection Q as <- _; reflexivity|].
      split; [intros r' Q; contradiction Nt; split; [left; exists r, o; exact Pc|right; exists r'; exact Q]|].
      split; [intros r' o' Q; apply St; apply I4; exact Q|].
      intros r' o' tf J. destruct (I5 r' o' tf J) as [Q1 Q2]. split; [apply St; exact Q1|exact Q2].
    + (* odometry pose of an initial pose *)
      assert (St : forall r' o', stored_together m r' o' -> stored_together (mkMapper (set_odom (mp_sh m) o) (at_pc (mp_spin m) (SInitDone r o)) (mp_loop m) (mp_pub m)) r' o').
      { apply (stored_grow m _ []); [reflexivity|]. intros r' o' Q. rewrite Pc in Q. discriminate Q. }
      split; [right; right; right; right; cbn [mp_spin mp_sh at_pc sp_pc set_odom sh_robot sh_odom]; rewrite (I2 r o Pc); reflexivity|].
      split; [intros r' o' Q; discriminate Q|].
      split; [intros r' Q; contradiction Nt; split; [right; exists r, o; exact Pc|right; exists r'; exact Q]|].
      split; [intros r' o' Q; apply St; apply I4; exact Q|].
      intros r' o' tf J. destruct (I5 r' o' tf J) as [Q1 Q2]. split; [apply St; exact Q1|exact Q2].
    + (* initial pose done *)
      apply (calm_ _ _ (mp_loop m) [ObInit r o]); try reflexivity.
      * intros r' o' tf [J|J]; [discriminate J|exact J].
      * intros r' o' Q. rewrite Pc in Q. injection Q as <- <-. right. left. reflexivity.
      * intros r' o'. rewrite Pc. split; intro Q; discriminate Q.
  - assert (sp : same_poses (mp_sh m) s') by (apply (loop_frame cf m (mkMapper s' (mp_spin m) l' (mp_pub m))); apply T_loop; exact D).
    destruct sp as [P1 P2].
    assert (quiet_ : forall new, sh_trace s' = new ++ sh_trace (mp_sh m) -> (forall r o tf, ~ In (ObTf r o tf) new) -> tf_inv (mkMapper s' (mp_spin m) l' (mp_pub m))).
    { intros new E N. apply (calm_ s' (mp_spin m) l' new); try assumption; [intros r o Q; left; exact Q|intros r o; reflexivity]. }
    destruct D; try (apply (quiet_ []); [reflexivity|intros r0 o0 tf0 J; exact J]);
      try (eapply (quiet_ [_]); [reflexivity|intros r0 o0 tf0 [J|J]; [discriminate J|exact J]]).
    apply (quiet_ [ObOptimize (List.length scans)]); [|intros r0 o0 tf0 [J|J]; [discriminate J|exact J]].
    destruct (put_all_frame (sh_scans (mp_sh m)) scans' (mp_sh m)) as [h E]. rewrite E. reflexivity.
  - assert (quiet_ : forall new, sh_trace s' = new ++ sh_trace (mp_sh m) -> (forall r o tf, In (ObTf r o tf) new -> stored_together m r o /\ tf = map_to_odom r o) ->
      sh_robot s' = sh_robot (mp_sh m) -> sh_odom s' = sh_odom (mp_sh m) ->
      (forall r, pb_pc p' = PReadOdom r -> r = sh_robot (mp_sh m)) -> (forall r o, pb_pc p' = PSend r o -> stored_together m r o) ->
      tf_inv (mkMapper s' (mp_spin m) (mp_loop m) p')).
    { intros new E N P1 P2 P3 P4.
      assert (St : forall r o, stored_together m r o -> stored_together (mkMapper s' (mp_spin m) (mp_loop m) p') r o).
      { apply (stored_grow m _ new); [exact E|]. intros r o Q. left. exact Q. }
      unfold tf_inv. cbn [mp_sh mp_spin mp_pub]. rewrite P1, P2, E.
      split; [destruct I1 as [Q|Q]; [left; exact Q|right; apply St; exact Q]|]. split; [exact I2|]. split; [exact P3|].
      split; [intros r o Q; apply St; apply P4; exact Q|].
      intros r o tf J. apply in_app_or in J. destruct J as [J|J]; [destruct (N r o tf J) as [Q1 Q2]|destruct (I5 r o tf J) as [Q1 Q2]]; (split; [apply St; exact Q1|exact Q2]). }
    destruct D; match goal with Q : pb_pc _ = _ |- _ => rename Q into Pc end;
      try (apply (quiet_ []); try reflexivity; try (intros; discriminate); intros r0 o0 tf0 J; contradiction J);
      try (eapply (quiet_ [_]); try reflexivity; try (intros; discriminate); intros r0 o0 tf0 [J|J]; [discriminate J|contradiction J]).
    + apply (quiet_ []); try reflexivity; [intros r0 o0 tf0 J; contradiction J|intros r Q|intros r o Q]; destruct (sh_flag (mp_sh m)); discriminate Q.
    + apply (quiet_ []); try reflexivity; [intros r0 o0 tf0 J; contradiction J|intros r Q|intros r o Q]; destruct (sh_scans (mp_sh m)); discriminate Q.
    + apply (quiet_ []); try reflexivity; [intros r0 o0 tf0 J; contradiction J|intros r Q|intros r o Q]; [injection Q as <-; reflexivity|discriminate Q].
    + apply (quiet_ []); try reflexivity; [intros r0 o0 tf0 J; contradiction J|intros r0 Q; discriminate Q|].
      intros r0 o0 Q. injection Q as <- <-. rewrite (I3 r Pc).
      destruct I1 as [(r' & o' & Q)|Q]; [|exact Q]. contradiction Nt. split; [right; exists r', o'; exact Q|right; exists r; exact Pc].
    + apply (quiet_ [ObTf r o (map_to_odom r o)]); try reflexivity; try (intros; discriminate).
      intros r0 o0 tf0 [J|J]; [|contradiction J]. injection J as <- <- <-. split; [apply I4; exact Pc|reflexivity].
Qed.

Lemma tf_reach : forall m, reach_if cf (fun m l => ~ torn m) m -> tf_inv m.
Proof.
  apply (reach_if_and cf (fun m l => ~ torn m) tf_inv lock_inv).
  - intros m R. apply (lock_inv_reachable cf). apply (reach_if_reachable _ m R).
  - intros m H. apply init_cases in H. destruct H as (s & f & -> & _ & ->).
    split; [right; left; destruct (cf_file cf); split; reflexivity|].
    split; [intros r o Q; discriminate Q|]. split; [intros r Q; discriminate Q|]. split; [intros r o Q; discriminate Q|].
    intros r o tf J. destruct (cf_file cf); [destruct J as [J|J]; [discriminate J|contradiction J]|contradiction J].
  - intros l m m' O J I H. apply (tf_step l m m'); assumption.
Qed.

Lemma tf_pairs : forall m r o tf, reach_if cf (fun m l => ~ torn m) m -> In (ObTf r o tf) (sh_trace (mp_sh m)) ->
  stored_together m r o /\ tf = map_to_odom r o.
Proof. intros m r o tf R H. destruct (tf_reach m R) as (_ & _ & _ & _ & I5). exact (I5 r o tf H). Qed.

End P.
