(** Optimisation cadence (C78) and updates of the published map (C66). *)

From Coq Require Import ZArith List Bool String Lia.
From Verif Require Import Outcome Arith TypesModel ScanModel MatcherModel ConstraintModel
  SolverModel GraphModel OccGridModel MotionModel FilterModel LaserModel MapperModel SpecMapper SpecMapper2
  NdtProofs MatcherProofs GraphProofs MapperProofs MapperSteps MapperInv1 MapperInv2 MapperInv3 MapperInv5.
Import ListNotations.

Section P.
Context {T : Type} {A : Arith T}.
Context (cf : config T).

(** ** C78 *)
Definition no_opt (o : obs T) : Prop := match o with ObOptimize _ => False | _ => True end.

Lemma last_opt_more : forall new (tr : list (obs T)), Forall no_opt new -> last_opt (new ++ tr) = last_opt tr.
Proof. intros new tr F. induction F as [|o new Q F IH]; [reflexivity|]. destruct o; try exact IH. contradiction Q. Qed.
Lemma closed_more : forall new (tr : list (obs T)), Forall no_opt new -> closed_since tr -> closed_since (new ++ tr).
Proof.
  intros new tr F C. induction F as [|o new Q F IH]; [exact C|]. destruct o; try exact IH; [|contradiction Q].
  cbn [app closed_since]. destruct a; try exact IH. exact I.
Qed.
Lemma cadence_more : forall lim new (tr : list (obs T)), Forall no_opt new -> cadence lim tr -> cadence lim (new ++ tr).
Proof.
  intros lim new tr F C. induction F as [|o new Q F IH]; [exact C|]. intros newer n older E. destruct newer as [|x newer]; cbn [app] in E.
  - injection E as E1 E2. subst o. contradiction Q.
  - injection E as _ E. exact (IH newer n older E).
Qed.

Definition opt_place (n : Z) (tr : list (obs T)) (l : looper T) : Prop :=
  match lp_pc l with
  | LNext num new | LFetchLock num new | LFetch num new | LOpt num new => (lp_opt l <= num <= n)%Z /\ (new = true -> closed_since tr)
  | LCand c | LRegion c _ | LMatch c _ _ => (lp_opt l <= lc_num c <= n)%Z /\ (lc_new c = true -> closed_since tr)
  | LCorrect c _ _ _ _ | LMake c _ _ _ | LPushLock c _ | LPush c _ => (lp_opt l <= lc_num c <= n)%Z
  | LFlag c => (lp_opt l <= lc_num c <= n)%Z /\ closed_since tr
  | LOptLock | LOptRun => closed_since tr /\ (cf_node_limit cf < n - lp_opt l)%Z
  | _ => True
  end.

Definition opt_inv (m : mapper T) : Prop :=
  let tr := sh_trace (mp_sh m) in
  cadence (cf_node_limit cf) tr /\ lp_opt (mp_loop m) = last_opt tr /\
  (0 <= lp_opt (mp_loop m) <= num_scans (mp_sh m))%Z /\ opt_place (num_scans (mp_sh m)) tr (mp_loop m).

Lemma opt_place_more : forall n n' new tr l, Forall no_opt new -> (n <= n')%Z -> opt_place n tr l -> opt_place n' (new ++ tr) l.
Proof.
  intros n n' new tr l F L H. pose proof (closed_more new tr F) as C. unfold opt_place in *.
  destruct (lp_pc l); try exact H; try (destruct H as [H1 H2]; split; [lia|auto]); try (destruct H as [H1 H2]; split; [auto|lia]); lia.
Qed.

Lemma quiet_opt : forall s s' sp sp' l p p' new, opt_inv (mkMapper s sp l p) -> sh_trace s' = new ++ sh_trace s -> Forall no_opt new ->
  (num_scans s <= num_scans s')%Z -> opt_inv (mkMapper s' sp' l p').
Proof.
  intros s s' sp sp' l p p' new (H1 & H2 & H3 & H4) E F L. unfold opt_inv. cbn [mp_sh mp_loop] in *. rewrite E.
  split; [apply cadence_more; assumption|]. split; [rewrite last_opt_more; assumption|]. split; [lia|].
  apply (opt_place_more (num_scans s)); assumption.
Qed.

Lemma opt_other : forall l m m', no_load m l -> l <> Loop -> step_tr cf m l m' ->
  (num_scans (mp_sh m) <= num_scans (mp_sh m'))%Z /\ mp_loop m' = mp_loop m /\
  exists new, sh_trace (mp_sh m') = new ++ sh_trace (mp_sh m) /\ Forall no_opt new.
Proof.
  intros l m m' [_ N] NL H. destruct H as [e s' sp' Id D|s' sp' D|s' l' D|s' p' D]; cbn [mp_sh mp_loop].
  - destruct D; (split; [try apply Z.le_refl; try (rewrite configure_eq; apply Z.le_refl)|split; [reflexivity|exists []; split; [|constructor]]]);
      try reflexivity; rewrite configure_eq; reflexivity.
  - split; [|split; [reflexivity|]].
    + destruct D; try apply Z.le_refl.
      * unfold num_scans. cbn [sh_scans unlock_g set_glock note set_scans]. rewrite app_length. lia.
      * destruct upd; apply Z.le_refl.
      * unfold num_scans. cbn [sh_scans unlock_g set_glock note set_cons set_scans set_heap]. rewrite app_length. lia.
      * match goal with P : sp_pc _ = SLoad file |- _ => contradiction (N eq_refl file P) end.
    + destruct D; try (exists []; split; [reflexivity|constructor]);
        try (eexists [_]; split; [reflexivity|constructor; [exact I|constructor]]).
      * exists [ObPoses (s_pose sc) odom]. split; [destruct upd; reflexivity|constructor; [exact I|constructor]].
      * exists [ObConstraint APose c; ObScan APose p]. split; [reflexivity|constructor; [exact I|constructor; [exact I|constructor]]].
  - contradiction NL. reflexivity.
  - split; [destruct D; apply Z.le_refl|]. split; [reflexivity|].
    destruct D; try (exists []; split; [reflexivity|constructor]); (eexists [_]; split; [reflexivity|constructor; [exact I|constructor]]).
Qed.

Lemma after_candidate_opt : forall n tr l c, (lp_opt l <= lc_num c <= n)%Z -> (lc_new c = true -> closed_since tr) -> opt_place n tr (after_candidate l c) /\
  lp_opt (after_candidate l c) = lp_opt l.
Proof. intros n tr l c H C. unfold after_candidate. destruct (_ =? 0)%Z; split; try reflexivity; split; assumption. Qed.

Lemma opt_loop : forall s sp l p s' l', (num_scans s < 2 ^ 64)%Z -> opt_inv (mkMapper s sp l p) -> loop_tr cf s l s' l' ->
  opt_inv (mkMapper s' sp l' p).
Proof.
  intros s sp l p s' l' B (H1 & H2 & H3 & H4) D. cbn [mp_sh mp_loop] in *.
  assert (E : sh_scans s' = sh_scans s) by (apply (loop_frame cf (mkMapper s sp l p) (mkMapper s' sp l' p)); apply T_loop; exact D).
  assert (En : num_scans s' = num_scans s) by (unfold num_scans; rewrite E; reflexivity).
  assert (keep : forall new, sh_trace s' = new ++ sh_trace s -> Forall no_opt new -> lp_opt l' = lp_opt l ->
     opt_place (num_scans s) (sh_trace s') l' -> opt_inv (mkMapper s' sp l' p)).
  { intros new Et F Eo P. unfold opt_inv. cbn [mp_sh mp_loop]. rewrite Eo, En.
    split; [rewrite Et; apply cadence_more; assumption|]. split; [rewrite Et, last_opt_more; assumption|]. split; [lia|exact P]. }
  unfold opt_place in H4.
  assert (N0 : (0 <= num_scans s)%Z) by (unfold num_scans; lia).
  destruct D; match goal with P : lp_pc l = _ |- _ => rewrite P in H4; rename P into Pc end;
    try (apply (keep []); [reflexivity|constructor|reflexivity|exact H4]);
    try (apply (keep []); [reflexivity|constructor|reflexivity|exact I]).
  - apply (keep []); [reflexivity|constructor|reflexivity|]. unfold opt_place. rewrite Pc. exact I.
  - apply (keep []); [reflexivity|constructor|reflexivity|]. split; [cbn [lp_opt]; lia|discriminate].
  - apply (keep [ObMatch (lp_done l) (Z.of_nat i) score (sh_typical s) true]); [reflexivity|constructor; [exact I|constructor]|reflexivity|].
    destruct H4 as [K _]. exact K.
  - destruct H4 as [K1 K2]. destruct (after_candidate_opt (num_scans s) (sh_trace (note s (ObMatch (lp_done l) (Z.of_nat i) score (sh_typical s) false))) l c) as [Q1 Q2].
    + exact K1.
    + exact K2.
    + apply (keep [ObMatch (lp_done l) (Z.of_nat i) score (sh_typical s) false]); [reflexivity|constructor; [exact I|constructor]|exact Q2|exact Q1].
  - apply (keep [ObMove (lc_scan c) q]); [reflexivity|constructor; [exact I|constructor]|reflexivity|exact H4].
  - apply (keep [ObConstraint ALoop k]); [reflexivity|constructor; [exact I|constructor]|reflexivity|]. split; [exact H4|exact I].
  - destruct H4 as [K1 K2]. destruct (after_candidate_opt (num_scans s) (sh_trace s) l c) as [Q1 Q2]; [exact K1|intros _; exact K2|].
    apply (keep []); [reflexivity|constructor|exact Q2|exact Q1].
  - apply (keep []); [reflexivity|constructor|reflexivity|]. destruct H4 as [K1 K2]. split; [apply K2; reflexivity|].
    cbn [lat lp_opt].
    match goal with W : (cf_node_limit cf < wrap64 _)%Z |- _ => rename W into Wr end.
    rewrite wrap64_small in Wr by lia. lia.
  - match goal with G : graph_scans s = Ok scans |- _ => pose proof G as Gs; unfold graph_scans in G; apply mapM_length in G; rename G into Ln end.
    assert (Et : sh_trace (put_all s (sh_scans s) scans') = sh_trace s /\ num_scans (put_all s (sh_scans s) scans') = num_scans s).
    { destruct (put_all_frame (sh_scans s) scans' s) as [h Q]. rewrite Q. split; reflexivity. }
    destruct Et as [Et1 Et2]. destruct H4 as [K1 K2].
    unfold opt_inv. cbn [mp_sh mp_loop lp_opt unlock_g set_glock set_flag note sh_trace]. rewrite Et1.
    split; [|split; [|split]].
    + intros newer n older Q. destruct newer as [|x newer]; cbn [app] in Q.
      * injection Q as <- <-. split; [exact K1|]. rewrite <- H2, Ln. exact K2.
      * injection Q as _ Q. exact (H1 newer n older Q).
    + cbn [last_opt]. rewrite Ln. reflexivity.
    + match goal with |- (_ <= _ <= ?x)%Z => replace x with (num_scans s) by (symmetry; exact Et2) end. lia.
    + exact I.
Qed.

Lemma opt_reach : forall m, reach_if cf no_load m -> opt_inv m.
Proof.
  apply reach_if_inv.
  - intros m H. apply init_cases in H. destruct H as (s & f & -> & _ & ->). unfold opt_inv. cbn [mp_sh mp_loop lp_opt].
    assert (C : cadence (cf_node_limit cf) (@nil (obs T))) by (intros [|x newer] n older Q; discriminate Q).
    destruct (cf_file cf) as [file|].
    + split; [apply (cadence_more _ [ObLoad] []); [constructor; [exact I|constructor]|exact C]|]. split; [reflexivity|].
      split; [unfold num_scans; lia|exact I].
    + split; [exact C|]. split; [reflexivity|]. split; [unfold num_scans; lia|exact I].
  - intros l m m' O I H. destruct l as [e| | |].
    + destruct (opt_other _ _ _ O ltac:(discriminate) H) as (Ln & L & new & E & F). destruct m as [s sp l p], m' as [s' sp' l' p']. cbn [mp_sh mp_loop] in *. subst l'.
      apply (quiet_opt s s' sp sp' l p p' new); assumption.
    + destruct (opt_other _ _ _ O ltac:(discriminate) H) as (Ln & L & new & E & F). destruct m as [s sp l p], m' as [s' sp' l' p']. cbn [mp_sh mp_loop] in *. subst l'.
      apply (quiet_opt s s' sp sp' l p p' new); assumption.
    + inversion H as [| |s' l' D|]; subst. destruct m as [s sp l p]. destruct O as [B _]. cbn [mp_sh mp_loop mp_spin mp_pub] in *.
      apply (opt_loop s sp l p); assumption.
    + destruct (opt_other _ _ _ O ltac:(discriminate) H) as (Ln & L & new & E & F). destruct m as [s sp l p], m' as [s' sp' l' p']. cbn [mp_sh mp_loop] in *. subst l'.
      apply (quiet_opt s s' sp sp' l p p' new); assumption.
Qed.

(** ** C66 *)

(** The scan being processed is not in the graph yet. *)
Definition apart (s : shared T) (pc : spin_pc T) : Prop :=
  match pc with
  | SFilter p _ _ _ | SMatch p _ | SMake p _ _ | SConsLock p _ _ | SConsPush p _ _ | SScanLock p _ | SScanPush p _ | STrack p _ =>
    ~ In p (sh_scans s) /\ (p < List.length (sh_heap s))%nat
  | _ => True
  end.
Definition heap_inv (m : mapper T) : Prop :=
  Forall (fun p => (p < List.length (sh_heap (mp_sh m)))%nat) (sh_scans (mp_sh m)) /\ apart (mp_sh m) (sp_pc (mp_spin m)).

Definition spin_map_due (pc : spin_pc T) : Prop :=
  match pc with SPoseLock _ _ true | SPoseWrite _ _ true => True | _ => False end.
Definition spin_markers_due (pc : spin_pc T) : Prop :=
  match pc with SScanLock _ _ | SScanPush _ _ | SPoseLock _ _ true | SPoseWrite _ _ true => True | _ => False end.
Definition pub_map_due (pc : pub_pc T) : Prop := match pc with PGridLock | PGrid => True | _ => False end.
Definition pub_markers_due (pc : pub_pc T) : Prop := match pc with PGridLock | PGrid | PGraphLock | PGraph => True | _ => False end.

Definition map_due (m : mapper T) : Prop :=
  sh_flag (mp_sh m) = true \/ closing m \/ spin_map_due (sp_pc (mp_spin m)) \/ pub_map_due (pb_pc (mp_pub m)) \/ pose_since_map (sh_trace (mp_sh m)).
Definition markers_due (m : mapper T) : Prop :=
  sh_flag (mp_sh m) = true \/ closing m \/ spin_markers_due (sp_pc (mp_spin m)) \/ pub_markers_due (pb_pc (mp_pub m)) \/ pose_since_markers (sh_trace (mp_sh m)).

Definition pub_inv (m : mapper T) : Prop :=
  (map_current (mp_sh m) \/ map_due m) /\ (markers_current cf (mp_sh m) \/ markers_due m).

Lemma heap_step : forall l m m', heap_inv m -> step_tr cf m l m' -> heap_inv m'.
Proof.
  intros l m m' [H1 H2] H.
  assert (grow : forall n n', (n <= n')%nat -> Forall (fun p => (p < n)%nat) (sh_scans (mp_sh m)) -> Forall (fun p => (p < n')%nat) (sh_scans (mp_sh m))).
  { intros n n' L F. eapply Forall_impl; [|exact F]. intros p Q. cbn beta in Q. lia. }
  destruct H as [e s' sp' Id D|s' sp' D|s' l' D|s' p' D].
  - destruct D.
    + split; [exact H1|]. cbn [mp_sh mp_spin]. match goal with P : sp_pc sp' = SIdle |- _ => rewrite P end. exact I.
    + assert (L : (List.length (sh_heap (mp_sh m)) < List.length (sh_heap (mp_sh m) ++ [sc]))%nat) by (rewrite app_length; cbn [List.length]; lia).
      split; [cbn [mp_sh sh_heap sh_scans set_heap set_global]; apply (grow (List.length (sh_heap (mp_sh m)))); [lia|exact H1]|].
      cbn [mp_sh mp_spin]. match goal with P : sp_pc sp' = run_pc _ _ _ _ _ |- _ => rewrite P end.
      assert (Q : ~ In (List.length (sh_heap (mp_sh m))) (sh_scans (mp_sh m))).
      { intro J. rewrite Forall_forall in H1. apply H1 in J. lia. }
      unfold run_pc. destruct (use_filter cf), (sh_enable (mp_sh m)); (split; [exact Q|exact L]).
    + split; [exact H1|exact H2].
    + split; [exact H1|exact I].
    + split; [exact H1|exact I].
    + split; [exact H1|exact I].
    + rewrite configure_eq. split; [exact H1|]. cbn [mp_sh mp_spin snd at_pc sp_pc]. destruct (Z.testbit a 2), (Z.testbit a 3); exact I.
  - destruct D; match goal with P : sp_pc (mp_spin m) = _ |- _ => rewrite P in H2 end; cbn [apart] in H2;
      try (split; [exact H1|exact H2]); try (split; [exact H1|exact I]);
      try (split; [|exact I]; cbn [mp_sh put set_heap sh_heap sh_scans]; rewrite length_list_set; exact H1).
    + split; cbn [mp_sh mp_spin put set_heap set_typical sh_heap sh_scans at_pc sp_pc apart]; rewrite length_list_set; [exact H1|exact H2].
    + destruct H2 as [Q1 Q2]. split; [|exact I]. cbn [mp_sh sh_scans sh_heap unlock_g set_glock note set_scans]. apply Forall_app. split; [exact H1|constructor; [exact Q2|constructor]].
    + destruct upd; (split; [exact H1|exact I]).
    + split; [|exact I]. cbn [mp_sh sh_scans sh_heap unlock_g set_glock note set_cons set_scans set_heap]. rewrite app_length. cbn [List.length].
      apply Forall_app. split; [apply (grow (List.length (sh_heap (mp_sh m)))); [lia|exact H1]|constructor; [unfold p; lia|constructor]].
    + split; [|exact I]. cbn [mp_sh sh_scans sh_heap unlock_g set_glock set_init set_flag load_graph note set_cons set_scans set_heap]. rewrite app_length.
      apply Forall_forall. intros p J. apply in_seq in J. lia.
  - assert (Fr := loop_frame cf m (mkMapper s' (mp_spin m) l' (mp_pub m)) (T_loop cf m s' l' D)). destruct Fr as (F1 & F2 & _). cbn [mp_sh] in F1, F2.
    apply only_poses_length in F2. unfold heap_inv. cbn [mp_sh mp_spin]. rewrite F1, F2. split; [exact H1|].
    destruct (sp_pc (mp_spin m)); cbn [apart] in *; rewrite ?F1, ?F2; exact H2.
  - destruct D; (split; [exact H1|exact H2]).
Qed.

Lemma heap_reachable : forall m, reachable cf m -> heap_inv m.
Proof.
  apply reachable_inv; [|intros l m m' I H; apply (heap_step l m m'); assumption].
  intros m H. apply init_cases in H. destruct H as (s & f & -> & _ & ->). split; [|exact I]. destruct (cf_file cf) as [file|]; [|constructor].
  cbn [mp_sh sh_scans sh_heap set_flag set_init load_graph note set_cons set_scans set_heap]. apply Forall_forall. intros p J. apply in_seq in J.
  cbn [List.length app] in *. lia.
Qed.

(** Changes that the graph does not show. *)
Lemma graph_scans_same : forall s s' : shared T, sh_scans s' = sh_scans s -> sh_heap s' = sh_heap s -> graph_scans s' = graph_scans s.
Proof. intros s s' E1 E2. unfold graph_scans. rewrite E1, E2. reflexivity. Qed.
Lemma graph_scans_apart : forall (s s' : shared T) p v, ~ In p (sh_scans s) -> sh_scans s' = sh_scans s -> sh_heap s' = list_set (sh_heap s) p v ->
  graph_scans s' = graph_scans s.
Proof.
  intros s s' p v N E1 E2. unfold graph_scans. rewrite E1, E2. apply mapM_ext. intros q J. apply deref_set_other. intro E. subst q. exact (N J).
Qed.
Lemma graph_scans_grow : forall (s s' : shared T) more, Forall (fun p => (p < List.length (sh_heap s))%nat) (sh_scans s) ->
  sh_scans s' = sh_scans s -> sh_heap s' = sh_heap s ++ more -> graph_scans s' = graph_scans s.
Proof.
  intros s s' more F E1 E2. unfold graph_scans. rewrite E1, E2. apply mapM_ext. intros q J. rewrite Forall_forall in F. apply F in J.
  unfold deref, vec_get. destruct (Z.ltb_spec (Z.of_nat q) 0); [reflexivity|]. rewrite Nat2Z.id, nth_error_app1 by exact J. reflexivity.
Qed.

Definition neither (o : obs T) : Prop := match o with ObMap _ _ | ObMarkers _ _ => False | _ => True end.
Lemma last_map_more : forall new tr, Forall neither new -> last_map (new ++ tr) = last_map tr.
Proof. intros new tr F. induction F as [|o new Q F IH]; [reflexivity|]. destruct o; try exact IH; contradiction Q. Qed.
Lemma last_markers_more : forall new tr, Forall neither new -> last_markers (new ++ tr) = last_markers tr.
Proof. intros new tr F. induction F as [|o new Q F IH]; [reflexivity|]. destruct o; try exact IH; contradiction Q. Qed.
Lemma pose_map_more : forall new tr, Forall neither new -> pose_since_map tr -> pose_since_map (new ++ tr).
Proof.
  intros new tr F C. induction F as [|o new Q F IH]; [exact C|]. destruct o; try exact IH; try contradiction Q.
  cbn [app pose_since_map]. destruct a; try exact IH. exact I.
Qed.
Lemma pose_markers_more : forall new tr, Forall neither new -> pose_since_markers tr -> pose_since_markers (new ++ tr).
Proof.
  intros new tr F C. induction F as [|o new Q F IH]; [exact C|]. destruct o; try exact IH; try contradiction Q.
  cbn [app pose_since_markers]. destruct a; try exact IH. exact I.
Qed.

Lemma map_current_more : forall s s' new, sh_trace s' = new ++ sh_trace s -> Forall neither new -> sh_scans s' = sh_scans s ->
  graph_scans s' = graph_scans s -> map_current s -> map_current s'.
Proof. intros s s' new E F E1 E2 H. unfold map_current in *. rewrite E, last_map_more by exact F. rewrite E1, E2. exact H. Qed.
Lemma markers_current_more : forall s s' new, sh_trace s' = new ++ sh_trace s -> Forall neither new -> sh_scans s' = sh_scans s ->
  graph_scans s' = graph_scans s -> sh_cons s' = sh_cons s -> markers_current cf s -> markers_current cf s'.
Proof.
  intros s s' new E F E1 E2 E3 H. unfold markers_current in *. rewrite E, last_markers_more by exact F. rewrite E1, E3.
  destruct (last_markers (sh_trace s)); [|exact H]. unfold the_graph in *. rewrite E2, E3. exact H.
Qed.

(** A step that leaves the graph, the flag and the publisher as they are. *)
Lemma pub_same : forall s sp l p s' sp' l' p' new, sh_trace s' = new ++ sh_trace s -> Forall neither new -> sh_scans s' = sh_scans s ->
  graph_scans s' = graph_scans s -> sh_cons s' = sh_cons s -> (sh_flag s = true -> sh_flag s' = true) ->
  (closing (mkMapper s sp l p) -> closing (mkMapper s' sp' l' p') \/ sh_flag s' = true) ->
  (spin_map_due (sp_pc sp) -> spin_map_due (sp_pc sp') \/ sh_flag s' = true) ->
  (spin_markers_due (sp_pc sp) -> spin_markers_due (sp_pc sp') \/ sh_flag s' = true) ->
  (pub_map_due (pb_pc p) -> pub_map_due (pb_pc p')) -> (pub_markers_due (pb_pc p) -> pub_markers_due (pb_pc p')) ->
  pub_inv (mkMapper s sp l p) -> pub_inv (mkMapper s' sp' l' p').
Proof.
  intros s sp l p s' sp' l' p' new E F E1 E2 E3 Fl Cl S1 S2 P1 P2 [H1 H2]. unfold pub_inv, map_due, markers_due in *. cbn [mp_sh mp_spin mp_pub] in *.
  pose proof (map_current_more s s' new E F E1 E2) as M1. pose proof (markers_current_more s s' new E F E1 E2 E3) as M2.
  pose proof (pose_map_more new (sh_trace s) F) as Q1. pose proof (pose_markers_more new (sh_trace s) F) as Q2. rewrite <- E in Q1, Q2. tauto.
Qed.

Lemma pub_step_inv : forall l m m', heap_inv m -> pub_inv m -> step_tr cf m l m' -> pub_inv m'.
Proof.
  intros l m m' [Hh Ha] P H. destruct m as [s sp l0 p].
  assert (D1 : forall m0 : mapper T, sh_flag (mp_sh m0) = true -> pub_inv m0) by (intros m0 F; split; right; left; exact F).
  assert (D2 : forall m0 : mapper T, closing m0 -> pub_inv m0) by (intros m0 F; split; right; right; left; exact F).
  destruct H as [e s' sp' Id D|s' sp' D|s' l' D|s' p' D]; cbn [mp_sh mp_spin mp_loop mp_pub] in *.
  - assert (same : forall sp', graph_scans s' = graph_scans s -> sh_scans s' = sh_scans s -> sh_trace s' = sh_trace s -> sh_cons s' = sh_cons s -> sh_flag s' = sh_flag s ->
        pub_inv (mkMapper s' sp' l0 p)).
    { intros sp1 E1 E2 E3 E4 E5. eapply (pub_same s sp l0 p s' sp1 l0 p []); try assumption; try (intros; assumption); try apply Forall_nil; try (rewrite E5; intros; assumption).
      - intro C. left. exact C.
      - rewrite Id. intro C. contradiction C.
      - rewrite Id. intro C. contradiction C. }
    destruct D; try (apply same; reflexivity).
    + apply same; try reflexivity. apply (graph_scans_grow s _ [sc]); [exact Hh|reflexivity|reflexivity].
    + rewrite configure_eq. cbn [fst snd]. apply (pub_same s sp l0 p _ _ l0 p []); try reflexivity; try apply Forall_nil; try (intros; assumption);
        try (rewrite Id; intro C; contradiction C); try (intro C; left; exact C); intro F; destruct (Z.testbit a 0), (Z.testbit a 1); exact F.
  - assert (same : forall new, sh_trace s' = new ++ sh_trace s -> Forall neither new -> sh_scans s' = sh_scans s ->
        graph_scans s' = graph_scans s -> sh_cons s' = sh_cons s -> sh_flag s' = sh_flag s ->
        (spin_map_due (sp_pc sp) -> spin_map_due (sp_pc sp')) -> (spin_markers_due (sp_pc sp) -> spin_markers_due (sp_pc sp')) ->
        pub_inv (mkMapper s' sp' l0 p)).
    { intros new E F E1 E2 E3 E4 S1 S2. eapply (pub_same s sp l0 p s' sp' l0 p new); try assumption; try (intros; assumption).
      - rewrite E4. intro Q. exact Q.
      - intro C. left. exact C.
      - intro C. left. apply S1. exact C.
      - intro C. left. apply S2. exact C. }
    destruct D; match goal with Q : sp_pc sp = _ |- _ => rewrite Q in same, Ha; rename Q into Pc end; cbn [apart] in Ha;
      try (apply (same []); try reflexivity; try apply Forall_nil; intro C; first [contradiction C|exact C]; fail).
    + apply (same []); try reflexivity; try apply Forall_nil; try (intro C; contradiction C). eapply graph_scans_apart; [apply Ha|reflexivity|reflexivity].
    + apply (same []); try reflexivity; try apply Forall_nil; try (intro C; contradiction C). eapply graph_scans_apart; [apply Ha|reflexivity|reflexivity].
    + (* constraint pushed: the map is the same, the markers are due *)
      split; [|right; right; right; left; exact I]. destruct P as [[P|P] _].
      * left. apply (map_current_more s _ [ObConstraint ALaser c]); try reflexivity; [constructor; [exact I|constructor]|exact P].
      * right. destruct P as [P|[P|[P|[P|P]]]]; cbn [mp_sh mp_spin mp_pub] in P.
        -- left. exact P.
        -- right. left. exact P.
        -- rewrite Pc in P. contradiction P.
        -- right. right. right. left. exact P.
        -- right. right. right. right. exact P.
    + (* scan pushed *) split; right; right; right; left; exact I.
    + apply (same []); try reflexivity; try apply Forall_nil; try (intro C; contradiction C). eapply graph_scans_apart; [apply Ha|reflexivity|reflexivity].
    + (* poses written *) destruct upd; [apply D1; reflexivity|].
      apply (same [ObPoses (s_pose sc) odom]); try reflexivity; try (intro C; contradiction C). constructor; [exact I|constructor].
    + (* initial pose *) split; right; right; right; right; right; cbn; exact I.
    + apply (same [ObInit r o]); try reflexivity; try (intro C; contradiction C). constructor; [exact I|constructor].
    + apply D1. reflexivity.
    + apply (same [ObSave (graph_save g)]); try reflexivity; try (intro C; contradiction C). constructor; [exact I|constructor].
  - assert (same : forall new, sh_trace s' = new ++ sh_trace s -> Forall neither new -> sh_scans s' = sh_scans s ->
        sh_heap s' = sh_heap s -> sh_cons s' = sh_cons s -> sh_flag s' = sh_flag s ->
        (closing (mkMapper s sp l0 p) -> closing (mkMapper s' sp l' p)) -> pub_inv (mkMapper s' sp l' p)).
    { intros new E F E1 E2 E3 E4 C1. eapply (pub_same s sp l0 p s' sp l' p new); try assumption; try (intros; assumption).
      - apply graph_scans_same; assumption.
      - rewrite E4. intro Q. exact Q.
      - intro C. left. apply C1. exact C.
      - intro C. left. exact C.
      - intro C. left. exact C. }
    destruct D; match goal with Q : lp_pc l0 = _ |- _ => rename Q into Pc end; unfold closing in same; cbn [mp_loop] in same; rewrite ?Pc in same;
      try (apply (same []); try reflexivity; try apply Forall_nil; intro C; contradiction C).
    + apply (same [ObMatch (lp_done l0) (Z.of_nat i) score (sh_typical s) true]); try reflexivity; [constructor; [exact I|constructor]|intro C; contradiction C].
    + apply (same [ObMatch (lp_done l0) (Z.of_nat i) score (sh_typical s) false]); try reflexivity; [constructor; [exact I|constructor]|intro C; contradiction C].
    + apply D2. exact I.
    + apply D2. exact I.
    + apply D1. reflexivity.
    + apply D1. reflexivity.
  - destruct D; match goal with Q : pb_pc p = _ |- _ => rename Q into Pc end.
    + apply (pub_same s sp l0 p _ _ _ _ []); try reflexivity; try apply Forall_nil; try (intros; assumption); try (intro C; left; exact C); rewrite Pc; intro C; contradiction C.
    + split; right; right; right; right; left; exact I.
    + split; right; right; right; right; left; exact I.
    + (* map published *) split.
      * left. unfold map_current. cbn [mp_sh sh_trace unlock_g set_glock note last_map]. assumption.
      * right. right. right. right. left. exact I.
    + apply (pub_same s sp l0 p _ _ _ _ []); try reflexivity; try apply Forall_nil; try (intros; assumption); try (intro C; left; exact C); rewrite Pc; intro C; try contradiction C; exact I.
    + (* graph published *) split.
      * destruct P as [[P|P] _]; cbn [mp_sh] in P.
        -- left. exact P.
        -- right. destruct P as [P|[P|[P|[P|P]]]]; cbn [mp_sh mp_spin mp_pub] in P.
           ++ left. exact P.
           ++ right. left. exact P.
           ++ right. right. left. exact P.
           ++ rewrite Pc in P. contradiction P.
           ++ right. right. right. right. exact P.
      * left. unfold markers_current. cbn [mp_sh sh_trace unlock_g set_glock note last_markers]. assumption.
    + apply (pub_same s sp l0 p _ _ _ _ []); try reflexivity; try apply Forall_nil; try (intros; assumption); try (intro C; left; exact C); rewrite Pc; intro C; contradiction C.
    + apply (pub_same s sp l0 p _ _ _ _ []); try reflexivity; try apply Forall_nil; try (intros; assumption); try (intro C; left; exact C); rewrite Pc; intro C; contradiction C.
    + apply (pub_same s sp l0 p _ _ _ _ []); try reflexivity; try apply Forall_nil; try (intros; assumption); try (intro C; left; exact C); rewrite Pc; intro C; contradiction C.
    + apply (pub_same s sp l0 p _ _ _ _ []); try reflexivity; try apply Forall_nil; try (intros; assumption); try (intro C; left; exact C); rewrite Pc; intro C; contradiction C.
    + apply (pub_same s sp l0 p _ _ _ _ [ObTf r o (map_to_odom r o)]); try reflexivity; try (constructor; [exact I|constructor]); try (intros; assumption); try (intro C; left; exact C); rewrite Pc; intro C; contradiction C.
Qed.

Lemma pub_reachable : forall m, reachable cf m -> pub_inv m.
Proof.
  intros m R. assert (Q : heap_inv m /\ pub_inv m); [|apply Q]. revert m R. apply reachable_inv.
  - intros m H. pose proof (heap_reachable m) as Hr. split.
    + apply Hr. exists []. unfold run. rewrite H. reflexivity.
    + apply init_cases in H. destruct H as (s & f & -> & _ & ->). destruct (cf_file cf).
      * split; right; left; reflexivity.
      * split; left; cbn; [reflexivity|split; reflexivity].
  - intros l m m' [I1 I2] H. split; [apply (heap_step l m m'); assumption|apply (pub_step_inv l m m'); assumption].
Qed.

Lemma updates_published : forall m, reachable cf m -> quiescent m -> sh_flag (mp_sh m) = false ->
  (map_current (mp_sh m) \/ pose_since_map (sh_trace (mp_sh m))) /\
  (markers_current cf (mp_sh m) \/ pose_since_markers (sh_trace (mp_sh m))).
Proof.
  intros m R (Q1 & Q2 & Q3) F. destruct (pub_reachable m R) as [H1 H2]. unfold map_due, markers_due in *. rewrite Q1, Q3, F in *.
  cbn [spin_map_due spin_markers_due pub_map_due pub_markers_due] in *.
  assert (false <> true) by discriminate. tauto.
Qed.

Lemma exec_pub : forall ls s sp l p s' p', pub_step cf s p = Some (Ok (s', p')) ->
  exec cf (mkMapper s sp l p) (Pub :: ls) = exec cf (mkMapper s' sp l p') ls.
Proof. intros ls s sp l p s' p' H. cbn [exec step mp_sh mp_pub mp_spin mp_loop]. rewrite H. reflexivity. Qed.

(** When the flag is set and the graph lock is free, the publisher alone
    publishes the current graph within its next six steps. *)
Lemma publishes : forall m g grid msg ms, pb_pc (mp_pub m) = PTop -> sh_flag (mp_sh m) = true -> sh_glock (mp_sh m) = None ->
  the_graph cf (mp_sh m) = Ok g -> occ_get_msg (pb_grid (mp_pub m)) (gr_scans g) = Ok (grid, msg) -> graph_get_msg g [] = Ok ms ->
  exists m', exec cf m [Pub; Pub; Pub; Pub; Pub; Pub] = Ok m' /\ sh_flag (mp_sh m') = false /\
    sh_trace (mp_sh m') = ObMarkers g ms :: ObMap (gr_scans g) msg :: sh_trace (mp_sh m) /\
    sh_scans (mp_sh m') = sh_scans (mp_sh m) /\ sh_heap (mp_sh m') = sh_heap (mp_sh m) /\ sh_cons (mp_sh m') = sh_cons (mp_sh m) /\
    mp_spin m' = mp_spin m /\ mp_loop m' = mp_loop m.
Proof.
  intros m g grid msg ms P F L G O M. destruct (the_graph_length cf _ _ G) as (_ & _ & Gs).
  destruct m as [s sp l [pc gr]]. cbn [mp_sh mp_pub mp_spin mp_loop pb_pc pb_grid] in *. subst pc.
  set (s1 := set_flag s false). set (s2 := set_glock s1 (Some TPub)).
  set (s3 := unlock_g (note s2 (ObMap (gr_scans g) msg))). set (s4 := set_glock s3 (Some TPub)).
  exists (mkMapper (unlock_g (note s4 (ObMarkers g ms))) sp l (mkPub PTf grid)). split.
  { rewrite (exec_pub _ s sp l (mkPub PTop gr) s (mkPub PClear gr)); [|unfold pub_step; cbn [pb_pc]; rewrite F; reflexivity].
    rewrite (exec_pub _ s sp l (mkPub PClear gr) s1 (mkPub PGridLock gr)); [|reflexivity].
    rewrite (exec_pub _ s1 sp l (mkPub PGridLock gr) s2 (mkPub PGrid gr)).
    2: { unfold pub_step, lock_g. cbn [pb_pc]. change (sh_glock s1) with (sh_glock s). rewrite L. reflexivity. }
    rewrite (exec_pub _ s2 sp l (mkPub PGrid gr) s3 (mkPub PGraphLock grid)).
    2: { unfold pub_step. cbn [pb_pc pb_grid]. change (graph_scans s2) with (graph_scans s). rewrite Gs. cbn [bind]. rewrite O. reflexivity. }
    rewrite (exec_pub _ s3 sp l (mkPub PGraphLock grid) s4 (mkPub PGraph grid)); [|reflexivity].
    rewrite (exec_pub _ s4 sp l (mkPub PGraph grid) (unlock_g (note s4 (ObMarkers g ms))) (mkPub PTf grid)); [reflexivity|].
    unfold pub_step. cbn [pb_pc]. change (the_graph cf s4) with (the_graph cf s). rewrite G. cbn [bind]. rewrite M. reflexivity. }
  repeat match goal with |- _ /\ _ => split end; reflexivity.
Qed.

End P.
