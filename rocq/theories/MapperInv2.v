(** Requests and initial poses (C67-C69). *)

From Coq Require Import ZArith List Bool String Lia.
From Verif Require Import Outcome Arith TypesModel ScanModel MatcherModel ConstraintModel
  SolverModel GraphModel OccGridModel MotionModel FilterModel LaserModel MapperModel SpecGraph SpecMapper
  NdtProofs MatcherProofs GraphProofs MapperProofs MapperSteps MapperInv1.
Import ListNotations.

Section P.
Context {T : Type} {A : Arith T}.
Context (cf : config T).

Lemma has_bit_testbit : forall a k, (0 <= k)%Z -> has_bit a (2 ^ k) = Z.testbit a k.
Proof.
  intros a k K. unfold has_bit. destruct (Z.testbit a k) eqn:E.
  - destruct (Z.eqb_spec (Z.land a (2 ^ k)) 0) as [Z0|N]; [|reflexivity].
    exfalso. assert (B : Z.testbit (Z.land a (2 ^ k)) k = false) by (rewrite Z0; apply Z.bits_0).
    rewrite Z.land_spec, E, Z.pow2_bits_true in B by exact K. discriminate B.
  - destruct (Z.eqb_spec (Z.land a (2 ^ k)) 0) as [Z0|N]; [reflexivity|].
    exfalso. apply N. apply Z.bits_inj. intro n. rewrite Z.land_spec, Z.bits_0.
    destruct (Z.eq_dec n k) as [->|D]; [rewrite E; reflexivity|]. rewrite Z.pow2_bits_false by congruence. apply andb_false_r.
Qed.

Lemma configure_eq : forall (s : shared T) sp a file, configure_begin s sp a file =
  (set_init (set_enable s (after_mapping_bits a true false (sh_enable s)))
     (after_mapping_bits a (sh_init s) false (sh_init s)),
   at_pc sp (if Z.testbit a 2 then SLoadLock file else if Z.testbit a 3 then SSaveLock else SIdle)).
Proof.
  intros s sp a file. unfold configure_begin, after_mapping_bits.
  change ENABLE_MAPPING with (2 ^ 0)%Z. change DISABLE_MAPPING with (2 ^ 1)%Z.
  change LOAD_FROM_FILE with (2 ^ 2)%Z. change SAVE_TO_FILE with (2 ^ 3)%Z.
  rewrite !has_bit_testbit by lia. f_equal. destruct s. destruct (Z.testbit a 0), (Z.testbit a 1); reflexivity.
Qed.

(** ** C68 *)

Lemma configure_bits : forall m a file, sp_pc (mp_spin m) = SIdle ->
  exists m1, step cf (Deliver (EvConfigure a file)) m = Some (Ok m1) /\
    sh_enable (mp_sh m1) = after_mapping_bits a true false (sh_enable (mp_sh m)) /\
    sh_init (mp_sh m1) = after_mapping_bits a (sh_init (mp_sh m)) false (sh_init (mp_sh m)) /\
    same_graph (mp_sh m) (mp_sh m1) /\ same_poses (mp_sh m) (mp_sh m1) /\ mutexes m1 = mutexes m /\
    sh_flag (mp_sh m1) = sh_flag (mp_sh m) /\ sh_typical (mp_sh m1) = sh_typical (mp_sh m) /\
    sh_global (mp_sh m1) = sh_global (mp_sh m) /\ sh_trace (mp_sh m1) = sh_trace (mp_sh m) /\
    sp_filter (mp_spin m1) = sp_filter (mp_spin m) /\ mp_loop m1 = mp_loop m /\ mp_pub m1 = mp_pub m /\
    (busy (mp_spin m1) <-> Z.testbit a 2 = true \/ Z.testbit a 3 = true).
Proof.
  intros m a file I. eexists. split.
  - cbn [step]. unfold deliver. rewrite I. cbn [option_map]. rewrite configure_eq. reflexivity.
  - cbn [mp_sh mp_spin mp_loop mp_pub]. split; [reflexivity|]. split; [reflexivity|]. split; [repeat split|].
    split; [split; reflexivity|]. do 8 (split; [reflexivity|]). unfold busy. cbn [sp_pc at_pc].
    destruct (Z.testbit a 2), (Z.testbit a 3); (split; [intro H|intro H]);
      first [discriminate|left; reflexivity|right; reflexivity|exfalso; apply H; reflexivity|destruct H; discriminate].
Qed.

(** Only the four lowest bits matter. *)
Lemma configure_low_bits : forall m a b file, (forall k, (0 <= k < 4)%Z -> Z.testbit a k = Z.testbit b k) ->
  step cf (Deliver (EvConfigure a file)) m = step cf (Deliver (EvConfigure b file)) m.
Proof.
  intros m a b file H. cbn [step]. unfold deliver. destruct (sp_pc (mp_spin m)); try reflexivity. cbn [option_map].
  rewrite !configure_eq. unfold after_mapping_bits. rewrite !H by lia. reflexivity.
Qed.

Lemma deref_app : forall (h more : list (scan T)), mapM (deref (h ++ more)) (seq (List.length h) (List.length more)) = Ok more.
Proof.
  intros h more. revert h. induction more as [|x more IH]; intro h; [reflexivity|]. cbn [List.length seq mapM].
  assert (E : deref (h ++ x :: more) (List.length h) = Ok x).
  { apply deref_nth. rewrite nth_error_app2 by lia. rewrite Nat.sub_diag. reflexivity. }
  rewrite E. cbn [bind]. specialize (IH (h ++ [x])). rewrite <- app_assoc in IH. cbn [app] in IH.
  rewrite app_length in IH. cbn in IH. rewrite Nat.add_1_r in IH. rewrite IH. reflexivity.
Qed.

Lemma graph_load_bary : forall ub (file : list (bag_msg T)), gr_use_bary (graph_load ub file) = ub.
Proof. intros ub file. rewrite graph_load_eq. reflexivity. Qed.

Lemma load_graph_the : forall (s : shared T) file, the_graph cf (load_graph cf s file) = Ok (graph_load (cf_use_bary cf) file).
Proof.
  intros s file. unfold the_graph, graph_scans, load_graph. cbn [sh_heap sh_scans set_heap set_scans set_cons note sh_cons].
  rewrite deref_app. cbn [bind]. pose proof (graph_load_bary (cf_use_bary cf) file) as E.
  destruct (graph_load (cf_use_bary cf) file) as [u sc cs]. cbn in *. rewrite E. reflexivity.
Qed.

Lemma the_graph_ext : forall s s' : shared T, sh_heap s = sh_heap s' -> sh_scans s = sh_scans s' -> sh_cons s = sh_cons s' ->
  the_graph cf s = the_graph cf s'.
Proof. intros s s' E1 E2 E3. unfold the_graph, graph_scans. rewrite E1, E2, E3. reflexivity. Qed.

Lemma exec_deliver_configure : forall m a file ls, sp_pc (mp_spin m) = SIdle ->
  exec cf m (Deliver (EvConfigure a file) :: ls) =
  exec cf (mkMapper (fst (configure_begin (mp_sh m) (mp_spin m) a file)) (snd (configure_begin (mp_sh m) (mp_spin m) a file))
             (mp_loop m) (mp_pub m)) ls.
Proof.
  intros m a file ls I. cbn [exec step]. unfold deliver. rewrite I. cbn [option_map].
  destruct (configure_begin (mp_sh m) (mp_spin m) a file) as [s1 sp1]. reflexivity.
Qed.
Lemma exec_load_lock : forall m file ls, sp_pc (mp_spin m) = SLoadLock file -> sh_glock (mp_sh m) = None ->
  exec cf m (Spin :: ls) = exec cf (mkMapper (set_glock (mp_sh m) (Some TSpin)) (at_pc (mp_spin m) (SLoad file)) (mp_loop m) (mp_pub m)) ls.
Proof. intros m file ls I G. cbn [exec step]. unfold spin_step. rewrite I. unfold lock_g. rewrite G. reflexivity. Qed.
Lemma exec_load : forall m file ls, sp_pc (mp_spin m) = SLoad file ->
  exec cf m (Spin :: ls) = exec cf (mkMapper (unlock_g (set_init (set_flag (load_graph cf (mp_sh m) file) true) false)) (at_pc (mp_spin m) SIdle) (mp_loop m) (mp_pub m)) ls.
Proof. intros m file ls I. cbn [exec step]. unfold spin_step. rewrite I. reflexivity. Qed.
Lemma exec_save_lock : forall m ls, sp_pc (mp_spin m) = SSaveLock -> sh_glock (mp_sh m) = None ->
  exec cf m (Spin :: ls) = exec cf (mkMapper (set_glock (mp_sh m) (Some TSpin)) (at_pc (mp_spin m) SSave) (mp_loop m) (mp_pub m)) ls.
Proof. intros m ls I G. cbn [exec step]. unfold spin_step. rewrite I. unfold lock_g. rewrite G. reflexivity. Qed.
Lemma exec_save : forall m g ls, sp_pc (mp_spin m) = SSave -> the_graph cf (mp_sh m) = Ok g ->
  exec cf m (Spin :: ls) = exec cf (mkMapper (unlock_g (note (mp_sh m) (ObSave (graph_save g)))) (at_pc (mp_spin m) SIdle) (mp_loop m) (mp_pub m)) ls.
Proof. intros m g ls I G. cbn [exec step]. unfold spin_step. rewrite I, G. reflexivity. Qed.

Lemma configure_load : forall m a file, sp_pc (mp_spin m) = SIdle -> sh_glock (mp_sh m) = None -> Z.testbit a 2 = true ->
  exists m2, exec cf m [Deliver (EvConfigure a file); Spin; Spin] = Ok m2 /\
    ~ busy (mp_spin m2) /\ the_graph cf (mp_sh m2) = Ok (graph_load (cf_use_bary cf) file) /\
    sh_flag (mp_sh m2) = true /\ sh_init (mp_sh m2) = false /\
    sh_enable (mp_sh m2) = after_mapping_bits a true false (sh_enable (mp_sh m)) /\
    same_poses (mp_sh m) (mp_sh m2) /\ mutexes m2 = mutexes m /\
    sh_typical (mp_sh m2) = sh_typical (mp_sh m) /\ sh_global (mp_sh m2) = sh_global (mp_sh m) /\
    sh_trace (mp_sh m2) = ObLoad :: sh_trace (mp_sh m) /\
    sp_filter (mp_spin m2) = sp_filter (mp_spin m) /\ mp_loop m2 = mp_loop m /\ mp_pub m2 = mp_pub m.
Proof.
  intros m a file I G B.
  rewrite exec_deliver_configure by exact I.
  remember (configure_begin (mp_sh m) (mp_spin m) a file) as r eqn:R. rewrite configure_eq, B in R.
  erewrite exec_load_lock; [|subst r; reflexivity|subst r; exact G].
  erewrite exec_load; [|reflexivity]. cbn [mp_sh mp_spin mp_loop mp_pub exec].
  eexists. split; [reflexivity|]. cbn [mp_sh mp_spin mp_loop mp_pub].
  split; [intro H; apply H; reflexivity|]. split.
  { erewrite the_graph_ext; [apply load_graph_the| | |]; cbn [sh_heap sh_scans sh_cons unlock_g set_glock set_init set_flag]; reflexivity. }
  subst r. unfold mutexes, same_poses. cbn [fst snd mp_sh mp_spin sh_flag sh_init sh_enable sh_glock sh_plock sh_typical sh_global sh_trace sh_robot sh_odom sp_filter at_pc unlock_g set_glock set_init set_flag set_enable load_graph note set_cons set_scans set_heap].
  rewrite G. repeat match goal with |- _ /\ _ => split end; reflexivity.
Qed.

Lemma configure_save : forall m a file g, sp_pc (mp_spin m) = SIdle -> sh_glock (mp_sh m) = None ->
  Z.testbit a 2 = false -> Z.testbit a 3 = true -> the_graph cf (mp_sh m) = Ok g ->
  exists m2, exec cf m [Deliver (EvConfigure a file); Spin; Spin] = Ok m2 /\
    ~ busy (mp_spin m2) /\ same_graph (mp_sh m) (mp_sh m2) /\ same_poses (mp_sh m) (mp_sh m2) /\
    sh_flag (mp_sh m2) = sh_flag (mp_sh m) /\
    sh_init (mp_sh m2) = after_mapping_bits a (sh_init (mp_sh m)) false (sh_init (mp_sh m)) /\
    sh_enable (mp_sh m2) = after_mapping_bits a true false (sh_enable (mp_sh m)) /\
    mutexes m2 = mutexes m /\ sh_typical (mp_sh m2) = sh_typical (mp_sh m) /\ sh_global (mp_sh m2) = sh_global (mp_sh m) /\
    sh_trace (mp_sh m2) = ObSave (graph_save g) :: sh_trace (mp_sh m) /\
    sp_filter (mp_spin m2) = sp_filter (mp_spin m) /\ mp_loop m2 = mp_loop m /\ mp_pub m2 = mp_pub m.
Proof.
  intros m a file g I G B1 B2 Gr.
  rewrite exec_deliver_configure by exact I.
  remember (configure_begin (mp_sh m) (mp_spin m) a file) as r eqn:R. rewrite configure_eq, B1, B2 in R.
  erewrite exec_save_lock; [|subst r; reflexivity|subst r; exact G].
  erewrite (exec_save _ g); [|reflexivity|].
  2: { rewrite <- Gr. subst r. apply the_graph_ext; cbn [fst snd mp_sh sh_heap sh_scans sh_cons set_glock set_init set_enable]; reflexivity. }
  eexists. split; [reflexivity|]. subst r. cbn [mp_sh mp_spin mp_loop mp_pub].
  split; [intro H; apply H; reflexivity|]. unfold mutexes, same_poses, same_graph.
  cbn [fst snd mp_sh mp_spin sh_heap sh_scans sh_cons sh_flag sh_init sh_enable sh_glock sh_plock sh_typical sh_global sh_trace sh_robot sh_odom sp_filter at_pc unlock_g set_glock set_init set_flag set_enable note].
  rewrite G. repeat match goal with |- _ /\ _ => split end; reflexivity.
Qed.

(** ** C67 *)

Definition file_pc (pc : spin_pc T) : bool :=
  match pc with SIdle | SLoadLock _ | SLoad _ | SSaveLock | SSave => true | _ => false end.

Definition paused_since (m0 m : mapper T) : Prop :=
  sh_init (mp_sh m) = false /\ file_pc (sp_pc (mp_spin m)) = true /\ same_poses (mp_sh m0) (mp_sh m) /\
  sp_filter (mp_spin m) = sp_filter (mp_spin m0) /\
  exists new, sh_trace (mp_sh m) = new ++ sh_trace (mp_sh m0) /\ Forall (fun o => ~ mapping_obs o) new /\
    (In ObLoad new \/ (sh_scans (mp_sh m) = sh_scans (mp_sh m0) /\ only_poses (sh_heap (mp_sh m0)) (sh_heap (mp_sh m)))).

Lemma paused_note : forall m0 m s' sp' l' p' o, paused_since m0 m -> ~ mapping_obs o ->
  sh_init s' = false -> file_pc (sp_pc sp') = true -> same_poses (mp_sh m) s' -> sp_filter sp' = sp_filter (mp_spin m) ->
  sh_trace s' = o :: sh_trace (mp_sh m) ->
  (o = ObLoad \/ (sh_scans s' = sh_scans (mp_sh m) /\ only_poses (sh_heap (mp_sh m)) (sh_heap s'))) ->
  paused_since m0 (mkMapper s' sp' l' p').
Proof.
  intros m0 m s' sp' l' p' o (I1 & I2 & [I3 I3'] & I4 & new & I5 & I6 & I7) No In' Pc [P1 P2] F Tr H.
  repeat split; cbn [mp_sh mp_spin]; try congruence.
  exists (o :: new). split; [rewrite Tr, I5; reflexivity|]. split; [constructor; assumption|].
  destruct H as [->|[H1 H2]]; [left; left; reflexivity|].
  destruct I7 as [I7|[I7 I8]]; [left; right; exact I7|right]. split; [congruence|]. apply (only_poses_trans _ _ _ I8 H2).
Qed.
Lemma paused_same : forall m0 m s' sp' l' p', paused_since m0 m ->
  sh_init s' = false -> file_pc (sp_pc sp') = true -> same_poses (mp_sh m) s' -> sp_filter sp' = sp_filter (mp_spin m) ->
  sh_trace s' = sh_trace (mp_sh m) -> sh_scans s' = sh_scans (mp_sh m) -> only_poses (sh_heap (mp_sh m)) (sh_heap s') ->
  paused_since m0 (mkMapper s' sp' l' p').
Proof.
  intros m0 m s' sp' l' p' (I1 & I2 & [I3 I3'] & I4 & new & I5 & I6 & I7) In' Pc [P1 P2] F Tr H1 H2.
  repeat split; cbn [mp_sh mp_spin]; try congruence.
  exists new. split; [rewrite Tr, I5; reflexivity|]. split; [assumption|].
  destruct I7 as [I7|[I7 I8]]; [left; exact I7|right]. split; [congruence|]. apply (only_poses_trans _ _ _ I8 H2).
Qed.

Lemma paused_step : forall m0 l m m', ~ is_pose l -> paused_since m0 m -> step_tr cf m l m' -> paused_since m0 m'.
Proof.
  intros m0 l m m' Np P H. pose proof P as (I1 & I2 & I3 & I4 & _).
  destruct H as [e s' sp' Id D|s' sp' D|s' l' D|s' p' D].
  - destruct D; try (cbn in Np; contradiction).
    + apply (paused_same m0 m); try assumption; try (split; reflexivity); try reflexivity.
      * match goal with E : sp_pc sp' = SIdle |- _ => rewrite E end. reflexivity.
      * apply only_poses_refl.
    + congruence.
    + rewrite configure_eq. cbn [fst snd]. apply (paused_same m0 m); try assumption; try (split; reflexivity); try reflexivity.
      * cbn [sh_init set_init set_enable]. rewrite I1. unfold after_mapping_bits. destruct (Z.testbit a 0), (Z.testbit a 1); reflexivity.
      * cbn [at_pc sp_pc]. destruct (Z.testbit a 2), (Z.testbit a 3); reflexivity.
      * apply only_poses_refl.
  - destruct D; match goal with E : sp_pc _ = _ |- _ => rewrite E in I2 end; try discriminate I2.
    + apply (paused_same m0 m); try assumption; try (split; reflexivity); try reflexivity. apply only_poses_refl.
    + apply (paused_note m0 m _ _ _ _ ObLoad); try assumption; try (split; reflexivity); try reflexivity; first [intro F; exact F|left; reflexivity].
    + apply (paused_same m0 m); try assumption; try (split; reflexivity); try reflexivity. apply only_poses_refl.
    + apply (paused_note m0 m _ _ _ _ (ObSave (graph_save g))); try assumption; try (split; reflexivity); try reflexivity;
        first [intro F; exact F|right; split; [reflexivity|apply only_poses_refl]].
  - pose proof (loop_frame cf _ _ (T_loop cf m s' l' D)) as (F1 & F2 & F3 & _ & _ & _ & _ & F4 & _). cbn [mp_sh] in *.
    destruct D; try (apply (paused_same m0 m); try assumption; try reflexivity; fail).
    + apply (paused_note m0 m _ _ _ _ (ObMatch (lp_done (mp_loop m)) (Z.of_nat i) score (sh_typical (mp_sh m)) true)); try assumption; try reflexivity; first [intro F; exact F|right; split; assumption].
    + apply (paused_note m0 m _ _ _ _ (ObMatch (lp_done (mp_loop m)) (Z.of_nat i) score (sh_typical (mp_sh m)) false)); try assumption; try reflexivity; first [intro F; exact F|right; split; assumption].
    + apply (paused_note m0 m _ _ _ _ (ObMove (lc_scan c) q)); try assumption; try reflexivity; first [intro F; exact F|right; split; assumption].
    + apply (paused_note m0 m _ _ _ _ (ObConstraint ALoop k)); try assumption; try reflexivity; first [intro F; exact F|right; split; assumption].
    + apply (paused_note m0 m _ _ _ _ (ObOptimize (List.length scans))); try assumption; try reflexivity;
        first [intro F; exact F|rewrite F4; exact I1|right; split; assumption|
          destruct (put_all_frame (sh_scans (mp_sh m)) scans' (mp_sh m)) as [h ->]; reflexivity].
  - pose proof (pub_frame cf _ _ (T_pub cf m s' p' D)) as ((F1 & F2 & F3) & F4 & _ & _ & _ & _ & F5 & _). cbn [mp_sh] in *.
    assert (F1' : only_poses (sh_heap (mp_sh m)) (sh_heap s')) by (rewrite F1; apply only_poses_refl).
    destruct D; try (apply (paused_same m0 m); try assumption; try reflexivity; fail).
    + apply (paused_note m0 m _ _ _ _ (ObMap scans m1)); try assumption; try reflexivity; first [intro F; exact F|right; split; assumption].
    + apply (paused_note m0 m _ _ _ _ (ObMarkers g ms)); try assumption; try reflexivity; first [intro F; exact F|right; split; assumption].
    + apply (paused_note m0 m _ _ _ _ (ObTf r o (map_to_odom r o))); try assumption; try reflexivity; first [intro F; exact F|right; split; assumption].
Qed.

Lemma paused_exec : forall m ls m', sh_init (mp_sh m) = false -> ~ busy (mp_spin m) ->
  Forall (fun l => ~ is_pose l) ls -> exec cf m ls = Ok m' -> paused_since m m'.
Proof.
  intros m ls m' I B F E.
  assert (Pc : sp_pc (mp_spin m) = SIdle). { unfold busy in B. destruct (sp_pc (mp_spin m)); try reflexivity; exfalso; apply B; discriminate. }
  apply (exec_inv_labels cf (fun l => ~ is_pose l) (paused_since m)) with (ls := ls) (m := m); try assumption.
  - intros l k k' H. apply paused_step. exact H.
  - split; [exact I|]. split; [rewrite Pc; reflexivity|]. split; [split; reflexivity|]. split; [reflexivity|].
    exists []. split; [reflexivity|]. split; [constructor|]. right. split; [reflexivity|apply only_poses_refl].
Qed.

(** Where a pause starts. *)
Lemma load_pauses : forall m m', step cf Spin m = Some (Ok m') -> sh_trace (mp_sh m') = ObLoad :: sh_trace (mp_sh m) ->
  sh_init (mp_sh m') = false /\ ~ busy (mp_spin m').
Proof.
  intros m m' H Tr. apply step_cases in H. inversion H as [|s' sp' D| |]; subst. cbn [mp_sh mp_spin] in *.
  assert (ne : forall (l : list (obs T)) x, x :: l = l -> False) by (intros l x E; apply (f_equal (@List.length _)) in E; cbn in E; lia).
  destruct D; cbn in Tr; try (exfalso; apply (ne _ _ (eq_sym Tr)); fail); try discriminate Tr.
  all: try (match type of Tr with context [if ?b then _ else _] => destruct b end; discriminate Tr).
  split; [reflexivity|]. intro B. apply B. reflexivity.
Qed.

Lemma init_pauses : forall m file, mapper_init cf = Ok m -> cf_file cf = Some file ->
  sh_init (mp_sh m) = false /\ ~ busy (mp_spin m).
Proof.
  intros m file H E. apply init_cases in H. destruct H as (s & f & -> & _ & ->). rewrite E. cbn.
  split; [reflexivity|]. intro B. apply B. reflexivity.
Qed.

(** ** C69 *)

Lemma pose_ignored : forall m e, sp_pc (mp_spin m) = SIdle ->
  (sh_enable (mp_sh m) = true /\ sh_init (mp_sh m) = true) \/ pe_frame e <> "map"%string \/ pe_odom e = None ->
  step cf (Deliver (EvPose e)) m = Some (Ok m).
Proof.
  intros m e I H. cbn [step]. unfold deliver. rewrite I. cbn [option_map].
  assert (E : pose_begin (mp_sh m) (mp_spin m) e = Ok (mp_sh m, mp_spin m)).
  { unfold pose_begin. destruct H as [[-> ->]|[H|H]]; [reflexivity| |].
    - destruct (sh_enable (mp_sh m) && sh_init (mp_sh m)); [reflexivity|].
      destruct (String.eqb_spec (pe_frame e) "map"); [contradiction|reflexivity].
    - rewrite H. destruct (sh_enable (mp_sh m) && sh_init (mp_sh m)); [reflexivity|].
      destruct (negb _); reflexivity. }
  rewrite E. destruct m. reflexivity.
Qed.

Lemma exec_graph_lock : forall m e odom ls, sp_pc (mp_spin m) = SGraphLock e odom -> sh_glock (mp_sh m) = None ->
  exec cf m (Spin :: ls) = exec cf (mkMapper (set_glock (mp_sh m) (Some TSpin)) (at_pc (mp_spin m) (SGraph e odom)) (mp_loop m) (mp_pub m)) ls.
Proof. intros m e odom ls I G. cbn [exec step]. unfold spin_step. rewrite I. unfold lock_g. rewrite G. reflexivity. Qed.
Lemma exec_graph : forall m e odom s' ok ls, sp_pc (mp_spin m) = SGraph e odom -> pose_graph cf (mp_sh m) e = Ok (s', ok) ->
  exec cf m (Spin :: ls) = exec cf (mkMapper (unlock_g s') (at_pc (mp_spin m) (if ok : bool then SInitRobot (from_msg (pe_pose e)) odom else SIdle)) (mp_loop m) (mp_pub m)) ls.
Proof. intros m e odom s' ok ls I G. cbn [exec step]. unfold spin_step. rewrite I, G. reflexivity. Qed.
Lemma exec_idle : forall m ls, sp_pc (mp_spin m) = SIdle -> exec cf m (Spin :: ls) = exec cf m ls.
Proof. intros m ls I. cbn [exec step]. unfold spin_step. rewrite I. reflexivity. Qed.
Lemma exec_init : forall m r o, sp_pc (mp_spin m) = SInitRobot r o ->
  exec cf m [Spin; Spin; Spin] = Ok (mkMapper (note (set_init (set_odom (set_robot (mp_sh m) r) o) true) (ObInit r o))
    (at_pc (at_pc (at_pc (mp_spin m) (SInitOdom r o)) (SInitDone r o)) SIdle) (mp_loop m) (mp_pub m)).
Proof. intros m r o I. cbn [exec step]. unfold spin_step at 1. rewrite I. reflexivity. Qed.

Lemma exec_deliver_pose : forall m e t ls, sp_pc (mp_spin m) = SIdle -> sh_enable (mp_sh m) && sh_init (mp_sh m) = false ->
  pe_frame e = "map"%string -> pe_odom e = Some t -> sp_filter (mp_spin m) = None ->
  exec cf m (Deliver (EvPose e) :: ls) = exec cf (mkMapper (mp_sh m) (at_pc (mp_spin m)
    (if sh_enable (mp_sh m) then SGraphLock e (from_msg t) else SInitRobot (from_msg (pe_pose e)) (from_msg t))) (mp_loop m) (mp_pub m)) ls.
Proof.
  intros m e t ls I H F O N. cbn [exec step]. unfold deliver. rewrite I. cbn [option_map].
  unfold pose_begin. rewrite H, F, O, N. cbn [String.eqb Ascii.eqb Bool.eqb negb]. destruct (sh_enable (mp_sh m)); reflexivity.
Qed.

(** Localization without mapping: only the tracked poses change. *)
Lemma pose_localizes : forall m e t, sp_pc (mp_spin m) = SIdle -> sh_enable (mp_sh m) = false ->
  pe_frame e = "map"%string -> pe_odom e = Some t -> sp_filter (mp_spin m) = None ->
  exists m2, exec cf m [Deliver (EvPose e); Spin; Spin; Spin] = Ok m2 /\ ~ busy (mp_spin m2) /\
    same_graph (mp_sh m) (mp_sh m2) /\ sh_robot (mp_sh m2) = from_msg (pe_pose e) /\ sh_odom (mp_sh m2) = from_msg t /\
    sh_init (mp_sh m2) = true.
Proof.
  intros m e t I En F O N. rewrite (exec_deliver_pose m e t) by (try assumption; rewrite En; reflexivity). rewrite En.
  erewrite exec_init by reflexivity. eexists. split; [reflexivity|]. split; [intro B; apply B; reflexivity|]. repeat split.
Qed.

(** With the particle filter: the filter is initialised at the given pose. *)
Lemma pose_filter : forall m e t f f', sp_pc (mp_spin m) = SIdle -> sh_enable (mp_sh m) && sh_init (mp_sh m) = false ->
  pe_frame e = "map"%string -> pe_odom e = Some t -> sp_filter (mp_spin m) = Some f ->
  filter_init (pe_normal e) (ps_x (pe_pose e)) (ps_y (pe_pose e)) (poth (from_msg (pe_pose e)))
    (nsqrt (pe_c0 e)) (nsqrt (pe_c7 e)) (nsqrt (pe_c35 e)) f = Ok f' ->
  exists m2, exec cf m [Deliver (EvPose e); Spin; Spin; Spin] = Ok m2 /\ ~ busy (mp_spin m2) /\
    same_graph (mp_sh m) (mp_sh m2) /\ sh_robot (mp_sh m2) = from_msg (pe_pose e) /\ sh_odom (mp_sh m2) = from_msg t /\
    sh_init (mp_sh m2) = true /\ sp_filter (mp_spin m2) = Some f'.
Proof.
  intros m e t f f' I H F O N Fi.
  assert (E : exec cf m [Deliver (EvPose e); Spin; Spin; Spin] =
    exec cf (mkMapper (mp_sh m) (at_pc (with_filter (mp_spin m) (Some f')) (SInitRobot (from_msg (pe_pose e)) (from_msg t))) (mp_loop m) (mp_pub m)) [Spin; Spin; Spin]).
  { cbn [exec step]. unfold deliver. rewrite I. cbn [option_map]. unfold pose_begin. rewrite H, F, O, N, Fi. reflexivity. }
  rewrite E. erewrite exec_init by reflexivity. eexists. split; [reflexivity|]. split; [intro B; apply B; reflexivity|]. repeat split.
Qed.

Lemma mapM_deref_app : forall (h : list (scan T)) a ps xs, mapM (deref h) ps = Ok xs -> mapM (deref (h ++ [a])) ps = Ok xs.
Proof.
  intros h a ps. induction ps as [|p ps IH]; intros xs Gs; cbn [mapM] in *; [exact Gs|].
  apply bind_ok in Gs. destruct Gs as (x & D & Gs). apply bind_ok in Gs. destruct Gs as (ys & Gs & E).
  assert (D' : deref (h ++ [a]) p = Ok x).
  { apply deref_nth in D. apply deref_nth. rewrite nth_error_app1; [exact D|]. apply nth_error_Some. rewrite D. discriminate. }
  rewrite D'. cbn [bind]. rewrite (IH ys Gs). cbn [bind]. exact E.
Qed.

(** Mapping: the two cases. *)
Lemma pose_connects : forall m e t g near, sp_pc (mp_spin m) = SIdle -> sh_glock (mp_sh m) = None ->
  sh_enable (mp_sh m) = true -> sh_init (mp_sh m) = false ->
  pe_frame e = "map"%string -> pe_odom e = Some t -> sp_filter (mp_spin m) = None ->
  the_graph cf (mp_sh m) = Ok g ->
  let sc := scan_set_pose (scan_new (num_scans (mp_sh m))) (from_msg (pe_pose e)) in
  find_nearest (en_search cf) g sc (nofZ 10) (-1) = Ok near ->
  (near = [] -> exists m2, exec cf m [Deliver (EvPose e); Spin; Spin] = Ok m2 /\ ~ busy (mp_spin m2) /\
    same_graph (mp_sh m) (mp_sh m2) /\ same_poses (mp_sh m) (mp_sh m2) /\ sh_init (mp_sh m2) = false) /\
  (forall i rest from, near = i :: rest -> nth_error (gr_scans g) i = Some from ->
   exists m2, exec cf m [Deliver (EvPose e); Spin; Spin; Spin; Spin; Spin] = Ok m2 /\ ~ busy (mp_spin m2) /\
    the_graph cf (mp_sh m2) = Ok (mkGraph (gr_use_bary g) (gr_scans g ++ [sc])
      (gr_constraints g ++ [make_constraint from sc (diag3 (pe_c0 e) (pe_c7 e) (pe_c35 e))])) /\
    sh_robot (mp_sh m2) = from_msg (pe_pose e) /\ sh_odom (mp_sh m2) = from_msg t /\ sh_init (mp_sh m2) = true).
Proof.
  intros m e t g near I G En In' F O N Gr sc Ne.
  assert (Gr' : the_graph cf (set_glock (mp_sh m) (Some TSpin)) = Ok g).
  { rewrite <- Gr. apply the_graph_ext; reflexivity. }
  assert (D : forall ls, exec cf m (Deliver (EvPose e) :: Spin :: ls) =
    exec cf (mkMapper (set_glock (mp_sh m) (Some TSpin)) (at_pc (at_pc (mp_spin m) (SGraphLock e (from_msg t))) (SGraph e (from_msg t))) (mp_loop m) (mp_pub m)) ls).
  { intro ls. rewrite (exec_deliver_pose m e t) by (try assumption; rewrite In'; apply andb_false_r). rewrite En.
    erewrite exec_graph_lock; [reflexivity|reflexivity|exact G]. }
  split.
  - intros ->. rewrite D.
    erewrite (exec_graph _ _ _ _ false); [|reflexivity|].
    2: { unfold pose_graph. cbn [mp_sh]. rewrite Gr'. cbn [bind]. change (num_scans (set_glock (mp_sh m) (Some TSpin))) with (num_scans (mp_sh m)).
         fold sc. rewrite Ne. cbn [bind]. reflexivity. }
    eexists. split; [reflexivity|]. split; [intro B; apply B; reflexivity|]. split; [repeat split|]. split; [split; reflexivity|exact In'].
  - intros i rest from -> Fr. rewrite D.
    assert (Lt : nth_error (gr_scans g ++ [sc]) i = Some from).
    { rewrite nth_error_app1; [exact Fr|]. apply nth_error_Some. rewrite Fr. discriminate. }
    erewrite (exec_graph _ _ _ _ true); [|reflexivity|].
    2: { unfold pose_graph. cbn [mp_sh]. rewrite Gr'. cbn [bind]. change (num_scans (set_glock (mp_sh m) (Some TSpin))) with (num_scans (mp_sh m)).
         fold sc. rewrite Ne. cbn [bind]. unfold alloc. cbv beta iota zeta. pose proof (proj2 (deref_nth _ _ _) Lt) as V. unfold deref in V.
         rewrite V. cbn [bind]. reflexivity. }
    erewrite exec_init by reflexivity.
    eexists. split; [reflexivity|]. split; [intro B; apply B; reflexivity|]. split; [|repeat split].
    cbn [mp_sh]. unfold the_graph, graph_scans.
    cbn [sh_heap sh_scans sh_cons note set_init set_odom set_robot unlock_g set_glock set_cons set_scans set_heap].
    unfold the_graph in Gr. apply bind_ok in Gr. destruct Gr as (scans & Gs & Gr). injection Gr as <-. cbn [gr_use_bary gr_scans gr_constraints].
    assert (M : mapM (deref (sh_heap (mp_sh m) ++ [sc])) (sh_scans (mp_sh m) ++ [List.length (sh_heap (mp_sh m))]) = Ok (scans ++ [sc])).
    { rewrite mapM_app. 
      assert (M1 : mapM (deref (sh_heap (mp_sh m) ++ [sc])) (sh_scans (mp_sh m)) = Ok scans).
      { apply mapM_deref_app. exact Gs. }
      rewrite M1. cbn [bind mapM].
      assert (D' : deref (sh_heap (mp_sh m) ++ [sc]) (List.length (sh_heap (mp_sh m))) = Ok sc).
      { apply deref_nth. rewrite nth_error_app2 by lia. rewrite Nat.sub_diag. reflexivity. }
      rewrite D'. reflexivity. }
    fold sc. rewrite M. reflexivity.
Qed.

(** ** C71 *)

Lemma region_before : forall (i : nat) (rolling : Z) (scans : list (scan T)), (Z.of_nat i < rolling)%Z -> (i < List.length scans)%nat ->
  region i rolling scans = Ok (before_and_at i scans).
Proof.
  intros i rolling scans R L. unfold region. destruct (Z.ltb_spec (Z.of_nat i) rolling); [|lia].
  destruct i as [|j]; cbn [Nat.ltb Nat.leb before_and_at].
  - destruct (Nat.leb_spec (0 + 1) (List.length scans)); [|lia]. reflexivity.
  - replace (Datatypes.S j - 1)%nat with j by lia. replace (Datatypes.S j + 1 - j)%nat with 2%nat by lia.
    destruct (Nat.leb_spec (Datatypes.S j + 1) (List.length scans)); [reflexivity|lia].
Qed.

Lemma graph_scans_nth : forall (s : shared T) scans i p, graph_scans s = Ok scans -> nth_error (sh_scans s) i = Some p ->
  exists sc, nth_error scans i = Some sc /\ nth_error (sh_heap s) p = Some sc.
Proof.
  intros s scans i p. unfold graph_scans. generalize (sh_scans s) as ps. intro ps. revert scans i.
  induction ps as [|a ps IH]; intros scans i G N; [destruct i; discriminate N|].
  cbn [mapM] in G. apply bind_ok in G. destruct G as (x & D & G). apply bind_ok in G. destruct G as (xs & G & E). injection E as <-.
  destruct i as [|i]; cbn [nth_error] in *.
  - injection N as ->. exists x. split; [reflexivity|]. apply deref_nth. exact D.
  - apply (IH xs i G N).
Qed.

Lemma graph_scans_nth' : forall (s : shared T) scans i sc, graph_scans s = Ok scans -> nth_error scans i = Some sc ->
  exists p, nth_error (sh_scans s) i = Some p /\ nth_error (sh_heap s) p = Some sc.
Proof.
  intros s scans i sc. unfold graph_scans. generalize (sh_scans s) as ps. intro ps. revert scans i.
  induction ps as [|a ps IH]; intros scans i G N; cbn [mapM] in G.
  - injection G as <-. destruct i; discriminate N.
  - apply bind_ok in G. destruct G as (x & D & G). apply bind_ok in G. destruct G as (xs & G & E). injection E as <-.
    destruct i as [|i]; cbn [nth_error] in *.
    + injection N as ->. exists a. split; [reflexivity|]. apply deref_nth. exact D.
    + apply (IH xs i G N).
Qed.

Lemma region_step : forall m m' c i scans cand, lp_pc (mp_loop m) = LRegion c i ->
  (Z.of_nat i < rolling_start cf (mp_loop m))%Z -> step cf Loop m = Some (Ok m') ->
  graph_scans (mp_sh m) = Ok scans -> nth_error scans i = Some cand -> s_pts cand <> [] ->
  exists g g', sh_global (mp_sh m) = Some g /\ sh_global (mp_sh m') = Some g' /\
    add_scans (en_eig cf) (matcher_reset g) (before_and_at i scans) = Ok g'.
Proof.
  intros m m' c i scans cand Pc R H G N P. apply step_cases in H. inversion H as [| |s' l' D|]; subst. cbn [mp_sh].
  destruct D; try congruence.
  - exfalso. match goal with H1 : lp_pc _ = LRegion _ _, H2 : lp_pc _ = LRegion _ _ |- _ => rewrite H1 in H2; injection H2 as <- <- end.
    destruct (graph_scans_nth _ _ _ _ G ltac:(eassumption)) as (sc' & N' & D').
    rewrite N in N'. injection N' as <-. congruence.
  - match goal with H1 : lp_pc _ = LRegion _ _, H2 : lp_pc _ = LRegion _ _ |- _ => rewrite H1 in H2; injection H2 as <- <- end.
    rewrite G in *. match goal with H : Ok _ = Ok _ |- _ => injection H as <- end.
    match goal with H : region _ _ _ = _ |- _ => rewrite region_before in H end;
      [|exact R|apply nth_error_Some; rewrite N; discriminate].
    match goal with H : Ok _ = Ok reg |- _ => injection H as <- end.
    exists g, g'. split; [assumption|]. split; [reflexivity|assumption].
Qed.

End P.
