(** Which failures are possible: the steps of the node. *)

From Coq Require Import ZArith List Bool String Lia.
From Verif Require Import Outcome Arith TypesModel CellModel ScanModel NdtModel MatcherModel ConstraintModel
  SolverModel GraphModel OccGridModel KdModel MotionModel FilterModel LaserModel MapperModel SpecMapper SpecMapper4 SpecSafe SpecGraph
  NdtProofs MatcherProofs FilterProofs GraphProofs MapperProofs MapperSteps MapperInv1 MapperInv2 MapperInv3 MapperInv5 MapperInv6 MapperInv9 MapperInv10 SafeProofs.
Import ListNotations.
Local Open Scope outcome_scope.

Section P.
Context {T : Type} {A : Arith T}.
Context (cf : config T).
Context (Sane : sane cf) (Sr : search_in_range (en_search cf)) (Ch : chained_start cf) (Go : good_start cf) (Fr : fresh_matchers cf).

Lemma Dp : (0 <= cf_depth cf)%Z.
Proof. destruct Sane as [H _]. lia. Qed.

(** ** The maps of the matchers and the particles *)
Definition parts_ok (s : shared T) (sp : spin T) : Prop :=
  (forall k, sp_local sp = Some k -> grid_ok k) /\ (forall k, sh_global s = Some k -> grid_ok k) /\ (forall f, sp_filter sp = Some f -> filter_ok f).

Lemma fresh_grid : forall k : matcher T, k_ndt k = None -> grid_ok k.
Proof. intros k H g E. rewrite H in E. discriminate E. Qed.

Lemma segment : forall {X} (l : list X) b n, exists before after, l = before ++ firstn n (skipn b l) ++ after.
Proof. intros X l b n. exists (firstn b l), (skipn n (skipn b l)). rewrite firstn_skipn, firstn_skipn. reflexivity. Qed.
Lemma whole : forall {X} (l : list X), exists before after, l = before ++ l ++ after.
Proof. intros X l. exists [], []. rewrite app_nil_r. reflexivity. Qed.

Definition range_of (sp : spin T) (e : laser_ev T) : T :=
  if nlt (sp_range_max sp) nzero then lr_range_max (le_msg e) else sp_range_max sp.

Lemma learn_parts : forall s sp e s1 sp1, parts_ok s sp ->
  (forall scans, graph_scans s = Ok scans -> cells_fit (en_global cf (sp_range_max sp)) scans) ->
  learn_laser cf s sp e = Ok (Some (s1, sp1)) -> parts_ok s1 sp1.
Proof.
  intros s sp e s1 sp1 (P1 & P2 & P3) C H. unfold learn_laser in H.
  destruct (sp_frame sp =? "")%string; [|injection H as <- <-; exact (conj P1 (conj P2 P3))].
  destruct (le_laser e) as [t|]; [|discriminate H]. cbv zeta in H.
  destruct (use_filter cf || negb (sh_enable s)).
  - apply bind_ok in H. destruct H as (scans & G & H). apply bind_ok in H. destruct H as (g' & M & H). injection H as <- <-.
    split; [|split]; cbn [sp_local sp_filter sh_global set_global].
    + intros k E. injection E as <-. apply fresh_grid. apply Fr.
    + intros k E. injection E as <-. exact (add_scans_grid _ _ _ _ (C scans G) M).
    + exact P3.
  - injection H as <- <-. split; [|split]; cbn [sp_local sp_filter sh_global set_global].
    + intros k E. injection E as <-. apply fresh_grid. apply Fr.
    + intros k E. injection E as <-. apply fresh_grid. apply Fr.
    + exact P3.
Qed.

Lemma laser_parts : forall s sp e s' sp', parts_ok s sp ->
  (forall scans, graph_scans s = Ok scans -> cells_fit (en_global cf (range_of sp e)) scans) ->
  laser_begin cf s sp e = Ok (s', sp') -> parts_ok s' sp'.
Proof.
  intros s sp e s' sp' P C H. unfold laser_begin in H. apply bind_ok in H. destruct H as (r & L & H).
  destruct r as [[s1 sp1]|]; [|injection H as <- <-; exact P].
  assert (P1 : parts_ok s1 sp1) by (apply (learn_parts s (learn_range sp (le_msg e)) e); assumption).
  destruct (sh_init s1); [|injection H as <- <-; exact P1].
  destruct (le_start e) as [start|]; [|injection H as <- <-; exact P1].
  destruct (guess_pose cf s1 (from_msg start)) as [guess|]; [|injection H as <- <-; exact P1].
  apply bind_ok in H. destruct H as (ns & _ & H).
  destruct (le_end e ns) as [end_|]; [|injection H as <- <-; exact P1].
  apply bind_ok in H. destruct H as (pts & _ & H). unfold alloc in H. cbv beta iota zeta in H. injection H as <- <-. exact P1.
Qed.

(** The scans of a state that can be dereferenced. *)
Lemma pose_parts : forall s sp e s' sp', parts_ok s sp -> pose_begin s sp e = Ok (s', sp') -> parts_ok s' sp'.
Proof.
  intros s sp e s' sp' P H. unfold pose_begin in H.
  destruct (sh_enable s && sh_init s); [injection H as <- <-; exact P|].
  destruct (negb (pe_frame e =? "map")%string); [injection H as <- <-; exact P|].
  destruct (pe_odom e) as [t|]; [|injection H as <- <-; exact P].
  destruct (sp_filter sp) as [f|] eqn:F.
  - apply bind_ok in H. destruct H as (f' & E & H). injection H as <- <-. destruct P as (P1 & P2 & P3).
    destruct (filter_init_ok (pe_normal e) (ps_x (pe_pose e)) (ps_y (pe_pose e)) (poth (from_msg (pe_pose e))) (nsqrt (pe_c0 e)) (nsqrt (pe_c7 e)) (nsqrt (pe_c35 e)) f (P3 f F)) as (f2 & E2 & O).
    rewrite E2 in E. injection E as <-. split; [exact P1|split; [exact P2|]]. intros k J. cbn [sp_filter at_pc with_filter] in J. injection J as <-. exact O.
  - destruct (sh_enable s); injection H as <- <-; exact P.
Qed.

Definition scan_beams (s : shared T) : Prop := forall p sc k, nth_error (sh_heap s) p = Some sc -> beams_in k (s_pts sc).

Lemma filter_callback_num : forall s sp p odom n d, parts_ok s sp -> sp_pc sp = SFilter p odom n d ->
  (forall f, sp_filter sp = Some f -> Forall (fun i => 0 <= i < Z.of_nat (List.length (pf_parts f)))%Z d) ->
  scan_beams s -> (exists sc, nth_error (sh_heap s) p = Some sc) -> sp_filter sp <> None -> sh_global s <> None ->
  num_only (filter_callback cf s sp p n d) /\ forall s' sp', filter_callback cf s sp p n d = Ok (s', sp') -> parts_ok s' sp'.
Proof.
  intros s sp p odom n d (P1 & P2 & P3) Pc D B (sc & E) F G. unfold filter_callback.
  assert (E' : deref (sh_heap s) p = Ok sc) by (apply deref_nth; exact E). rewrite E'. cbn [bind].
  destruct (sp_filter sp) as [f|] eqn:Ef; [|contradiction F; reflexivity]. specialize (P3 f eq_refl).
  set (v := robot_delta (sh_robot s) (s_pose sc)).
  destruct (filter_update_ok n (v0 v) (v1 v) (v2 v) f P3) as (f1 & E1 & O1 & L1). rewrite E1. cbn [bind].
  destruct (sh_global s) as [g|] eqn:Eg; [|contradiction G; reflexivity].
  destruct (filter_measure_num (score_points g (s_pts sc)) f1 O1) as [N2 K2].
  { intro q. apply score_points_num; [apply P2; reflexivity|apply (B p sc g E)]. }
  assert (R : forall f2, filter_measure (score_points g (s_pts sc)) f1 = Ok f2 -> num_only (filter_resample d (cf_kld_err cf) (cf_kld_z cf) f2) /\
    forall f3, filter_resample d (cf_kld_err cf) (cf_kld_z cf) f2 = Ok f3 -> filter_ok f3).
  { intros f2 E2. destruct (K2 f2 E2) as [O2 L2]. apply filter_resample_num; [exact O2|]. rewrite L2, L1. apply D. reflexivity. }
  split.
  - apply num_bind; [exact N2|]. intros f2 E2. apply num_bind; [apply (R f2 E2)|]. intros f3 _. apply num_ok.
  - intros s' sp' H. apply bind_ok in H. destruct H as (f2 & E2 & H). apply bind_ok in H. destruct H as (f3 & E3 & H). injection H as <- <-.
    split; [|split]; cbn [sp_local sp_filter with_filter sh_global put set_heap].
    + exact P1.
    + rewrite Eg. exact P2.
    + intros f' J. injection J as <-. exact (proj2 (R f2 E2) f3 E3).
Qed.

Definition draws_ok (m : mapper T) : Prop := forall p odom n draws f, sp_pc (mp_spin m) = SFilter p odom n draws -> sp_filter (mp_spin m) = Some f ->
    Forall (fun i => 0 <= i < Z.of_nat (List.length (pf_parts f)))%Z draws.

Definition parts_inv (m : mapper T) : Prop := parts_ok (mp_sh m) (mp_spin m).

(** ** Other facts *)
Definition working (pc : loop_pc T) : bool :=
  match pc with LSleep | LCountLock | LCount | LOpt _ _ | LOptLock | LOptRun => false | _ => true end.
Definition more_inv (m : mapper T) : Prop :=
  ((forall p odom cov, sp_pc (mp_spin m) = SMake p odom cov -> sh_scans (mp_sh m) <> [])) /\
  (working (lp_pc (mp_loop m)) = true -> sh_global (mp_sh m) <> None) /\
  (pb_pc (mp_pub m) = PGraph -> pending (sp_pc (mp_spin m)) = 0%nat \/ sh_scans (mp_sh m) = []).

Lemma parts_same : forall s sp s' sp', parts_ok s sp -> sh_global s' = sh_global s -> sp_local sp' = sp_local sp -> sp_filter sp' = sp_filter sp -> parts_ok s' sp'.
Proof. intros s sp s' sp' P E1 E2 E3. unfold parts_ok. rewrite E1, E2, E3. exact P. Qed.

Lemma parts_step : forall l m m', careful cf m l -> scan_beams (mp_sh m) -> laser_inv cf m -> parts_inv m -> step cf l m = Some (Ok m') -> parts_inv m'.
Proof.
  intros l m m' C B L P H. unfold parts_inv in *. destruct l as [e| | |]; cbn [step] in H.
  - destruct (deliver cf (mp_sh m) (mp_spin m) e) as [o|] eqn:E; [|discriminate H]. cbn [option_map] in H. injection H as H.
    apply bind_ok in H. destruct H as ([s sp] & -> & H). injection H as <-. cbn [mp_sh mp_spin]. unfold deliver in E.
    destruct (sp_pc (mp_spin m)); try discriminate E. injection E as E. destruct e as [e|e|a file].
    + apply (laser_parts (mp_sh m) (mp_spin m) e s sp P); [|exact E]. intros scans G.
      apply (ca_cells cf m _ C _ scans scans); [|exact G|apply whole]. right. right. exists e. split; reflexivity.
    + apply (pose_parts (mp_sh m) (mp_spin m) e); assumption.
    + rewrite configure_eq in E. injection E as <- <-. exact P.
  - destruct (spin_step cf (mp_sh m) (mp_spin m)) as [o|] eqn:E; [|discriminate H]. cbn [option_map] in H. injection H as H.
    apply bind_ok in H. destruct H as ([s sp] & -> & H). injection H as <-. cbn [mp_sh mp_spin].
    destruct (sp_pc (mp_spin m)) as [|p odom n d| | | | | | | | | | | | | | | | | | ] eqn:Pc; [unfold spin_step in E; rewrite Pc in E; discriminate E|idtac|..].
    { pose proof (spin_cases cf _ _ _ _ E) as D. unfold spin_step in E. rewrite Pc in E. injection E as E. apply bind_ok in E. destruct E as ([s1 sp1] & E & K). injection K as <- <-.
      destruct (filter_callback_num (mp_sh m) (mp_spin m) p odom n d P Pc) as [_ K].
      - intros f Ef. apply (ca_draws cf m _ C eq_refl p odom n d f Pc Ef).
      - exact B.
      - destruct D; try congruence. match goal with Q : sp_pc _ = SFilter _ _ _ _, N : nth_error _ _ = Some ?x |- _ => rewrite Pc in Q; injection Q as <- <- <- <-; exists x; exact N end.
      - unfold filter_callback in E. apply bind_ok in E. destruct E as (sc & _ & E). destruct (sp_filter (mp_spin m)); discriminate || discriminate E.
      - destruct D; try congruence.
      - exact (K s1 sp1 E). }
    all: apply spin_cases in E; destruct E; try congruence; try (apply (parts_same (mp_sh m) (mp_spin m)); [exact P|reflexivity|reflexivity|reflexivity]).
    + (* match *) destruct P as (P1 & P2 & P3). split; [|split]; cbn [sp_local sp_filter with_local at_pc sh_global put set_heap set_typical]; [|exact P2|exact P3].
      intros k J. injection J as <-. match goal with M : add_scans _ (matcher_reset ?k0) ?w = Ok _, Lo : sp_local _ = Some ?k0, W : rolling_window _ ?sc = Ok ?w, G : graph_scans _ = Ok ?sc |- _ =>
        refine (add_scans_grid _ (matcher_reset k0) _ w _ M); change (cells_fit k0 w); apply (ca_cells cf m _ C k0 sc w); [left; exact Lo|exact G|] end.
      match goal with W : rolling_window _ ?sc = Ok ?w, G : graph_scans _ = Ok ?sc |- _ =>
        destruct (window_ok (cf_depth cf) sc) as (before & w' & E & S) end.
      * apply Sane.
      * match goal with G : graph_scans _ = Ok _ |- _ => apply mapM_length in G; pose proof (proj1 (proj1 (ca_separate cf m _ C))) as Nb; unfold num_scans in Nb; lia end.
      * exists before, []. rewrite app_nil_r. congruence.
    + match goal with |- context [if ?b then _ else _] => destruct b end; (apply (parts_same (mp_sh m) (mp_spin m)); [exact P|reflexivity|reflexivity|reflexivity]).
  - destruct (loop_step cf (mp_sh m) (mp_loop m)) as [o|] eqn:E; [|discriminate H]. cbn [option_map] in H. injection H as H.
    apply bind_ok in H. destruct H as ([s lo] & -> & H). injection H as <-. cbn [mp_sh mp_spin]. apply loop_cases in E.
    destruct E; try (apply (parts_same (mp_sh m) (mp_spin m)); [exact P|reflexivity|reflexivity|reflexivity]).
    + destruct P as (P1 & P2 & P3). split; [exact P1|split; [|exact P3]]. cbn [sh_global unlock_g set_glock set_global]. intros k J. injection J as <-.
      match goal with M : add_scans _ (matcher_reset ?k0) ?w = Ok _, Lo : sh_global _ = Some ?k0, W : region _ _ ?sc = Ok ?w, G : graph_scans _ = Ok ?sc |- _ =>
        refine (add_scans_grid _ (matcher_reset k0) _ w _ M); change (cells_fit k0 w); apply (ca_cells cf m _ C k0 sc w); [right; left; exact Lo|exact G|];
        unfold region in W; destruct (_ <=? _)%nat in W; [injection W as <-; apply segment|discriminate W] end.
    + match goal with |- context [put_all ?a ?b ?c] => destruct (put_all_frame b c a) as (h & ->) end. exact P.
  - destruct (pub_step cf (mp_sh m) (mp_pub m)) as [o|] eqn:E; [|discriminate H]. cbn [option_map] in H. injection H as H.
    apply bind_ok in H. destruct H as ([s lo] & -> & H). injection H as <-. cbn [mp_sh mp_spin]. apply pub_cases in E.
    destruct E; exact P.
Qed.

Lemma after_working : forall (l : looper T) c, working (lp_pc (after_candidate l c)) = true.
Proof. intros l c. unfold after_candidate. destruct (_ =? _)%Z; reflexivity. Qed.

Lemma more_step : forall l m m', careful cf m l -> lock_inv m -> more_inv m -> step_tr cf m l m' -> more_inv m'.
Proof.
  intros l m m' C Lk (M1 & M2 & M3) H. pose proof (global_keeps cf _ _ _ H) as K.
  assert (X : pub_g (pb_pc (mp_pub m)) = true -> sh_glock (mp_sh m) = Some TPub).
  { intro Q. destruct Lk as (_ & _ & J & _). rewrite Q in J. destruct (sh_glock (mp_sh m)) as [[]|]; try discriminate J. reflexivity. }
  unfold more_inv in *. destruct H as [e s' sp' Id D|s' sp' D|s' l' D|s' p' D]; cbn [mp_sh mp_spin mp_loop mp_pub] in *.
  - split; [|split].
    + intros p odom cov E. exfalso. destruct D as [e g sp' L1 L2 L3|e g sp' odom' sc guess pts X1 X2 X3 X4 X5 X6 X7|e|e t f f' X1 X2 X3 X4|e t X1 X2 X3 X4 X5|e t X1 X2 X3 X4|a file]; try congruence.
      * match goal with Q : sp_pc _ = run_pc _ _ _ _ _ |- _ => rewrite Q in E end. unfold run_pc in E. destruct (use_filter cf), (sh_enable (mp_sh m)); discriminate E.
      * discriminate E.
      * discriminate E.
      * discriminate E.
      * rewrite configure_eq in E. cbn [snd at_pc sp_pc] in E. destruct (Z.testbit a 2), (Z.testbit a 3); discriminate E.
    + intro W. apply K. apply M2. exact W.
    + intro W. destruct D as [e g sp' L1 L2 L3|e g sp' odom' sc guess pts X1 X2 X3 X4 X5 X6 X7|e|e t f f' X1 X2 X3 X4|e t X1 X2 X3 X4 X5|e t X1 X2 X3 X4|a file]; left; try reflexivity.
      * rewrite L2. reflexivity.
      * match goal with Q : sp_pc _ = run_pc _ _ _ _ _ |- _ => rewrite Q end. unfold run_pc. destruct (use_filter cf), (sh_enable (mp_sh m)); reflexivity.
      * rewrite Id. reflexivity.
      * rewrite configure_eq. cbn [snd at_pc sp_pc]. destruct (Z.testbit a 2), (Z.testbit a 3); reflexivity.
  - split; [|split].
    + intros p' odom' cov' E. destruct D; cbn [sp_pc at_pc] in E; try discriminate E; try assumption.
    + intro W. apply K. apply M2. exact W.
    + intro W. assert (G : sh_glock (mp_sh m) = Some TPub) by (apply X; rewrite W; reflexivity). specialize (M3 W).
      destruct D; cbn [sp_pc at_pc]; try (left; reflexivity); try (right; assumption);
        match goal with Pc : sp_pc _ = _ |- _ => destruct Lk as (J & _); rewrite Pc, G in J; cbn in J; try discriminate J end; congruence.
  - split; [|split].
    + intros p odom cov E. assert (Es : sh_scans s' = sh_scans (mp_sh m)) by (apply (loop_frame cf m (mkMapper s' (mp_spin m) l' (mp_pub m))); apply T_loop; exact D).
      rewrite Es. exact (M1 p odom cov E).
    + intro W. apply K. destruct D; cbn [lp_pc lat next_scan working] in W; try discriminate W;
        try (match goal with Pc : lp_pc _ = _ |- _ => apply M2; rewrite Pc; reflexivity end).
      * match goal with Pc : lp_pc _ = _ |- _ => rewrite Pc in W; discriminate W end.
      * apply (ca_started cf m _ C eq_refl); [assumption|]. intro E. pose proof Dp. unfold num_scans in *. rewrite E in *. cbn [List.length Z.of_nat] in *. lia.
    + intro W. assert (Es : sh_scans s' = sh_scans (mp_sh m)) by (apply (loop_frame cf m (mkMapper s' (mp_spin m) l' (mp_pub m))); apply T_loop; exact D).
      rewrite Es. exact (M3 W).
  - split; [|split].
    + intros p0 odom cov E. assert (Es : sh_scans s' = sh_scans (mp_sh m)) by (destruct D; reflexivity). rewrite Es. exact (M1 p0 odom cov E).
    + intro W. apply K. apply M2. exact W.
    + intro W. destruct D; cbn [pb_pc pat] in W; try discriminate W.
      * destruct (sh_flag _); discriminate W.
      * left. apply unhalf_pending. apply (ca_markers cf m _ C eq_refl). assumption.
      * destruct (sh_scans _); discriminate W.
Qed.

(** ** Reachable states *)
Context (Bm : forall (k : matcher T) pts, (Z.of_nat (List.length pts) <= 2 ^ 52)%Z -> beams_in k pts).

Lemma careful_beams : forall m l, careful cf m l -> scan_beams (mp_sh m).
Proof. intros m l C p sc k E. apply Bm. exact (ca_points cf m l C p sc E). Qed.

Lemma init_num : num_only (mapper_init cf).
Proof.
  unfold mapper_init. apply num_bind; [|intros f _; apply num_ok]. destruct Sane as [_ S]. destruct (cf_filter cf) as [[[mn mx] mo]|]; [|apply num_ok].
  destruct (filter_new_ok mn mx mo S) as (f & E & _). rewrite E. apply num_ok.
Qed.
Lemma init_parts : forall m, mapper_init cf = Ok m -> parts_inv m.
Proof.
  intros m H. pose proof (init_cases cf m H) as (s & f & E & _ & Es). unfold parts_inv, parts_ok. rewrite E. cbn [mp_sh mp_spin sp_local sp_filter].
  assert (G : sh_global s = None) by (rewrite Es; destruct (cf_file cf); reflexivity). rewrite G.
  split; [discriminate|split; [discriminate|]]. intros g J. subst f. unfold mapper_init in H. apply bind_ok in H. destruct H as (f & F & H).
  destruct Sane as [_ S]. destruct (cf_filter cf) as [[[mn mx] mo]|].
  - apply bind_ok in F. destruct F as (f0 & F & F'). injection F' as <-. destruct (filter_new_ok mn mx mo S) as (f1 & E1 & O). rewrite E1 in F. injection F as <-.
    injection H as H. rewrite E in H. apply (f_equal (fun x => sp_filter (mp_spin x))) in H. cbn [mp_spin sp_filter] in H. injection H as <-. exact O.
  - injection F as <-. injection H as H. rewrite E in H. apply (f_equal (fun x => sp_filter (mp_spin x))) in H. discriminate H.
Qed.
Lemma init_more : forall m, mapper_init cf = Ok m -> more_inv m.
Proof.
  intros m H. apply init_cases in H. destruct H as (s & f & -> & _). split; [|split]; cbn; discriminate.
Qed.

Record all_inv (m : mapper T) : Prop := mkAll {
  al_id : id_inv cf m; al_wf : wf_inv m; al_lock : lock_inv m; al_heap : heap_inv m; al_laser : laser_inv cf m; al_parts : parts_inv m; al_more : more_inv m
}.
Lemma all_reach : forall m, reach_if cf (careful cf) m -> all_inv m.
Proof.
  intros m R.
  assert (R1 : reach_if cf (calm cf) m).
  { apply (reach_if_mono cf (careful cf)); [|exact R]. intros m0 l0 C. apply (separate_calm cf). apply (ca_separate cf _ _ C). }
  assert (R0 : reachable cf m) by (apply (reach_if_reachable cf (careful cf)); exact R).
  destruct (wf_reach cf Dp Sr Go m R1) as [I1 I2]. constructor; [exact I1|exact I2|exact (lock_inv_reachable cf m R0)|exact (heap_reachable cf m R0)|exact (laser_inv_reachable cf m R0)| |].
  - clear I1 I2 R0 R1. induction R as [m E|m l m' R IH C E]; [apply init_parts; exact E|].
    apply (parts_step l m m' C (careful_beams m l C)); [apply (laser_inv_reachable cf); apply (reach_if_reachable cf (careful cf)); exact R|exact IH|exact E].
  - clear I1 I2 R0 R1. induction R as [m E|m l m' R IH C E]; [apply init_more; exact E|].
    apply (more_step l m m' C); [apply (lock_inv_reachable cf); apply (reach_if_reachable cf (careful cf)); exact R|exact IH|apply step_cases; exact E].
Qed.

(** ** Each thread *)
Lemma deref_num : forall (h : list (scan T)) p sc, nth_error h p = Some sc -> num_only (deref h p).
Proof. intros h p sc E. apply deref_nth in E. rewrite E. apply num_ok. Qed.
Lemma graph_scans_num : forall s : shared T, ids_ok s -> num_only (graph_scans s).
Proof. intros s I. destruct (graph_defined cf s I) as (g & E). apply the_graph_length in E. destruct E as (_ & _ & E). rewrite E. apply num_ok. Qed.
Lemma the_graph_num : forall s : shared T, ids_ok s -> num_only (the_graph cf s).
Proof. intros s I. destruct (graph_defined cf s I) as (g & E). rewrite E. apply num_ok. Qed.
Lemma find_nearest_num : forall g (sc : scan T) d limit, (limit <= Z.of_nat (List.length (gr_scans g)))%Z -> num_only (find_nearest (en_search cf) g sc d limit).
Proof.
  intros g sc d limit H. rewrite find_nearest_defined. destruct (Z.ltb_spec (Z.of_nat (List.length (gr_scans g))) limit); [lia|apply num_ok].
Qed.

Lemma deliver_num : forall m e f, careful cf m (Deliver e) -> all_inv m -> deliver cf (mp_sh m) (mp_spin m) e = Some (Fault f) -> numeric f.
Proof.
  intros m e f C I H. unfold deliver in H. destruct (sp_pc (mp_spin m)); try discriminate H. injection H as H. destruct e as [e|e|a file].
  - revert f H. change (num_only (laser_begin cf (mp_sh m) (mp_spin m) e)). unfold laser_begin. apply num_bind.
    + unfold learn_laser. destruct (sp_frame _ =? "")%string; [|apply num_ok]. destruct (le_laser e) as [t|]; [|apply num_ok]. cbv zeta.
      destruct (use_filter cf || negb (sh_enable (mp_sh m))); [|apply num_ok].
      apply num_bind; [apply graph_scans_num; apply (al_id m I)|]. intros scans G. apply num_bind; [|intros g' _; apply num_ok].
      apply add_scans_num. apply (ca_cells cf m _ C _ scans scans); [|exact G|apply whole]. right. right. exists e. split; reflexivity.
    + intros [[s sp]|] _; [|apply num_ok]. destruct (sh_init s); [|apply num_ok]. destruct (le_start e) as [start|]; [|apply num_ok].
      destruct (guess_pose cf s (from_msg start)); [|apply num_ok]. apply num_bind; [apply sweep_num|]. intros ns _. destruct (le_end e ns); [|apply num_ok].
      apply num_bind; [apply scan_points_num; exact (ca_readings cf m _ C e eq_refl)|]. intros pts _. unfold alloc. apply num_ok.
  - revert f H. change (num_only (pose_begin (mp_sh m) (mp_spin m) e)). unfold pose_begin.
    destruct (sh_enable (mp_sh m) && sh_init (mp_sh m)); [apply num_ok|]. destruct (negb _); [apply num_ok|]. destruct (pe_odom e) as [t|]; [|apply num_ok].
    destruct (sp_filter (mp_spin m)) as [f|] eqn:F; [|destruct (sh_enable (mp_sh m)); apply num_ok].
    cbv zeta. apply num_bind; [|intros f' _; apply num_ok]. destruct (al_parts m I) as (_ & _ & P3).
    match goal with |- num_only (filter_init ?a ?b ?c ?d ?e ?g ?h f) => destruct (filter_init_ok a b c d e g h f (P3 f F)) as (f2 & E2 & _) end.
    rewrite E2. apply num_ok.
  - discriminate H.
Qed.

Lemma lock_g_nofault : forall {X} (s : shared T) t (k : shared T -> X) f, lock_g s t k <> Some (Fault f).
Proof. intros X s t k f H. apply lock_g_inv in H. destruct H as [_ H]. discriminate H. Qed.
Lemma lock_p_nofault : forall {X} (s : shared T) t (k : shared T -> X) f, lock_p s t k <> Some (Fault f).
Proof. intros X s t k f H. apply lock_p_inv in H. destruct H as [_ H]. discriminate H. Qed.

Lemma laser_matchers : forall m, all_inv m -> in_laser (sp_pc (mp_spin m)) = true -> sh_global (mp_sh m) <> None /\ sp_local (mp_spin m) <> None.
Proof. intros m I H. apply (al_laser m I). right. exact H. Qed.

Lemma spin_num : forall m f, careful cf m Spin -> all_inv m -> (forall p odom n d, sp_pc (mp_spin m) = SFilter p odom n d -> use_filter cf = true) ->
  spin_step cf (mp_sh m) (mp_spin m) = Some (Fault f) -> numeric f.
Proof.
  intros m f C I U H. destruct (al_id m I) as (I1 & I2 & _). pose proof (careful_beams m _ C) as B. pose proof (laser_matchers m I) as LM.
  destruct (al_parts m I) as (P1 & P2 & P3). pose proof (ca_cells cf m _ C) as CC.
  assert (Nb : (num_scans (mp_sh m) < 2 ^ 31)%Z) by apply (ca_separate cf m _ C).
  unfold spin_step in H.
  destruct (sp_pc (mp_spin m)) as [|p odom n d|p odom|p odom cov|p odom c|p odom c|p odom|p odom|p odom|p odom upd|p odom upd|e odom|e odom|r o|r o|r o|file|file| |] eqn:Pc;
    try discriminate H; try (exfalso; revert H; first [apply lock_g_nofault|apply lock_p_nofault]); cbn [spin_ok] in I2.
  - injection H as H. destruct I2 as (sc & E & _). destruct (LM eq_refl) as [G Lo].
    destruct (filter_callback_num (mp_sh m) (mp_spin m) p odom n d (al_parts m I) Pc) as [N _].
    + intros fl Ef. exact (ca_draws cf m _ C eq_refl p odom n d fl Pc Ef).
    + exact B.
    + exists sc. exact E.
    + apply (al_laser m I). apply (U p odom n d eq_refl).
    + exact G.
    + revert f H. apply num_bind; [exact N|]. intros [s' sp'] _. apply num_ok.
  - destruct (sh_scans (mp_sh m)) as [|b bs] eqn:Es; [discriminate H|]. injection H as H. revert f H. apply num_bind; [|intros [[s' sp'] cov] _; apply num_ok].
    destruct I2 as (sc & E & _). destruct (LM eq_refl) as [G Lo]. unfold local_match.
    apply num_bind; [apply graph_scans_num; exact I1|]. intros scans Gs.
    destruct (window_ok (cf_depth cf) scans) as (before & w & W & Sg); [apply Sane|apply mapM_length in Gs; unfold num_scans in Nb; lia|]. rewrite W. cbn [bind].
    destruct (sp_local (mp_spin m)) as [k|] eqn:Ek; [|contradiction Lo; reflexivity].
    assert (Cf : cells_fit (matcher_reset k) w).
    { change (cells_fit k w). apply (CC k scans w); [left; reflexivity|exact Gs|]. exists before, []. rewrite app_nil_r. exact Sg. }
    apply num_bind; [apply add_scans_num; exact Cf|]. intros k' M. pose proof (add_scans_grid _ _ _ _ Cf M) as Gk.
    pose proof E as E'. apply deref_nth in E'. rewrite E'. cbn [bind].
    apply num_bind; [apply score_points_num; [exact Gk|apply (B p sc k' E)]|]. intros u _.
    apply num_bind; [apply match_scan_num; [exact Gk|apply (B p sc k' E)]|]. intros [[score corr] cov] _. apply num_ok.
  - injection H as H. destruct I2 as (sc & E & _). destruct (rev (sh_scans (mp_sh m))) as [|b bs] eqn:Er.
    + exfalso. destruct (al_more m I) as (M1 & _). apply (M1 p odom cov Pc). rewrite <- (rev_involutive (sh_scans (mp_sh m))), Er. reflexivity.
    + revert f H. assert (Nb' : nth_error (rev (sh_scans (mp_sh m))) 0 = Some b) by (rewrite Er; reflexivity). apply last_index in Nb'.
      destruct (I1 _ _ Nb') as (bs' & Eb & _). apply num_bind; [apply (deref_num _ _ _ Eb)|]. intros back _.
      apply num_bind; [apply (deref_num _ _ _ E)|]. intros x _. apply num_ok.
  - injection H as H. revert f H. apply num_bind; [|intros s' _; apply num_ok]. destruct I2 as (sc & E & _). destruct (LM eq_refl) as [G _]. unfold track_match.
    pose proof E as E'. apply deref_nth in E'. rewrite E'. cbn [bind]. destruct (sh_global (mp_sh m)) as [g|] eqn:Eg; [|contradiction G; reflexivity].
    apply num_bind; [apply score_points_num; [apply P2; reflexivity|apply (B p sc g E)]|]. intros u _.
    apply num_bind; [apply match_scan_num; [apply P2; reflexivity|apply (B p sc g E)]|]. intros [[score corr] cov] _. apply num_ok.
  - injection H as H. revert f H. destruct I2 as (i & sc & E & _). apply num_bind; [apply (deref_num _ _ _ E)|]. intros x _. apply num_ok.
  - injection H as H. revert f H. apply num_bind; [|intros [s' ok] _; apply num_ok]. unfold pose_graph.
    apply num_bind; [apply the_graph_num; exact I1|]. intros g Eg. cbv zeta. apply num_bind; [apply find_nearest_num; lia|]. intros near En.
    destruct near as [|i rest]; [apply num_ok|]. unfold alloc. cbv beta iota zeta.
    destruct (nearest_bound cf _ _ _ _ _ i Sr En (or_introl eq_refl)) as [Bi _].
    apply num_bind; [apply num_vec; rewrite app_length; lia|]. intros from _. apply num_ok.
  - injection H as H. revert f H. apply num_bind; [apply the_graph_num; exact I1|]. intros g _. apply num_ok.
Qed.

Lemma loop_num : forall m f, reach_if cf (careful cf) m -> careful cf m Loop -> all_inv m ->
  loop_step cf (mp_sh m) (mp_loop m) = Some (Fault f) -> numeric f.
Proof.
  intros m f R C I H. pose proof Dp as D0. destruct (al_id m I) as (I1 & _ & I3). pose proof (careful_beams m _ C) as B.
  destruct (al_parts m I) as (_ & P2 & _). pose proof (ca_cells cf m _ C) as CC. destruct (al_more m I) as (_ & M2 & _). destruct (al_wf m I) as (_ & W2).
  assert (Nb : (num_scans (mp_sh m) < 2 ^ 31)%Z) by apply (ca_separate cf m _ C).
  pose proof H as H0. unfold loop_step in H. destruct I3 as (I0 & I3).
  destruct (lp_pc (mp_loop m)) as [| | |num new|num new|num new|c|c i|c i cand|c i cand corr cov|c i cand cov|c k|c k|c|num new| |] eqn:Pc;
    try discriminate H; try (exfalso; revert H; apply lock_g_nofault); cbn [counted] in W2.
  - injection H as H. revert f H H0. intros f H _. revert f H. destruct I3 as [K1 K2].
    assert (Li : (0 <= lp_done (mp_loop m) < Z.of_nat (List.length (sh_scans (mp_sh m))))%Z) by (unfold num_scans in *; lia).
    apply num_bind; [apply num_vec; exact Li|]. intros p Ep. apply vec_get_inv in Ep. destruct Ep as [_ Ep].
    destruct (I1 _ _ Ep) as (sc & E & _). apply num_bind; [apply (deref_num _ _ _ E)|]. intros x _.
    apply num_bind; [apply the_graph_num; exact I1|]. intros g Eg. apply the_graph_length in Eg. destruct Eg as (Lg & _ & _).
    apply num_bind; [apply find_nearest_num|intros near _; apply num_ok].
    rewrite (rolling_value cf) by lia. unfold num_scans in *. rewrite to_int32_small by lia. lia.
  - destruct (lc_rest c) as [|i rest]; [discriminate H|exfalso; revert H; apply lock_g_nofault].
  - injection H as H. revert H0. intros _. revert f H. destruct I3 as [(K1 & K2 & K3 & _) K4].
    apply num_bind; [apply graph_scans_num; exact I1|]. intros scans Gs.
    assert (Li : (i < List.length (sh_scans (mp_sh m)))%nat) by (unfold num_scans in *; lia).
    apply num_bind; [apply num_vec; lia|]. intros cand Ec. apply vec_get_inv in Ec. destruct Ec as [_ Ec].
    destruct (I1 _ _ Ec) as (sc & E & _). apply num_bind; [apply (deref_num _ _ _ E)|]. intros candidate _.
    destruct (s_pts candidate); [apply num_ok|].
    assert (Ls : List.length scans = List.length (sh_scans (mp_sh m))) by (apply mapM_length in Gs; lia).
    unfold region. rewrite (rolling_value cf) by lia.
    destruct (Z.ltb_spec (Z.of_nat i) (lp_done (mp_loop m) - cf_depth cf)) as [_|Q]; [|lia].
    destruct (Nat.leb_spec (i + 1) (List.length scans)) as [_|Q]; [|lia]. cbn [bind].
    destruct (sh_global (mp_sh m)) as [g|] eqn:Eg; [|exfalso; apply (M2 eq_refl); reflexivity].
    apply num_bind; [|intros g' _; apply num_ok]. apply add_scans_num.
    match goal with |- cells_fit (matcher_reset g) ?w => change (cells_fit g w); apply (CC g scans w) end; [right; left; reflexivity|exact Gs|apply segment].
  - injection H as H. revert H0. intros _. revert f H. destruct I3 as [(K1 & K2 & K3 & (sc & E & _) & _) _].
    pose proof E as E'. apply deref_nth in E'. rewrite E'. cbn [bind].
    destruct (sh_global (mp_sh m)) as [g|] eqn:Eg; [|exfalso; apply (M2 eq_refl); reflexivity].
    apply num_bind; [apply match_scan_num; [apply P2; reflexivity|apply (B _ sc g E)]|]. intros [[score corr] cov] _. cbv zeta. destruct (_ && _); apply num_ok.
  - injection H as H. revert H0. intros _. revert f H. destruct I3 as [(K1 & K2 & K3 & (sc & E & _) & _) _].
    apply num_bind; [apply (deref_num _ _ _ E)|]. intros x _. apply num_ok.
  - injection H as H. revert H0. intros _. revert f H. destruct I3 as [(K1 & K2 & K3 & (sc & E & _) & _) (_ & (sc2 & E2 & _))].
    apply num_bind; [apply (deref_num _ _ _ E2)|]. intros x _. apply num_bind; [apply (deref_num _ _ _ E)|]. intros y _. apply num_ok.
  - exfalso. assert (Rs : reach_if cf separate m) by (apply (reach_if_mono cf (careful cf)); [intros m0 l0 C0; apply (ca_separate cf _ _ C0)|exact R]).
    destruct (optimizer_runs cf Dp Sr Ch Go m Rs Nb Pc) as (m' & S). cbn [step] in S. rewrite H0 in S. discriminate S.
Qed.

Lemma pub_num : forall m f, ~ drawing m Pub -> all_inv m -> pub_step cf (mp_sh m) (mp_pub m) = Some (Fault f) -> numeric f.
Proof.
  intros m f D I H. destruct (al_id m I) as (I1 & _ & _). unfold pub_step in H.
  destruct (pb_pc (mp_pub m)) as [| | | | | | | | |r|r o] eqn:Pc; try discriminate H; try (exfalso; revert H; first [apply lock_g_nofault|apply lock_p_nofault]).
  - exfalso. apply D. split; [reflexivity|exact Pc].
  - injection H as H. revert f H. apply num_bind; [apply the_graph_num; exact I1|]. intros g Eg. apply num_bind; [|intros ms _; apply num_ok].
    apply the_graph_length in Eg. destruct Eg as (Lg & Cg & _).
    assert (V : exists r, graph_get_msg g [] = Ok r).
    { apply get_msg_defined. rewrite Lg, Cg. destruct (al_wf m I) as (W & _). destruct (al_more m I) as (_ & _ & M3). specialize (M3 Pc).
      apply Forall_forall. intros c J. rewrite Forall_forall in W. specialize (W c J). destruct W as [W1 W2].
      unfold valid_constraint. destruct M3 as [M3|M3].
      - rewrite M3 in W2. lia.
      - rewrite M3 in W2. cbn [List.length] in W2. exfalso. unfold pending in W2. destruct (sp_pc (mp_spin m)); lia. }
    destruct V as (ms & E). rewrite E. apply num_ok.
Qed.

Definition filter_pc (m : mapper T) : Prop := forall p odom n d, sp_pc (mp_spin m) = SFilter p odom n d -> use_filter cf = true.
Lemma filter_pc_reach : forall m, reach_if cf (careful cf) m -> filter_pc m.
Proof.
  apply (reach_if_inv cf).
  - intros m H. apply init_cases in H. destruct H as (s & f & -> & _). intros p odom n d E. discriminate E.
  - intros l m m' _ F H. unfold filter_pc in *. destruct H as [e s' sp' Id D|s' sp' D|s' l' D|s' p' D]; cbn [mp_spin] in *; try exact F.
    + intros p odom n d E. destruct D; try congruence; try discriminate E.
      * match goal with Q : sp_pc _ = run_pc _ _ _ _ _ |- _ => rewrite Q in E end. unfold run_pc in E. destruct (use_filter cf); [reflexivity|].
        destruct (sh_enable (mp_sh m)); discriminate E.
      * rewrite configure_eq in E. cbn [snd at_pc sp_pc] in E. destruct (Z.testbit a 2), (Z.testbit a 3); discriminate E.
    + intros p odom n d E. destruct D; discriminate E.
Qed.

Theorem only_numeric : forall m l f, reach_if cf (careful cf) m -> careful cf m l -> ~ drawing m l -> step cf l m = Some (Fault f) -> numeric f.
Proof.
  intros m l f R C D H. pose proof (all_reach m R) as I. destruct l as [e| | |]; cbn [step] in H.
  - destruct (deliver cf (mp_sh m) (mp_spin m) e) as [o|] eqn:E; [|discriminate H]. cbn [option_map] in H. injection H as H.
    apply bind_fault in H. destruct H as [->|([s sp] & _ & H)]; [|discriminate H]. exact (deliver_num m e f C I E).
  - destruct (spin_step cf (mp_sh m) (mp_spin m)) as [o|] eqn:E; [|discriminate H]. cbn [option_map] in H. injection H as H.
    apply bind_fault in H. destruct H as [->|([s sp] & _ & H)]; [|discriminate H]. exact (spin_num m f C I (filter_pc_reach m R) E).
  - destruct (loop_step cf (mp_sh m) (mp_loop m)) as [o|] eqn:E; [|discriminate H]. cbn [option_map] in H. injection H as H.
    apply bind_fault in H. destruct H as [->|([s sp] & _ & H)]; [|discriminate H]. exact (loop_num m f R C I E).
  - destruct (pub_step cf (mp_sh m) (mp_pub m)) as [o|] eqn:E; [|discriminate H]. cbn [option_map] in H. injection H as H.
    apply bind_fault in H. destruct H as [->|([s sp] & _ & H)]; [|discriminate H]. exact (pub_num m f D I E).
Qed.

End P.
