(** Thread roles (C73), mutexes (C74), requests (C67, C68). *)

From Coq Require Import ZArith List Bool String Lia.
From Verif Require Import Outcome Arith TypesModel ScanModel MatcherModel ConstraintModel
  SolverModel GraphModel OccGridModel MotionModel FilterModel LaserModel MapperModel SpecMapper
  NdtProofs MatcherProofs MapperProofs MapperSteps.
Import ListNotations.

Section P.
Context {T : Type} {A : Arith T}.
Context (cf : config T).

(** ** C73 *)

Lemma pub_frame : forall (m m' : mapper T), step_tr cf m Pub m' ->
  same_graph (mp_sh m) (mp_sh m') /\ same_poses (mp_sh m) (mp_sh m') /\ mp_spin m' = mp_spin m /\ mp_loop m' = mp_loop m /\
  sh_typical (mp_sh m') = sh_typical (mp_sh m) /\ sh_enable (mp_sh m') = sh_enable (mp_sh m) /\
  sh_init (mp_sh m') = sh_init (mp_sh m) /\ sh_global (mp_sh m') = sh_global (mp_sh m).
Proof.
  intros m m' H. inversion H as [| | |s' p' P]; subst. cbn [mp_sh mp_spin mp_loop].
  destruct P; cbn; repeat split.
Qed.

Lemma only_poses_refl : forall h : list (scan T), only_poses h h.
Proof. induction h; constructor; auto. Qed.

Lemma only_poses_trans : forall a b c : list (scan T), only_poses a b -> only_poses b c -> only_poses a c.
Proof.
  intros a b c H. revert c. induction H as [|x y l l' [E1 E2] H IH]; intros c K; inversion K as [|y0 z l0 l'' [F1 F2] K']; subst; constructor.
  - split; congruence.
  - apply IH. exact K'.
Qed.

Lemma only_poses_set : forall (h : list (scan T)) p sc q, nth_error h p = Some sc ->
  only_poses h (list_set h p (scan_set_pose sc q)).
Proof.
  induction h as [|a h IH]; intros [|p] sc q E; cbn in *; try discriminate E.
  - injection E as ->. constructor; [split; reflexivity|apply only_poses_refl].
  - constructor; [auto|]. apply IH. exact E.
Qed.

Lemma only_poses_set' : forall (h : list (scan T)) p sc v, nth_error h p = Some sc ->
  s_id v = s_id sc -> s_pts v = s_pts sc -> only_poses h (list_set h p v).
Proof.
  induction h as [|a h IH]; intros [|p] sc v E E1 E2; cbn in *; try discriminate E.
  - injection E as ->. constructor; [split; assumption|apply only_poses_refl].
  - constructor; [auto|]. apply (IH p sc); assumption.
Qed.

Lemma only_poses_nth : forall (h h' : list (scan T)) p v, only_poses h h' -> nth_error h p = Some v ->
  exists v', nth_error h' p = Some v' /\ s_id v' = s_id v /\ s_pts v' = s_pts v.
Proof.
  intros h h' p v H. revert p. induction H as [|x y l l' [E1 E2] H IH]; intros [|p] E; cbn in *; try discriminate E.
  - injection E as <-. exists y. auto.
  - apply IH. exact E.
Qed.

Lemma only_poses_length : forall h h' : list (scan T), only_poses h h' -> List.length h' = List.length h.
Proof. intros h h' H. induction H; cbn; congruence. Qed.

Lemma put_all_only_poses : forall ps vs (s : shared T) h0, only_poses h0 (sh_heap s) ->
  (forall p v, In (p, v) (combine ps vs) -> exists sc, nth_error h0 p = Some sc /\ s_id v = s_id sc /\ s_pts v = s_pts sc) ->
  only_poses h0 (sh_heap (put_all s ps vs)).
Proof.
  unfold put_all. intros ps vs. revert ps. induction vs as [|v vs IH]; intros [|p ps] s h0 H K; cbn [combine fold_left]; try exact H.
  apply IH.
  - destruct (K p v (or_introl eq_refl)) as (sc & E & E1 & E2).
    destruct (only_poses_nth _ _ _ _ H E) as (sc' & E' & F1 & F2).
    apply (only_poses_trans _ _ _ H). cbn. apply (only_poses_set' _ _ sc'); [exact E'| |]; congruence.
  - intros q w I. apply K. right. exact I.
Qed.

Lemma put_all_frame : forall ps vs (s : shared T), exists h, put_all s ps vs = set_heap s h.
Proof.
  unfold put_all. intros ps vs. revert ps. induction vs as [|v vs IH]; intros [|p ps] s; cbn [combine fold_left];
    try (exists (sh_heap s); destruct s; reflexivity).
  destruct (IH ps (put s p v)) as [h E]. cbn [fst snd]. exists h. rewrite E. destruct s. reflexivity.
Qed.

Lemma optimize_scans : forall ce sv cs (scans : list (scan T)) b sv' scans', optimize ce sv cs scans = Ok (b, sv', scans') ->
  only_poses scans scans'.
Proof.
  intros ce sv cs scans b sv' scans' H. unfold optimize in H. destruct scans as [|a l]; [injection H as <- <- <-; constructor|].
  apply bind_ok in H. destruct H as (p & _ & H). destruct (ce _ _ _) as [usable ns]. destruct usable; injection H as <- <- <-.
  - change (only_poses (a :: l) (map (write_back ns) (a :: l))). generalize (a :: l) as k. clear.
    induction k as [|x k IH]; cbn; constructor; [|exact IH]. unfold write_back. destruct (nodes_find ns (scan_key x)); split; reflexivity.
  - apply only_poses_refl.
Qed.

Lemma graph_scans_in : forall (s : shared T) scans vs p v, graph_scans s = Ok scans -> only_poses scans vs ->
  In (p, v) (combine (sh_scans s) vs) -> exists sc, nth_error (sh_heap s) p = Some sc /\ s_id v = s_id sc /\ s_pts v = s_pts sc.
Proof.
  intros s scans vs p v G. unfold graph_scans in G. revert scans vs G. generalize (sh_scans s) as ps.
  induction ps as [|q ps IH]; intros scans vs G O I; cbn in *; [destruct I|].
  apply bind_ok in G. destruct G as (x & D & G). apply bind_ok in G. destruct G as (xs & G & E). injection E as <-.
  inversion O as [|x0 y l l' [E1 E2] O']; subst. destruct I as [I|I].
  - injection I as <- <-. apply deref_nth in D. exists x. auto.
  - apply (IH xs l'); assumption.
Qed.

Lemma optimized_heap : forall (s : shared T) scans sv b sv' scans', graph_scans s = Ok scans ->
  optimize (en_ceres cf) sv (sh_cons s) scans = Ok (b, sv', scans') -> only_poses (sh_heap s) (sh_heap (put_all s (sh_scans s) scans')).
Proof.
  intros s scans sv b sv' scans' G O. apply put_all_only_poses; [apply only_poses_refl|].
  intros p v I. apply (graph_scans_in s scans scans' p v G); [apply optimize_scans in O; exact O|exact I].
Qed.

Lemma loop_frame : forall (m m' : mapper T), step_tr cf m Loop m' ->
  sh_scans (mp_sh m') = sh_scans (mp_sh m) /\ only_poses (sh_heap (mp_sh m)) (sh_heap (mp_sh m')) /\
  same_poses (mp_sh m) (mp_sh m') /\ mp_spin m' = mp_spin m /\ mp_pub m' = mp_pub m /\
  sh_typical (mp_sh m') = sh_typical (mp_sh m) /\ sh_enable (mp_sh m') = sh_enable (mp_sh m) /\
  sh_init (mp_sh m') = sh_init (mp_sh m) /\ sh_plock (mp_sh m') = sh_plock (mp_sh m) /\
  (exists more, sh_cons (mp_sh m') = sh_cons (mp_sh m) ++ more).
Proof.
  intros m m' H. inversion H as [| |s' l' P|]; subst. cbn [mp_sh mp_spin mp_pub].
  destruct P; cbn [sh_scans sh_heap sh_robot sh_odom sh_typical sh_enable sh_init sh_plock sh_cons set_glock set_flag set_global set_cons unlock_g note put set_heap same_poses];
    try (split; [reflexivity|split; [apply only_poses_refl|]]; repeat split; exists []; symmetry; apply app_nil_r).
  - split; [reflexivity|split]. { apply only_poses_set; assumption. } repeat split. exists []; symmetry; apply app_nil_r.
  - split; [reflexivity|split; [apply only_poses_refl|]]; repeat split. exists [k]. reflexivity.
  - destruct (put_all_frame (sh_scans (mp_sh m)) scans' (mp_sh m)) as [h E].
    match goal with G : graph_scans _ = Ok _, O1 : optimize _ _ _ _ = Ok _ |- _ => pose proof (optimized_heap _ _ _ _ _ _ G O1) as O end. rewrite E in *. cbn in *.
    split; [reflexivity|split; [exact O|]]. repeat split. exists []; symmetry; apply app_nil_r.
Qed.

(** ** C74 *)

Definition spin_g (pc : spin_pc T) : bool :=
  match pc with SConsPush _ _ _ | SScanPush _ _ | SGraph _ _ | SLoad _ | SSave => true | _ => false end.
Definition spin_p (pc : spin_pc T) : bool := match pc with SPoseWrite _ _ _ => true | _ => false end.
Definition loop_g (pc : loop_pc T) : bool :=
  match pc with LCount | LFetch _ _ | LRegion _ _ | LPush _ _ | LFlag _ | LOptRun => true | _ => false end.
Definition pub_g (pc : pub_pc T) : bool := match pc with PGrid | PGraph => true | _ => false end.
Definition pub_p (pc : pub_pc T) : bool := match pc with PReadRobot | PReadOdom _ => true | _ => false end.

Definition is_some (t : tid) (o : option tid) : bool :=
  match t, o with TSpin, Some TSpin | TLoop, Some TLoop | TPub, Some TPub => true | _, _ => false end.

Definition lock_inv (m : mapper T) : Prop :=
  is_some TSpin (sh_glock (mp_sh m)) = spin_g (sp_pc (mp_spin m)) /\
  is_some TLoop (sh_glock (mp_sh m)) = loop_g (lp_pc (mp_loop m)) /\
  is_some TPub (sh_glock (mp_sh m)) = pub_g (pb_pc (mp_pub m)) /\
  is_some TSpin (sh_plock (mp_sh m)) = spin_p (sp_pc (mp_spin m)) /\
  is_some TLoop (sh_plock (mp_sh m)) = false /\
  is_some TPub (sh_plock (mp_sh m)) = pub_p (pb_pc (mp_pub m)).

Lemma run_pc_nolock : forall (s : shared T) p o e, spin_g (run_pc cf s p o e) = false /\ spin_p (run_pc cf s p o e) = false.
Proof. intros s p o e. unfold run_pc. destruct (use_filter cf), (sh_enable s); split; reflexivity. Qed.

Lemma after_candidate_pc : forall (l : looper T) c, exists pc, after_candidate l c =
  mkLooper pc (if (wrap64 (lc_left c - 1) =? 0)%Z then wrap64 (lp_done l + 1) else lp_done l) (lp_opt l) (lp_solver l) /\
  pc = (if (wrap64 (lc_left c - 1) =? 0)%Z then LNext (lc_num c) (lc_new c)
        else LCand (mkCtx (lc_num c) (lc_new c) (lc_scan c) (lc_rest c) (wrap64 (lc_left c - 1)))).
Proof. intros l c. unfold after_candidate, next_scan, lat. destruct (_ =? 0)%Z; eexists; split; reflexivity. Qed.

Lemma after_candidate_nolock : forall (l : looper T) c, loop_g (lp_pc (after_candidate l c)) = false.
Proof. intros l c. destruct (after_candidate_pc l c) as (pc & -> & ->). cbn. destruct (_ =? 0)%Z; reflexivity. Qed.

Lemma put_all_glock : forall ps vs (s : shared T), sh_glock (put_all s ps vs) = sh_glock s /\ sh_plock (put_all s ps vs) = sh_plock s.
Proof. intros ps vs s. destruct (put_all_frame ps vs s) as [h ->]. split; reflexivity. Qed.

Lemma configure_locks : forall (s : shared T) sp a file, sp_pc sp = SIdle ->
  let r := configure_begin s sp a file in
  sh_glock (fst r) = sh_glock s /\ sh_plock (fst r) = sh_plock s /\ spin_g (sp_pc (snd r)) = false /\ spin_p (sp_pc (snd r)) = false.
Proof.
  intros s sp a file I. cbv zeta. unfold configure_begin. cbn [fst snd at_pc sp_pc].
  destruct (has_bit a ENABLE_MAPPING), (has_bit a DISABLE_MAPPING), (has_bit a LOAD_FROM_FILE), (has_bit a SAVE_TO_FILE); cbn; auto.
Qed.

Lemma lock_inv_step : forall l m m', lock_inv m -> step_tr cf m l m' -> lock_inv m'.
Proof.
  intros l m m' (I1 & I2 & I3 & I4 & I5 & I6) H. unfold lock_inv.
  destruct H as [e s' sp' Id D|s' sp' D|s' l' D|s' p' D]; cbn [mp_sh mp_spin mp_loop mp_pub].
  - rewrite Id in I1, I4. cbn in I1, I4.
    destruct D; cbn [sh_glock sh_plock set_global set_heap at_pc sp_pc]; try (rewrite Id); try tauto.
    + match goal with H : sp_pc sp' = SIdle |- _ => rewrite H end. cbn. tauto.
    + match goal with H : sp_pc sp' = run_pc _ _ _ _ _ |- _ => rewrite H end. destruct (run_pc_nolock (mp_sh m) (List.length (sh_heap (mp_sh m))) odom e) as [-> ->]. tauto.
    + destruct (configure_locks (mp_sh m) (mp_spin m) a file Id) as (-> & -> & -> & ->). tauto.
  - destruct D; match goal with H : sp_pc _ = _ |- _ => rewrite H in I1, I4 end; cbn [spin_g spin_p] in I1, I4;
      cbn [sh_glock sh_plock set_global set_heap set_glock set_plock set_cons set_scans set_typical set_robot set_odom set_flag set_init unlock_g unlock_p note put at_pc sp_pc spin_g spin_p];
      try (repeat split; assumption);
      try (match goal with H : sh_glock _ = None |- _ => rewrite H in *; cbn in *; repeat split; assumption end);
      try (match goal with H : sh_plock _ = None |- _ => rewrite H in *; cbn in *; repeat split; assumption end);
      try (destruct (sh_glock (mp_sh m)) as [[]|]; cbn in *; try discriminate; repeat split; assumption).
    destruct upd; cbn; (destruct (sh_plock (mp_sh m)) as [[]|]; cbn in *; try discriminate; repeat split; assumption).
  - destruct D; match goal with H : lp_pc _ = _ |- _ => rewrite H in I2 end; cbn [loop_g] in I2;
      try rewrite after_candidate_nolock;
      cbn [sh_glock sh_plock set_global set_heap set_glock set_plock set_cons set_scans set_flag unlock_g note put lat next_scan lp_pc loop_g];
      try (repeat split; assumption);
      try (match goal with H : sh_glock _ = None |- _ => rewrite H in *; cbn in *; repeat split; assumption end);
      try (destruct (sh_glock (mp_sh m)) as [[]|]; cbn in *; try discriminate; repeat split; assumption).
    + rewrite H. cbn. repeat split; assumption.
    + destruct (put_all_glock (sh_scans (mp_sh m)) scans' (mp_sh m)) as [E1 E2]. rewrite ?E1, ?E2.
      destruct (sh_glock (mp_sh m)) as [[]|]; cbn in *; try discriminate; repeat split; assumption.
  - destruct D; match goal with H : pb_pc _ = _ |- _ => rewrite H in I3, I6 end; cbn [pub_g pub_p] in I3, I6;
      cbn [sh_glock sh_plock set_glock set_plock set_flag unlock_g unlock_p note pat pb_pc pub_g pub_p];
      try (repeat split; assumption);
      try (match goal with H : sh_glock _ = None |- _ => rewrite H in *; cbn in *; repeat split; assumption end);
      try (match goal with H : sh_plock _ = None |- _ => rewrite H in *; cbn in *; repeat split; assumption end);
      try (destruct (sh_glock (mp_sh m)) as [[]|]; cbn in *; try discriminate; repeat split; assumption);
      try (destruct (sh_plock (mp_sh m)) as [[]|]; cbn in *; try discriminate; repeat split; assumption).
    + destruct (sh_flag (mp_sh m)); cbn; repeat split; assumption.
    + destruct (sh_scans (mp_sh m)); cbn; repeat split; assumption.
Qed.

Lemma lock_inv_reachable : forall m, reachable cf m -> lock_inv m.
Proof.
  apply reachable_inv; [|exact lock_inv_step].
  intros m H. apply init_cases in H. destruct H as (s & f & -> & _ & ->). unfold lock_inv. cbn [mp_sh mp_spin mp_loop mp_pub].
  destruct (cf_file cf); cbn; repeat split.
Qed.

Definition spin_wants (pc : spin_pc T) : option bool :=
  match pc with
  | SConsLock _ _ _ | SScanLock _ _ | SGraphLock _ _ | SLoadLock _ | SSaveLock => Some true
  | SPoseLock _ _ _ => Some false
  | _ => None
  end.
Definition loop_wants (pc : loop_pc T) : bool :=
  match pc with
  | LCountLock | LFetchLock _ _ | LPushLock _ _ | LOptLock => true
  | LCand c => match lc_rest c with [] => false | _ => true end
  | _ => false
  end.
Definition pub_wants (pc : pub_pc T) : option bool :=
  match pc with PGridLock | PGraphLock => Some true | PPoseLock => Some false | _ => None end.

Lemma lock_g_none : forall {X} (s : shared T) t (k : shared T -> X), lock_g s t k = None -> exists t', sh_glock s = Some t'.
Proof. intros X s t k H. unfold lock_g in H. destruct (sh_glock s) as [t'|]; [exists t'; reflexivity|discriminate H]. Qed.
Lemma lock_p_none : forall {X} (s : shared T) t (k : shared T -> X), lock_p s t k = None -> exists t', sh_plock s = Some t'.
Proof. intros X s t k H. unfold lock_p in H. destruct (sh_plock s) as [t'|]; [exists t'; reflexivity|discriminate H]. Qed.

Lemma spin_none : forall (s : shared T) sp, spin_step cf s sp = None ->
  sp_pc sp = SIdle \/ (spin_g (sp_pc sp) = false /\ spin_p (sp_pc sp) = false /\
    ((exists t, sh_glock s = Some t) \/ (exists t, sh_plock s = Some t))).
Proof.
  intros s sp H. unfold spin_step in H.
  destruct (sp_pc sp); try discriminate H; [left; reflexivity|..]; right; try (destruct (sh_scans s); discriminate H);
    (split; [reflexivity|split; [reflexivity|]]);
    first [left; apply lock_g_none in H; exact H|right; apply lock_p_none in H; exact H].
Qed.
Lemma loop_none : forall (s : shared T) l, loop_step cf s l = None ->
  loop_g (lp_pc l) = false /\ exists t, sh_glock s = Some t.
Proof.
  intros s l H. unfold loop_step in H.
  destruct (lp_pc l) as [| | | | | |c| | | | | | | | | | ]; try discriminate H;
    try (destruct (lc_rest c); [discriminate H|]); (split; [reflexivity|]); apply lock_g_none in H; exact H.
Qed.
Lemma pub_none : forall (s : shared T) p, pub_step cf s p = None ->
  pub_g (pb_pc p) = false /\ pub_p (pb_pc p) = false /\ ((exists t, sh_glock s = Some t) \/ (exists t, sh_plock s = Some t)).
Proof.
  intros s p H. unfold pub_step in H.
  destruct (pb_pc p); try discriminate H; (split; [reflexivity|split; [reflexivity|]]);
    first [left; apply lock_g_none in H; exact H|right; apply lock_p_none in H; exact H].
Qed.

Lemma option_map_none : forall {X Y} (f : X -> Y) o, option_map f o = None -> o = None.
Proof. intros X Y f [x|] H; [discriminate H|reflexivity]. Qed.

(** A thread that holds a mutex is never stuck. *)
Lemma holder_moves : forall m t, lock_inv m -> holds t m -> step cf (thread t) m <> None.
Proof.
  intros m t (I1 & I2 & I3 & I4 & I5 & I6) H N. destruct t; cbn [thread step] in N; apply option_map_none in N.
  - apply spin_none in N. destruct H as [H|H]; rewrite H in *; cbn in *; destruct N as [E|(E1 & E2 & _)]; try (rewrite E in *; discriminate); congruence.
  - apply loop_none in N. destruct N as [E _]. destruct H as [H|H]; rewrite H in *; cbn in *; congruence.
  - apply pub_none in N. destruct N as (E1 & E2 & _). destruct H as [H|H]; rewrite H in *; cbn in *; congruence.
Qed.

(** A thread is only stuck while another one holds a mutex. *)
Lemma stuck_waits : forall m t, lock_inv m -> stuck cf t m -> exists t', t' <> t /\ holds t' m /\ step cf (thread t') m <> None.
Proof.
  intros m t I [N B].
  assert (W : exists t', holds t' m).
  { destruct t; cbn [thread step] in N; apply option_map_none in N.
    - apply spin_none in N. destruct N as [E|(_ & _ & [[t' E]|[t' E]])]; [exfalso; apply B; split; [reflexivity|exact E]|exists t'; left; exact E|exists t'; right; exact E].
    - apply loop_none in N. destruct N as (_ & t' & E). exists t'. left. exact E.
    - apply pub_none in N. destruct N as (_ & _ & [[t' E]|[t' E]]); [exists t'; left; exact E|exists t'; right; exact E]. }
  destruct W as [t' W]. exists t'. pose proof (holder_moves m t' I W) as M.
  split; [|split; assumption]. intros ->. apply M. exact N.
Qed.

Lemma one_mutex : forall m t, lock_inv m -> sh_glock (mp_sh m) = Some t -> sh_plock (mp_sh m) = Some t -> False.
Proof.
  intros m t (I1 & I2 & I3 & I4 & I5 & I6) G P. rewrite G, P in *. destruct t; cbn in *.
  - destruct (sp_pc (mp_spin m)); discriminate.
  - discriminate.
  - destruct (pb_pc (mp_pub m)); discriminate.
Qed.

(** Locked sections are left after at most two steps. *)
Lemma release_soon : forall m t m1 m2, lock_inv m -> holds t m -> step_tr cf m (thread t) m1 -> step_tr cf m1 (thread t) m2 ->
  ~ holds t m1 \/ ~ holds t m2.
Proof.
  intros m t m1 m2 I H S1 S2.
  pose proof (lock_inv_step _ _ _ I S1) as J. pose proof (lock_inv_step _ _ _ J S2) as K.
  assert (hold_spin : forall m, lock_inv m -> holds TSpin m -> spin_g (sp_pc (mp_spin m)) = true \/ spin_p (sp_pc (mp_spin m)) = true).
  { intros k (A1 & _ & _ & A4 & _) [E|E]; rewrite E in *; cbn in *; auto. }
  assert (hold_loop : forall m, lock_inv m -> holds TLoop m -> loop_g (lp_pc (mp_loop m)) = true).
  { intros k (_ & A2 & _ & _ & A5 & _) [E|E]; rewrite E in *; cbn in *; auto. discriminate. }
  assert (hold_pub : forall m, lock_inv m -> holds TPub m -> pub_g (pb_pc (mp_pub m)) = true \/ pub_p (pb_pc (mp_pub m)) = true).
  { intros k (_ & _ & A3 & _ & _ & A6) [E|E]; rewrite E in *; cbn in *; auto. }
  destruct t; cbn [thread] in *.
  - left. intro N. apply (hold_spin m I) in H. apply (hold_spin m1 J) in N. clear - H N S1.
    inversion S1 as [|s' sp' D| |]; subst. cbn [mp_spin] in N.
    destruct D; match goal with E : sp_pc _ = _ |- _ => rewrite E in H end; cbn in *; try (destruct H; discriminate); try (destruct N; discriminate).
  - assert (L : ~ holds TLoop m1 \/ exists c, lp_pc (mp_loop m1) = LFlag c).
    { destruct (lp_pc (mp_loop m1)) eqn:E; try (left; intro N; apply (hold_loop m1 J) in N; rewrite E in N; discriminate).
      all: try (right; eexists; reflexivity).
      all: exfalso; apply (hold_loop m I) in H; clear - H E S1; inversion S1 as [| |s' l' D|]; subst; cbn [mp_loop] in E;
        destruct D; match goal with F : lp_pc (mp_loop ?x) = _, G : loop_g (lp_pc (mp_loop ?x)) = true |- _ => rewrite F in G end; cbn in *; try discriminate;
        unfold after_candidate, next_scan, lat in E; destruct (_ =? 0)%Z in E; discriminate E. }
    destruct L as [L|[c L]]; [left; exact L|right]. intro N. apply (hold_loop m2 K) in N. clear - N L S2.
    inversion S2 as [| |s' l' D|]; subst. cbn [mp_loop] in N.
    destruct D; match goal with F : lp_pc (mp_loop ?x) = _ |- _ => rewrite F in L end; try discriminate L.
    rewrite after_candidate_nolock in N. discriminate.
  - assert (L : ~ holds TPub m1 \/ exists r, pb_pc (mp_pub m1) = PReadOdom r).
    { destruct (pb_pc (mp_pub m1)) eqn:E; try (left; intro N; apply (hold_pub m1 J) in N; rewrite E in N; destruct N; discriminate).
      all: try (right; eexists; reflexivity).
      all: exfalso; apply (hold_pub m I) in H; clear - H E S1; inversion S1 as [| | |s' l' D]; subst; cbn [mp_pub] in E;
        destruct D; match goal with F : pb_pc (mp_pub ?x) = _ |- _ => rewrite F in H end; cbn in *; try discriminate; try (destruct H; discriminate);
        try (destruct (sh_scans (mp_sh m)); discriminate E); try (destruct (sh_flag (mp_sh m)); discriminate E). }
    destruct L as [L|[r L]]; [left; exact L|right]. intro N. apply (hold_pub m2 K) in N. clear - N L S2.
    inversion S2 as [| | |s' l' D]; subst. cbn [mp_pub] in N.
    destruct D; match goal with F : pb_pc (mp_pub ?x) = _ |- _ => rewrite F in L end; try discriminate L.
    cbn in N. destruct N; discriminate.
Qed.

End P.
