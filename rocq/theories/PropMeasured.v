(** Property C79 for every history: the constraint between consecutive scans. *)

From Coq Require Import ZArith Reals List Bool String Lia Lra.
From Flocq Require Import Core BinarySingleNaN.
From Verif Require Import Outcome Arith TypesModel ScanModel MatcherModel ConstraintModel
  SolverModel GraphModel OccGridModel MotionModel FilterModel LaserModel MapperModel SpecPose SpecMapper SpecMapper2 SpecTip SpecLaser RTactics
  NdtProofs MatcherProofs GraphProofs LaserProofs ConstraintProofs MapperProofs MapperSteps MapperInv1 MapperInv2 MapperInv3 MapperInv5 MapperInv6 MapperInv8 MapperInv10 MapperWitness2.
Import ListNotations.

Section P.
Context {T : Type} {A : Arith T}.
Context (cf : config T).

(** The scan the loop closure thread is working on. *)
Definition aimed (l : looper T) (p : nat) : Prop :=
  match lp_pc l with
  | LCand c | LRegion c _ | LMatch c _ _ | LCorrect c _ _ _ _ | LMake c _ _ _ | LPushLock c _ | LPush c _ | LFlag c => lc_scan c = p
  | _ => False
  end.

(** The pose of the scan being processed, before and after matching. *)
Definition placed (m : mapper T) : Prop :=
  let s := mp_sh m in
  match sp_pc (mp_spin m) with
  | SMatch p odom => sh_scans s = [] \/
      ~ aimed (mp_loop m) p /\ exists sc, nth_error (sh_heap s) p = Some sc /\ s_pose sc = odom_guess (sh_robot s) (sh_odom s) odom
  | SMake p odom cov => ~ aimed (mp_loop m) p /\ exists sc0 sc k score corr,
      sp_local (mp_spin m) = Some k /\ match_scan (en_fuel cf) k sc0 pose0 (en_garbage cf) = Ok (score, corr, cov) /\
      s_pose sc0 = odom_guess (sh_robot s) (sh_odom s) odom /\ nth_error (sh_heap s) p = Some sc /\
      s_id sc = s_id sc0 /\ s_pts sc = s_pts sc0 /\ s_pose sc = add_correction (s_pose sc0) corr
  | _ => True
  end.
Definition aim_inv (m : mapper T) : Prop :=
  heap_inv m /\ (forall p, aimed (mp_loop m) p -> (p < List.length (sh_heap (mp_sh m)))%nat) /\ placed m.

Lemma after_candidate_aim : forall l c p, aimed (after_candidate l c) p -> lc_scan c = p.
Proof. intros l c p H. destruct (after_candidate_pc l c) as (pc & E & ->). rewrite E in H. unfold aimed in H. cbn [lp_pc] in H. destruct (_ =? 0)%Z; [contradiction H|exact H]. Qed.

(** A step of the loop closure thread works on the same scan, or on one of the graph. *)
Lemma loop_aim : forall s l s' l' p, loop_tr cf s l s' l' -> aimed l' p -> aimed l p \/ In p (sh_scans s).
Proof.
  intros s l s' l' p D H. destruct D; cbn [aimed lat lp_pc next_scan ctx_new lc_scan] in H; try contradiction H;
    try (left; unfold aimed; match goal with P : lp_pc l = _ |- _ => rewrite P end; exact H);
    try (left; unfold aimed; match goal with P : lp_pc l = _ |- _ => rewrite P end; exact (after_candidate_aim _ _ _ H)).
  - left. exact H.
  - right. subst p. match goal with N : nth_error _ _ = Some p0 |- _ => apply nth_error_In in N; exact N end.
Qed.
(** Only that scan and scans of the graph are moved. *)
Lemma loop_others : forall s l s' l' p, loop_tr cf s l s' l' -> ~ aimed l p -> ~ In p (sh_scans s) -> nth_error (sh_heap s') p = nth_error (sh_heap s) p.
Proof.
  intros s l s' l' p D N1 N2. destruct D; try reflexivity.
  - cbn [note put set_heap sh_heap]. rewrite nth_error_list_set. destruct (Nat.eqb_spec (lc_scan c) p) as [E|_]; [|reflexivity].
    contradiction N1. unfold aimed. match goal with P : lp_pc l = _ |- _ => rewrite P end. exact E.
  - cbn [unlock_g set_glock set_flag note sh_heap]. apply put_all_other. exact N2.
Qed.

Lemma aim_step : forall l m m', aim_inv m -> step_tr cf m l m' -> aim_inv m'.
Proof.
  intros l m m' (Hi & Ha & Hp) H. pose proof (heap_step cf l m m' Hi H) as Hi'. split; [exact Hi'|].
  destruct Hi as [_ Hap].
  destruct H as [e s' sp' Id D|s' sp' D|s' l' D|s' p' D]; cbn [mp_sh mp_loop].
  - split.
    + intros p P. specialize (Ha p P). destruct D; try exact Ha.
      * cbn [set_heap set_global sh_heap]. rewrite app_length. cbn [List.length]. lia.
      * rewrite configure_eq. exact Ha.
    + unfold placed. cbn [mp_sh mp_spin mp_loop]. inversion D; subst; try (rewrite Id; exact I); try exact I.
      * match goal with P : sp_pc sp' = SIdle |- _ => rewrite P end. exact I.
      * match goal with P : sp_pc sp' = run_pc _ _ _ _ _ |- _ => rewrite P end. unfold run_pc.
        destruct (use_filter cf); [exact I|]. destruct (sh_enable (mp_sh m)); [|exact I].
        cbn [sh_scans sh_heap sh_robot sh_odom set_heap set_global].
        destruct (sh_scans (mp_sh m)) as [|b rest] eqn:Sc; [left; reflexivity|]. right. split.
        -- intro P. apply Ha in P. lia.
        -- eexists. split; [rewrite nth_error_app2, Nat.sub_diag by lia; reflexivity|].
           match goal with Gs : guess_pose _ _ _ = Some _ |- _ => unfold guess_pose in Gs; rewrite Sc in Gs;
             destruct (small_motion _ _ _ _); [discriminate Gs|]; injection Gs as <- end. reflexivity.
      * rewrite configure_eq. cbn [snd at_pc sp_pc]. destruct (Z.testbit a 2), (Z.testbit a 3); exact I.
  - split.
    + intros p P. specialize (Ha p P). destruct D; try exact Ha; cbn [sh_heap put set_heap set_typical note unlock_g set_glock unlock_p set_plock set_cons set_scans set_init set_flag load_graph]; rewrite ?length_list_set, ?app_length; try lia.
      destruct upd; exact Ha.
    + unfold placed in *. cbn [mp_sh mp_spin mp_loop].
      destruct D; try exact I; match goal with P : sp_pc (mp_spin m) = _ |- _ => rewrite P in Hp, Hap end.
      cbn [at_pc sp_pc with_local sp_local]. destruct Hp as [Hp|(Na & sc1 & E1 & E2)]; [contradiction|]. split; [exact Na|].
      match goal with N : nth_error _ _ = Some sc |- _ => rewrite E1 in N; injection N as -> end.
      exists sc, (scan_set_pose sc (add_correction (s_pose sc) corr)). eexists _, _, _. split; [reflexivity|]. split; [eassumption|]. split; [exact E2|].
      split; [|repeat split]. cbn [put set_heap set_typical sh_heap]. rewrite nth_error_list_set, Nat.eqb_refl.
      assert (Lp : (p <? List.length (sh_heap (mp_sh m)))%nat = true) by (apply Nat.ltb_lt, nth_error_Some; rewrite E1; discriminate).
      rewrite Lp. reflexivity.
  - destruct (loop_frame cf m (mkMapper s' (mp_spin m) l' (mp_pub m)) (T_loop cf m s' l' D)) as (F1 & F2 & (F3 & F4) & _). cbn [mp_sh] in F1, F2, F3, F4.
    pose proof (only_poses_length _ _ F2) as F5. split.
    + intros p P. rewrite F5. destruct (loop_aim _ _ _ _ p D P) as [Q|Q]; [apply Ha; exact Q|].
      destruct Hi' as [Hs _]. cbn [mp_sh] in Hs. rewrite F1, F5 in Hs. rewrite Forall_forall in Hs. apply Hs. exact Q.
    + unfold placed in *. cbn [mp_sh mp_spin mp_loop]. destruct (sp_pc (mp_spin m)) eqn:Pc; try exact I; cbn [apart] in Hap; destruct Hap as [Hq _].
      * destruct Hp as [Hp|(Na & sc1 & E1 & E2)]; [left; rewrite F1; exact Hp|]. right. split.
        -- intro P. destruct (loop_aim _ _ _ _ _ D P) as [Q|Q]; contradiction.
        -- exists sc1. rewrite F3, F4, (loop_others _ _ _ _ _ D Na Hq). split; assumption.
      * destruct Hp as (Na & Hp). split.
        -- intro P. destruct (loop_aim _ _ _ _ _ D P) as [Q|Q]; contradiction.
        -- rewrite F3, F4, (loop_others _ _ _ _ _ D Na Hq). exact Hp.
  - destruct (pub_frame cf m _ (T_pub cf m s' p' D)) as ((E1 & E2 & E3) & (E4 & E5) & _ & _). cbn [mp_sh] in *. split.
    + intros p P. rewrite E1. apply Ha. exact P.
    + unfold placed in *. cbn [mp_sh mp_spin mp_loop]. rewrite E1, E2, E4, E5. exact Hp.
Qed.

Lemma aim_reachable : forall m, reachable cf m -> aim_inv m.
Proof.
  apply reachable_inv; [|exact aim_step]. intros m H.
  assert (R : reachable cf m) by (exists []; unfold run; rewrite H; reflexivity).
  split; [apply (heap_reachable cf); exact R|]. apply init_cases in H. destruct H as (s & f & -> & _ & ->). split; [|exact I].
  intros p P. contradiction P.
Qed.
End P.

(** Every history and schedule: the constraint leads from the newest scan of the
    graph, where it is at that moment, to the new scan, which was matched at the pose
    of the robot moved by what odometry measured, and then corrected. *)
Theorem C79_every_history_partial : forall (cf : config R) m p odom cov m', reachable cf m ->
  sp_pc (mp_spin m) = SMake p odom cov -> step cf Spin m = Some (Ok m') ->
  exists back sc k score corr c, newest (mp_sh m) = Some back /\
    sp_local (mp_spin m) = Some k /\ match_scan (en_fuel cf) k sc pose0 (en_garbage cf) = Ok (score, corr, cov) /\
    (forall d, same_pose (compose (sh_odom (mp_sh m)) d) odom -> same_pose (compose (sh_robot (mp_sh m)) d) (s_pose sc)) /\
    sp_pc (mp_spin m') = SConsLock p odom c /\ c_begin c = s_id back /\ c_end c = s_id sc /\
    compose (s_pose back) (mkPose (v0 (c_transform c)) (v1 (c_transform c)) (v2 (c_transform c))) =
    mkPose (pox (s_pose sc) + pox corr)%R (poy (s_pose sc) + poy corr)%R (poth (s_pose sc) + poth corr)%R.
Proof.
  intros cf m p odom cov m' R Pc St. destruct (aim_reachable cf m R) as (_ & _ & H). unfold placed in H. rewrite Pc in H.
  destruct H as (_ & sc0 & sc & k & score & corr & H1 & H2 & H3 & H4 & H5 & H6 & H7).
  apply step_cases in St. inversion St as [|s' sp' D| |]; subst.
  destruct D; match goal with P : sp_pc (mp_spin m) = _ |- _ => rewrite Pc in P; try discriminate P end.
  match goal with P : SMake _ _ _ = SMake _ _ _ |- _ => injection P as <- <- <- end.
  match goal with N : nth_error (sh_heap (mp_sh m)) p = Some ?x |- _ => lazymatch x with sc => fail | _ => rewrite H4 in N; injection N as <- end end.
  exists back, sc0, k, score, corr. eexists. split.
  { unfold newest. destruct (rev (sh_scans (mp_sh m))) as [|q rest]; [discriminate|].
    match goal with N : nth_error (q :: rest) 0 = Some _ |- _ => injection N as -> end. assumption. }
  split; [exact H1|]. split; [exact H2|]. split; [intros d Hd; rewrite H3; apply odom_guess_rigid; exact Hd|].
  split; [reflexivity|]. split; [reflexivity|]. split; [exact H5|].
  destruct (make_constraint_spec back sc cov) as (E & _). rewrite E, H7. unfold add_correction. ra. f_equal; apply Rplus_comm.
Qed.
Print Assumptions C79_every_history_partial.

(** A run in which the constraint is about to be made, after a loop closure has moved
    the newest scan. *)
Definition making (m : mapper b64) : bool :=
  match sp_pc (mp_spin m) with SMake _ _ _ => existsb (fun o => match o with ObMove _ _ => true | _ => false end) (sh_trace (mp_sh m)) | _ => false end.
Example C79_nonvacuous : forall lm : libm, exists cf m p odom cov m', reachable (A := BA (easy lm)) cf m /\
  sp_pc (mp_spin m) = SMake p odom cov /\ step (A := BA (easy lm)) cf Spin m = Some (Ok m') /\
  existsb (fun o => match o with ObMove _ _ => true | _ => false end) (sh_trace (mp_sh m)) = true.
Proof.
  intro lm. set (cf := cf64 lm 9 1 1 None false (Some eleven_scans)).
  destruct (ends64_in (run (A := BA (easy lm)) cf (removelast moved_schedule))
    (fun m => making m && match step (A := BA (easy lm)) cf Spin m with Some (Ok _) => true | _ => false end)) as (m & E & H); [vm_compute; reflexivity|].
  apply andb_prop in H. destruct H as [H1 H2]. unfold making in H1.
  destruct (sp_pc (mp_spin m)) as [| | |p odom cov| | | | | | | | | | | | | | | | ] eqn:Pc; try discriminate H1.
  destruct (step (A := BA (easy lm)) cf Spin m) as [[m'|]|] eqn:St; try discriminate H2.
  exists cf, m, p, odom, cov, m'. split; [exists (removelast moved_schedule); exact E|]. split; [exact Pc|]. split; [exact St|exact H1].
Qed.
