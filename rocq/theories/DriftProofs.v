(** Proofs for C180. *)

From Coq Require Import Reals Psatz ZArith List Bool String Lia.
From Verif Require Import Outcome Arith SpecOrigin TypesModel ScanModel MatcherModel GraphModel OccGridModel LaserModel MapperModel SpecMapper SpecMapper2 SpecNode SpecDefaults SpecDrift
  NdtProofs MapperProofs MapperSteps MapperInv1 MapperInv2 MapperInv3 NodeProofs PropWindow DefaultsProofs.
Import ListNotations.
Local Open Scope outcome_scope.

Section P.
Context {T : Type} {A : Arith T}.
Context (cf : config T) (L : pose T -> Prop).
Context (HL : forall r k s score c cov, same_settings k (en_local cf r) ->
  match_scan (en_fuel cf) k s origin (en_garbage cf) = Ok (score, c, cov) -> L c).

(** The pose of the scan being processed follows from the last pair of poses. *)
Definition follows (ps : list (pose T * pose T)) (odom q : pose T) : Prop :=
  (ps = [] /\ q = pose0) \/
  exists l r o c, ps = l ++ [(r, o)] /\ L c /\ q = add_correction (odom_guess r o odom) c.
Fixpoint chain (ps : list (pose T * pose T)) (rest : list (pose T * pose T)) : Prop :=
  match rest with
  | [] => True
  | (r, o) :: rest => follows ps o r /\ chain (ps ++ [(r, o)]) rest
  end.
Lemma chain_app rest1 : forall ps rest2, chain ps (rest1 ++ rest2) <-> chain ps rest1 /\ chain (ps ++ rest1) rest2.
Proof.
  induction rest1 as [|[r o] rest1 IH]; intros ps rest2; cbn [app chain]; [rewrite app_nil_r; tauto|].
  rewrite IH, <- app_assoc. cbn [app]. tauto.
Qed.

Definition last_is (ps : list (pose T * pose T)) (r o : pose T) : Prop := ps = [] \/ exists l, ps = l ++ [(r, o)].
Definition processed (m : mapper T) : Prop :=
  let s := mp_sh m in let ps := tracked (sh_trace s) in
  match sp_pc (mp_spin m) with
  | SMatch p odom => exists sc, nth_error (sh_heap s) p = Some sc /\
      s_pose sc = match sh_scans s with [] => pose0 | _ => odom_guess (sh_robot s) (sh_odom s) odom end
  | SMake p odom _ | SConsLock p odom _ | SConsPush p odom _ | SScanLock p odom | SScanPush p odom | SPoseLock p odom _ | SPoseWrite p odom _ =>
      exists sc, nth_error (sh_heap s) p = Some sc /\ follows ps odom (s_pose sc)
  | _ => True
  end.
Definition drift_inv (m : mapper T) : Prop :=
  maps_inv m /\ chain [] (tracked (sh_trace (mp_sh m))) /\
  last_is (tracked (sh_trace (mp_sh m))) (sh_robot (mp_sh m)) (sh_odom (mp_sh m)) /\ processed m.

Lemma tracked_used tr : List.length (tracked tr) = List.length (filter (@used T) tr).
Proof. induction tr as [|o tr IH]; [reflexivity|]. destruct o; cbn [tracked filter used]; try exact IH. rewrite app_length, IH. cbn. lia. Qed.

Lemma heap_more (h : list (scan T)) x p sc : nth_error h p = Some sc -> nth_error (h ++ x) p = Some sc.
Proof. intro E. rewrite nth_error_app1; [exact E|]. apply nth_error_Some. rewrite E. discriminate. Qed.

Lemma drift_step : cf_filter cf = None -> forall l m m', odometry_only m l -> window_inv cf (fun _ => True) m -> drift_inv m -> step_tr cf m l m' -> drift_inv m'.
Proof.
  intros CF l m m' [O1 O2] W (Mi & C & La & P) H. pose proof (maps_step cf CF l m m' O1 Mi H) as Mi'. split; [exact Mi'|].
  destruct Mi as (E & In_ & F & _ & Pc & Len). destruct W as (W1 & _).
  unfold messages_used, finishing in Len. rewrite <- tracked_used in Len. unfold processed in *.
  destruct H as [e s' sp' Id D|s' sp' D|s' l' D|s' p' D]; cbn [mp_sh mp_spin mp_loop] in *.
  - destruct D; cbn [sh_trace sh_robot sh_odom sh_heap sh_scans set_heap set_global at_pc with_filter sp_pc] in *;
      try (rewrite E, In_ in *; discriminate); try congruence.
    + split; [exact C|]. split; [exact La|]. match goal with Q : sp_pc sp' = SIdle |- _ => rewrite Q; exact I end.
    + split; [exact C|]. split; [exact La|].
      assert (R : sp_pc sp' = SMatch (List.length (sh_heap (mp_sh m))) odom).
      { match goal with Q : sp_pc sp' = run_pc _ _ _ _ _ |- _ => rewrite Q end. unfold run_pc, use_filter. rewrite CF, E. reflexivity. }
      rewrite R. exists sc. split; [rewrite nth_error_app2, Nat.sub_diag by lia; reflexivity|].
      match goal with Q : sc = _ |- _ => rewrite Q end. match goal with Q : guess_pose _ _ _ = Some _ |- _ => unfold guess_pose in Q; rename Q into Gp end.
      assert (Ps : s_pose (scan_set_points (scan_set_pose (scan_new (num_scans (mp_sh m))) guess) pts) = guess) by reflexivity. rewrite Ps.
      destruct (sh_scans (mp_sh m)); [congruence|]. destruct (small_motion _ _ _ _); [discriminate Gp|]. congruence.
    + split; [exact C|]. split; [exact La|exact P].
  - destruct D; match goal with Q : sp_pc (mp_spin m) = _ |- _ => rewrite Q in Pc, Len, P end; try discriminate Pc;
      cbn [sh_trace sh_robot sh_odom sh_heap sh_scans set_heap set_global at_pc with_filter with_local sp_pc put set_typical set_glock unlock_g
         set_plock unlock_p note set_cons set_scans set_flag set_robot set_odom tracked] in *;
      try (split; [exact C|split; [exact La|exact P]]).
    + (* first scan *)
      split; [exact C|split; [exact La|]]. destruct P as (sc & N & Q). exists sc. split; [exact N|]. left.
      match goal with Z0 : sh_scans _ = [] |- _ => rewrite Z0 in Len, Q; cbn in Len end. split; [|exact Q].
      destruct (tracked (sh_trace (mp_sh m))); [reflexivity|discriminate Len].
    + (* match *)
      split; [exact C|split; [exact La|]]. destruct P as (sc0 & N & Q).
      match goal with Z0 : nth_error (sh_heap (mp_sh m)) p = Some sc |- _ => rewrite N in Z0; injection Z0 as -> end.
      exists (scan_set_pose sc (add_correction (s_pose sc) corr)).
      split; [rewrite nth_error_list_set, Nat.eqb_refl; assert (p < List.length (sh_heap (mp_sh m)))%nat by (apply nth_error_Some; congruence);
        destruct (Nat.ltb_spec p (List.length (sh_heap (mp_sh m)))); [reflexivity|lia]|].
      right. destruct La as [La|[l0 La]].
      * exfalso. rewrite La in Len. cbn in Len. destruct (sh_scans (mp_sh m)); [contradiction|discriminate Len].
      * exists l0, (sh_robot (mp_sh m)), (sh_odom (mp_sh m)), corr. split; [exact La|]. split.
        -- match goal with Z0 : sp_local _ = Some ?k, M : add_scans _ _ _ = Ok _, M2 : match_scan _ _ _ _ _ = Ok _ |- _ =>
             destruct (W1 k Z0) as [r Er]; apply add_scans_settings in M; refine (HL r _ _ _ _ _ (settings_same _ _ _) M2); rewrite M, <- Er; reflexivity end.
        -- change (s_pose (scan_set_pose sc (add_correction (s_pose sc) corr))) with (add_correction (s_pose sc) corr). rewrite Q.
           destruct (sh_scans (mp_sh m)); [contradiction|reflexivity].
    + (* the poses are stored *)
      destruct P as (sc0 & N & Q). match goal with Z0 : nth_error (sh_heap (mp_sh m)) p = Some sc |- _ => rewrite N in Z0; injection Z0 as -> end.
      assert (G : chain [] (tracked (sh_trace (mp_sh m)) ++ [(s_pose sc, odom)])).
      { apply chain_app. split; [exact C|]. cbn [app chain]. split; [exact Q|exact I]. }
      destruct upd; (split; [exact G|split; [right; eexists; reflexivity|exact I]]).
  - destruct D; cbn [sh_trace sh_robot sh_odom sh_heap sh_scans put set_heap set_global set_glock unlock_g note set_cons set_flag tracked] in *;
      try (split; [exact C|split; [exact La|exact P]]);
      exfalso; match goal with Q : lp_pc _ = _ |- _ => rewrite Q in O2 end; exact (O2 eq_refl).
  - destruct D; cbn [sh_trace sh_robot sh_odom sh_heap sh_scans set_flag note set_glock unlock_g set_plock unlock_p tracked] in *;
      (split; [exact C|split; [exact La|exact P]]).
Qed.

Lemma drift_reach : cf_filter cf = None -> cf_enable cf = true -> cf_file cf = None -> forall m, reach_if cf odometry_only m -> drift_inv m.
Proof.
  intros F E N. apply (reach_if_and cf odometry_only drift_inv (window_inv cf (fun _ => True))).
  - intros m R. apply (window_reachable cf (fun _ => True)); [intros; exact I|]. exact (MapperInv5.reach_if_reachable cf _ m R).
  - intros m H. split; [apply (maps_init cf F E N m H)|]. unfold mapper_init in H. rewrite F, N in H. injection H as <-. cbn.
    split; [exact I|]. split; [left; reflexivity|exact I].
  - intros l m m' O J Iv H. exact (drift_step F l m m' O J Iv H).
Qed.
End P.
