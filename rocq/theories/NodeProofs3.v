(** Mounting of the laser and motion of the robot in exact arithmetic; checks for
    the hypotheses of C85 - C88. *)

From Coq Require Import ZArith Reals List Bool String Lia Lra.
From Flocq Require Import Core.
From Verif Require Import Outcome Arith RTactics TypesModel ScanModel MatcherModel ConstraintModel
  SolverModel GraphModel OccGridModel MotionModel FilterModel LaserModel MapperModel SpecPose SpecLaser SpecMapper SpecNode
  NdtProofs AngleProofs ConstraintProofs MapperProofs LaserProofs NodeProofs NodeProofs2.
Import ListNotations.

(** ** Exact arithmetic *)
Section Exact.
Local Open Scope R_scope.

Lemma tilted_spec : forall t : pose_msg R, tilted t = true <-> 2 / 100 < Rabs (ps_qx t) \/ 2 / 100 < Rabs (ps_qy t).
Proof.
  intro t. unfold tilted. rewrite orb_true_iff. ra.
  destruct (Rlt_bool_spec (2 / 100) (Rabs (ps_qx t))); destruct (Rlt_bool_spec (2 / 100) (Rabs (ps_qy t))); split;
    intros [K|K]; try discriminate K; try (left; assumption); try (right; assumption); try (left; reflexivity); try (right; reflexivity); lra.
Qed.

Lemma upside_down_tilted : forall t, unit_quat t -> z_up t < 0 -> tilted t = true.
Proof.
  intros t U Z. apply tilted_spec. unfold unit_quat, z_up in *.
  destruct (Rlt_le_dec (2 / 100) (Rabs (ps_qx t))) as [L|L]; [left; exact L|].
  right. apply Rnot_le_lt. intro L2.
  assert (sq : forall x, Rabs x <= 2 / 100 -> x * x <= 4 / 10000).
  { intros x H. apply Rabs_le_inv in H. nra. }
  pose proof (sq _ L). pose proof (sq _ L2). nra.
Qed.

Lemma level_not_tilted : forall t : pose_msg R, Rabs (ps_qx t) <= 2 / 100 -> Rabs (ps_qy t) <= 2 / 100 -> tilted t = false.
Proof.
  intros t H1 H2. destruct (tilted t) eqn:E; [|reflexivity]. apply tilted_spec in E. lra.
Qed.

(** The vector the filter is moved by is the motion from one pose to the other. *)
Lemma robot_delta_motion : forall prev now : pose R, same_pose (compose prev (vec_pose (robot_delta prev now))) now.
Proof.
  intros p q. unfold robot_delta, vec_pose, compose, act, same_pose. cbn [pox poy poth px py v0 v1 v2]. ra.
  pose proof (cs2 (poth p)) as C. set (c := cos (poth p)) in *. set (s := sin (poth p)) in *.
  split; [|split].
  - replace (pox p + _) with (pox p + (c * c + s * s) * (pox q - pox p)) by ring. rewrite C. ring.
  - replace (poy p + _) with (poy p + (c * c + s * s) * (poy q - poy p)) by ring. rewrite C. ring.
  - apply (angle_diff_turn (poth p) (poth q)).
Qed.

(** Relative motions are unique. *)
Lemma compose_cancel : forall p a b : pose R, same_pose (compose p a) (compose p b) -> same_pose a b.
Proof.
  intros p a b (X & Y & H). unfold compose, act in *. cbn [pox poy poth px py] in *.
  pose proof (cs2 (poth p)) as C. set (c := cos (poth p)) in *. set (s := sin (poth p)) in *.
  split; [|split].
  - assert (E : c * (c * pox a - s * poy a) + s * (s * pox a + c * poy a) = c * (c * pox b - s * poy b) + s * (s * pox b + c * poy b)).
    { assert (c * pox a - s * poy a = c * pox b - s * poy b) by lra. assert (s * pox a + c * poy a = s * pox b + c * poy b) by lra. congruence. }
    replace (c * (c * pox a - s * poy a) + s * (s * pox a + c * poy a)) with ((c * c + s * s) * pox a) in E by ring.
    replace (c * (c * pox b - s * poy b) + s * (s * pox b + c * poy b)) with ((c * c + s * s) * pox b) in E by ring. rewrite C in E. lra.
  - assert (E : c * (s * pox a + c * poy a) - s * (c * pox a - s * poy a) = c * (s * pox b + c * poy b) - s * (c * pox b - s * poy b)).
    { assert (c * pox a - s * poy a = c * pox b - s * poy b) by lra. assert (s * pox a + c * poy a = s * pox b + c * poy b) by lra. congruence. }
    replace (c * (s * pox a + c * poy a) - s * (c * pox a - s * poy a)) with ((c * c + s * s) * poy a) in E by ring.
    replace (c * (s * pox b + c * poy b) - s * (c * pox b - s * poy b)) with ((c * c + s * s) * poy b) in E by ring. rewrite C in E. lra.
  - destruct H as [k H]. exists k. lra.
Qed.

Lemma same_pose_sym : forall p q, same_pose p q -> same_pose q p.
Proof. intros p q (X & Y & k & H). split; [auto|]. split; [auto|]. exists (- k)%Z. rewrite opp_IZR. lra. Qed.
Lemma same_pose_trans : forall p q r, same_pose p q -> same_pose q r -> same_pose p r.
Proof.
  intros p q r (X & Y & k & H) (X' & Y' & k' & H'). split; [congruence|]. split; [congruence|]. exists (k + k')%Z. rewrite plus_IZR. lra.
Qed.

(** The filter is moved by the motion odometry measured. *)
Lemma filter_motion : forall (cf : config R) s odom guess d, sh_scans s <> [] -> guess_pose cf s odom = Some guess ->
  same_pose (compose (sh_odom s) d) odom -> same_pose (vec_pose (robot_delta (sh_robot s) guess)) d.
Proof.
  intros cf s odom guess d N G D. apply (compose_cancel (sh_robot s)).
  apply same_pose_trans with guess; [apply robot_delta_motion|]. apply same_pose_sym.
  unfold guess_pose in G. destruct (sh_scans s); [contradiction|]. destruct (small_motion _ _ _ _); [discriminate G|].
  injection G as <-. apply odom_guess_rigid. exact D.
Qed.

(** The duration of a sweep. *)
Lemma wrap64_id : forall z, (0 <= z < 2 ^ 64)%Z -> wrap64 z = z.
Proof. intros z H. unfold wrap64. apply Z.mod_small. exact H. Qed.

Lemma sweep_exact : forall n (dt : R), (1 <= n)%nat -> (Z.of_nat n < 2 ^ 64)%Z ->
  0 <= dt -> INR (n - 1) * dt * 1000000000 < IZR (2 ^ 63) ->
  exists ns, sweep_ns n dt = Ok ns /\ IZR ns <= INR (n - 1) * dt * 1000000000 < IZR ns + 1.
Proof.
  intros n dt N N2 D B. unfold sweep_ns, cast_int64. rewrite wrap64_id by lia. ra.
  replace (IZR (Z.of_nat n - 1)) with (INR (n - 1)) by (rewrite INR_IZR_INZ; f_equal; lia).
  set (x := INR (n - 1) * dt * 1000000000) in *.
  assert (X : 0 <= x) by (unfold x; pose proof (pos_INR (n - 1)); assert (0 <= INR (n - 1) * dt) by (apply Rmult_le_pos; assumption); lra).
  rewrite Ztrunc_floor by exact X. pose proof (Zfloor_lb x) as L. pose proof (Zfloor_ub x) as U.
  assert (F0 : (0 <= Zfloor x)%Z) by (apply Zfloor_lub; exact X).
  assert (F1 : (Zfloor x < 2 ^ 63)%Z) by (apply lt_IZR; lra).
  destruct (Z.leb_spec (- 2 ^ 63) (Zfloor x)); [|lia]. destruct (Z.ltb_spec (Zfloor x) (2 ^ 63)); [|lia]. cbn [andb].
  exists (Zfloor x). split; [reflexivity|]. split; assumption.
Qed.

Lemma sweep_empty : forall dt : R, 1 / 1000000000 <= dt -> sweep_ns 0 dt = Fault BadCast.
Proof.
  intros dt H. unfold sweep_ns, cast_int64. change (wrap64 (Z.of_nat 0 - 1)) with 18446744073709551615%Z. ra.
  rewrite Ztrunc_floor by lra.
  assert (F1 : (2 ^ 63 <= Zfloor (18446744073709551615 * dt * 1000000000))%Z).
  { apply Zfloor_lub. change (2 ^ 63)%Z with 9223372036854775808%Z. lra. }
  destruct (Z.ltb_spec (Zfloor (18446744073709551615 * dt * 1000000000)) (2 ^ 63)); [lia|]. rewrite andb_false_r. reflexivity.
Qed.
End Exact.

(** A laser is learned from a message although the robot's pose is unknown. *)
Section Learn.
Context {T : Type} {A : Arith T}.
Context (cf : config T).

Lemma learn_run : forall e, cf_file cf = None -> cf_filter cf = None -> cf_enable cf = true -> le_start e = None ->
  exists m, run cf [Deliver (EvLaser e)] = Ok m /\ received cf [Deliver (EvLaser e)] = [e].
Proof.
  intros e F Fi En St. unfold received, run, mapper_init. rewrite F, Fi. cbn [bind]. cbv zeta. cbn [exec step mp_spin mp_sh received_from].
  unfold deliver. cbn [sp_pc]. unfold laser_begin, learn_laser. cbv zeta. cbn [learn_range sp_frame String.eqb].
  destruct (le_laser e) as [t|].
  - unfold use_filter. rewrite Fi. cbn [sh_enable orb]. rewrite En. cbn [negb bind sh_init set_global]. rewrite St. cbn. eexists. split; reflexivity.
  - cbn. eexists. split; reflexivity.
Qed.

(** The first message of a node that starts without a map. *)
Lemma first_message : forall e start, cf_file cf = None -> cf_filter cf = None -> cf_enable cf = true ->
  mounted e = true -> le_start e = Some start -> forall f,
  sweep_ns (List.length (lr_ranges (le_msg e))) (le_time_inc e) = Fault f -> run cf [Deliver (EvLaser e)] = Fault f.
Proof.
  intros e start F Fi En Mo St f Sw. unfold run, mapper_init. rewrite F, Fi. cbn [bind]. cbv zeta. cbn [exec step mp_spin mp_sh].
  unfold deliver. cbn [sp_pc]. unfold laser_begin, learn_laser. cbv zeta. cbn [learn_range sp_frame String.eqb].
  unfold mounted in Mo. destruct (le_laser e) as [t|]; [|discriminate Mo].
  unfold use_filter. rewrite Fi. cbn [sh_enable orb]. rewrite En. cbn [negb bind sh_init set_global]. rewrite St.
  unfold guess_pose. cbn [sh_scans set_global]. rewrite Sw. reflexivity.
Qed.

(** Checking the hypotheses of the callback theorems. *)
Definition ready (m : mapper T) (e : laser_ev T) : option (pose_msg T * pose T * list (point T)) :=
  let s := mp_sh m in let sp := mp_spin m in
  match sp_pc sp with
  | SIdle =>
    if sh_init s && negb (String.eqb (sp_frame sp) "") then
      match le_start e with
      | None => None
      | Some start =>
        match guess_pose cf s (from_msg start) with
        | None => None
        | Some guess =>
          match sweep_ns (List.length (lr_ranges (le_msg e))) (le_time_inc e) with
          | Fault _ => None
          | Ok ns =>
            match le_end e ns with
            | None => None
            | Some end_ =>
              match scan_points (sp_inverted sp) (limit_after (sp_range_max sp) e) (sp_laser sp) (from_msg start) (from_msg end_) (le_msg e) with
              | Fault _ => None
              | Ok pts => Some (start, guess, pts)
              end
            end
          end
        end
      end
    else None
  | _ => None
  end.
Lemma ready_sound : forall m e start guess pts, ready m e = Some (start, guess, pts) -> accepted cf m e start guess pts.
Proof.
  intros m e start guess pts H. unfold ready in H. cbv zeta in H. unfold accepted. cbv zeta.
  destruct (sp_pc (mp_spin m)); try discriminate H.
  destruct (sh_init (mp_sh m)); [|discriminate H]. destruct (String.eqb_spec (sp_frame (mp_spin m)) "") as [E|E]; [discriminate H|]. cbn [andb negb] in H.
  destruct (le_start e) as [st|]; [|discriminate H]. destruct (guess_pose cf (mp_sh m) (from_msg st)) as [gu|] eqn:G; [|discriminate H].
  destruct (sweep_ns _ _) as [ns|] eqn:Sn; [|discriminate H]. destruct (le_end e ns) as [en|] eqn:En; [|discriminate H].
  destruct (scan_points _ _ _ _ _ _) as [ps|] eqn:Ps; [|discriminate H]. injection H as <- <- <-.
  repeat (split; [reflexivity || assumption|]). exists ns, en. split; [reflexivity|]. split; assumption.
Qed.

Definition local_ready (m : mapper T) (sc : scan T) : option (T * pose T * mat3 T) :=
  match the_graph cf (mp_sh m), sp_local (mp_spin m) with
  | Ok g, Some k =>
    match rolling_window (cf_depth cf) (gr_scans g) with
    | Ok w =>
      match add_scans (en_eig cf) (matcher_reset k) w with
      | Ok k' => match score_scan k' sc, match_scan (en_fuel cf) k' sc pose0 (en_garbage cf) with Ok _, Ok r => Some r | _, _ => None end
      | _ => None
      end
    | _ => None
    end
  | _, _ => None
  end.
Lemma local_ready_sound : forall m sc score corr cov, local_ready m sc = Some (score, corr, cov) -> matched_locally cf m sc score corr cov.
Proof.
  intros m sc score corr cov H. unfold local_ready in H. unfold matched_locally.
  destruct (the_graph cf (mp_sh m)) as [g|]; [|discriminate H]. destruct (sp_local (mp_spin m)) as [k|]; [|discriminate H].
  destruct (rolling_window (cf_depth cf) (gr_scans g)) as [w|] eqn:W; [|discriminate H].
  destruct (add_scans (en_eig cf) (matcher_reset k) w) as [k'|] eqn:K; [|discriminate H].
  destruct (score_scan k' sc) as [u|] eqn:U; [|discriminate H].
  destruct (match_scan _ _ _ _ _) as [r|] eqn:R; [|discriminate H]. injection H as ->.
  exists g, w, k, k', u. repeat split; assumption.
Qed.

Definition global_ready (m : mapper T) (sc : scan T) : option (T * pose T * mat3 T) :=
  match sh_global (mp_sh m) with
  | Some k => match match_scan (en_fuel cf) k sc pose0 (en_garbage cf) with Ok r => Some r | _ => None end
  | None => None
  end.
Lemma global_ready_sound : forall m sc score corr cov, global_ready m sc = Some (score, corr, cov) -> matched_globally cf m sc score corr cov.
Proof.
  intros m sc score corr cov H. unfold global_ready in H. unfold matched_globally.
  destruct (sh_global (mp_sh m)) as [k|]; [|discriminate H]. destruct (match_scan _ _ _ _ _) as [r|] eqn:R; [|discriminate H]. injection H as ->.
  exists k. split; [reflexivity|exact R].
Qed.

Definition filter_ready (m : mapper T) (e : laser_ev T) (d : vec3 T) (pts : list (point T)) : option (pfilter T) :=
  match sh_global (mp_sh m), sp_filter (mp_spin m) with
  | Some k, Some f =>
    match filter_update (le_normal e) (v0 d) (v1 d) (v2 d) f with
    | Ok f1 =>
      match filter_measure (score_points k pts) f1 with
      | Ok f2 => match filter_resample (le_draws e) (cf_kld_err cf) (cf_kld_z cf) f2 with Ok f3 => Some f3 | _ => None end
      | _ => None
      end
    | _ => None
    end
  | _, _ => None
  end.
Lemma filter_ready_sound : forall m e d pts f, filter_ready m e d pts = Some f -> filtered cf m e d pts f.
Proof.
  intros m e d pts f H. unfold filter_ready in H. unfold filtered.
  destruct (sh_global (mp_sh m)) as [k|]; [|discriminate H]. destruct (sp_filter (mp_spin m)) as [f0|]; [|discriminate H].
  destruct (filter_update _ _ _ _ f0) as [f1|] eqn:F1; [|discriminate H]. destruct (filter_measure _ f1) as [f2|] eqn:F2; [|discriminate H].
  destruct (filter_resample _ _ _ f2) as [f3|] eqn:F3; [|discriminate H]. injection H as ->.
  exists k, f0, f1, f2. repeat split; assumption.
Qed.
End Learn.
