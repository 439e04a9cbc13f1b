(** Property C113: what the particle filter asks of std::normal_distribution. *)

From Coq Require Import ZArith Reals List Bool Lra Lia.
From Flocq Require Import Core BinarySingleNaN.
From Verif Require Import Outcome Arith TypesModel SpecPose RTactics ConstraintProofs NdtProofs KdModel MotionModel FilterModel SpecFilter SpecKld
  AngleProofs KdProofs MotionProofs FilterProofs FilterProofs2 FilterWitness PropNoise.
Import ListNotations.
Local Open Scope R_scope.

(** Returns the mean; and a source that does so only for positive deviations. *)
Definition draw_mean : normal_source R := fun _ m _ => m.
Definition draw_odd : normal_source R := fun _ m s => if Rlt_bool 0 s then m else m + 1 / 2.

Lemma draws_agree : same_where_specified draw_mean draw_odd.
Proof. intros i m s H. unfold draw_mean, draw_odd. rewrite Rlt_bool_true by exact H. reflexivity. Qed.

(** C113 is false.  Turning on the spot asks for a first rotation of standard
    deviation zero, whatever the parameters; an initial pose with a zero variance
    does the same. *)
Theorem C113_update_refuted : forall m : motion_params R, exists n n' ps,
  same_where_specified n n' /\ motion_sample n m 0 0 (PI / 2) ps <> motion_sample n' m 0 0 (PI / 2) ps.
Proof.
  intro m. pose proof PI_RGT_0 as P. pose proof PI_4 as P4. exists draw_mean, draw_odd, [mkVec3 0 0 0]. split; [exact draws_agree|].
  unfold motion_sample. rewrite spot_sigmas by lra. rewrite Rmin_left by lra.
  assert (E : motion_mean 0 0 (PI / 2) = (0, 0, PI / 2)).
  { unfold motion_mean. ra. change (nhypot (0 : R) 0) with (sqrt (0 * 0 + 0 * 0)). replace (0 * 0 + 0 * 0) with 0 by ring.
    rewrite sqrt_0. rewrite Rlt_bool_false by lra. unfold angle_diff. ra. replace (PI / 2 - 0) with (PI / 2) by ring.
    rewrite normalize_angle_id by lra. reflexivity. }
  rewrite E. unfold map_i, sample_one, draw_mean, draw_odd. ra. cbn [v0 v1 v2]. rewrite (Rlt_bool_false 0 0) by lra.
  intro H. assert (H2 : normalize_angle (0 + 0 + PI / 2) =
     normalize_angle (0 + (0 + 1 / 2) + (if Rlt_bool 0 (sqrt (mo_a1 m * (PI / 2) * (PI / 2))) then PI / 2 else PI / 2 + 1 / 2))) by congruence.
  clear H. assert (B : 1 < PI / 2) by (pose proof PI2_1; lra).
  replace (0 + 0 + PI / 2) with (PI / 2) in H2 by ring. rewrite normalize_angle_id in H2 by lra.
  destruct (Rlt_bool 0 _); rewrite normalize_angle_id in H2 by lra; lra.
Qed.
Print Assumptions C113_update_refuted.

Lemma stats_parts : forall (f f' : pfilter R), update_stats f = Ok f' -> pf_parts f' = pf_parts f.
Proof. intros f f' H. unfold update_stats in H. apply bind_ok in H. destruct H as (pw & _ & H). injection H as <-. reflexivity. Qed.

Theorem C113_init_refuted : forall x y th sy sth : R, exists n n' f,
  same_where_specified n n' /\ filter_init n x y th 0 sy sth f <> filter_init n' x y th 0 sy sth f.
Proof.
  intros x y th sy sth. exists draw_mean, draw_odd, (mkFilter 1 1 (mkMotion 1 1 1 1 1) [mkVec3 0 0 0] [1] (mkVec3 0 0 0) mat3_zero).
  split; [exact draws_agree|].
  assert (D : forall n, exists f', filter_init n x y th 0 sy sth (mkFilter 1 1 (mkMotion 1 1 1 1 1) [mkVec3 0 0 0] [1] (mkVec3 0 0 0) mat3_zero) = Ok f' /\
     map v0 (pf_parts f') = [n 0%nat x 0]).
  { intro n. unfold filter_init. cbn [pf_parts map_i length repeat].
    match goal with |- exists f', update_stats ?g = Ok f' /\ _ => set (f := g) end.
    destruct (update_stats f) as [f'|e] eqn:E; [|discriminate E].
    exists f'. split; [reflexivity|]. rewrite (stats_parts _ _ E). reflexivity. }
  intro H. destruct (D draw_mean) as (f1 & E1 & P1). destruct (D draw_odd) as (f2 & E2 & P2).
  assert (f1 = f2) by congruence. subst f2. rewrite P1 in P2. injection P2 as P2. unfold draw_mean, draw_odd in P2.
  rewrite (Rlt_bool_false 0 0) in P2 by lra. lra.
Qed.
Print Assumptions C113_init_refuted.

(** What holds: a motion that changes the position, with the noise of driving
    switched on, and an initial pose with positive variances, only use what is
    specified. *)
Theorem C113_update_partial : forall (m : motion_params R) dx dy dth (n n' : normal_source R) f,
  same_where_specified n n' ->
  0 <= mo_a1 m -> 0 < mo_a2 m -> 0 < mo_a3 m -> 0 <= mo_a4 m -> dx <> 0 \/ dy <> 0 -> pf_motion f = m ->
  filter_update n dx dy dth f = filter_update n' dx dy dth f.
Proof.
  intros m dx dy dth n n' f S A1 A2 A3 A4 D M. unfold filter_update. f_equal. f_equal. rewrite M. unfold motion_sample.
  destruct (motion_sigmas_spec m dx dy dth) as (r1 & r2 & B1 & B2 & _ & _ & E). cbv zeta in E. rewrite E. clear E.
  set (t := sqrt (dx * dx + dy * dy)).
  assert (T : 0 < t) by (unfold t; apply sqrt_lt_R0; destruct D as [D|D]; pose proof (Rsqr_pos_lt _ D); pose proof (Rle_0_sqr dx); pose proof (Rle_0_sqr dy); unfold Rsqr in *; lra).
  assert (Q : forall a x, 0 <= a -> 0 <= a * x * x) by (intros a x Ha; rewrite Rmult_assoc; apply Rmult_le_pos; [exact Ha|apply Rle_0_sqr]).
  assert (Qt : forall a, 0 < a -> 0 < a * t * t) by (intros a Ha; rewrite Rmult_assoc; apply Rmult_lt_0_compat; [exact Ha|apply Rmult_lt_0_compat; exact T]).
  assert (S1 : 0 < sqrt (mo_a1 m * r1 * r1 + mo_a2 m * t * t)) by (apply sqrt_lt_R0; pose proof (Q _ r1 A1); pose proof (Qt _ A2); lra).
  assert (S2 : 0 < sqrt (mo_a3 m * t * t + mo_a4 m * r1 * r1 + mo_a4 m * r2 * r2)) by (apply sqrt_lt_R0; pose proof (Q _ r1 A4); pose proof (Q _ r2 A4); pose proof (Qt _ A3); lra).
  assert (S3 : 0 < sqrt (mo_a1 m * r2 * r2 + mo_a2 m * t * t)) by (apply sqrt_lt_R0; pose proof (Q _ r2 A1); pose proof (Qt _ A2); lra).
  revert S1 S2 S3. generalize (sqrt (mo_a1 m * r1 * r1 + mo_a2 m * t * t)) (sqrt (mo_a3 m * t * t + mo_a4 m * r1 * r1 + mo_a4 m * r2 * r2))
    (sqrt (mo_a1 m * r2 * r2 + mo_a2 m * t * t)). intros s1 s2 s3 S1 S2 S3.
  generalize 0%nat. induction (pf_parts f) as [|p ps IH]; intro i; [reflexivity|]. cbn [map_i]. rewrite IH. f_equal.
  unfold sample_one. destruct (motion_mean dx dy dth) as ((tr & ro1) & ro2). ra.
  rewrite (S _ ro1 s1 S1), (S _ tr s2 S2), (S _ ro2 s3 S3). reflexivity.
Qed.
Print Assumptions C113_update_partial.

Theorem C113_init_partial : forall x y th sx sy sth (n n' : normal_source R) f,
  same_where_specified n n' -> 0 < sx -> 0 < sy -> 0 < sth ->
  filter_init n x y th sx sy sth f = filter_init n' x y th sx sy sth f.
Proof.
  intros x y th sx sy sth n n' f S H1 H2 H3. unfold filter_init.
  assert (E : forall (F G : nat -> vec3 R -> vec3 R), (forall i p, F i p = G i p) -> forall l i, map_i F i l = map_i G i l).
  { intros F G H l. induction l as [|p l IH]; intro i; [reflexivity|]. cbn [map_i]. rewrite IH, H. reflexivity. }
  cbv zeta.
  match goal with |- update_stats (with_parts _ (map_i ?F _ _) _) = update_stats (with_parts _ (map_i ?G _ _) _) => rewrite (E F G); [reflexivity|] end.
  intros i p. ra. rewrite (S _ x sx H1), (S _ y sy H2), (S _ th sth H3). reflexivity.
Qed.
Print Assumptions C113_init_partial.

Example C113_nonvacuous : same_where_specified draw_mean draw_odd /\ draw_mean <> draw_odd /\
  exists f, pf_motion f = mkMotion 1 1 1 1 1 /\ exists f', filter_update draw_mean 1 0 0 f = Ok f'.
Proof.
  split; [exact draws_agree|]. split.
  - intro H. assert (X : draw_mean 0%nat 0 0 = draw_odd 0%nat 0 0) by (rewrite H; reflexivity).
    unfold draw_mean, draw_odd in X. rewrite Rlt_bool_false in X by lra. lra.
  - exists (mkFilter 1 1 (mkMotion 1 1 1 1 1) [mkVec3 0 0 0] [1] (mkVec3 0 0 0) mat3_zero). split; [reflexivity|].
    eexists. unfold filter_update, update_stats. reflexivity.
Qed.
