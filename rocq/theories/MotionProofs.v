(** Proofs about the motion model and the particle cloud message over R. *)

From Coq Require Import ZArith Reals List Bool Lra Lia Psatz.
From Flocq Require Import Core.
From Verif Require Import Outcome Arith TypesModel SpecPose RTactics ConstraintProofs NdtProofs KdModel MotionModel FilterModel SpecFilter AngleProofs.
Import ListNotations.
Local Open Scope R_scope.

Lemma map_i_forall2 : forall (X Y : Type) (f : nat -> X -> Y) (P : X -> Y -> Prop) l i,
  (forall i x, P x (f i x)) -> Forall2 P l (map_i f i l).
Proof. intros X Y f P l. induction l as [|x l IH]; intros i H; simpl; constructor; auto. Qed.
Lemma map_i_length : forall (X Y : Type) (f : nat -> X -> Y) l i, length (map_i f i l) = length l.
Proof. intros X Y f l. induction l as [|x l IH]; intro i; simpl; auto. Qed.
Lemma map_i_forall : forall (X Y : Type) (f : nat -> X -> Y) (P : Y -> Prop) l i,
  (forall i x, P (f i x)) -> Forall P (map_i f i l).
Proof. intros X Y f P l. induction l as [|x l IH]; intros i H; simpl; constructor; auto. Qed.

(** * C50 *)
Lemma noise_free_motion : forall (normal : normal_source R) (m : motion_params R) dx dy dth ps,
  (forall i mean sigma, normal i mean sigma = mean) ->
  1 / 100 < sqrt (dx * dx + dy * dy) ->
  Forall2 (fun p q =>
      mkPoint (v0 q) (v1 q) = act (pose_of p) (mkPoint dx dy) /\
      - PI < v2 q <= PI /\ same_heading (v2 q) (v2 p + dth))
    ps (motion_sample normal m dx dy dth ps).
Proof.
  intros normal m dx dy dth ps N T. unfold motion_sample. apply map_i_forall2. intros i p.
  unfold motion_mean. ra. rewrite Rlt_bool_t by lra.
  destruct (motion_sigmas m dx dy dth) as [[s1 s2] s3]. unfold sample_one. ra. rewrite !N. cbn [v0 v1 v2].
  destruct (Ratan2_polar dy dx) as [C S].
  set (r := sqrt (dx * dx + dy * dy)) in *. set (a := Ratan2 dy dx) in *.
  split; [|split].
  - unfold act, pose_of. cbn [pox poy poth px py]. rewrite cos_plus, sin_plus. f_equal.
    + transitivity (v0 p + (cos (v2 p) * (r * cos a) - sin (v2 p) * (r * sin a))); [ring|rewrite C, S; reflexivity].
    + transitivity (v1 p + (sin (v2 p) * (r * cos a) + cos (v2 p) * (r * sin a))); [ring|rewrite C, S; reflexivity].
  - apply normalize_angle_spec.
  - destruct (normalize_angle_spec (v2 p + a + angle_diff a dth)) as [_ [k Hk]].
    unfold angle_diff in *. ra_in Hk.
    destruct (normalize_angle_spec (dth - a)) as [_ [j Hj]]. ra.
    exists (k + j)%Z. rewrite Hk, Hj, plus_IZR. ring.
Qed.

(** Below one centimetre the direction of travel is taken to be the heading;
    distance and rotation are still applied. *)
Lemma noise_free_motion_small : forall (normal : normal_source R) (m : motion_params R) dx dy dth ps,
  (forall i mean sigma, normal i mean sigma = mean) ->
  sqrt (dx * dx + dy * dy) <= 1 / 100 ->
  Forall2 (fun p q =>
      mkPoint (v0 q) (v1 q) = act (pose_of p) (mkPoint (sqrt (dx * dx + dy * dy)) 0) /\
      - PI < v2 q <= PI /\ same_heading (v2 q) (v2 p + dth))
    ps (motion_sample normal m dx dy dth ps).
Proof.
  intros normal m dx dy dth ps N T. unfold motion_sample. apply map_i_forall2. intros i p.
  unfold motion_mean. ra. rewrite Rlt_bool_f by lra.
  destruct (motion_sigmas m dx dy dth) as [[s1 s2] s3]. unfold sample_one. ra. rewrite !N. cbn [v0 v1 v2].
  set (r := sqrt (dx * dx + dy * dy)) in *.
  split; [|split].
  - unfold act, pose_of. cbn [pox poy poth px py]. rewrite Rplus_0_r. f_equal; ring.
  - apply normalize_angle_spec.
  - destruct (normalize_angle_spec (v2 p + 0 + angle_diff 0 dth)) as [_ [k Hk]].
    unfold angle_diff in *. ra_in Hk.
    destruct (normalize_angle_spec (dth - 0)) as [_ [j Hj]]. ra.
    exists (k + j)%Z. rewrite Hk, Hj, plus_IZR. ring.
Qed.

Lemma motion_length : forall (T : Type) (A : Arith T) (normal : normal_source T) m dx dy dth ps,
  length (motion_sample normal m dx dy dth ps) = length ps.
Proof. intros. apply map_i_length. Qed.

(** * C51 *)
Lemma fold_turn_spec : forall r : R, 0 <= fold_turn r <= PI / 2 /\ cos (fold_turn r) = Rabs (cos r).
Proof.
  intro r. unfold fold_turn, angle_diff. ra. pose proof PI_RGT_0 as P.
  pose proof (normalize_angle_cos (0 - r)) as Cu. pose proof (normalize_angle_cos (PI - r)) as Cv.
  destruct (normalize_angle_spec (0 - r)) as [Bu _]. destruct (normalize_angle_spec (PI - r)) as [Bv _].
  set (u := normalize_angle (0 - r)) in *. set (v := normalize_angle (PI - r)) in *.
  replace (cos (0 - r)) with (cos r) in Cu by (rewrite Rminus_0_l, cos_neg; reflexivity).
  replace (cos (PI - r)) with (- cos r) in Cv by (rewrite cos_minus, cos_PI, sin_PI; ring).
  assert (Au : cos (Rabs u) = cos r).
  { unfold Rabs. destruct (Rcase_abs u); [rewrite cos_neg|]; exact Cu. }
  assert (Av : cos (PI - Rabs v) = cos r).
  { rewrite cos_minus, cos_PI, sin_PI.
    assert (cos (Rabs v) = - cos r) by (unfold Rabs; destruct (Rcase_abs v); [rewrite cos_neg|]; exact Cv). lra. }
  assert (Ru : 0 <= Rabs u <= PI) by (unfold Rabs; destruct (Rcase_abs u); lra).
  assert (Rv : 0 <= Rabs v <= PI) by (unfold Rabs; destruct (Rcase_abs v); lra).
  assert (E : Rabs u = PI - Rabs v).
  { assert (K : cos (Rabs u) = cos (PI - Rabs v)) by congruence.
    assert (K2 : acos (cos (Rabs u)) = acos (cos (PI - Rabs v))) by (rewrite K; reflexivity).
    rewrite !acos_cos in K2 by lra. exact K2. }
  set (p := Rabs u) in *. set (q := Rabs v) in *. clearbody p q.
  destruct (Rlt_bool_spec q p) as [L|L].
  - split; [lra|]. rewrite <- Au. 
    replace q with (PI - p) by lra. rewrite cos_minus, cos_PI, sin_PI.
    assert (cos p <= 0) by (apply cos_le_0; lra).
    rewrite Rabs_left1 by assumption. ring.
  - split; [lra|]. rewrite <- Au.
    assert (0 <= cos p) by (apply cos_ge_0; lra).
    rewrite Rabs_pos_eq by assumption. reflexivity.
Qed.

Lemma fold_turn_zero : fold_turn (0 : R) = 0.
Proof.
  unfold fold_turn, angle_diff. ra. pose proof PI_RGT_0.
  rewrite !Rminus_0_r, !normalize_angle_id by lra. rewrite Rabs_R0, (Rabs_pos_eq PI) by lra.
  rewrite Rlt_bool_f by lra. reflexivity.
Qed.

Lemma motion_sigmas_spec : forall (m : motion_params R) dx dy dth,
  exists r1 r2,
    let t := sqrt (dx * dx + dy * dy) in
    0 <= r1 <= PI / 2 /\ 0 <= r2 <= PI / 2 /\
    (1 / 100 < t -> t * cos r1 = Rabs dx /\ t * cos r2 = Rabs (dx * cos dth + dy * sin dth)) /\
    (t <= 1 / 100 -> r1 = 0 /\ cos r2 = Rabs (cos dth)) /\
    motion_sigmas m dx dy dth =
      (sqrt (mo_a1 m * r1 * r1 + mo_a2 m * t * t),
       sqrt (mo_a3 m * t * t + mo_a4 m * r1 * r1 + mo_a4 m * r2 * r2),
       sqrt (mo_a1 m * r2 * r2 + mo_a2 m * t * t)).
Proof.
  intros m dx dy dth. unfold motion_sigmas, motion_mean. ra.
  set (t := sqrt (dx * dx + dy * dy)).
  set (rot1 := if Rlt_bool (1 / 100) t then Ratan2 dy dx else 0).
  exists (fold_turn rot1), (fold_turn (angle_diff rot1 dth)).
  destruct (fold_turn_spec rot1) as [B1 C1]. destruct (fold_turn_spec (angle_diff rot1 dth)) as [B2 C2].
  assert (Ht : 0 <= t) by apply sqrt_pos.
  split; [exact B1|]. split; [exact B2|]. split; [|split; [|reflexivity]].
  - intro L. rewrite C1, C2. unfold rot1. rewrite Rlt_bool_t by exact L.
    unfold angle_diff. ra. rewrite normalize_angle_cos, cos_minus.
    destruct (Ratan2_polar dy dx) as [C S]. fold t in C, S.
    split.
    + rewrite <- C at 2. rewrite Rabs_mult, (Rabs_pos_eq t) by exact Ht. reflexivity.
    + replace (dx * cos dth + dy * sin dth) with (t * (cos dth * cos (Ratan2 dy dx) + sin dth * sin (Ratan2 dy dx))).
      * rewrite Rabs_mult, (Rabs_pos_eq t) by exact Ht. reflexivity.
      * transitivity ((t * cos (Ratan2 dy dx)) * cos dth + (t * sin (Ratan2 dy dx)) * sin dth); [ring|].
        rewrite C, S. reflexivity.
  - intro L. rewrite C2. unfold rot1. rewrite Rlt_bool_f by exact L. split; [apply fold_turn_zero|].
    unfold angle_diff. ra. rewrite normalize_angle_cos, Rminus_0_r. reflexivity.
Qed.

Lemma quarter_unique : forall a b, 0 <= a <= PI / 2 -> 0 <= b <= PI / 2 -> cos a = cos b -> a = b.
Proof.
  intros a b Ha Hb E. pose proof PI_RGT_0.
  rewrite <- (acos_cos a), <- (acos_cos b) by lra. rewrite E. reflexivity.
Qed.

Lemma motion_sigmas_reverse : forall (m : motion_params R) dx dy dth,
  motion_sigmas m (- dx) (- dy) dth = motion_sigmas m dx dy dth.
Proof.
  intros m dx dy dth.
  destruct (motion_sigmas_spec m dx dy dth) as (r1 & r2 & B1 & B2 & H1 & H2 & E).
  destruct (motion_sigmas_spec m (- dx) (- dy) dth) as (q1 & q2 & D1 & D2 & K1 & K2 & F).
  replace (- dx * - dx + - dy * - dy) with (dx * dx + dy * dy) in K1, K2, F by ring.
  cbv zeta in *. set (t := sqrt (dx * dx + dy * dy)) in *. rewrite E, F.
  assert (r1 = q1 /\ r2 = q2) as [-> ->]; [|reflexivity].
  destruct (Rlt_le_dec (1 / 100) t) as [L|L].
  - destruct (H1 L) as [X1 Y1]. destruct (K1 L) as [X2 Y2].
    rewrite Rabs_Ropp in X2.
    replace (- dx * cos dth + - dy * sin dth) with (- (dx * cos dth + dy * sin dth)) in Y2 by ring. rewrite Rabs_Ropp in Y2.
    split; apply quarter_unique; try assumption; apply (Rmult_eq_reg_l t); lra.
  - destruct (H2 L) as [-> Y1]. destruct (K2 L) as [-> Y2]. split; [reflexivity|].
    apply quarter_unique; try assumption. congruence.
Qed.

(** * C52 *)
Lemma msg_roundtrip : forall h x y : R, - PI < h <= PI ->
  from_msg (mkPoseMsg x y 0 0 0 (sin (h / 2)) (cos (h / 2))) = mkPose x y h.
Proof.
  intros h x y H. unfold from_msg. cbn [ps_x ps_y ps_qx ps_qy ps_qz ps_qw]. f_equal.
  unfold get_yaw. ra.
  pose proof (cs2 (h / 2)) as E.
  set (s := sin (h / 2)) in *. set (c := cos (h / 2)) in *.
  replace (-2 * (0 * s - c * 0) / (0 * 0 + 0 * 0 + s * s + c * c)) with 0 by (field; lra).
  destruct (Rle_bool_spec 0 (-99999 / 100000)); [lra|].
  destruct (Rle_bool_spec (99999 / 100000) 0); [lra|].
  replace (2 * (0 * 0 + c * s)) with (1 * sin h).
  2: { replace h with (2 * (h / 2)) by field. rewrite sin_2a. unfold s, c. ring. }
  replace (c * c + 0 * 0 - 0 * 0 - s * s) with (1 * cos h).
  2: { replace h with (2 * (h / 2)) at 1 by field. rewrite cos_2a. unfold s, c. ring. }
  apply Ratan2_of_polar; lra.
Qed.

Definition headings_ok (f : pfilter R) : Prop := Forall (fun p => - PI < v2 p <= PI) (pf_parts f).

Lemma update_stats_parts : forall (T : Type) (A : Arith T) (f f' : pfilter T),
  update_stats f = Ok f' -> pf_parts f' = pf_parts f /\ pf_min f' = pf_min f /\ pf_max f' = pf_max f /\
    pf_motion f' = pf_motion f.
Proof.
  intros T A f f' H. unfold update_stats in H. apply bind_ok in H. destruct H as (pw & _ & H).
  injection H as <-. repeat split; reflexivity.
Qed.

Lemma resample_loop_from : forall (T : Type) (A : Arith T) draws ps ws mn mx err z acc tree m r,
  resample_loop draws ps ws mn mx err z acc tree m = Ok r ->
  Forall (fun q => exists i, vec_get ps i = Ok (fst q) /\ vec_get ws i = Ok (snd q)) acc ->
  Forall (fun q => exists i, vec_get ps i = Ok (fst q) /\ vec_get ws i = Ok (snd q)) r.
Proof.
  intros T A draws. induction draws as [|i draws IH]; intros ps ws mn mx err z acc tree m r H F;
    simpl in H; destruct (_ <? _)%Z.
  - discriminate.
  - injection H as <-. exact F.
  - apply bind_ok in H. destruct H as (p & Hp & H). apply bind_ok in H. destruct H as (w & Hw & H).
    apply bind_ok in H. destruct H as (t' & _ & H). apply bind_ok in H. destruct H as (m' & _ & H).
    assert (F' : Forall (fun q => exists i, vec_get ps i = Ok (fst q) /\ vec_get ws i = Ok (snd q)) (acc ++ [(p, w)])).
    { apply Forall_app. split; [exact F|]. constructor; [|constructor]. exists i. split; assumption. }
    destruct (_ <=? _)%Z; [injection H as <-; exact F'|]. apply IH in H; assumption.
  - injection H as <-. exact F.
Qed.

Lemma headings_step : forall (f f' : pfilter R) o, headings_ok f -> filter_step f o = Ok f' -> headings_ok f'.
Proof.
  intros f f' o H E. unfold headings_ok in *. destruct o as [n x y th sx sy sth|n dx dy dth|s|d e z]; simpl in E.
  - unfold filter_init in E. apply update_stats_parts in E. destruct E as [-> _]. cbn [with_parts pf_parts].
    apply map_i_forall. intros i p. cbn [v2]. apply normalize_angle_spec.
  - unfold filter_update in E. apply update_stats_parts in E. destruct E as [-> _]. cbn [with_parts pf_parts].
    unfold motion_sample. apply map_i_forall. intros i p. unfold sample_one.
    destruct (motion_mean dx dy dth) as [[? ?] ?]. destruct (motion_sigmas (pf_motion f) dx dy dth) as [[? ?] ?].
    cbn [v2]. apply normalize_angle_spec.
  - unfold filter_measure in E. destruct (_ <? _)%nat; [discriminate|]. apply bind_ok in E. destruct E as (ws & _ & E).
    apply update_stats_parts in E. destruct E as [-> _]. exact H.
  - unfold filter_resample in E. destruct (dist_ok _); [|discriminate]. apply bind_ok in E. destruct E as (acc & Ha & E).
    apply update_stats_parts in E. destruct E as [-> _]. cbn [with_parts pf_parts].
    apply resample_loop_from in Ha; [|constructor].
    rewrite Forall_forall in *. intros p Hp. apply in_map_iff in Hp. destruct Hp as (q & <- & Hq).
    destruct (Ha q Hq) as (i & Hi & _). apply H.
    apply vec_get_inv in Hi. destruct Hi as [_ Hi]. apply nth_error_In in Hi. exact Hi.
Qed.

Lemma headings_run : forall ops (f f' : pfilter R), headings_ok f -> filter_run f ops = Ok f' -> headings_ok f'.
Proof.
  intro ops. induction ops as [|o ops IH]; intros f f' H E; cbn in E.
  - injection E as <-. exact H.
  - apply bind_ok in E. destruct E as (g & Hg & E). eapply IH; [|exact E]. eapply headings_step; eauto.
Qed.

Lemma headings_new : forall mn mx m (f : pfilter R), filter_new mn mx m = Ok f -> headings_ok f.
Proof.
  intros mn mx m f H. unfold filter_new in H. apply update_stats_parts in H. destruct H as [E _].
  unfold headings_ok. rewrite E. cbn [pf_parts]. rewrite Forall_forall. intros p Hp. apply repeat_spec in Hp. subst p.
  unfold vec3_zero. ra. cbn [v2]. pose proof PI_RGT_0. lra.
Qed.

Theorem cloud_message : forall mn mx m ops (f0 f : pfilter R),
  filter_new mn mx m = Ok f0 -> filter_run f0 ops = Ok f ->
  map from_msg (filter_msg f) = map pose_of (pf_parts f) /\
  Forall (fun q => ps_z q = 0 /\ ps_qx q = 0 /\ ps_qy q = 0 /\
                   ps_qx q * ps_qx q + ps_qy q * ps_qy q + ps_qz q * ps_qz q + ps_qw q * ps_qw q = 1) (filter_msg f).
Proof.
  intros mn mx m ops f0 f H0 H. apply headings_new in H0. pose proof (headings_run _ _ _ H0 H) as K. clear H0 H.
  unfold headings_ok in K. unfold filter_msg. split.
  - rewrite map_map. apply map_ext_in. intros p Hp. rewrite Forall_forall in K. specialize (K p Hp).
    ra. rewrite msg_roundtrip by exact K. reflexivity.
  - rewrite Forall_forall. intros q Hq. apply in_map_iff in Hq. destruct Hq as (p & <- & _). ra. cbn.
    repeat split. pose proof (cs2 (v2 p / 2)). lra.
Qed.
