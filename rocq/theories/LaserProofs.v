(** Proofs about the numeric parts of the laser callback (C57-C63). *)

From Coq Require Import ZArith Reals List Bool Lia Lra.
From Flocq Require Import Core.
From Verif Require Import Outcome Arith TypesModel ScanModel MotionModel LaserModel
  SpecPose SpecLaser RTactics NdtProofs ConstraintProofs AngleProofs B64Tactics.
Import ListNotations.
Local Open Scope R_scope.

(** ** C57 *)
Lemma angle_diff_turn : forall a b : R, turn a b (angle_diff a b).
Proof.
  intros a b. unfold turn, angle_diff. destruct (normalize_angle_spec (b - a)%num) as [H [k K]]. ra_in H. ra_in K.
  split; [exact H|]. exists k. ra. lra.
Qed.

Lemma turn_unique : forall a b d e, turn a b d -> turn a b e -> d = e.
Proof.
  intros a b d e [D [i Hi]] [E [j Hj]]. apply heading_unique'; [exact D|exact E|].
  exists (i - j)%Z. rewrite minus_IZR. lra.
Qed.

Lemma small_motion_spec : forall md mr (p q : pose R), 0 <= md ->
  (small_motion md mr p q = true <-> ~ moved md mr p q).
Proof.
  intros md mr p q H. unfold small_motion. rewrite andb_true_iff. ra.
  pose proof (angle_diff_turn (poth p) (poth q)) as D.
  set (d := angle_diff (poth p) (poth q)) in *.
  unfold moved, sq_dist. cbn [px py].
  set (dx := pox p - pox q). set (dy := poy p - poy q).
  replace ((pox q - pox p) * (pox q - pox p) + (poy q - poy p) * (poy q - poy p)) with (dx * dx + dy * dy)
    by (unfold dx, dy; ring).
  assert (N : 0 <= dx * dx + dy * dy) by (pose proof (Rle_0_sqr dx); pose proof (Rle_0_sqr dy); unfold Rsqr in *; lra).
  pose proof (sqrt_pos (dx * dx + dy * dy)) as P.
  pose proof (sqrt_sqrt _ N) as Q. set (r := sqrt (dx * dx + dy * dy)) in *.
  split.
  - intros [H1 H2] [M|(e & E & M)].
    + destruct (Rlt_bool_spec (dx * dx + dy * dy) (md * md)) as [L|L]; [|discriminate H1]. nra.
    + rewrite (turn_unique _ _ _ _ E D) in M.
      destruct (Rlt_bool_spec (Rabs d) mr) as [L|L]; [lra|discriminate H2].
  - intro M. split.
    + apply Rlt_bool_true. apply Rnot_le_lt. intro L. apply M. left. nra.
    + apply Rlt_bool_true. apply Rnot_le_lt. intro L. apply M. right. exists d. split; assumption.
Qed.

(** ** C58 *)
Lemma odom_guess_rigid : forall (robot odom0 odom1 d : pose R),
  same_pose (compose odom0 d) odom1 -> same_pose (compose robot d) (odom_guess robot odom0 odom1).
Proof.
  intros robot odom0 odom1 d (X & Y & H).
  unfold compose, act in *. cbn [pox poy poth px py] in *.
  unfold odom_guess. unfold same_pose. cbn [pox poy poth].
  unfold angle_diff at 1 2 3 4. ra. rewrite !normalize_angle_cos, !normalize_angle_sin.
  rewrite <- X, <- Y.
  rewrite cos_minus, sin_minus.
  pose proof (cs2 (poth odom0)) as C0.
  set (c0 := cos (poth odom0)) in *. set (s0 := sin (poth odom0)) in *.
  set (c := cos (poth robot)). set (s := sin (poth robot)).
  split; [|split].
  - ring_simplify. replace (s0 ^ 2) with (1 - c0 ^ 2) by (simpl; lra). ring.
  - ring_simplify. replace (s0 ^ 2) with (1 - c0 ^ 2) by (simpl; lra). ring.
  - pose proof (normalize_angle_spec (poth robot + angle_diff (poth odom0) (poth odom1))%num) as [_ N].
    pose proof (angle_diff_turn (poth odom0) (poth odom1)) as [_ D]. ra_in N. ra_in D.
    destruct H as [i Hi]. destruct N as [j Hj]. destruct D as [k Hk].
    exists (i - j - k)%Z. ra. rewrite Hj, !minus_IZR.
    set (e := angle_diff (poth odom0) (poth odom1)) in *. lra.
Qed.

(** The relative motion always exists. *)
Lemma relative_exists : forall a b : pose R, exists d, same_pose (compose a d) b.
Proof.
  intros a b. exists (mkPose (px (into a (mkPoint (pox b) (poy b)))) (py (into a (mkPoint (pox b) (poy b)))) (poth b - poth a)).
  unfold same_pose, compose, act, into. cbn [pox poy poth px py].
  pose proof (cs2 (poth a)) as C. set (c := cos (poth a)) in *. set (s := sin (poth a)) in *.
  split; [|split].
  - replace (c * (c * (pox b - pox a) + s * (poy b - poy a)) - s * (- s * (pox b - pox a) + c * (poy b - poy a)))
      with ((c * c + s * s) * (pox b - pox a)) by ring. rewrite C. ring.
  - replace (s * (c * (pox b - pox a) + s * (poy b - poy a)) + c * (- s * (pox b - pox a) + c * (poy b - poy a)))
      with ((c * c + s * s) * (poy b - poy a)) by ring. rewrite C. ring.
  - exists 0%Z. lra.
Qed.

(** ** C59 *)

Lemma map_to_odom_act : forall (robot odom : pose R) (q : point R),
  iso_act (map_to_odom robot odom) (act odom q) = act robot q.
Proof.
  intros robot odom q. unfold map_to_odom, iso_mul, iso_inverse, to_iso, iso_act, act.
  cbn [i00 i01 i10 i11 itx ity px py]. ra.
  pose proof (cs2 (poth odom)) as C0.
  set (c0 := cos (poth odom)) in *. set (s0 := sin (poth odom)) in *.
  set (c := cos (poth robot)). set (s := sin (poth robot)).
  f_equal; ring_simplify; replace (s0 ^ 2) with (1 - c0 ^ 2) by (simpl; lra); ring.
Qed.

Lemma map_to_odom_rigid : forall (robot odom : pose R), exists p : pose R, forall q,
  iso_act (map_to_odom robot odom) q = act p q.
Proof.
  intros robot odom.
  exists (mkPose (itx (map_to_odom robot odom)) (ity (map_to_odom robot odom)) (poth robot - poth odom)).
  intro q. unfold iso_act, act. cbn [pox poy poth].
  unfold map_to_odom at 1 2 4 5, iso_mul at 1 2 3 4, iso_inverse, to_iso. cbn [i00 i01 i10 i11 itx ity]. ra.
  rewrite cos_minus, sin_minus. f_equal; ring.
Qed.

(** ** C60 *)
Section Points.
Context {T : Type} {A : Arith T}.

Lemma upright_points_filter : forall (m : laser_msg T) rm laser per rs i,
  upright_points m rm laser per i rs =
  map (fun ir => move_point (upright_shift per (fst ir)) (to_robot laser (beam_angle m (fst ir)) (snd ir)))
      (filter (fun ir => negb (skipped rm (snd ir))) (combine (seq i (length rs)) rs)).
Proof.
  intros m rm laser per rs. induction rs as [|r rs IH]; intro i; [reflexivity|].
  cbn [length seq combine filter snd upright_points]. rewrite IH.
  destruct (skipped rm r); reflexivity.
Qed.

Lemma combine_seq_snoc : forall (l : list T) i x,
  combine (seq i (length (l ++ [x]))) (l ++ [x]) = combine (seq i (length l)) l ++ [(i + length l, x)%nat].
Proof.
  induction l as [|y l IH]; intros i x.
  - cbn. rewrite Nat.add_0_r. reflexivity.
  - cbn [app length seq combine]. rewrite IH. cbn. rewrite Nat.add_succ_r. reflexivity.
Qed.

Lemma combine_seq_nth : forall (l : list T) i j x, nth_error l j = Some x ->
  nth_error (combine (seq i (length l)) l) j = Some (i + j, x)%nat.
Proof.
  induction l as [|y l IH]; intros i [|j'] x Hx; cbn in *; try discriminate.
  - injection Hx as <-. rewrite Nat.add_0_r. reflexivity.
  - rewrite (IH (S i) j' x Hx). rewrite Nat.add_succ_r. reflexivity.
Qed.

Lemma firstn_S_nth : forall (X : Type) (l : list X) j x, nth_error l j = Some x -> firstn (S j) l = firstn j l ++ [x].
Proof.
  intros X. induction l as [|y l IH]; intros [|j] x E; cbn in *; try discriminate.
  - injection E as <-. reflexivity.
  - rewrite <- (IH j x E). reflexivity.
Qed.

(** Elements 1 .. k of the indexed list, from the last to the first. *)
Lemma inverted_points_filter : forall (m : laser_msg T) rm laser t per k,
  (k < length (lr_ranges m))%nat ->
  inverted_points m rm laser t per k =
  Ok (map (fun ir => move_point (inverted_shift t per (fst ir)) (to_robot laser (nopp (beam_angle m (fst ir))) (snd ir)))
      (filter (fun ir => negb (skipped rm (snd ir)))
         (rev (skipn 1 (firstn (S k) (combine (seq 0 (length (lr_ranges m))) (lr_ranges m))))))).
Proof.
  intros m rm laser t per k. set (rs := lr_ranges m). induction k as [|k IH]; intro H.
  - cbn [inverted_points]. destruct (combine (seq 0 (length rs)) rs) as [|x l]; reflexivity.
  - cbn [inverted_points]. fold rs.
    destruct (vec_get_ok rs (Z.of_nat (S k))) as (r & G & N).
    { lia. }
    rewrite G. cbn [bind]. rewrite IH by lia. cbn [bind].
    rewrite Nat2Z.id in N.
    set (ix := combine (seq 0 (length rs)) rs) in *.
    assert (E : nth_error ix (S k) = Some (S k, r)).
    { unfold ix. rewrite (combine_seq_nth rs 0 (S k) r N). reflexivity. }
    assert (F : firstn (S (S k)) ix = firstn (S k) ix ++ [(S k, r)]).
    { apply firstn_S_nth. exact E. }
    rewrite F. rewrite skipn_app, rev_app_distr.
    assert (L1 : (1 - length (firstn (S k) ix) = 0)%nat).
    { rewrite firstn_length. assert (length ix <> 0)%nat; [|lia]. destruct ix; [destruct k; discriminate E|discriminate]. }
    rewrite L1. cbn [skipn rev app filter snd].
    destruct (skipped rm r); reflexivity.
Qed.

End Points.

(** ** C62 *)
Lemma into_act : forall p q, into p (act p q) = q.
Proof.
  intros p [x y]. unfold into, act. cbn [px py]. pose proof (cs2 (poth p)) as C.
  set (c := cos (poth p)) in *. set (s := sin (poth p)) in *.
  f_equal.
  - replace (c * (pox p + (c * x - s * y) - pox p) + s * (poy p + (s * x + c * y) - poy p)) with ((c * c + s * s) * x) by ring.
    rewrite C. ring.
  - replace (- s * (pox p + (c * x - s * y) - pox p) + c * (poy p + (s * x + c * y) - poy p)) with ((c * c + s * s) * y) by ring.
    rewrite C. ring.
Qed.

Lemma move_point_act : forall (m : pose R) p, move_point m p = act m p.
Proof. intros m p. unfold move_point, act. ra. f_equal; ring. Qed.

Lemma to_robot_act : forall (laser : pose R) a r, to_robot laser a r = act laser (polar a r).
Proof. intros laser a r. unfold to_robot, act, polar. cbn [px py]. ra. f_equal; ring. Qed.

Lemma beam_angle_R : forall (m : laser_msg R) i, beam_angle m i = lr_angle_min m + INR i * lr_angle_inc m.
Proof. intros m i. unfold beam_angle. ra. rewrite INR_IZR_INZ. reflexivity. Qed.

Lemma upright_shift_R : forall (o : pose R) vx vy w n i, (0 < n)%nat ->
  upright_shift (per_measurement (sweep_translation o (path o vx vy w (n - 1))) n) i =
  mkPose (INR i * (INR (n - 1) / INR n * vx)) (INR i * (INR (n - 1) / INR n * vy)) (INR i * (INR (n - 1) / INR n * w)).
Proof.
  intros o vx vy w n i H. unfold upright_shift, per_measurement, sweep_translation, path. cbn [pox poy poth]. ra.
  rewrite <- !INR_IZR_INZ. assert (INR n <> 0) by (apply not_0_INR; lia).
  f_equal; field; assumption.
Qed.

(** What the conversion makes of a reading of the static point [P]. *)
Lemma converted_reading : forall (o laser : pose R) vx vy w n i a r P, (0 < n)%nat ->
  act (path o vx vy w i) (act laser (polar a r)) = P ->
  move_point (upright_shift (per_measurement (sweep_translation o (path o vx vy w (n - 1))) n) i) (to_robot laser a r) =
  act (mkPose (INR i * (INR (n - 1) / INR n * vx)) (INR i * (INR (n - 1) / INR n * vy)) (INR i * (INR (n - 1) / INR n * w)))
      (into (path o vx vy w i) P).
Proof.
  intros o laser vx vy w n i a r P H <-. rewrite into_act, move_point_act, to_robot_act, upright_shift_R by exact H. reflexivity.
Qed.

Lemma act_zero : forall q, act (mkPose 0 0 0) q = q.
Proof. intros [x y]. unfold act. cbn [pox poy poth px py]. rewrite cos_0, sin_0. f_equal; ring. Qed.

(** No rotation: exact position of the converted point. *)
Lemma converted_translation : forall (o : pose R) vx vy n i P,
  act (mkPose (INR i * (INR (n - 1) / INR n * vx)) (INR i * (INR (n - 1) / INR n * vy)) (INR i * (INR (n - 1) / INR n * 0)))
      (into (path o vx vy 0 i) P) =
  mkPoint (px (into o P) + INR i * (INR (n - 1) / INR n * vx - (cos (poth o) * vx + sin (poth o) * vy)))
          (py (into o P) + INR i * (INR (n - 1) / INR n * vy - (- sin (poth o) * vx + cos (poth o) * vy))).
Proof.
  intros o vx vy n i P. unfold act, into, path. cbn [pox poy poth px py].
  replace (INR i * (INR (n - 1) / INR n * 0)) with 0 by ring.
  replace (poth o + INR i * 0) with (poth o) by ring. rewrite cos_0, sin_0. f_equal; ring.
Qed.

(** No translation: the converted point is the obstacle turned by the missing
    part of the rotation. *)
Lemma converted_rotation : forall (o : pose R) w n i P, (0 < n)%nat ->
  act (mkPose (INR i * (INR (n - 1) / INR n * 0)) (INR i * (INR (n - 1) / INR n * 0)) (INR i * (INR (n - 1) / INR n * w)))
      (into (path o 0 0 w i) P) =
  act (mkPose 0 0 (- (INR i / INR n * w))) (into o P).
Proof.
  intros o w n i P H.
  assert (N : INR n <> 0) by (apply not_0_INR; lia).
  replace (INR i * (INR (n - 1) / INR n * w)) with (INR i * w - INR i / INR n * w)
    by (rewrite minus_INR by lia; cbn [INR]; field; exact N).
  set (e := INR i / INR n * w). set (f := INR i * w).
  unfold act, into, path. cbn [pox poy poth px py].
  replace (pox o + INR i * 0) with (pox o) by ring. replace (poy o + INR i * 0) with (poy o) by ring. fold f.
  rewrite cos_minus, sin_minus, cos_neg, sin_neg, !cos_plus, !sin_plus.
  pose proof (cs2 f) as C. set (cf := cos f) in *. set (sf := sin f) in *.
  set (c := cos (poth o)). set (s := sin (poth o)). set (ce := cos e). set (se := sin e).
  set (dx := px P - pox o). set (dy := py P - poy o).
  f_equal; ring_simplify; replace (sf ^ 2) with (1 - cf ^ 2) by (simpl; lra); ring.
Qed.

(** ** C63 *)
Lemma rolling_window_all : forall X depth (l : list X), (Z.of_nat (length l) <= depth)%Z -> rolling_window depth l = Ok l.
Proof.
  intros X depth l H. unfold rolling_window. apply Z.leb_le in H. rewrite H.
  replace (0 <=? Z.of_nat (length l))%Z with true by (symmetry; apply Z.leb_le; lia). reflexivity.
Qed.
Lemma rolling_window_ten : forall X depth (l : list X),
  (depth < Z.of_nat (length l))%Z -> (10 <= Z.of_nat (length l) < 2 ^ 64)%Z ->
  rolling_window depth l = Ok (last_n 10 l).
Proof.
  intros X depth l H B. unfold rolling_window.
  replace (Z.of_nat (length l) <=? depth)%Z with false by (symmetry; apply Z.leb_gt; exact H).
  unfold wrap64. rewrite Z.mod_small by lia.
  replace (Z.of_nat (length l) - 10 <=? Z.of_nat (length l))%Z with true by (symmetry; apply Z.leb_le; lia).
  unfold last_n. do 2 f_equal. lia.
Qed.
Lemma rolling_window_fault : forall X depth (l : list X),
  (depth < Z.of_nat (length l))%Z -> (Z.of_nat (length l) < 10)%Z ->
  rolling_window depth l = Fault BadIterator.
Proof.
  intros X depth l H B. unfold rolling_window.
  replace (Z.of_nat (length l) <=? depth)%Z with false by (symmetry; apply Z.leb_gt; exact H).
  replace (wrap64 (Z.of_nat (length l) - 10) <=? Z.of_nat (length l))%Z with false; [reflexivity|].
  symmetry. apply Z.leb_gt. unfold wrap64.
  replace (Z.of_nat (length l) - 10)%Z with (Z.of_nat (length l) - 10 + 2 ^ 64 + (-1) * 2 ^ 64)%Z by lia.
  rewrite Z.mod_add by lia. rewrite Z.mod_small by lia. lia.
Qed.
