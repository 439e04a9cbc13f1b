(** C62: what motion compensation does to the points of a whole message. *)

From Coq Require Import ZArith Reals List Bool Lia Lra Psatz.
From Flocq Require Import Core.
From Verif Require Import Outcome Arith TypesModel ScanModel LaserModel SpecPose SpecLaser RTactics ConstraintProofs LaserProofs NearB64 PropLaser.
Import ListNotations.
Local Open Scope R_scope.

(** Reading number [i] of [r] sees the static point [P] (given in the odometry
    frame) while the robot moves along its path. *)
Definition sees (m : laser_msg R) (laser o : pose R) (vx vy w : R) (ir : nat * R) (P : point R) : Prop :=
  act (path o vx vy w (fst ir)) (act laser (polar (lr_angle_min m + INR (fst ir) * lr_angle_inc m) (snd ir))) = P.

(** The readings that are used: numbers up to the maximum range. *)
Definition used (rm : R) (m : laser_msg R) : list (nat * R) := filter (fun ir => Rle_bool (snd ir) rm) (indexed (lr_ranges m)).

(** Where a reading of [P] is put: turned back too far by the fraction i/n of the
    turn per reading, and shifted by the motion along the axes of the odometry
    frame instead of the motion seen from the robot. *)
Definition misplaced (o : pose R) (vx vy w : R) (n i : nat) (P : point R) : point R :=
  let h := poth o + INR i / INR n * w in
  let q := act (mkPose 0 0 (- (INR i / INR n * w))) (into o P) in
  mkPoint (px q + INR i * (INR (n - 1) / INR n * vx - (cos h * vx + sin h * vy)))
          (py q + INR i * (INR (n - 1) / INR n * vy - (- sin h * vx + cos h * vy))).

Lemma converted_motion (o : pose R) vx vy w n i P : (0 < n)%nat ->
  act (mkPose (INR i * (INR (n - 1) / INR n * vx)) (INR i * (INR (n - 1) / INR n * vy)) (INR i * (INR (n - 1) / INR n * w)))
      (into (path o vx vy w i) P) = misplaced o vx vy w n i P.
Proof.
  intros H. assert (N : INR n <> 0) by (apply not_0_INR; lia).
  replace (INR i * (INR (n - 1) / INR n * w)) with (INR i * w - INR i / INR n * w) by (rewrite minus_INR by lia; cbn [INR]; field; exact N).
  unfold misplaced. cbv zeta. set (e := INR i / INR n * w). set (f := INR i * w). set (g := INR (n - 1) / INR n).
  unfold act, into, path. cbn [pox poy poth px py]. fold f.
  rewrite cos_minus, sin_minus, cos_neg, sin_neg, !cos_plus, !sin_plus.
  pose proof (cs2 f) as C. set (cf := cos f) in *. set (sf := sin f) in *.
  set (c := cos (poth o)). set (s := sin (poth o)). set (ce := cos e). set (se := sin e).
  set (X := px P - pox o). set (Y := py P - poy o).
  replace (px P - (pox o + INR i * vx)) with (X - INR i * vx) by (unfold X; ring). replace (py P - (poy o + INR i * vy)) with (Y - INR i * vy) by (unfold Y; ring).
  assert (S2 : sf * sf = 1 - cf * cf) by lra.
  f_equal; ring [S2].
Qed.

(** Every point of the converted message. *)
Theorem C62_motion_partial (m : laser_msg R) (rm : R) (laser o : pose R) (vx vy w : R) : let n := length (lr_ranges m) in (0 < n)%nat ->
  exists pts, scan_points false rm laser o (path o vx vy w (n - 1)) m = Ok pts /\
    Forall2 (fun ir q => forall P, sees m laser o vx vy w ir P -> q = misplaced o vx vy w n (fst ir) P) (used rm m) pts.
Proof.
  intros n H. eexists. split; [apply C60_upright_points|]. fold n. change (filter _ (indexed (lr_ranges m))) with (used rm m).
  generalize (used rm m). induction l as [|[i r] l IH]; [constructor|]. cbn [map]. constructor; [|exact IH].
  intros P S. unfold sees in S. cbn [fst snd] in *. rewrite <- (converted_motion o vx vy w n i P H). rewrite <- S, into_act. f_equal.
  assert (N : INR n <> 0) by (apply not_0_INR; lia). unfold path. cbn [pox poy poth]. f_equal; field; exact N.
Qed.
Print Assumptions C62_motion_partial.

(** A robot at rest gets the points where they are. *)
Theorem C62_rest_partial (m : laser_msg R) (rm : R) (laser o : pose R) : (0 < length (lr_ranges m))%nat ->
  exists pts, scan_points false rm laser o o m = Ok pts /\
    Forall2 (fun ir q => forall P, sees m laser o 0 0 0 ir P -> q = into o P) (used rm m) pts.
Proof.
  intros H. destruct (C62_motion_partial m rm laser o 0 0 0 H) as (pts & E & F). exists pts.
  assert (Eo : path o 0 0 0 (length (lr_ranges m) - 1) = o) by (destruct o as [x y t]; unfold path; cbn [pox poy poth]; f_equal; ring).
  rewrite Eo in E. split; [exact E|]. revert F. generalize (used rm m). clear E. intros l F. induction F as [|ir q l pts Hq F IH]; constructor; [|exact IH].
  intros P S. rewrite (Hq P S). unfold misplaced. cbv zeta. replace (- (INR (fst ir) / INR (length (lr_ranges m)) * 0)) with 0 by ring.
  rewrite act_zero. destruct (into o P) as [x y]. cbn [px py]. f_equal; ring.
Qed.
Print Assumptions C62_rest_partial.

Lemma turn_small (a x y : R) : let q := act (mkPose 0 0 a) (mkPoint x y) in (px q - x) ^ 2 + (py q - y) ^ 2 <= a ^ 2 * (x ^ 2 + y ^ 2).
Proof.
  cbv zeta. unfold act. cbn [px py pox poy poth].
  replace ((0 + (cos a * x - sin a * y) - x) ^ 2 + (0 + (sin a * x + cos a * y) - y) ^ 2) with ((2 - 2 * cos a) * (x ^ 2 + y ^ 2))
    by (pose proof (cs2 a) as C; assert (S2 : sin a * sin a = 1 - cos a * cos a) by lra; ring [S2]).
  apply Rmult_le_compat_r; [nra|]. replace a with (2 * (a / 2)) at 1 by field. rewrite cos_2a_sin.
  pose proof (sin_le_abs (a / 2)) as S. assert (sin (a / 2) * sin (a / 2) <= (a / 2) * (a / 2)).
  { rewrite <- (Rabs_pos_eq (sin (a / 2) * sin (a / 2))) by nra. rewrite <- (Rabs_pos_eq (a / 2 * (a / 2))) by nra. rewrite !Rabs_mult. apply Rmult_le_compat; try apply Rabs_pos; exact S. }
  nra.
Qed.

(** A robot that turns on the spot: no point is off by more than the turn between
    two readings. *)
Theorem C62_turning_partial (m : laser_msg R) (rm : R) (laser o : pose R) (w : R) : let n := length (lr_ranges m) in (0 < n)%nat ->
  exists pts, scan_points false rm laser o (path o 0 0 w (n - 1)) m = Ok pts /\
    Forall2 (fun ir q => forall P, sees m laser o 0 0 w ir P -> sq_dist q (into o P) <= w ^ 2 * sq_dist P (mkPoint (pox o) (poy o))) (used rm m) pts.
Proof.
  intros n H. destruct (C62_motion_partial m rm laser o 0 0 w H) as (pts & E & F). exists pts. split; [exact E|]. fold n in F. clear E.
  assert (Lt : Forall (fun ir => (fst ir < n)%nat) (used rm m)).
  { apply Forall_forall. intros [i r] I. unfold used in I. apply filter_In in I. destruct I as [I _]. unfold indexed in I. apply in_combine_l in I. apply in_seq in I. cbn [fst]. unfold n. lia. }
  revert F Lt. generalize (used rm m). intros l F. induction F as [|ir q l pts Hq F IH]; intro Lt; constructor; inversion Lt as [|? ? L1 L2]; subst; [|apply IH; exact L2].
  intros P S. rewrite (Hq P S). unfold misplaced. cbv zeta. set (a := - (INR (fst ir) / INR n * w)). destruct (into o P) as [x y] eqn:EP.
  pose proof (turn_small a x y) as T. cbv zeta in T. destruct (act (mkPose 0 0 a) (mkPoint x y)) as [x' y']. cbn [px py] in T |- *.
  unfold sq_dist. cbn [px py].
  assert (D : x ^ 2 + y ^ 2 = (px P - pox o) ^ 2 + (py P - poy o) ^ 2).
  { unfold into in EP. injection EP as <- <-. pose proof (cs2 (poth o)) as C. assert (S2 : sin (poth o) * sin (poth o) = 1 - cos (poth o) * cos (poth o)) by lra. ring [S2]. }
  assert (A : a ^ 2 <= w ^ 2).
  { assert (N : 0 < INR n) by (apply lt_0_INR; lia). assert (Q : 0 <= INR (fst ir) / INR n <= 1).
    { split; [apply Rmult_le_pos; [apply pos_INR|left; apply Rinv_0_lt_compat; exact N]|]. apply (Rmult_le_reg_r (INR n)); [exact N|]. unfold Rdiv. rewrite Rmult_assoc, Rinv_l, Rmult_1_r, Rmult_1_l by lra. apply le_INR. lia. }
    unfold a. set (k := INR (fst ir) / INR n) in *. assert (k * k <= 1) by nra. replace ((- (k * w)) ^ 2) with (k * k * (w ^ 2)) by ring. assert (0 <= w ^ 2) by nra. nra. }
  assert (0 <= x ^ 2 + y ^ 2) by nra. rewrite D in *. set (d := (px P - pox o) ^ 2 + (py P - poy o) ^ 2) in *.
  assert (a ^ 2 * d <= w ^ 2 * d) by (apply Rmult_le_compat_r; assumption).
  eapply Rle_trans; [|eapply Rle_trans; [exact T|eapply Rle_trans; [eassumption|right; unfold d; ring]]]. right. ring.
Qed.
Print Assumptions C62_turning_partial.

Example C62_motion_nonvacuous : let m := mkLaser 0 0 10 [2; 1] in let o := mkPose 0 0 0 in
  used 10 m = [(0%nat, 2); (1%nat, 1)] /\ sees m o o 1 0 0 (0%nat, 2) (mkPoint 2 0) /\ sees m o o 1 0 0 (1%nat, 1) (mkPoint 2 0) /\
  misplaced o 1 0 0 2 0 (mkPoint 2 0) = mkPoint 2 0 /\ misplaced o 1 0 0 2 1 (mkPoint 2 0) = mkPoint (3 / 2) 0.
Proof.
  cbv zeta. unfold used, indexed, sees, misplaced, act, into, path, polar. cbn [lr_ranges lr_angle_min lr_angle_inc List.length seq combine filter fst snd pox poy poth px py Nat.sub INR].
  rewrite !(Rle_bool_true _ 10) by lra. split; [reflexivity|].
  replace (0 + 0 * 0) with 0 by ring. replace (0 + 1 * 0) with 0 by ring. replace (0 / (1 + 1) * 0) with 0 by field. replace (1 / (1 + 1) * 0) with 0 by field.
  rewrite ?Rplus_0_l, ?Ropp_0, ?cos_0, ?sin_0. repeat split; f_equal; field.
Qed.
