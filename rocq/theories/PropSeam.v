(** C106: a sweep during which the heading of the robot passes +-pi. *)

From Coq Require Import ZArith Reals List Bool Lra Lia.
From Flocq Require Import Core.
From Verif Require Import Outcome Arith TypesModel LaserModel SpecPose SpecLaser LaserProofs LaserWitness.
Import ListNotations.
Local Open Scope R_scope.

(** C106: false.  The robot turns by a small angle [w] on the spot.  Odometry
    reports its headings in (-pi, pi]; the second of two readings of obstacles
    straight ahead is put behind the robot.  With the same end pose reported one
    turn further it is put where it belongs. *)
Theorem C106_seam_refuted : forall w, 0 < w <= 1 -> exists (m : laser_msg R) (o e e' : pose R) (p0 p1 q1 : point R),
  - PI < poth o <= PI /\ - PI < poth e <= PI /\ turn (poth o) (poth e) w /\ same_pose e e' /\
  (forall i, lr_angle_min m + INR i * lr_angle_inc m = 0) /\
  scan_points false 10 (mkPose 0 0 0) o e m = Ok [p0; q1] /\
  scan_points false 10 (mkPose 0 0 0) o e' m = Ok [p0; p1] /\
  1 / 2 < px p1 /\ px q1 < - (1 / 2).
Proof.
  intros w W. pose proof PI2_3_2 as Pi.
  assert (Pw : 3 <= PI) by lra.
  set (o := mkPose 0 0 (PI - w / 2)). set (e := mkPose 0 0 (- PI + w / 2)). set (e' := mkPose 0 0 (PI + w / 2)).
  assert (C : 1 / 2 < cos (w / 2)).
  { replace (1 / 2) with (cos (PI / 3)) by apply cos_PI3. apply cos_decreasing_1; lra. }
  exists m62, o, e, e'. eexists _, _, _. unfold o, e. cbn [poth].
  split; [lra|]. split; [lra|]. split.
  { split; [lra|]. exists 1%Z. lra. }
  split.
  { unfold e'. split; [reflexivity|]. split; [reflexivity|]. exists (-1)%Z. cbn [poth]. lra. }
  split; [intro i; unfold m62; cbn [lr_angle_min lr_angle_inc]; lra|].
  split; [apply conv62|]. split; [apply conv62|].
  unfold e', act, polar. cbn [pox poy poth px py]. rewrite !cos_0, !sin_0.
  replace ((PI + w / 2 - (PI - w / 2)) / 2) with (w / 2) by field.
  replace ((- PI + w / 2 - (PI - w / 2)) / 2) with (w / 2 - PI) by field.
  rewrite cos_minus, cos_PI, sin_PI. split; lra.
Qed.
Print Assumptions C106_seam_refuted.

Lemma turn_of_difference : forall a b d, turn a b d -> - PI < b - a <= PI -> b - a = d.
Proof.
  intros a b d T B. apply (turn_unique a b); [|exact T]. split; [exact B|]. exists 0%Z. lra.
Qed.

(** C106 for sweeps whose written headings differ by at most half a turn: the
    points depend on the message and on where the robot was, not on how many
    turns its headings are written with. *)
Theorem C106_seam_partial : forall inverted rmax (laser o e o' e' : pose R) (m : laser_msg R),
  same_pose o o' -> same_pose e e' ->
  - PI < poth e - poth o <= PI -> - PI < poth e' - poth o' <= PI ->
  scan_points inverted rmax laser o e m = scan_points inverted rmax laser o' e' m.
Proof.
  intros inverted rmax laser o e o' e' m [Ox [Oy [k Ok1]]] [Ex [Ey [j Ej]]] B B'.
  assert (H : poth e - poth o = poth e' - poth o').
  { apply (turn_of_difference (poth o) (poth e)); [|exact B]. split; [exact B'|].
    exists (k - j)%Z. rewrite Ok1, Ej, minus_IZR. ring. }
  assert (S : sweep_translation o e = sweep_translation o' e').
  { unfold sweep_translation. cbn. rewrite H, Ox, Oy, Ex, Ey. reflexivity. }
  unfold scan_points. rewrite S. reflexivity.
Qed.
Print Assumptions C106_seam_partial.

(** C106: what every other way of writing the end heading does.  With [k] extra
    turns reading [i] of [n] is moved by the same translation and turned by an
    extra [i/n] of these turns. *)
Theorem C106_smeared : forall rmax (laser o e : pose R) (k : Z) (m : laser_msg R),
  let n := length (lr_ranges m) in
  scan_points false rmax laser o (turned e k) m =
  Ok (map (fun ir => act (mkPose ((pox e - pox o) / INR n * INR (fst ir)) ((poy e - poy o) / INR n * INR (fst ir))
                                 ((poth e - poth o) / INR n * INR (fst ir) + 2 * PI * IZR k * (INR (fst ir) / INR n)))
                         (act laser (polar (lr_angle_min m + INR (fst ir) * lr_angle_inc m) (snd ir))))
          (filter (fun ir => Rle_bool (snd ir) rmax) (indexed (lr_ranges m)))).
Proof.
  intros rmax laser o e k m n. rewrite upright_R. f_equal. apply map_ext. intros [i r]. cbn [fst snd].
  unfold turned. cbn [pox poy poth]. fold n. f_equal. f_equal; unfold Rdiv; ring.
Qed.
Print Assumptions C106_smeared.

Example C106_nonvacuous : exists o e o' e' : pose R,
  same_pose o o' /\ same_pose e e' /\ o <> o' /\ poth o <> poth e /\
  - PI < poth e - poth o <= PI /\ - PI < poth e' - poth o' <= PI.
Proof.
  exists (mkPose 0 0 3), (mkPose 1 0 (31 / 10)), (mkPose 0 0 (3 + 2 * PI)), (mkPose 1 0 (31 / 10 + 2 * PI)).
  unfold same_pose, same_heading. cbn [pox poy poth]. pose proof PI2_3_2 as Pi. 
  split; [repeat split; exists (-1)%Z; lra|]. split; [repeat split; exists (-1)%Z; lra|].
  split; [intro H; apply (f_equal (fun p => poth p)) in H; cbn in H; lra|]. repeat split; lra.
Qed.
