(** Property C160: headings that differ by whole turns are the same heading. *)

From Coq Require Import ZArith Reals List Bool Lia Lra.
From Flocq Require Import Core.
From Verif Require Import Outcome Arith TypesModel ScanModel CellModel NdtModel MatcherModel ConstraintModel OccGridModel KdModel
  SpecGrid SpecOcc SpecPose SpecLaser SpecTurns RTactics NdtProofs MatcherProofs MatcherProofs2 ConstraintProofs AngleProofs OccProofs MotionModel FilterModel MotionProofs.
Import ListNotations.
Local Open Scope R_scope.

Lemma same_cos : forall a b, same_heading a b -> cos a = cos b.
Proof. intros a b (k & ->). apply cos_turn. Qed.
Lemma same_sin : forall a b, same_heading a b -> sin a = sin b.
Proof. intros a b (k & ->). apply sin_turn. Qed.
Lemma same_plus : forall a b d, same_heading a b -> same_heading (a + d) (b + d).
Proof. intros a b d (k & ->). exists k. ring. Qed.

Lemma place_same : forall p p' q, same_pose p' p -> place p' q = place p q.
Proof. intros p p' q (X & Y & H). unfold place. ra. rewrite X, Y, (same_cos _ _ H), (same_sin _ _ H). reflexivity. Qed.
Lemma iso_same : forall p p' q, same_pose p' p -> iso_apply p' q = iso_apply p q.
Proof. intros p p' q (X & Y & H). unfold iso_apply. ra. rewrite X, Y, (same_cos _ _ H), (same_sin _ _ H). reflexivity. Qed.
Lemma outer_same : forall p p' d bp, same_pose p' p -> outer_points p' d bp = outer_points p d bp.
Proof.
  intros p p' d bp (X & Y & H). apply (same_plus _ _ d) in H. unfold outer_points. ra. rewrite X, Y, (same_cos _ _ H), (same_sin _ _ H). reflexivity.
Qed.
Lemma foldM_same {S X} (f g : S -> X -> outcome S) : (forall s x, f s x = g s x) -> forall l s, foldM f s l = foldM g s l.
Proof. intros E l. induction l as [|x l IH]; intro s; [reflexivity|]. cbn [foldM]. rewrite E. destruct (g s x); [apply IH|reflexivity]. Qed.
Lemma foldM_views {S} (f : S -> scan R -> outcome S) : (forall s a b, same_view a b -> f s b = f s a) ->
  forall l l', Forall2 same_view l l' -> forall s, foldM f s l' = foldM f s l.
Proof. intros E l l' F. induction F as [|a b l l' H F IH]; intro s; [reflexivity|]. cbn [foldM]. rewrite (E s a b H). destruct (f s a); [apply IH|reflexivity]. Qed.

Lemma add_same : forall g a b, same_view a b -> ndt_add_scan g b = ndt_add_scan g a.
Proof. intros g a b [P E]. unfold ndt_add_scan. rewrite E. f_equal. apply map_ext. intro q. apply place_same. exact P. Qed.
Lemma box_same : forall r l l', Forall2 same_view l l' -> scans_box r l' = scans_box r l.
Proof.
  intros r l l' F. unfold scans_box. match goal with |- fold_left ?f _ ?z = _ => generalize z end.
  induction F as [|a b l l' [(X & Y & _) _] F IH]; intro z; [reflexivity|]. cbn [fold_left].
  rewrite IH. f_equal. unfold box_step. rewrite X, Y. reflexivity.
Qed.

(** Building the map, matching against it and scoring. *)
Theorem C160_matching : forall (eig : mat2 R -> R * R) (m : matcher R),
  (forall scans scans', Forall2 same_view scans scans' -> add_scans eig m scans' = add_scans eig m scans) /\
  (forall fuel s s' p cov, same_view s s' -> match_scan fuel m s' p cov = match_scan fuel m s p cov) /\
  (forall pts q q', same_pose q' q -> score_points m pts q' = score_points m pts q).
Proof.
  intros eig m. split; [|split].
  - intros scans scans' F. unfold add_scans. rewrite (box_same _ _ _ F). destruct (ndt_new _ _ _ _ _) as [g|]; [|reflexivity]. cbn [bind].
    rewrite (foldM_views ndt_add_scan add_same scans scans' F). reflexivity.
  - intros fuel s s' p cov [P E]. unfold match_scan. destruct (k_ndt m) as [g|]; [|reflexivity]. cbv zeta. rewrite E.
    destruct (loop_values fuel (- k_ang_size m)%num _ _) as [dths|]; [|reflexivity]. cbn [bind].
    destruct (loop_values fuel (- k_lin_size m)%num _ _) as [ds|]; [|reflexivity]. cbn [bind].
    match goal with |- bind (foldM ?f ?z _) _ = bind (foldM ?h _ _) _ => rewrite (foldM_same f h) end; [reflexivity|].
    intros w d. destruct (beam_points m (s_pts s)) as [bp|]; [|reflexivity]. cbn [bind]. rewrite (outer_same _ _ d bp P). reflexivity.
  - intros pts q q' P. unfold score_points. destruct (k_ndt m) as [g|]; [|reflexivity]. cbv zeta.
    match goal with |- bind (foldM ?f ?z _) _ = bind (foldM ?h _ _) _ => rewrite (foldM_same f h) end; [reflexivity|].
    intros w i. destruct (beam_index _ i) as [idx|]; [|reflexivity]. cbn [bind]. destruct (vec_get pts idx) as [p|]; [|reflexivity]. cbn [bind]. rewrite (iso_same _ _ p P). reflexivity.
Qed.
Print Assumptions C160_matching.

(** Drawing the map. *)
Lemma bound_same : forall o a b, same_view a b -> bound_scan o b = bound_scan o a.
Proof.
  intros o a b [P E]. unfold bound_scan. rewrite E. generalize (s_pts a) as l. intro l. revert o. induction l as [|q l IH]; intro o; [reflexivity|].
  cbn [fold_left]. rewrite (place_same _ _ q P). apply IH.
Qed.
Lemma rays_same : forall ox oy r a b, same_view a b -> scan_rays ox oy r b = scan_rays ox oy r a.
Proof.
  intros ox oy r a b [(X & Y & H) E]. unfold scan_rays. ra. rewrite X, Y, E, (same_cos _ _ H), (same_sin _ _ H). reflexivity.
Qed.
Lemma skip_views : forall n l l', Forall2 same_view l l' -> Forall2 same_view (skipn n l) (skipn n l').
Proof. induction n as [|n IH]; intros l l' F; [exact F|]. destruct F as [|a b l l' H F]; [constructor|]. cbn [skipn]. apply IH. exact F. Qed.
Theorem C160_drawing : forall o scans scans', Forall2 same_view scans scans' -> occ_get_msg o scans' = occ_get_msg o scans.
Proof.
  intros o scans scans' F. assert (L : length scans = length scans') by (clear -F; induction F; cbn [length]; congruence). unfold occ_get_msg. cbv zeta.
  assert (E : refresh o scans' = refresh o scans).
  { unfold refresh. rewrite <- L. destruct (Nat.eqb _ _); [reflexivity|]. unfold update_bounds. rewrite <- L.
    assert (B : fold_left bound_scan (skipn (og_num o) scans') o = fold_left bound_scan (skipn (og_num o) scans) o); [|rewrite B; reflexivity].
    generalize (skip_views (og_num o) _ _ F). generalize (skipn (og_num o) scans) (skipn (og_num o) scans'). clear. intros l l' F. generalize o.
    induction F as [|a b l l' H F IH]; intro z; [reflexivity|]. cbn [fold_left]. rewrite (bound_same z a b H). apply IH. }
  rewrite E. unfold render. destruct (cast_unsigned 32 _) as [w|]; [|reflexivity]. cbn [bind]. destruct (cast_unsigned 32 _) as [h|]; [|reflexivity]. cbn [bind].
  match goal with |- context [foldM ?f _ scans'] => rewrite (foldM_views f) with (l := scans) (l' := scans') end; [reflexivity| |exact F].
  intros s a b H. rewrite (rays_same _ _ _ a b H). reflexivity.
Qed.
Print Assumptions C160_drawing.

(** Constraints: the error of a constraint, and a constraint made from the poses
    counts the same against every pair of poses. *)
Theorem C160_constraints : forall cov (a a' b b' : scan R) u v S, same_pose (s_pose a') (s_pose a) -> same_pose (s_pose b') (s_pose b) ->
  residual (c_transform (make_constraint a' b' cov)) S u v = residual (c_transform (make_constraint a b cov)) S u v /\
  (forall t, residual t S (pose_vec (s_pose a')) (pose_vec (s_pose b')) = residual t S (pose_vec (s_pose a)) (pose_vec (s_pose b))).
Proof.
  intros cov a a' b b' u v S (X & Y & H) (X' & Y' & H'). split; [|intro t].
  - unfold residual, raw_residual, make_constraint. cbn [c_transform v0 v1 v2]. ra. rewrite X, Y, X', Y', (same_cos _ _ H), (same_sin _ _ H). f_equal. f_equal.
    apply ceres_normalize_turn. destruct H as (k & ->), H' as (j & ->). exists (k - j)%Z. rewrite minus_IZR. ring.
  - unfold residual, raw_residual, pose_vec. cbn [v0 v1 v2]. ra. rewrite X, Y, X', Y', (same_cos _ _ H), (same_sin _ _ H). f_equal. f_equal.
    apply ceres_normalize_turn. destruct H as (k & ->), H' as (j & ->). exists (j - k)%Z. rewrite minus_IZR. ring.
Qed.
Print Assumptions C160_constraints.

(** Particles: the filter keeps one number for every direction, so particles at the
    same place in the same direction fall into the same bin when resampling. *)
Theorem C160_particles : forall mn mx mo (f0 f : pfilter R) ops p q, filter_new mn mx mo = Ok f0 -> filter_run f0 ops = Ok f ->
  In p (pf_parts f) -> In q (pf_parts f) -> v0 p = v0 q -> v1 p = v1 q -> same_heading (v2 p) (v2 q) -> kd_key bin_size p = kd_key bin_size q.
Proof.
  intros mn mx mo f0 f ops p q N E Ip Iq X Y H. pose proof (headings_run ops f0 f (headings_new _ _ _ _ N) E) as K. unfold headings_ok in K. rewrite Forall_forall in K.
  destruct p as [a b c], q as [a' b' c']. cbn [v0 v1 v2] in *. subst a' b'. f_equal. f_equal. pose proof (K _ Ip) as P. pose proof (K _ Iq) as Q. cbn [v2] in P, Q.
  rewrite <- (normalize_angle_id c P), <- (normalize_angle_id c' Q). apply normalize_angle_same. exact H.
Qed.
Print Assumptions C160_particles.

(** A scan and the same scan with a heading of a full turn. *)
Example C160_nonvacuous : let s := mkScan 0 false (mkPose 0 0 0) (mkPose 0 0 0) [mkPoint 1 0] in
  let s' := mkScan 0 false (mkPose 0 0 (2 * PI)) (mkPose 0 0 0) [mkPoint 1 0] in
  s_pose s <> s_pose s' /\ Forall2 same_view [s] [s'] /\ world s = [mkPoint 1 0] /\ world s' = [mkPoint 1 0].
Proof.
  cbv zeta. pose proof PI_RGT_0 as P. split; [intro E; injection E as E; lra|]. split.
  - constructor; [|constructor]. split; [|reflexivity]. split; [reflexivity|]. split; [reflexivity|]. exists 1%Z. cbn. ring.
  - unfold world, move. cbn. rewrite cos_0, sin_0, cos_2PI, sin_2PI. split; f_equal; f_equal; ring.
Qed.
