(** Counterexamples for the occupancy grid. *)

From Coq Require Import ZArith Reals List Bool Lia Lra Psatz.
From Flocq Require Import Core BinarySingleNaN.
From Verif Require Import Outcome Arith TypesModel ScanModel NdtModel OccGridModel SpecGrid SpecRay SpecOcc RTactics B64Tactics B64Lemmas
  NdtProofs MatcherProofs MatcherB64 SolverProofs RayProofs OccProofs OccProofs2.
Import ListNotations.
Local Open Scope R_scope.

(** A scan at (x, 0, 0) with the single point (px, 0). *)
Definition ray_scan (x p : R) : scan R := mkScan 0 false (mkPose x 0 0) (mkPose 0 0 0) [mkPoint p 0].

Lemma ray_scan_world : forall x p, world (ray_scan x p) = [mkPoint (p + x) 0].
Proof. intros. unfold world, ray_scan, move. cbn. rewrite cos_0, sin_0. f_equal. f_equal; ring. Qed.

Lemma batch_one : forall x p, p + x = 0 -> batch 1 (1 / 2) [ray_scan x p] = mkOcc 1 (1 / 2) 0 0 0 0 1.
Proof.
  intros x p E. unfold batch, worlds. cbn [flat_map]. rewrite ray_scan_world, E. cbn [app map px py length].
  unfold lowest, highest. cbn [fold_left].
  rewrite Rmin_left, Rmax_left by lra. replace (0 / 1) with 0 by field. rewrite (Zfloor_IZR 0), (Zceil_IZR 0).
  f_equal; ring.
Qed.

Lemma small_fits : grid_fits (mkOcc 1 (1 / 2) 0 0 0 0 1).
Proof.
  unfold grid_fits, cells_between. cbn [og_res og_minx og_maxx og_miny og_maxy].
  replace (0 / 1) with 0 by field. rewrite (Zfloor_IZR 0), (Zceil_IZR 0). reflexivity.
Qed.

Lemma small_dim : cast_unsigned 32 ((0 - 0 + 2 * (5 * 1)) / 1) = Ok 10%Z.
Proof.
  replace ((0 - 0 + 2 * (5 * 1)) / 1) with (IZR 10) by field.
  unfold cast_unsigned. cbn [ntrunc RA]. rewrite Ztrunc_IZR. reflexivity.
Qed.

Lemma bind_ok_ok : forall {X Y} (m : outcome X) (k : X -> outcome Y),
  bind (bind (bind m (fun x => Ok x)) (fun x => Ok x)) k = bind m k.
Proof. intros X Y [x|f] k; reflexivity. Qed.

(** Rendering one such scan into the smallest grid. *)
Lemma small_render : forall (zs ze : Z) x p, (- 2 ^ 31 <= zs + 5 < 2 ^ 31)%Z -> (- 2 ^ 31 <= ze + 5 < 2 ^ 31)%Z ->
  x = IZR zs -> p + x = IZR ze ->
  render (mkOcc 1 (1 / 2) 0 0 0 0 1) [ray_scan x p] =
  bind (render_ray 10 (repeat 0%Z 100, repeat 0%Z 100) ((zs + 5, 5), (ze + 5, 5))%Z) (fun ct =>
    Ok (mkOccMsg 1 10 10 (0 - 5 * 1) (0 - 5 * 1)
        (map (fun he => cell_value (1 / 2) (fst he) (snd he)) (combine (fst ct) (snd ct))))).
Proof.
  intros zs ze x p B1 B2 Ex Ep. unfold render. cbn [og_res og_minx og_maxx og_miny og_maxy og_thresh nadd nsub nmul ndiv nofZ nsingle RA].
  rewrite small_dim. cbn [bind]. change (Z.to_nat (wrap32 (10 * 10))) with 100%nat. cbn [foldM].
  unfold scan_rays, ray_scan. cbn [s_pose s_pts pox poy poth mapM].
  unfold pos_cell. cbn [nadd nsub nmul ndiv ncos nsin RA px py]. rewrite cos_0, sin_0.
  replace ((x - (0 - 5 * 1)) / 1) with (IZR (zs + 5)) by (rewrite plus_IZR, Ex; field).
  replace ((0 - (0 - 5 * 1)) / 1) with (IZR 5) by field.
  replace ((p * 1 - 0 * 0 + x - (0 - 5 * 1)) / 1) with (IZR (ze + 5)) by (rewrite plus_IZR, <- Ep; field).
  replace ((p * 0 + 0 * 1 + 0 - (0 - 5 * 1)) / 1) with (IZR 5) by field.
  rewrite !cast_int32_ok by (rewrite Ztrunc_IZR; lia). rewrite !Ztrunc_IZR. cbn [bind foldM].
  apply bind_ok_ok.
Qed.

Lemma ray_out : forall c1 c2, (c1, c2) = (105, 5)%Z \/ (c1, c2) = (5, 105)%Z ->
  render_ray 10 (repeat 0%Z 100, repeat 0%Z 100) ((c1, 5), (c2, 5))%Z = Fault OutOfBounds.
Proof. intros c1 c2 [E|E]; injection E as -> ->; vm_compute; reflexivity. Qed.

(** A sensor outside the box of its points: the beam starts outside the grid. *)
Theorem sensor_outside :
  ~ (forall res thresh scans, 0 < res -> grid_fits (batch res thresh scans) ->
      exists o m, occ_get_msg (occ_new res thresh) scans = Ok (o, m)).
Proof.
  intro H. destruct (H 1 (1 / 2) [ray_scan 100 (-100)]) as (o & m & E); [lra|rewrite batch_one by lra; exact small_fits|].
  unfold occ_get_msg in E. pose proof (refresh_batch 1 Rlt_0_1 (1 / 2) [] [ray_scan 100 (-100)]) as RB. cbn [app] in RB.
  rewrite (new_batch 1 Rlt_0_1), RB, batch_one in E by lra.
  rewrite (small_render 100 0) in E by (try reflexivity; lra || lia).
  cbn zeta in E. rewrite ray_out in E by (left; reflexivity). discriminate E.
Qed.

(** The same scan after its pose was corrected: the bounds are not recomputed
    because the number of scans is the same. *)
Theorem moved_unsafe :
  ~ (forall res thresh old scans, 0 < res -> grid_fits (batch res thresh old) -> grid_fits (batch res thresh scans) ->
      length scans = length old ->
      (forall s, In s scans -> inside (batch res thresh scans) (sensor s)) ->
      exists o m, occ_get_msg (batch res thresh old) scans = Ok (o, m)).
Proof.
  intro H. destruct (H 1 (1 / 2) [ray_scan 0 0] [ray_scan 0 100]) as (o & m & E); try reflexivity.
  - lra.
  - rewrite batch_one by lra. exact small_fits.
  - apply batch_fits; [lra|]. unfold worlds. cbn [flat_map]. rewrite ray_scan_world. cbn [app map px py].
    unfold lowest, highest. cbn [fold_left]. rewrite !Rmin_left by lra. rewrite (Rmax_left 0 0) by lra. rewrite Rmax_right by lra.
    replace (0 / 1) with 0 by field. replace ((100 + 0) / 1) with (IZR 100) by field.
    rewrite !(Zfloor_IZR 0), !(Zceil_IZR 0), Zceil_IZR. reflexivity.
  - intros s [<-|[]]. replace (sensor (ray_scan 0 100)) with (mkPoint 0 0) by reflexivity. apply batch_inside; [lra|left; reflexivity].
  - unfold occ_get_msg, refresh in E. rewrite batch_one in E by lra. cbn [og_num length Nat.eqb] in E. cbn zeta in E.
    rewrite (small_render 0 100) in E by (try reflexivity; lra || lia).
    rewrite ray_out in E by (right; reflexivity). discriminate E.
Qed.

(** * Binary64 *)
Section B.
Context (lm : libm).
Let A : Arith b64 := BA lm.
Existing Instance A.

Definition z64 : b64 := b64_of 0 0.
Definition drift_scan : scan b64 := mkScan 0 false (mkPose z64 z64 z64) (mkPose z64 z64 z64) [mkPoint (Bdiv mode_NE (b64_of 12 0) (b64_of 100 0)) z64].
Definition empty_scan : scan b64 := mkScan 1 false (mkPose z64 z64 z64) (mkPose z64 z64 z64) [].
Definition res005 : b64 := Bdiv mode_NE (b64_of 5 0) (b64_of 100 0).

Lemma drift : forall thresh, lm_cos lm z64 = b64_of 1 0 -> lm_sin lm z64 = z64 ->
  og_maxx (refresh (refresh (occ_new res005 thresh) [drift_scan]) [drift_scan; empty_scan]) <>
  og_maxx (refresh (occ_new res005 thresh) [drift_scan; empty_scan]).
Proof.
  intros thresh Hc Hs.
  assert (P : place (mkPose z64 z64 z64) (mkPoint (Bdiv mode_NE (b64_of 12 0) (b64_of 100 0)) z64) =
    mkPoint (Bdiv mode_NE (b64_of 12 0) (b64_of 100 0)) z64).
  { unfold place. cbn [pox poy poth px py ncos nsin BA A]. unfold A. cbn [ncos nsin BA]. rewrite Hc, Hs. b64_struct. }
  assert (S : forall o, bound_scan o drift_scan = bound_point o (mkPoint (Bdiv mode_NE (b64_of 12 0) (b64_of 100 0)) z64)).
  { intro o. unfold bound_scan, drift_scan. cbn [s_pose s_pts fold_left]. rewrite P. reflexivity. }
  assert (E : forall o, bound_scan o empty_scan = o) by reflexivity.
  unfold refresh at 2 3. cbn [length og_num occ_new Nat.eqb].
  unfold refresh. unfold update_bounds at 1. cbn [length og_num snap Nat.eqb].
  unfold update_bounds. cbn [og_num occ_new snap skipn fold_left length]. rewrite !S, !E.
  cbn [bound_point og_res og_thresh og_minx og_maxx og_miny og_maxy og_num snap px py].
  intro H. apply (f_equal B2SF) in H. vm_compute in H. discriminate H.
Qed.
End B.

(** The value of a cell in binary64: the fraction is rounded to nearest. *)
Lemma cell_value_b64 : forall lm (thresh : b64) (h f : nat), is_finite thresh = true ->
  (Z.of_nat (h + f) <= 2 ^ 53)%Z ->
  let v := cell_value (A := BA lm) thresh (Z.of_nat h) (Z.of_nat f) in
  (v = -1 \/ v = 0 \/ v = 100)%Z /\
  (v = (-1)%Z <-> (h + f = 0)%nat) /\
  (v = 100%Z <-> (0 < h + f)%nat /\ B2R thresh < rnd (INR h / INR (h + f))).
Proof.
  intros lm thresh h f Ft B v. unfold v, cell_value, nlit. cbn [nofZ nlt ndiv BA]. clear v.
  rewrite <- Nat2Z.inj_add. set (n := (h + f)%nat) in *.
  destruct (b64_ofZ (Z.of_nat n)) as (E1 & F1); [lia|].
  destruct (b64_ofZ (Z.of_nat h)) as (E2 & F2); [unfold n in *; lia|].
  assert (HF : B2R (Bdiv mode_NE (b64_of 1 0) (b64_of 2 0)) = / 2 /\ is_finite (Bdiv mode_NE (b64_of 1 0) (b64_of 2 0)) = true).
  { destruct (b64_ofZ 1) as (A1 & A2); [lia|]. destruct (b64_ofZ 2) as (A3 & A4); [lia|].
    assert (Q : B2R (b64_of 1 0) / B2R (b64_of 2 0) = / 2) by (rewrite A1, A3; lra).
    destruct (b64_div_ok (b64_of 1 0) (b64_of 2 0)) as (G1 & G2); [exact A2|rewrite A3; lra| |].
    - rewrite Q, Rabs_pos_eq by lra. apply Rle_trans with (bpow radix2 0); [cbn; lra|apply bpow_le; lia].
    - rewrite G1, Q. split; [|exact G2]. apply rnd_fmt. replace (/ 2) with (IZR 1 / 2) by lra. apply fmt_half. lia. }
  destruct HF as (H1 & H2). rewrite Bltb_correct by assumption. rewrite H1, E1, <- INR_IZR_INZ.
  destruct (Rlt_bool_spec (/ 2) (INR n)) as [P|P].
  - assert (N : (0 < n)%nat). { destruct n; [cbn in P; lra|lia]. }
    assert (N0 : 0 < INR n) by lra.
    destruct (b64_div_ok (b64_of (Z.of_nat h) 0) (b64_of (Z.of_nat n) 0)) as (G1 & G2);
      [exact F2|rewrite E1, <- INR_IZR_INZ; lra| |].
    + rewrite E1, E2, <- !INR_IZR_INZ. assert (L : INR h <= INR n) by (apply le_INR; unfold n; lia).
      pose proof (pos_INR h). assert (0 <= INR h / INR n <= 1).
      { split; [unfold Rdiv; apply Rmult_le_pos; [assumption|left; apply Rinv_0_lt_compat; exact N0]|].
        apply (Rmult_le_reg_r (INR n)); [exact N0|]. unfold Rdiv. rewrite Rmult_assoc, Rinv_l by lra. lra. }
      rewrite Rabs_pos_eq by lra. apply Rle_trans with (bpow radix2 0); [cbn; lra|apply bpow_le; lia].
    + rewrite Bltb_correct by assumption. rewrite G1, E1, E2, <- !INR_IZR_INZ.
      destruct (Rlt_bool_spec (B2R thresh) (rnd (INR h / INR n))) as [Q|Q].
      * repeat split; auto; try lia; try discriminate.
      * repeat split; auto; try lia; try discriminate. intros (_ & ?). lra.
  - assert (N : n = 0%nat). { destruct n; [reflexivity|]. rewrite S_INR in P. pose proof (pos_INR n). lra. }
    repeat split; auto; try lia; try discriminate.
Qed.

(** * Demonstration *)
Lemma demo_fits : grid_fits (batch 1 (1 / 2) [ray_scan 0 3]) /\
  forall s, In s [ray_scan 0 3] -> inside (batch 1 (1 / 2) [ray_scan 0 3]) (sensor s).
Proof.
  split.
  - apply batch_fits; [lra|]. unfold worlds. cbn [flat_map]. rewrite ray_scan_world. cbn [app map px py].
    unfold lowest, highest. cbn [fold_left]. rewrite !Rmin_left by lra. rewrite (Rmax_left 0 0) by lra. rewrite Rmax_right by lra.
    replace (0 / 1) with 0 by field. replace ((3 + 0) / 1) with (IZR 3) by field.
    rewrite !(Zfloor_IZR 0), !(Zceil_IZR 0), Zceil_IZR. reflexivity.
  - intros s [<-|[]]. replace (sensor (ray_scan 0 3)) with (mkPoint 0 0) by reflexivity. apply batch_inside; [lra|left; reflexivity].
Qed.

Lemma demo_render : exists m, occ_get_msg (occ_new 1 (1 / 2)) [ray_scan 0 3] = Ok (batch 1 (1 / 2) [ray_scan 0 3], m) /\
  om_data m <> [].
Proof.
  destruct demo_fits as (F & S). destruct (first_render_safe 1 (1 / 2) [ray_scan 0 3] Rlt_0_1 F S) as (m & M & L & (i & j & W & H & _) & _).
  exists m. split; [exact M|]. intro E. rewrite E in L. cbn in L. assert (0 < om_width m * om_height m)%Z by nia. lia.
Qed.
