(** Memory safety of rendering (exact arithmetic). *)

From Coq Require Import ZArith Reals List Bool Lia Lra Psatz.
From Flocq Require Import Core.
From Verif Require Import Outcome Arith TypesModel ScanModel NdtModel OccGridModel SpecGrid SpecRay SpecOcc RTactics
  NdtProofs MatcherProofs MatcherB64 SolverProofs RayProofs OccProofs.
Import ListNotations.
Local Open Scope R_scope.

Definition in_grid (w h : Z) (c : gcell) : Prop := (0 <= fst c < w /\ 0 <= snd c < h)%Z.

Lemma in_rect_grid : forall w h s e c, in_grid w h s -> in_grid w h e -> in_rect s e c -> in_grid w h c.
Proof. intros w h s e c. unfold in_grid, in_rect, between. lia. Qed.

Lemma cell_index_grid : forall w h c, in_grid w h c -> (w * h < 2 ^ 31)%Z ->
  cell_index w c = (fst c + snd c * w)%Z /\ (0 <= cell_index w c < w * h)%Z.
Proof.
  intros w h c ((A1 & A2) & (B1 & B2)) L. unfold cell_index.
  assert (0 <= snd c * w <= (h - 1) * w)%Z by nia.
  rewrite to_int32_small by lia. split; [reflexivity|]. lia.
Qed.

Lemma grid_ray_fits : forall w h s e, (5 <= w)%Z -> (5 <= h)%Z -> (w * h < 2 ^ 31)%Z ->
  in_grid w h s -> in_grid w h e -> ray_fits s e.
Proof.
  intros w h s e Hw Hh L ((A1 & A2) & (B1 & B2)) ((C1 & C2) & (D1 & D2)). unfold ray_fits.
  assert (5 * w <= w * h)%Z by nia. assert (5 * h <= w * h)%Z by nia. lia.
Qed.

(** Rendering any rays within the grid is safe. *)
Lemma rays_safe : forall w h rays ht em, (5 <= w)%Z -> (5 <= h)%Z -> (w * h < 2 ^ 31)%Z ->
  length ht = Z.to_nat (w * h) -> length em = Z.to_nat (w * h) ->
  Forall (fun r => in_grid w h (fst r) /\ in_grid w h (snd r)) rays ->
  exists ct, foldM (render_ray w) (ht, em) rays = Ok ct.
Proof.
  intros w h rays ht em Hw Hh L L1 L2 F. apply render_rays_total. cbn [fst snd]. rewrite L1, L2.
  intros r Hr. rewrite Forall_forall in F. destruct (F r Hr) as (G1 & G2).
  destruct (trace_ray_spec (fst r) (snd r)) as (es & ht' & TR & R1 & R2 & _); [apply (grid_ray_fits w h); assumption|].
  exists es, ht'. split; [exact TR|]. rewrite Z2Nat.id by nia. rewrite Forall_forall in R1. split.
  - intros c Hc. eapply cell_index_grid; [|exact L]. eapply in_rect_grid; [exact G1|exact G2|]. apply R1. exact Hc.
  - eapply cell_index_grid; [|exact L]. eapply in_rect_grid; [exact G1|exact G2|exact R2].
Qed.

Lemma cell_range : forall res z0 z1 x, 0 < res ->
  IZR z0 * res - 5 * res <= x < IZR z1 * res + 5 * res ->
  (0 <= Ztrunc ((x - (IZR z0 * res - 5 * res)) / res) < z1 - z0 + 10)%Z.
Proof.
  intros res z0 z1 x Hr (H1 & H2). set (o := IZR z0 * res - 5 * res) in *.
  assert (Q : 0 <= (x - o) / res).
  { unfold Rdiv. apply Rmult_le_pos; [lra|]. left. apply Rinv_0_lt_compat. exact Hr. }
  rewrite Ztrunc_floor by exact Q. split; [apply Zfloor_lub; exact Q|].
  apply lt_IZR. apply Rle_lt_trans with ((x - o) / res); [apply Zfloor_lb|].
  apply (Rmult_lt_reg_r res); [exact Hr|]. unfold Rdiv. rewrite Rmult_assoc, Rinv_l, Rmult_1_r by lra.
  rewrite plus_IZR, minus_IZR. unfold o. lra.
Qed.

Section Safe.
Context (o : occ R) (zx0 zx1 zy0 zy1 : Z).
Let res := og_res o.
Let w := (zx1 - zx0 + 10)%Z.
Let h := (zy1 - zy0 + 10)%Z.
Context (Hres : 0 < res)
  (Hx0 : og_minx o = IZR zx0 * res) (Hx1 : og_maxx o = IZR zx1 * res)
  (Hy0 : og_miny o = IZR zy0 * res) (Hy1 : og_maxy o = IZR zy1 * res)
  (Hzx : (zx0 <= zx1)%Z) (Hzy : (zy0 <= zy1)%Z) (Hsz : (w * h < 2 ^ 31)%Z).

Lemma inside_pos_cell : forall p, inside o p ->
  exists c, pos_cell (og_minx o - 5 * res) (og_miny o - 5 * res) res (px p) (py p) = Ok c /\ in_grid w h c.
Proof.
  intros p (Ix & Iy). fold res in Ix, Iy. rewrite Hx0, Hx1 in Ix. rewrite Hy0, Hy1 in Iy.
  apply cell_range in Ix; [|exact Hres]. apply cell_range in Iy; [|exact Hres]. fold w in Ix. fold h in Iy.
  assert (w < 2 ^ 31)%Z by (unfold w, h in *; nia). assert (h < 2 ^ 31)%Z by (unfold w, h in *; nia).
  rewrite Hx0, Hy0. unfold pos_cell. cbn [nsub ndiv RA]. rewrite !cast_int32_ok by lia. cbn [bind].
  eexists. split; [reflexivity|]. split; cbn [fst snd]; assumption.
Qed.

Lemma scan_rays_safe : forall s, inside o (sensor s) -> (forall p, In p (world s) -> inside o p) ->
  exists rays, scan_rays (og_minx o - 5 * res) (og_miny o - 5 * res) res s = Ok rays /\
    Forall (fun r => in_grid w h (fst r) /\ in_grid w h (snd r)) rays.
Proof.
  intros s Hs Hp. unfold scan_rays. destruct (inside_pos_cell _ Hs) as (st & E & G). cbn [sensor px py] in E. rewrite E. cbn [bind].
  match goal with |- exists rays, mapM ?f ?l = _ /\ _ =>
    destruct (mapM_total f (fun _ r => in_grid w h (fst r) /\ in_grid w h (snd r)) l) as (rays & M & F) end.
  - intros q Hq. destruct (inside_pos_cell (move (s_pose s) q)) as (en & E2 & G2).
    { apply Hp. unfold world. apply in_map. exact Hq. }
    cbn [nadd nsub nmul ncos nsin RA]. unfold move in E2. cbn [px py] in E2.
    replace (px q * cos (poth (s_pose s)) - py q * sin (poth (s_pose s)) + pox (s_pose s))
      with (cos (poth (s_pose s)) * px q - sin (poth (s_pose s)) * py q + pox (s_pose s)) by ring.
    replace (px q * sin (poth (s_pose s)) + py q * cos (poth (s_pose s)) + poy (s_pose s))
      with (sin (poth (s_pose s)) * px q + cos (poth (s_pose s)) * py q + poy (s_pose s)) by ring.
    rewrite E2. cbn [bind]. eexists. split; [reflexivity|]. cbn [fst snd]. auto.
  - exists rays. split; [exact M|]. clear -F. induction F; constructor; auto.
Qed.

Theorem render_safe : forall scans,
  (forall s, In s scans -> inside o (sensor s)) -> (forall p, In p (worlds scans) -> inside o p) ->
  exists m, render o scans = Ok m /\ om_width m = w /\ om_height m = h /\
    om_ox m = og_minx o - 5 * res /\ om_oy m = og_miny o - 5 * res /\ om_resolution m = res /\
    length (om_data m) = Z.to_nat (w * h).
Proof.
  intros scans Hs Hp.
  assert (W10 : (10 <= w)%Z) by (unfold w; lia). assert (H10 : (10 <= h)%Z) by (unfold h; lia).
  assert (W31 : (w < 2 ^ 31)%Z) by nia. assert (H31 : (h < 2 ^ 31)%Z) by nia.
  assert (DIM : forall z0 z1, (z0 <= z1)%Z -> (z1 - z0 + 10 < 2 ^ 31)%Z ->
    cast_unsigned 32 ((IZR z1 * res - IZR z0 * res + 2 * (5 * res)) / res) = Ok (z1 - z0 + 10)%Z).
  { intros z0 z1 Hz L. replace ((IZR z1 * res - IZR z0 * res + 2 * (5 * res)) / res) with (IZR (z1 - z0 + 10))
      by (rewrite plus_IZR, minus_IZR; field; lra).
    unfold cast_unsigned. cbn [ntrunc RA]. rewrite Ztrunc_IZR.
    destruct (Z.leb_spec 0 (z1 - z0 + 10)); [|lia]. destruct (Z.ltb_spec (z1 - z0 + 10) (2 ^ 32)); [reflexivity|lia]. }
  destruct (mapM_total (scan_rays (og_minx o - 5 * res) (og_miny o - 5 * res) res)
     (fun _ rays => Forall (fun r => in_grid w h (fst r) /\ in_grid w h (snd r)) rays) scans) as (rays & M & F).
  { intros s Hin. apply scan_rays_safe; [apply Hs; exact Hin|]. intros p Hq. apply Hp. unfold worlds. apply in_flat_map. eauto. }
  assert (F' : Forall (fun r => in_grid w h (fst r) /\ in_grid w h (snd r)) (concat rays)).
  { clear -F. induction F; cbn [concat]; [constructor|]. apply Forall_app. auto. }
  assert (WR : wrap32 (w * h) = (w * h)%Z) by (unfold wrap32; apply Z.mod_small; nia).
  destruct (rays_safe w h (concat rays) (repeat 0%Z (Z.to_nat (w * h))) (repeat 0%Z (Z.to_nat (w * h))) ltac:(lia) ltac:(lia) Hsz)
    as (ct & C); [apply repeat_length|apply repeat_length|exact F'|].
  unfold render. fold res. cbn [nadd nsub nmul ndiv nofZ RA]. rewrite Hx0, Hx1, Hy0, Hy1.
  rewrite !DIM by assumption. cbn [bind]. fold w h. rewrite WR.
  rewrite Hx0, Hy0 in M.
  rewrite (proj2 (flatten_inv (scan_rays (IZR zx0 * res - 5 * res) (IZR zy0 * res - 5 * res) res) (render_ray w)
     scans (repeat 0%Z (Z.to_nat (w * h)), repeat 0%Z (Z.to_nat (w * h))) ct) (ex_intro _ rays (conj M C))).
  cbn [bind]. eexists. split; [reflexivity|]. cbn [om_width om_height om_ox om_oy om_resolution om_data nsingle RA].
  repeat split. apply render_rays_inv in C. destruct C as (ms & _ & LA & LB & _). cbn [fst snd] in LA, LB.
  rewrite map_length, combine_length, LA, LB, !repeat_length. apply Nat.min_id.
Qed.
End Safe.

Lemma lowest_le : forall xs m, fold_left Rmin xs m <= m /\ forall x, In x xs -> fold_left Rmin xs m <= x.
Proof.
  induction xs as [|x xs IH]; intro m; cbn [fold_left In]; [split; [lra|intros ? []]|].
  destruct (IH (Rmin m x)) as (I1 & I2). pose proof (Rmin_l m x). pose proof (Rmin_r m x).
  split; [lra|]. intros y [<-|Hy]; [lra|auto].
Qed.
Lemma highest_ge : forall xs m, m <= fold_left Rmax xs m /\ forall x, In x xs -> x <= fold_left Rmax xs m.
Proof.
  induction xs as [|x xs IH]; intro m; cbn [fold_left In]; [split; [lra|intros ? []]|].
  destruct (IH (Rmax m x)) as (I1 & I2). pose proof (Rmax_l m x). pose proof (Rmax_r m x).
  split; [lra|]. intros y [<-|Hy]; [lra|auto].
Qed.

Lemma snap_lo : forall res x, 0 < res -> IZR (Zfloor (x / res)) * res <= x.
Proof.
  intros res x Hr. pose proof (Zfloor_lb (x / res)) as H.
  apply (Rmult_le_compat_r res) in H; [|lra]. unfold Rdiv in H at 2. rewrite Rmult_assoc, Rinv_l in H by lra. lra.
Qed.
Lemma snap_hi : forall res x, 0 < res -> x <= IZR (Zceil (x / res)) * res.
Proof.
  intros res x Hr. pose proof (Zceil_ub (x / res)) as H.
  apply (Rmult_le_compat_r res) in H; [|lra]. unfold Rdiv in H at 1. rewrite Rmult_assoc, Rinv_l in H by lra. lra.
Qed.

(** The bounds contain all the points and the origin. *)
Lemma batch_inside : forall res thresh scans p, 0 < res -> (p = mkPoint 0 0 \/ In p (worlds scans)) ->
  inside (batch res thresh scans) p.
Proof.
  intros res thresh scans p Hr Hp. unfold inside, batch. cbn [og_minx og_maxx og_miny og_maxy og_res].
  assert (G : forall f : point R -> R, (f p = 0 \/ In (f p) (map f (worlds scans))) ->
    IZR (Zfloor (lowest (map f (worlds scans)) / res)) * res - 5 * res <= f p <
    IZR (Zceil (highest (map f (worlds scans)) / res)) * res + 5 * res).
  { intros f Hf. destruct (lowest_le (map f (worlds scans)) 0) as (L1 & L2). destruct (highest_ge (map f (worlds scans)) 0) as (U1 & U2).
    fold (lowest (map f (worlds scans))) in L1, L2. fold (highest (map f (worlds scans))) in U1, U2.
    pose proof (snap_lo res (lowest (map f (worlds scans))) Hr). pose proof (snap_hi res (highest (map f (worlds scans))) Hr).
    destruct Hf as [Z0|I]; [rewrite Z0; lra|]. specialize (L2 _ I). specialize (U2 _ I). lra. }
  split; apply G; (destruct Hp as [->|Hp]; [left; reflexivity|right; apply in_map; exact Hp]).
Qed.

Lemma inside_covers : forall (o : occ R) zx0 zx1 zy0 zy1 m p, 0 < og_res o ->
  og_minx o = IZR zx0 * og_res o -> og_maxx o = IZR zx1 * og_res o ->
  og_miny o = IZR zy0 * og_res o -> og_maxy o = IZR zy1 * og_res o ->
  om_width m = (zx1 - zx0 + 10)%Z -> om_height m = (zy1 - zy0 + 10)%Z ->
  om_ox m = og_minx o - 5 * og_res o -> om_oy m = og_miny o - 5 * og_res o -> om_resolution m = og_res o ->
  inside o p -> covers m p.
Proof.
  intros o zx0 zx1 zy0 zy1 m p Hr X0 X1 Y0 Y1 W H OX OY RS (Ix & Iy).
  unfold covers, in_square. rewrite W, H, OX, OY, RS, X0, Y0. rewrite X0, X1 in Ix. rewrite Y0, Y1 in Iy.
  exists (Ztrunc ((px p - (IZR zx0 * og_res o - 5 * og_res o)) / og_res o)),
         (Ztrunc ((py p - (IZR zy0 * og_res o - 5 * og_res o)) / og_res o)).
  split; [apply cell_range; assumption|]. split; [apply cell_range; assumption|].
  split; apply Ztrunc_interval; try assumption; try reflexivity; lra.
Qed.

Lemma batch_ordered : forall res scans, 0 < res ->
  (Zfloor (lowest (map px (worlds scans)) / res) <= Zceil (highest (map px (worlds scans)) / res))%Z /\
  (Zfloor (lowest (map py (worlds scans)) / res) <= Zceil (highest (map py (worlds scans)) / res))%Z.
Proof.
  intros res scans Hr.
  assert (G : forall xs, (Zfloor (lowest xs / res) <= Zceil (highest xs / res))%Z).
  { intro xs. destruct (lowest_le xs 0) as (L & _). destruct (highest_ge xs 0) as (U & _).
    fold (lowest xs) in L. fold (highest xs) in U. pose proof (snap_lo res (lowest xs) Hr). pose proof (snap_hi res (highest xs) Hr).
    apply le_IZR. apply (Rmult_le_reg_r res); [exact Hr|]. lra. }
  split; apply G.
Qed.

Lemma batch_fits : forall res thresh scans, 0 < res -> grid_fits (batch res thresh scans) <->
  ((Zceil (highest (map px (worlds scans)) / res) - Zfloor (lowest (map px (worlds scans)) / res) + 10) *
   (Zceil (highest (map py (worlds scans)) / res) - Zfloor (lowest (map py (worlds scans)) / res) + 10) < 2 ^ 31)%Z.
Proof.
  intros res thresh scans Hr. unfold grid_fits, cells_between, batch. cbn [og_res og_minx og_maxx og_miny og_maxy].
  rewrite !IZR_div_res, !Zfloor_IZR, !Zceil_IZR by exact Hr. tauto.
Qed.

(** Rendering with up-to-date bounds is safe if the sensors are inside them. *)
Theorem batch_safe : forall res thresh scans, 0 < res -> grid_fits (batch res thresh scans) ->
  (forall s, In s scans -> inside (batch res thresh scans) (sensor s)) ->
  exists m, render (batch res thresh scans) scans = Ok m /\
    length (om_data m) = Z.to_nat (om_width m * om_height m) /\
    covers m (mkPoint 0 0) /\ (forall p, In p (worlds scans) -> covers m p) /\
    (forall s, In s scans -> covers m (sensor s)).
Proof.
  intros res thresh scans Hr Fit Hs. pose proof (proj1 (batch_fits res thresh scans Hr) Fit) as Fit'. clear Fit. rename Fit' into Fit.
  destruct (batch_ordered res scans Hr) as (Ox & Oy).
  destruct (render_safe (batch res thresh scans) _ _ _ _ Hr eq_refl eq_refl eq_refl eq_refl Ox Oy Fit scans Hs)
    as (m & M & W & H & OX & OY & RS & LD).
  { intros p Hp. apply batch_inside; [exact Hr|]. right. exact Hp. }
  exists m. split; [exact M|]. split; [rewrite W, H; exact LD|].
  assert (C : forall p, inside (batch res thresh scans) p -> covers m p).
  { intros p Ip. apply (inside_covers (batch res thresh scans) _ _ _ _ m p Hr eq_refl eq_refl eq_refl eq_refl W H OX OY RS Ip). }
  split; [apply C; apply batch_inside; [exact Hr|left; reflexivity]|].
  split; [intros p Hp; apply C; apply batch_inside; [exact Hr|right; exact Hp]|]. intros s Hin. apply C. apply Hs. exact Hin.
Qed.

(** Fresh grid, one rendering. *)
Theorem first_render_safe : forall res thresh scans, 0 < res -> grid_fits (batch res thresh scans) ->
  (forall s, In s scans -> inside (batch res thresh scans) (sensor s)) ->
  exists m, occ_get_msg (occ_new res thresh) scans = Ok (batch res thresh scans, m) /\
    length (om_data m) = Z.to_nat (om_width m * om_height m) /\
    covers m (mkPoint 0 0) /\ (forall p, In p (worlds scans) -> covers m p) /\
    (forall s, In s scans -> covers m (sensor s)).
Proof.
  intros res thresh scans Hr Fit Hs. destruct (batch_safe res thresh scans Hr Fit Hs) as (m & M & R).
  exists m. split; [|exact R]. unfold occ_get_msg.
  pose proof (refresh_batch res Hr thresh [] scans) as RB. cbn [app] in RB.
  rewrite (new_batch res Hr thresh). cbn zeta. rewrite RB, M. reflexivity.
Qed.

(** Growing histories stay safe. *)
Theorem growing_safe : forall res thresh calls a, 0 < res -> growing a calls ->
  (forall c, In c calls -> grid_fits (batch res thresh c) /\ forall s, In s c -> inside (batch res thresh c) (sensor s)) ->
  occ_run (batch res thresh a) calls = Ok (batch res thresh (last calls a)).
Proof.
  intros res thresh calls. induction calls as [|c calls IH]; intros a Hr G Hc; [reflexivity|].
  destruct G as ((b & ->) & G). destruct (Hc (a ++ b) (or_introl eq_refl)) as (Fit & Hs).
  destruct (batch_safe res thresh (a ++ b) Hr Fit Hs) as (m & M & _).
  cbn [occ_run]. unfold occ_get_msg. rewrite (refresh_batch res Hr thresh a b), M. cbn [bind].
  rewrite (IH (a ++ b) Hr G) by (intros c Hin; apply Hc; right; exact Hin).
  destruct calls as [|c calls]; [reflexivity|]. do 2 f_equal. exact (last_default calls c (a ++ b) a).
Qed.

(** After the poses changed: safe if the old bounds still hold everything. *)
Theorem moved_safe : forall res thresh old scans, 0 < res -> grid_fits (batch res thresh old) ->
  length scans = length old ->
  (forall s, In s scans -> inside (batch res thresh old) (sensor s)) ->
  (forall p, In p (worlds scans) -> inside (batch res thresh old) p) ->
  exists m, occ_get_msg (batch res thresh old) scans = Ok (batch res thresh old, m).
Proof.
  intros res thresh old scans Hr Fit L Hs Hp. pose proof (proj1 (batch_fits res thresh old Hr) Fit) as Fit'. clear Fit. rename Fit' into Fit.
  destruct (batch_ordered res old Hr) as (Ox & Oy).
  destruct (render_safe (batch res thresh old) _ _ _ _ Hr eq_refl eq_refl eq_refl eq_refl Ox Oy Fit scans Hs Hp) as (m & M & _).
  exists m. unfold occ_get_msg, refresh. change (og_num (batch res thresh old)) with (length old).
  rewrite L, Nat.eqb_refl, M. reflexivity.
Qed.

Theorem growing_safe_new : forall res thresh calls, 0 < res -> growing [] calls ->
  (forall c, In c calls -> grid_fits (batch res thresh c) /\ forall s, In s c -> inside (batch res thresh c) (sensor s)) ->
  occ_run (occ_new res thresh) calls = Ok (batch res thresh (last calls [])).
Proof. intros res thresh calls Hr G H. rewrite (new_batch res Hr thresh). apply growing_safe; assumption. Qed.

Theorem incremental_new : forall res thresh calls, 0 < res -> growing [] calls ->
  fold_left refresh calls (occ_new res thresh) = batch res thresh (last calls []) /\
  batch res thresh (last calls []) = refresh (occ_new res thresh) (last calls []).
Proof.
  intros res thresh calls Hr G. rewrite (new_batch res Hr thresh). split; [apply incremental_bounds; assumption|].
  symmetry. exact (refresh_batch res Hr thresh [] (last calls [])).
Qed.
