(** Consequences for matchScan / scoreScan / addScans, exact arithmetic. *)

From Coq Require Import ZArith Reals List Bool Lia Lra Psatz Permutation.
From Flocq Require Import Core.
From Verif Require Import Outcome Arith TypesModel CellModel ScanModel NdtModel MatcherModel
  SpecStats SpecGrid SpecSearch SumLemmas RTactics CellProofs CellProofs2 NdtProofs NdtProofs2 MatcherProofs.
Import ListNotations.
Local Open Scope R_scope.

(** * addScans *)

Lemma foldM_map {S X Y} (f : S -> Y -> outcome S) (h : X -> Y) (xs : list X) :
  forall s, foldM f s (map h xs) = foldM (fun s x => f s (h x)) s xs.
Proof. induction xs as [|x xs IH]; intros s; cbn [foldM map]; [reflexivity|]. destruct (f s (h x)); cbn; auto. Qed.

Lemma add_scans_run {T} {A : Arith T} (eig : mat2 T -> T * T) (m m' : matcher T) (scans : list (scan T)) :
  add_scans eig m scans = Ok m' ->
  let b := scans_box (k_range m) scans in
  exists g0 g, ndt_new (k_resolution m) (nsub (b_maxx b) (b_minx b)) (nsub (b_maxy b) (b_miny b)) (b_minx b) (b_miny b) = Ok g0 /\
    ndt_run eig g0 (map NAddScan scans ++ [NCompute]) = Ok g /\ m' = with_ndt m (Some g).
Proof.
  intros H b. unfold add_scans in H. fold b in H. apply bind_ok in H. destruct H as (g0 & H0 & H).
  apply bind_ok in H. destruct H as (g1 & H1 & H). injection H as <-.
  exists g0, (ndt_compute eig g1). split; [exact H0|]. split; [|reflexivity].
  unfold ndt_run. rewrite foldM_app, foldM_map.
  change (fun s x => ndt_step eig s (NAddScan x)) with (@ndt_add_scan T A). rewrite H1. reflexivity.
Qed.

Lemma added_scans_map (scans : list (scan R)) : added_scans (map NAddScan scans) = scans.
Proof.
  induction scans as [|s l IH]; [reflexivity|]. cbn. unfold added_scans in *. cbn. f_equal. exact IH.
Qed.

Lemma Rmin_def (a b : R) : nmin a b = Rmin a b.
Proof. unfold nmin, Rmin. cbn. destruct (Rle_dec a b); [rewrite Rlt_bool_false by lra|rewrite Rlt_bool_true by lra]; reflexivity. Qed.
Lemma Rmax_def (a b : R) : nmax a b = Rmax a b.
Proof.
  unfold nmax, Rmax. cbn. destruct (Rle_dec a b) as [H|H].
  - destruct (Rlt_bool_spec a b); [reflexivity|lra].
  - rewrite Rlt_bool_false by lra. reflexivity.
Qed.

Lemma box_fold_mono (range : R) (scans : list (scan R)) :
  forall b, let b' := fold_left (box_step range) scans b in
  b_minx b' <= b_minx b /\ b_maxx b <= b_maxx b' /\ b_miny b' <= b_miny b /\ b_maxy b <= b_maxy b'.
Proof.
  induction scans as [|s l IH]; intros b; cbn [fold_left]; cbv zeta; [lra|].
  specialize (IH (box_step range b s)). cbv zeta in IH.
  set (b' := fold_left (box_step range) l (box_step range b s)) in *. clearbody b'.
  destruct IH as (H1 & H2 & H3 & H4).
  unfold box_step in H1, H2, H3, H4. cbn [b_minx b_maxx b_miny b_maxy] in H1, H2, H3, H4.
  rewrite Rmin_def in H1, H3. rewrite Rmax_def in H2, H4.
  pose proof (Rmin_r (nsub (pox (s_pose s)) range) (b_minx b)).
  pose proof (Rmin_r (nsub (poy (s_pose s)) range) (b_miny b)).
  pose proof (Rmax_r (nadd (pox (s_pose s)) range) (b_maxx b)).
  pose proof (Rmax_r (nadd (poy (s_pose s)) range) (b_maxy b)). repeat split; lra.
Qed.

Lemma box_contains (range : R) (scans : list (scan R)) (s : scan R) :
  forall b, In s scans -> let b' := fold_left (box_step range) scans b in
  b_minx b' <= pox (s_pose s) - range /\ pox (s_pose s) + range <= b_maxx b' /\
  b_miny b' <= poy (s_pose s) - range /\ poy (s_pose s) + range <= b_maxy b'.
Proof.
  induction scans as [|s0 l IH]; intros b Hin; cbn [fold_left]; cbv zeta; [destruct Hin|].
  destruct Hin as [->|Hin]; [|apply IH; exact Hin].
  pose proof (box_fold_mono range l (box_step range b s)) as H. cbv zeta in H.
  set (b' := fold_left (box_step range) l (box_step range b s)) in *. clearbody b'.
  destruct H as (H1 & H2 & H3 & H4). unfold box_step in H1, H2, H3, H4.
  cbn [b_minx b_maxx b_miny b_maxy] in H1, H2, H3, H4.
  rewrite Rmin_def in H1, H3. rewrite Rmax_def in H2, H4. ra_in H1. ra_in H2. ra_in H3. ra_in H4.
  pose proof (Rmin_l (pox (s_pose s) - range) (b_minx b)).
  pose proof (Rmin_l (poy (s_pose s) - range) (b_miny b)).
  pose proof (Rmax_l (pox (s_pose s) + range) (b_maxx b)).
  pose proof (Rmax_l (poy (s_pose s) + range) (b_maxy b)). repeat split; lra.
Qed.

Lemma add_scans_covers (eig : mat2 R -> R * R) (m m' : matcher R) (g : ndt R) (scans : list (scan R)) (s : scan R) (q : point R) :
  0 < k_resolution m -> add_scans eig m scans = Ok m' -> k_ndt m' = Some g -> (g_sx g * g_sy g < 2 ^ 31)%Z ->
  In s scans -> Rabs (px q - pox (s_pose s)) <= k_range m -> Rabs (py q - poy (s_pose s)) <= k_range m ->
  exists i, ndt_index g (px q) (py q) = Ok i /\ (0 <= i < Z.of_nat (length (g_cells g)))%Z.
Proof.
  intros Hr H Hg Hn Hin Hx Hy. apply add_scans_run in H. cbv zeta in H.
  destruct H as (g0 & g' & H0 & Hrun & ->). cbn in Hg. injection Hg as ->.
  pose proof (ndt_run_geom eig g0 g _ Hrun) as Hgeo.
  pose proof (box_contains (k_range m) scans s box_init Hin) as Hb. cbv zeta in Hb.
  fold (scans_box (k_range m) scans) in Hb. destruct Hb as (B1 & B2 & B3 & B4).
  assert (Hn0 : (g_sx g0 * g_sy g0 < 2 ^ 31)%Z) by (destruct Hgeo as (_ & -> & -> & _); exact Hn).
  apply Rabs_le_inv in Hx. apply Rabs_le_inv in Hy.
  ra_in H0.
  destruct (ndt_covers _ _ _ _ _ g0 q Hr H0 Hn0) as (i & Hi & Hb); [lra|lra|].
  exists i. rewrite <- (same_geom_index g0 g _ _ Hgeo). split; [exact Hi|].
  destruct Hgeo as (_ & _ & _ & _ & _ & <-). exact Hb.
Qed.

Lemma add_scans_scored (eig : mat2 R -> R * R) (m m' : matcher R) (g : ndt R) (scans : list (scan R)) :
  eigen_contract eig -> 0 < k_resolution m -> add_scans eig m scans = Ok m' -> k_ndt m' = Some g ->
  (g_sx g * g_sy g < 2 ^ 31)%Z ->
  spread_in_squares (g_ox g) (g_oy g) (k_resolution m) (moved_points scans) -> scored01 g.
Proof.
  intros He Hr H Hg Hn Hsp. apply add_scans_run in H. cbv zeta in H.
  destruct H as (g0 & g' & H0 & Hrun & ->). cbn in Hg. injection Hg as ->.
  pose proof (ndt_run_geom eig g0 g _ Hrun) as Hgeo.
  assert (Hn0 : (g_sx g0 * g_sy g0 < 2 ^ 31)%Z) by (destruct Hgeo as (_ & -> & -> & _); exact Hn).
  eapply (ndt_run_scored eig _ _ _ _ _ g0 g (map NAddScan scans)); try eassumption.
  eapply spread_nondegenerate; try eassumption.
  rewrite added_scans_map. destruct (ndt_new_cells _ _ _ _ _ g0 H0) as (_ & Eox & Eoy & _).
  rewrite <- Eox, <- Eoy. destruct Hgeo as (_ & _ & _ & -> & -> & _). exact Hsp.
Qed.

(** The exact extent of the box. *)
Definition is_min_of (f : scan R -> R) (l : list (scan R)) (v : R) : Prop :=
  (exists s, In s l /\ v = f s) /\ forall s, In s l -> v <= f s.
Definition is_max_of (f : scan R -> R) (l : list (scan R)) (v : R) : Prop :=
  (exists s, In s l /\ v = f s) /\ forall s, In s l -> f s <= v.

Lemma box_attained (range : R) (scans : list (scan R)) :
  forall b, let b' := fold_left (box_step range) scans b in
  (b_minx b' = b_minx b \/ exists s, In s scans /\ b_minx b' = pox (s_pose s) - range) /\
  (b_maxx b' = b_maxx b \/ exists s, In s scans /\ b_maxx b' = pox (s_pose s) + range) /\
  (b_miny b' = b_miny b \/ exists s, In s scans /\ b_miny b' = poy (s_pose s) - range) /\
  (b_maxy b' = b_maxy b \/ exists s, In s scans /\ b_maxy b' = poy (s_pose s) + range).
Proof.
  induction scans as [|s0 l IH]; intros b; cbn [fold_left]; cbv zeta; [auto|].
  specialize (IH (box_step range b s0)). cbv zeta in IH.
  set (b' := fold_left (box_step range) l (box_step range b s0)) in *. clearbody b'.
  unfold box_step in IH. cbn [b_minx b_maxx b_miny b_maxy] in IH. rewrite !Rmin_def, !Rmax_def in IH.
  ra_in IH. destruct IH as (H1 & H2 & H3 & H4).
  assert (K : forall (v a c : R) (P : Prop), (v = Rmin a c \/ P) -> v = c \/ (v = a \/ P)).
  { intros v a c P [->|]; [|tauto]. unfold Rmin. destruct (Rle_dec a c); tauto. }
  assert (K' : forall (v a c : R) (P : Prop), (v = Rmax a c \/ P) -> v = c \/ (v = a \/ P)).
  { intros v a c P [->|]; [|tauto]. unfold Rmax. destruct (Rle_dec a c); tauto. }
  apply K in H1. apply K' in H2. apply K in H3. apply K' in H4.
  repeat split;
    [destruct H1 as [H|[H|(s & Hs & H)]]|destruct H2 as [H|[H|(s & Hs & H)]]
    |destruct H3 as [H|[H|(s & Hs & H)]]|destruct H4 as [H|[H|(s & Hs & H)]]];
    first [left; exact H | right; exists s0; split; [left; reflexivity|exact H]
          | right; exists s; split; [right; exact Hs|exact H]].
Qed.

Lemma add_scans_extent (eig : mat2 R -> R * R) (m m' : matcher R) (g : ndt R) (scans : list (scan R)) :
  add_scans eig m scans = Ok m' -> k_ndt m' = Some g ->
  (exists s, In s scans /\ bpow radix2 (-1022) <= pox (s_pose s) + k_range m) ->
  (exists s, In s scans /\ bpow radix2 (-1022) <= poy (s_pose s) + k_range m) ->
  (exists s, In s scans /\ pox (s_pose s) - k_range m < bpow radix2 1024 - bpow radix2 971) ->
  (exists s, In s scans /\ poy (s_pose s) - k_range m < bpow radix2 1024 - bpow radix2 971) ->
  exists x0 x1 y0 y1,
    is_min_of (fun s => pox (s_pose s) - k_range m) scans x0 /\
    is_max_of (fun s => pox (s_pose s) + k_range m) scans x1 /\
    is_min_of (fun s => poy (s_pose s) - k_range m) scans y0 /\
    is_max_of (fun s => poy (s_pose s) + k_range m) scans y1 /\
    g_ox g = x0 /\ g_oy g = y0 /\
    g_sx g = Ztrunc ((x1 - x0) / k_resolution m + 1) /\ g_sy g = Ztrunc ((y1 - y0) / k_resolution m + 1).
Proof.
  intros H Hg Hx1 Hy1 Hx0 Hy0. apply add_scans_run in H. cbv zeta in H.
  destruct H as (g0 & g' & H0 & Hrun & ->). cbn in Hg. injection Hg as ->.
  pose proof (ndt_run_geom eig g0 g _ Hrun) as (_ & <- & <- & <- & <- & _).
  destruct (ndt_new_cells _ _ _ _ _ g0 H0) as (_ & -> & -> & _).
  destruct (ndt_new_sizes _ _ _ _ _ g0 H0) as [-> ->].
  pose proof (box_attained (k_range m) scans box_init) as Hat. cbv zeta in Hat.
  fold (scans_box (k_range m) scans) in Hat.
  assert (Hc : forall s, In s scans -> _) by (intros s Hs; exact (box_contains (k_range m) scans s box_init Hs)).
  cbv zeta in Hc. fold (scans_box (k_range m) scans) in Hc.
  set (b := scans_box (k_range m) scans) in *. clearbody b.
  unfold box_init in Hat. cbn [b_minx b_maxx b_miny b_maxy nmaxval nminpos RA] in Hat.
  destruct Hat as (A1 & A2 & A3 & A4).
  exists (b_minx b), (b_maxx b), (b_miny b), (b_maxy b).
  split; [|split; [|split; [|split; [|repeat split]]]].
  - split; [|intros s Hs; apply (Hc s Hs)].
    destruct A1 as [E|E]; [|exact E]. exfalso. destruct Hx0 as (s & Hs & Hlt). destruct (Hc s Hs) as (B & _). lra.
  - split; [|intros s Hs; apply (Hc s Hs)].
    destruct A2 as [E|E]; [|exact E]. destruct Hx1 as (s & Hs & Hlt). exists s. split; [exact Hs|].
    destruct (Hc s Hs) as (_ & B & _). lra.
  - split; [|intros s Hs; apply (Hc s Hs)].
    destruct A3 as [E|E]; [|exact E]. exfalso. destruct Hy0 as (s & Hs & Hlt). destruct (Hc s Hs) as (_ & _ & B & _). lra.
  - split; [|intros s Hs; apply (Hc s Hs)].
    destruct A4 as [E|E]; [|exact E]. destruct Hy1 as (s & Hs & Hlt). exists s. split; [exact Hs|].
    destruct (Hc s Hs) as (_ & _ & _ & B). lra.
Qed.

(** * The search *)

Definition offsets (m : matcher R) : list (pose R) :=
  lattice (k_lin_size m) (k_lin_res m) (k_ang_size m) (k_ang_res m).

Lemma beams_used_pos {T} (m : matcher T) (pts : list (point T)) : (1 <= k_beams m)%Z -> pts <> [] -> (1 <= beams_used m pts)%Z.
Proof. intros Hb Hp. unfold beams_used. destruct pts; [congruence|]. cbn [length]. lia. Qed.

Lemma lattice_range (m : matcher R) (c : pose R) :
  0 < k_ang_res m -> 0 < k_lin_res m -> In c (offsets m) ->
  - k_lin_size m <= pox c < k_lin_size m /\ - k_lin_size m <= poy c < k_lin_size m /\
  - k_ang_size m <= poth c < k_ang_size m.
Proof.
  intros Ha Hl Hc. unfold offsets, lattice in Hc. apply in_flat_map in Hc. destruct Hc as (dth & Hth & Hc).
  apply in_flat_map in Hc. destruct Hc as (dx & Hx & Hc). apply in_map_iff in Hc. destruct Hc as (dy & <- & Hy).
  cbn. apply axis_range in Hth; [|exact Ha]. apply axis_range in Hx; [|exact Hl]. apply axis_range in Hy; [|exact Hl]. auto.
Qed.

(** Every pair of the candidate list in terms of scorePoints. *)
Lemma pair_score (m : matcher R) (g : ndt R) (s : scan R) (bp : list (point R)) (c : pose R) (sc : R) :
  k_ndt m = Some g -> beam_points m (s_pts s) = Ok bp -> good_pair g (s_pose s) bp (c, sc) ->
  score_points m (s_pts s) (pose_plus (s_pose s) c) = Ok (sc / IZR (beams_used m (s_pts s))).
Proof.
  intros Hg Hb Hp. apply (score_points_spec m g _ _ _ Hg). exists bp, (- sc). split; [exact Hb|].
  split; [exact Hp|]. f_equal. ring.
Qed.

Lemma match_scan_best (fuel : nat) (m : matcher R) (g : ndt R) (s : scan R) (p p' : pose R) (cov cov' : mat3 R) (r : R) :
  k_ndt m = Some g -> 0 < k_ang_res m -> 0 < k_lin_res m -> (1 <= k_beams m)%Z -> s_pts s <> [] ->
  match_scan fuel m s p cov = Ok (r, p', cov') ->
  (forall c, In c (offsets m) -> exists v, score_points m (s_pts s) (pose_plus (s_pose s) c) = Ok v /\ r <= v) /\
  ((r = 0 /\ p' = p /\ forall c v, In c (offsets m) -> score_points m (s_pts s) (pose_plus (s_pose s) c) = Ok v -> 0 <= v) \/
   (exists pre post, offsets m = pre ++ p' :: post /\ r < 0 /\
      score_points m (s_pts s) (pose_plus (s_pose s) p') = Ok r /\
      forall c v, In c pre -> score_points m (s_pts s) (pose_plus (s_pose s) c) = Ok v -> r < v)).
Proof.
  intros Hg Hra Hrl Hb Hp H.
  destruct (match_scan_candidates fuel m g s p p' cov cov' r Hg Hra Hrl H) as (l & w & Hl & Hgood & Ew & Er & Ep & _).
  fold (offsets m) in Hl.
  assert (Hu : 0 < IZR (beams_used m (s_pts s))) by (apply IZR_lt; pose proof (beams_used_pos m _ Hb Hp); lia).
  set (n := IZR (beams_used m (s_pts s))) in *.
  assert (Hi : 0 < / n) by (apply Rinv_0_lt_compat; exact Hu).
  destruct (best_spec l (w_init p)) as (Ball & Ble & Bcase). rewrite <- Ew in Ball, Ble, Bcase.
  cbn [w_init w_best w_pose] in Ble, Bcase.
  assert (Hsc : forall c sc, In (c, sc) l -> score_points m (s_pts s) (pose_plus (s_pose s) c) = Ok (sc / n)).
  { intros c sc Hin. destruct Hgood as [->|(bp & Hbp & Hf)]; [destruct Hin|].
    rewrite Forall_forall in Hf. eapply pair_score; eauto. }
  assert (Hdiv : forall a b, a <= b -> a / n <= b / n).
  { intros a b Hab. unfold Rdiv. apply Rmult_le_compat_r; lra. }
  assert (Hdivlt : forall a b, a < b -> a / n < b / n).
  { intros a b Hab. unfold Rdiv. apply Rmult_lt_compat_r; lra. }
  assert (E0 : 0 / n = 0) by (unfold Rdiv; ring).
  assert (Hin : forall c, In c (offsets m) -> exists sc, In (c, sc) l).
  { intros c Hc. rewrite <- Hl in Hc. apply in_map_iff in Hc. destruct Hc as ([c' sc] & <- & Hc). exists sc. exact Hc. }
  split.
  - intros c Hc. destruct (Hin c Hc) as (sc & Hs). exists (sc / n). split; [apply Hsc; exact Hs|].
    rewrite Er. apply Hdiv. eapply Ball. exact Hs.
  - destruct Bcase as [(B1 & B2 & B3)|(pre & post & El & Hlt & Hpre)].
    + left. split; [rewrite Er, B1; exact E0|]. split; [congruence|].
      intros c v Hc Hv. destruct (Hin c Hc) as (sc & Hs). rewrite (Hsc c sc Hs) in Hv. injection Hv as <-.
      rewrite <- E0. apply Hdiv. eapply B3. exact Hs.
    + right. exists (map fst pre), (map fst post). split.
      { rewrite <- Hl, El, map_app. cbn. rewrite Ep. reflexivity. }
      split; [rewrite Er, <- E0; apply Hdivlt; exact Hlt|]. split.
      { rewrite Er, Ep. apply Hsc. rewrite El. apply in_or_app. right. left. reflexivity. }
      intros c v Hc Hv. apply in_map_iff in Hc. destruct Hc as ([c' sc] & <- & Hc). cbn in Hv.
      rewrite (Hsc c' sc) in Hv by (rewrite El; apply in_or_app; left; exact Hc). injection Hv as <-.
      rewrite Er. apply Hdivlt. eapply Hpre. exact Hc.
Qed.

Lemma match_scan_score_agrees (fuel : nat) (m : matcher R) (g : ndt R) (s : scan R) (p p' : pose R) (cov cov' : mat3 R) (r : R) :
  k_ndt m = Some g -> 0 < k_ang_res m -> 0 < k_lin_res m -> (1 <= k_beams m)%Z -> s_pts s <> [] ->
  match_scan fuel m s p cov = Ok (r, p', cov') ->
  (exists c v, In c (offsets m) /\ score_points m (s_pts s) (pose_plus (s_pose s) c) = Ok v /\ v < 0) ->
  score_scan m (scan_set_pose s (pose_plus (s_pose s) p')) = Ok r.
Proof.
  intros Hg Hra Hrl Hb Hp H (c & v & Hc & Hv & Hneg).
  destruct (match_scan_best fuel m g s p p' cov cov' r Hg Hra Hrl Hb Hp H) as (_ & [(_ & _ & H0)|(pre & post & _ & _ & Hs & _)]).
  - specialize (H0 c v Hc Hv). lra.
  - exact Hs.
Qed.

Lemma zero_offset (m : matcher R) (i j : nat) :
  0 < k_ang_res m -> 0 < k_lin_res m -> (0 < i)%nat -> (0 < j)%nat ->
  k_lin_size m = INR i * k_lin_res m -> k_ang_size m = INR j * k_ang_res m -> In (mkPose 0 0 0) (offsets m).
Proof.
  intros Ha Hl Hi Hj Ei Ej.
  pose proof (axis_zero _ _ i Hl Hi Ei) as Z1. pose proof (axis_zero _ _ j Ha Hj Ej) as Z2.
  unfold offsets, lattice. apply in_flat_map. exists 0. split; [exact Z2|].
  apply in_flat_map. exists 0. split; [exact Z1|]. apply in_map_iff. exists 0. split; [reflexivity|exact Z1].
Qed.

Lemma match_scan_not_worse (fuel : nat) (m : matcher R) (g : ndt R) (s : scan R) (p p' : pose R) (cov cov' : mat3 R) (r v : R) (i j : nat) :
  k_ndt m = Some g -> 0 < k_ang_res m -> 0 < k_lin_res m -> (1 <= k_beams m)%Z -> s_pts s <> [] ->
  (0 < i)%nat -> (0 < j)%nat ->
  k_lin_size m = INR i * k_lin_res m -> k_ang_size m = INR j * k_ang_res m ->
  match_scan fuel m s p cov = Ok (r, p', cov') -> score_scan m s = Ok v -> r <= v.
Proof.
  intros Hg Hra Hrl Hb Hp Hi Hj Ei Ej H Hv.
  destruct (match_scan_best fuel m g s p p' cov cov' r Hg Hra Hrl Hb Hp H) as (Hall & _).
  destruct (Hall (mkPose 0 0 0)) as (v' & Hv' & Hle); [exact (zero_offset m i j Hra Hrl Hi Hj Ei Ej)|].
  unfold score_scan in Hv. replace (pose_plus (s_pose s) (mkPose 0 0 0)) with (s_pose s) in Hv'.
  - rewrite Hv in Hv'. injection Hv' as <-. exact Hle.
  - unfold pose_plus. cbn. destruct (s_pose s). cbn. f_equal; ring.
Qed.

(** * Normalisation *)

Lemma score_points_range (m : matcher R) (g : ndt R) (pts : list (point R)) (q : pose R) (v : R) :
  k_ndt m = Some g -> scored01 g -> (1 <= k_beams m)%Z -> pts <> [] ->
  score_points m pts q = Ok v -> -1 <= v <= 0.
Proof.
  intros Hg Hs Hb Hp H. apply (score_points_spec m g _ _ _ Hg) in H. destruct H as (bp & l & Hbp & Hl & ->).
  apply likelihood_points_range in Hl; [|exact Hs].
  pose proof (beams_used_pos m pts Hb Hp) as Hu.
  rewrite map_length, (beam_points_length _ _ _ Hbp), INR_IZR_INZ, Z2Nat.id in Hl by lia.
  apply IZR_le in Hu. set (n := IZR (beams_used m pts)) in *.
  assert (Hi : 0 < / n) by (apply Rinv_0_lt_compat; lra).
  assert (En : n * / n = 1) by (apply Rinv_r; lra).
  unfold Rdiv. split; nra.
Qed.

Lemma match_scan_range (fuel : nat) (m : matcher R) (g : ndt R) (s : scan R) (p p' : pose R) (cov cov' : mat3 R) (r : R) :
  k_ndt m = Some g -> scored01 g -> 0 < k_ang_res m -> 0 < k_lin_res m -> (1 <= k_beams m)%Z -> s_pts s <> [] ->
  match_scan fuel m s p cov = Ok (r, p', cov') -> -1 <= r <= 0.
Proof.
  intros Hg Hs Hra Hrl Hb Hp H.
  destruct (match_scan_best fuel m g s p p' cov cov' r Hg Hra Hrl Hb Hp H) as (_ & [(-> & _)|(pre & post & _ & _ & Hv & _)]); [lra|].
  eapply score_points_range; eauto.
Qed.

(** * Covariance *)

Definition add_outer (m : mat3 R) (k : R) (u : vec3 R) : mat3 R :=
  mkMat3 (a00 m + k * (v0 u * v0 u)) (a01 m + k * (v0 u * v1 u)) (a02 m + k * (v0 u * v2 u))
         (a10 m + k * (v1 u * v0 u)) (a11 m + k * (v1 u * v1 u)) (a12 m + k * (v1 u * v2 u))
         (a20 m + k * (v2 u * v0 u)) (a21 m + k * (v2 u * v1 u)) (a22 m + k * (v2 u * v2 u)).

Lemma wcov_moment {X} (w f g : X -> R) (l : list X) :
  wtotal w l <> 0 ->
  wcov w f g l = sumf (fun x => w x * (f x * g x)) l / wtotal w l - wmean w f l * wmean w g l.
Proof.
  intros HW. unfold wcov.
  set (mf := wmean w f l). set (mg := wmean w g l).
  assert (E : sumf (fun x => w x * ((f x - mf) * (g x - mg))) l =
              sumf (fun x => w x * (f x * g x)) l - mg * sumf (fun x => w x * f x) l
              - mf * sumf (fun x => w x * g x) l + mf * mg * wtotal w l).
  { unfold wtotal. clear HW. generalize mf mg. intros a b. induction l as [|x l IH]; cbn [sumf]; [ring|]. rewrite IH. ring. }
  rewrite E. unfold mf, mg, wmean. field. exact HW.
Qed.

Lemma pairs_sum (l : list (pose R * R)) (w f : pose R -> R) (n : R) :
  (forall c sc, In (c, sc) l -> sc = n * w c) ->
  sumf (fun cs => snd cs * f (fst cs)) l = n * sumf (fun c => w c * f c) (map fst l).
Proof.
  intros H. rewrite sumf_map, <- sumf_scal. apply sumf_ext. intros [c sc] Hin. cbn.
  rewrite (H c sc Hin). ring.
Qed.

Lemma match_scan_cov (fuel : nat) (m : matcher R) (g : ndt R) (s : scan R) (p p' : pose R) (cov cov' : mat3 R) (r : R) (w : pose R -> R) :
  k_ndt m = Some g -> 0 < k_ang_res m -> 0 < k_lin_res m -> (1 <= k_beams m)%Z -> s_pts s <> [] ->
  match_scan fuel m s p cov = Ok (r, p', cov') ->
  (forall c, In c (offsets m) -> score_points m (s_pts s) (pose_plus (s_pose s) c) = Ok (w c)) ->
  wtotal w (offsets m) <> 0 ->
  cov' = add_outer (weighted_covariance w (offsets m)) 2 (weighted_mean w (offsets m)).
Proof.
  intros Hg Hra Hrl Hb Hp H Hw HW.
  destruct (match_scan_candidates fuel m g s p p' cov cov' r Hg Hra Hrl H) as (l & st & Hl & Hgood & Ew & _ & _ & Ec).
  fold (offsets m) in Hl.
  assert (Hu : 0 < IZR (beams_used m (s_pts s))) by (apply IZR_lt; pose proof (beams_used_pos m _ Hb Hp); lia).
  set (n := IZR (beams_used m (s_pts s))) in *.
  assert (Hsc : forall c sc, In (c, sc) l -> sc = n * w c).
  { intros c sc Hin. destruct Hgood as [->|(bp & Hbp & Hf)]; [destruct Hin|].
    rewrite Forall_forall in Hf. pose proof (pair_score m g s bp c sc Hg Hbp (Hf _ Hin)) as Hs.
    rewrite Hw in Hs by (rewrite <- Hl; apply (in_map fst _ _ Hin)). injection Hs as ->. fold n. field. lra. }
  destruct (fold_sums l (w_init p)) as (E & E0 & E1 & E2 & F0 & F1 & F2 & F3 & F4 & F5 & F6 & F7 & F8).
  rewrite <- Ew in *. cbn [w_init w_s w_u w_k vec3_zero mat3_zero v0 v1 v2 a00 a01 a02 a10 a11 a12 a20 a21 a22] in *.
  ra_in E0. ra_in E1. ra_in E2. ra_in F0. ra_in F1. ra_in F2. ra_in F3. ra_in F4. ra_in F5. ra_in F6. ra_in F7. ra_in F8.
  assert (E' : w_s st = n * wtotal w (offsets m)).
  { rewrite E, Rplus_0_l. unfold wtotal. rewrite <- Hl, sumf_map, <- sumf_scal. apply sumf_ext.
    intros [c sc] Hin. cbn. apply Hsc. exact Hin. }
  rewrite Rplus_0_l in *.
  rewrite (pairs_sum l w pox n Hsc) in E0. rewrite (pairs_sum l w poy n Hsc) in E1. rewrite (pairs_sum l w poth n Hsc) in E2.
  rewrite (pairs_sum l w (fun c => pox c * pox c) n Hsc) in F0.
  rewrite (pairs_sum l w (fun c => pox c * poy c) n Hsc) in F1.
  rewrite (pairs_sum l w (fun c => pox c * poth c) n Hsc) in F2.
  rewrite (pairs_sum l w (fun c => poy c * pox c) n Hsc) in F3.
  rewrite (pairs_sum l w (fun c => poy c * poy c) n Hsc) in F4.
  rewrite (pairs_sum l w (fun c => poy c * poth c) n Hsc) in F5.
  rewrite (pairs_sum l w (fun c => poth c * pox c) n Hsc) in F6.
  rewrite (pairs_sum l w (fun c => poth c * poy c) n Hsc) in F7.
  rewrite (pairs_sum l w (fun c => poth c * poth c) n Hsc) in F8.
  rewrite Hl in *.
  rewrite Ec. unfold match_covariance, add_outer, weighted_covariance, weighted_mean, mat3_add, mat3_map2, mat3_scale, outer3, vec3_scale.
  cbn [v0 v1 v2 a00 a01 a02 a10 a11 a12 a20 a21 a22]. ra.
  rewrite E', E0, E1, E2, F0, F1, F2, F3, F4, F5, F6, F7, F8.
  rewrite !wcov_moment by exact HW. unfold wmean.
  f_equal; field; split; lra.
Qed.

Lemma quad_wcov (w : pose R -> R) (l : list (pose R)) (v : vec3 R) :
  wtotal w l <> 0 ->
  quad3 (weighted_covariance w l) v =
  sumf (fun c => w c * ((v0 v * (pox c - wmean w pox l) + v1 v * (poy c - wmean w poy l) + v2 v * (poth c - wmean w poth l)) *
                        (v0 v * (pox c - wmean w pox l) + v1 v * (poy c - wmean w poy l) + v2 v * (poth c - wmean w poth l)))) l / wtotal w l.
Proof.
  intros HW. unfold quad3, weighted_covariance, wcov. cbn [a00 a01 a02 a10 a11 a12 a20 a21 a22].
  generalize (wmean w pox l) (wmean w poy l) (wmean w poth l). intros x y t.
  set (W := wtotal w l) in *. clearbody W. unfold Rdiv.
  assert (Gen : forall i, sumf (fun c => w c * ((v0 v * (pox c - x) + v1 v * (poy c - y) + v2 v * (poth c - t)) *
                        (v0 v * (pox c - x) + v1 v * (poy c - y) + v2 v * (poth c - t)))) l * i =
     v0 v * (sumf (fun c => w c * ((pox c - x) * (pox c - x))) l * i * v0 v + sumf (fun c => w c * ((pox c - x) * (poy c - y))) l * i * v1 v + sumf (fun c => w c * ((pox c - x) * (poth c - t))) l * i * v2 v) +
     v1 v * (sumf (fun c => w c * ((poy c - y) * (pox c - x))) l * i * v0 v + sumf (fun c => w c * ((poy c - y) * (poy c - y))) l * i * v1 v + sumf (fun c => w c * ((poy c - y) * (poth c - t))) l * i * v2 v) +
     v2 v * (sumf (fun c => w c * ((poth c - t) * (pox c - x))) l * i * v0 v + sumf (fun c => w c * ((poth c - t) * (poy c - y))) l * i * v1 v + sumf (fun c => w c * ((poth c - t) * (poth c - t))) l * i * v2 v)).
  { intros i. induction l as [|c l IH]; cbn [sumf]; [ring|]. rewrite Rmult_plus_distr_r, IH. ring. }
  rewrite Gen. reflexivity.
Qed.

Lemma wcov_sym {X} (w f g : X -> R) (l : list X) : wcov w f g l = wcov w g f l.
Proof. unfold wcov. f_equal. apply sumf_ext. intros; ring. Qed.

Lemma sumf_nonpos {X} (f : X -> R) (l : list X) : (forall x, In x l -> f x <= 0) -> sumf f l <= 0.
Proof.
  intros H. pose proof (sumf_nonneg (fun x => -1 * f x) l) as Hn. rewrite sumf_scal in Hn.
  assert (0 <= -1 * sumf f l) by (apply Hn; intros x Hx; specialize (H x Hx); lra). lra.
Qed.

Lemma weighted_covariance_psd (w : pose R -> R) (l : list (pose R)) :
  (forall c, In c l -> w c <= 0) -> wtotal w l < 0 -> psd3 (weighted_covariance w l).
Proof.
  intros Hw HW. split.
  - unfold symmetric3, weighted_covariance. cbn. repeat split; apply wcov_sym.
  - intros v. rewrite quad_wcov by lra.
    set (F := sumf _ l). assert (HF : F <= 0).
    { apply sumf_nonpos. intros c Hc. specialize (Hw c Hc).
      match goal with |- w c * (?a * ?a) <= 0 => pose proof (Rle_0_sqr a) as Hq; unfold Rsqr in Hq end. nra. }
    unfold Rdiv. assert (/ wtotal w l < 0) by (apply Rinv_lt_0_compat; exact HW). nra.
Qed.

Lemma match_scan_cov_psd (fuel : nat) (m : matcher R) (g : ndt R) (s : scan R) (p p' : pose R) (cov cov' : mat3 R) (r : R) (w : pose R -> R) :
  k_ndt m = Some g -> scored01 g -> 0 < k_ang_res m -> 0 < k_lin_res m -> (1 <= k_beams m)%Z -> s_pts s <> [] ->
  match_scan fuel m s p cov = Ok (r, p', cov') ->
  (forall c, In c (offsets m) -> score_points m (s_pts s) (pose_plus (s_pose s) c) = Ok (w c)) ->
  (exists c, In c (offsets m) /\ w c < 0) ->
  psd3 cov' /\ (forall v, 0 <= quad3 (weighted_covariance w (offsets m)) v <= quad3 cov' v).
Proof.
  intros Hg Hs Hra Hrl Hb Hp H Hw (c0 & Hc0 & Hneg).
  assert (Hnp : forall c, In c (offsets m) -> w c <= 0).
  { intros c Hc. eapply score_points_range; eauto. }
  assert (HW : wtotal w (offsets m) < 0).
  { unfold wtotal. pose proof (sumf_pos (fun c => -1 * w c) (offsets m) c0) as Hpos. rewrite sumf_scal in Hpos.
    assert (0 < -1 * sumf w (offsets m)); [|lra]. apply Hpos; [intros c Hc; specialize (Hnp c Hc); lra|exact Hc0|lra]. }
  rewrite (match_scan_cov fuel m g s p p' cov cov' r w Hg Hra Hrl Hb Hp H Hw) by lra.
  destruct (weighted_covariance_psd w (offsets m) Hnp HW) as [(S1 & S2 & S3) HQ].
  set (K := weighted_covariance w (offsets m)) in *. set (u := weighted_mean w (offsets m)).
  assert (Eq : forall v, quad3 (add_outer K 2 u) v = quad3 K v + 2 * ((v0 v * v0 u + v1 v * v1 u + v2 v * v2 u) * (v0 v * v0 u + v1 v * v1 u + v2 v * v2 u))).
  { intros v. unfold quad3, add_outer. cbn [a00 a01 a02 a10 a11 a12 a20 a21 a22]. ring. }
  assert (Hle : forall v, quad3 K v <= quad3 (add_outer K 2 u) v).
  { intros v. rewrite Eq. pose proof (Rle_0_sqr (v0 v * v0 u + v1 v * v1 u + v2 v * v2 u)) as Hq. unfold Rsqr in Hq. lra. }
  split; [split|].
  - unfold symmetric3, add_outer. cbn [a00 a01 a02 a10 a11 a12 a20 a21 a22]. rewrite S1, S2, S3. repeat split; ring.
  - intros v. specialize (HQ v). specialize (Hle v). lra.
  - intros v. split; [apply HQ|apply Hle].
Qed.
