(** Properties C13 - C26: the scan matcher. *)

From Coq Require Import ZArith Reals List Sorted.
From Flocq Require Import Core BinarySingleNaN.
From Verif Require Import Outcome Arith TypesModel CellModel ScanModel NdtModel MatcherModel
  SpecStats SpecGrid SpecSearch CellProofs CellProofs2 NdtProofs NdtProofs2 MatcherProofs MatcherProofs2
  B64Lemmas MatcherB64 MatcherB64b MatcherWitness.
Import ListNotations.
Local Open Scope R_scope.

(** C13: exact arithmetic. *)
Theorem C13_add_scans_covers :
  forall (eig : mat2 R -> R * R) (m m' : matcher R) (g : ndt R) (scans : list (scan R)) (s : scan R) (q : point R),
  0 < k_resolution m -> add_scans eig m scans = Ok m' -> k_ndt m' = Some g -> (g_sx g * g_sy g < 2 ^ 31)%Z ->
  In s scans -> Rabs (px q - pox (s_pose s)) <= k_range m -> Rabs (py q - poy (s_pose s)) <= k_range m ->
  exists i, ndt_index g (px q) (py q) = Ok i /\ (0 <= i < Z.of_nat (length (g_cells g)))%Z.
Proof. exact add_scans_covers. Qed.
Print Assumptions C13_add_scans_covers.

Example C13_nonvacuous : exists m g, add_scans eig_exact (wm 1 1 1 1) [demo_scan] = Ok m /\ k_ndt m = Some g /\ (g_sx g * g_sy g < 2 ^ 31)%Z.
Proof.
  destruct (fine_search eig_exact pose0 mat3_zero eig_exact_contract) as (m & g & _ & _ & _ & H1 & H2 & H3 & _).
  exists m, g. auto.
Qed.

(** C14: false as stated.  Two one-scan maps with the same configuration, one
    scan at (100, 100) and one at (-100, -100), get 21 and 111 columns. *)
Theorem C14_map_size_refuted : forall (eig : mat2 R -> R * R),
  exists m1 m2 g1 g2,
    add_scans eig sizing [lone_scan 100] = Ok m1 /\ k_ndt m1 = Some g1 /\ g_sx g1 = 21%Z /\
    add_scans eig sizing [lone_scan (-100)] = Ok m2 /\ k_ndt m2 = Some g2 /\ g_sx g2 = 111%Z.
Proof. exact map_size_depends_on_place. Qed.
Print Assumptions C14_map_size_refuted.

(** What holds: the map is the bounding box when some scan's range reaches a
    positive x and some scan's range reaches a positive y. *)
Theorem C14_map_size_partial :
  forall (eig : mat2 R -> R * R) (m m' : matcher R) (g : ndt R) (scans : list (scan R)),
  add_scans eig m scans = Ok m' -> k_ndt m' = Some g ->
  (exists s, In s scans /\ bpow radix2 (-1022) <= pox (s_pose s) + k_range m) ->
  (exists s, In s scans /\ bpow radix2 (-1022) <= poy (s_pose s) + k_range m) ->
  (exists s, In s scans /\ pox (s_pose s) - k_range m < bpow radix2 1024 - bpow radix2 971) ->
  (exists s, In s scans /\ poy (s_pose s) - k_range m < bpow radix2 1024 - bpow radix2 971) ->
  exists x0 x1 y0 y1,
    is_min_of (fun s => pox (s_pose s) - k_range m) scans x0 /\
    is_max_of (fun s => pox (s_pose s) + k_range m) scans x1 /\
    is_min_of (fun s => poy (s_pose s) - k_range m) scans y0 /\
    is_max_of (fun s => poy (s_pose s) + k_range m) scans y1 /\
    g_ox g = x0 /\ g_oy g = y0 /\
    g_sx g = Ztrunc ((x1 - x0) / k_resolution m + 1) /\ g_sy g = Ztrunc ((y1 - y0) / k_resolution m + 1).
Proof. exact add_scans_extent. Qed.
Print Assumptions C14_map_size_partial.

(** C15: false as stated, with the default parameters, in binary64. *)
Theorem C15_empty_range_refuted : forall (lm : libm) (eig : mat2 b64 -> b64 * b64) (range : b64),
  add_scans (A := BA lm) eig (matcher_default (A := BA lm) range) [] = Fault BadCast.
Proof. exact add_no_scans. Qed.
Print Assumptions C15_empty_range_refuted.

(** C16: every arithmetic. *)
Theorem C16_no_map_inert :
  forall {T} {A : Arith T} (fuel : nat) (m : matcher T) (s : scan T) (pts : list (point T)) (p : pose T) (cov : mat3 T),
  k_ndt m = None ->
  match_scan fuel m s p cov = Ok (nzero, p, cov) /\ score_scan m s = Ok nzero /\ score_points m pts p = Ok nzero.
Proof. exact @no_map_inert. Qed.
Print Assumptions C16_no_map_inert.

Theorem C16_initially_and_after_reset :
  forall {T} {A : Arith T} (m : matcher T) (range : T),
  k_ndt (matcher_default range) = None /\ k_ndt (matcher_reset m) = None /\
  k_range (matcher_reset m) = k_range m /\ k_resolution (matcher_reset m) = k_resolution m /\ k_beams (matcher_reset m) = k_beams m.
Proof. exact (fun T A m range => conj eq_refl (conj eq_refl (conj eq_refl (conj eq_refl eq_refl)))). Qed.
Print Assumptions C16_initially_and_after_reset.

(** C17: exact arithmetic.  [offsets m] is the search lattice of SpecSearch with
    the parameters of m, in search order. *)
Theorem C17_match_scan_best :
  forall (fuel : nat) (m : matcher R) (g : ndt R) (s : scan R) (p p' : pose R) (cov cov' : mat3 R) (r : R),
  k_ndt m = Some g -> 0 < k_ang_res m -> 0 < k_lin_res m -> (1 <= k_beams m)%Z -> s_pts s <> [] ->
  match_scan fuel m s p cov = Ok (r, p', cov') ->
  (forall c, In c (offsets m) -> exists v, score_points m (s_pts s) (pose_plus (s_pose s) c) = Ok v /\ r <= v) /\
  ((r = 0 /\ p' = p /\ forall c v, In c (offsets m) -> score_points m (s_pts s) (pose_plus (s_pose s) c) = Ok v -> 0 <= v) \/
   (exists pre post, offsets m = pre ++ p' :: post /\ r < 0 /\
      score_points m (s_pts s) (pose_plus (s_pose s) p') = Ok r /\
      forall c v, In c pre -> score_points m (s_pts s) (pose_plus (s_pose s) c) = Ok v -> r < v)).
Proof. exact match_scan_best. Qed.
Print Assumptions C17_match_scan_best.

Theorem C17_offsets_in_window : forall (m : matcher R) (c : pose R),
  0 < k_ang_res m -> 0 < k_lin_res m -> In c (lattice (k_lin_size m) (k_lin_res m) (k_ang_size m) (k_ang_res m)) ->
  - k_lin_size m <= pox c < k_lin_size m /\ - k_lin_size m <= poy c < k_lin_size m /\
  - k_ang_size m <= poth c < k_ang_size m.
Proof. exact lattice_range. Qed.
Print Assumptions C17_offsets_in_window.

Example C17_nonvacuous : exists m r p' cov',
  add_scans eig_exact (wm 4 1 4 1) [demo_scan] = Ok m /\ match_scan 2 m probe pose0 mat3_zero = Ok (r, p', cov') /\ r < 0.
Proof.
  destruct (coarse_search eig_exact pose0 mat3_zero eig_exact_contract) as (m & r & p' & cov' & H1 & H2 & _ & Hr & _).
  exists m, r, p', cov'. split; [exact H1|]. split; [exact H2|]. rewrite Hr. apply Ropp_lt_gt_0_contravar. apply exp_pos.
Qed.

(** C18: exact arithmetic. *)
Theorem C18_match_score_is_score_at_corrected_pose :
  forall (fuel : nat) (m : matcher R) (g : ndt R) (s : scan R) (p p' : pose R) (cov cov' : mat3 R) (r : R),
  k_ndt m = Some g -> 0 < k_ang_res m -> 0 < k_lin_res m -> (1 <= k_beams m)%Z -> s_pts s <> [] ->
  match_scan fuel m s p cov = Ok (r, p', cov') ->
  (exists c v, In c (offsets m) /\ score_points m (s_pts s) (pose_plus (s_pose s) c) = Ok v /\ v < 0) ->
  score_scan m (scan_set_pose s (pose_plus (s_pose s) p')) = Ok r.
Proof. exact match_scan_score_agrees. Qed.
Print Assumptions C18_match_score_is_score_at_corrected_pose.

Example C18_nonvacuous : exists m g r p' cov',
  k_ndt m = Some g /\ match_scan 3 m probe pose0 mat3_zero = Ok (r, p', cov') /\
  exists c, In c (offsets m) /\ score_points m (s_pts probe) (pose_plus (s_pose probe) c) = Ok (-1).
Proof.
  destruct (fine_search eig_exact pose0 mat3_zero eig_exact_contract) as (m & g & r & p' & cov' & _ & H2 & _ & _ & H5 & _ & H7).
  exists m, g, r, p', cov'. auto.
Qed.

(** C19: false as stated: the zero offset need not be a candidate. *)
Theorem C19_matching_not_worse_refuted :
  exists m r p' cov', add_scans eig_exact (wm 4 1 4 1) [demo_scan] = Ok m /\
    match_scan 2 m probe pose0 mat3_zero = Ok (r, p', cov') /\ score_scan m probe = Ok (-1) /\ -1 < r.
Proof.
  destruct (coarse_search eig_exact pose0 mat3_zero eig_exact_contract) as (m & r & p' & cov' & H1 & H2 & H3 & Hr & _).
  exists m, r, p', cov'. split; [exact H1|]. split; [exact H2|]. split; [exact H3|].
  rewrite Hr. apply Ropp_lt_contravar. exact exp_m1_lt_1.
Qed.
Print Assumptions C19_matching_not_worse_refuted.

(** What holds: windows that are a whole number of steps wide on each side. *)
Theorem C19_matching_not_worse_partial :
  forall (fuel : nat) (m : matcher R) (g : ndt R) (s : scan R) (p p' : pose R) (cov cov' : mat3 R) (r v : R) (i j : nat),
  k_ndt m = Some g -> 0 < k_ang_res m -> 0 < k_lin_res m -> (1 <= k_beams m)%Z -> s_pts s <> [] ->
  (0 < i)%nat -> (0 < j)%nat ->
  k_lin_size m = INR i * k_lin_res m -> k_ang_size m = INR j * k_ang_res m ->
  match_scan fuel m s p cov = Ok (r, p', cov') -> score_scan m s = Ok v -> r <= v.
Proof. exact match_scan_not_worse. Qed.
Print Assumptions C19_matching_not_worse_partial.

Example C19_nonvacuous : exists m g r p' cov',
  k_ndt m = Some g /\ match_scan 3 m probe pose0 mat3_zero = Ok (r, p', cov') /\ score_scan m probe = Ok (-1).
Proof.
  destruct (fine_search eig_exact pose0 mat3_zero eig_exact_contract) as (m & g & r & p' & cov' & _ & H2 & _ & _ & H5 & H6 & _).
  exists m, g, r, p', cov'. auto.
Qed.

(** C20: exact arithmetic. *)
Theorem C20_scores_normalised :
  forall (eig : mat2 R -> R * R) (m0 m : matcher R) (g : ndt R) (scans : list (scan R)),
  eigen_contract eig -> 0 < k_resolution m0 -> add_scans eig m0 scans = Ok m -> k_ndt m = Some g ->
  (g_sx g * g_sy g < 2 ^ 31)%Z ->
  spread_in_squares (g_ox g) (g_oy g) (k_resolution m0) (moved_points scans) -> (1 <= k_beams m0)%Z ->
  (forall pts q v, pts <> [] -> score_points m pts q = Ok v -> -1 <= v <= 0) /\
  (forall s v, s_pts s <> [] -> score_scan m s = Ok v -> -1 <= v <= 0) /\
  (forall fuel s p cov r p' cov', 0 < k_ang_res m0 -> 0 < k_lin_res m0 -> s_pts s <> [] ->
     match_scan fuel m s p cov = Ok (r, p', cov') -> -1 <= r <= 0).
Proof. exact scores_normalised. Qed.
Print Assumptions C20_scores_normalised.

Example C20_nonvacuous : exists m g, add_scans eig_exact (wm 1 1 1 1) [demo_scan] = Ok m /\ k_ndt m = Some g /\
  (g_sx g * g_sy g < 2 ^ 31)%Z /\ spread_in_squares (g_ox g) (g_oy g) (k_resolution m) (moved_points [demo_scan]).
Proof.
  destruct (fine_search eig_exact pose0 mat3_zero eig_exact_contract) as (m & g & _ & _ & _ & H1 & H2 & H3 & H4 & _).
  exists m, g. auto.
Qed.

(** C21: false as stated: the mean term is added instead of subtracted.  With a
    single candidate the weighted covariance is 0 but the reported one is not. *)
Theorem C21_covariance_refuted :
  exists m r p' cov' c v, add_scans eig_exact (wm 4 1 4 1) [demo_scan] = Ok m /\
    match_scan 2 m probe pose0 mat3_zero = Ok (r, p', cov') /\ offsets m = [c] /\
    score_points m (s_pts probe) (pose_plus (s_pose probe) c) = Ok v /\ v < 0 /\
    a00 (weighted_covariance (fun _ => v) (offsets m)) = 0 /\ a00 cov' = 2.
Proof.
  destruct (coarse_search eig_exact pose0 mat3_zero eig_exact_contract) as (m & r & p' & cov' & H1 & H2 & _ & _ & Ho & Hs & Hc).
  assert (Hn : - exp (-1) < 0) by (apply Ropp_lt_gt_0_contravar; apply exp_pos).
  exists m, r, p', cov', (mkPose (- (1)) (- (1)) (- (1))), (- exp (-1)).
  split; [exact H1|]. split; [exact H2|]. split; [exact Ho|]. split; [exact Hs|]. split; [exact Hn|].
  split; [rewrite Ho; apply single_cov; apply Rlt_not_eq; exact Hn|exact Hc].
Qed.
Print Assumptions C21_covariance_refuted.

(** What holds: the exact excess over the weighted covariance. *)
Theorem C21_covariance_partial :
  forall (fuel : nat) (m : matcher R) (g : ndt R) (s : scan R) (p p' : pose R) (cov cov' : mat3 R) (r : R) (w : pose R -> R),
  k_ndt m = Some g -> 0 < k_ang_res m -> 0 < k_lin_res m -> (1 <= k_beams m)%Z -> s_pts s <> [] ->
  match_scan fuel m s p cov = Ok (r, p', cov') ->
  (forall c, In c (offsets m) -> score_points m (s_pts s) (pose_plus (s_pose s) c) = Ok (w c)) ->
  wtotal w (offsets m) <> 0 ->
  cov' = add_outer (weighted_covariance w (offsets m)) 2 (weighted_mean w (offsets m)).
Proof. exact match_scan_cov. Qed.
Print Assumptions C21_covariance_partial.

(** C22: exact arithmetic. *)
Theorem C22_covariance_psd :
  forall (eig : mat2 R -> R * R) (m0 m : matcher R) (g : ndt R) (scans : list (scan R))
    (fuel : nat) (s : scan R) (p p' : pose R) (cov cov' : mat3 R) (r : R) (w : pose R -> R),
  eigen_contract eig -> 0 < k_resolution m0 -> add_scans eig m0 scans = Ok m -> k_ndt m = Some g ->
  (g_sx g * g_sy g < 2 ^ 31)%Z ->
  spread_in_squares (g_ox g) (g_oy g) (k_resolution m0) (moved_points scans) -> (1 <= k_beams m)%Z ->
  0 < k_ang_res m -> 0 < k_lin_res m -> s_pts s <> [] ->
  match_scan fuel m s p cov = Ok (r, p', cov') ->
  (forall c, In c (offsets m) -> score_points m (s_pts s) (pose_plus (s_pose s) c) = Ok (w c)) ->
  (exists c, In c (offsets m) /\ w c < 0) ->
  psd3 cov' /\ (forall v, 0 <= quad3 (weighted_covariance w (offsets m)) v <= quad3 cov' v).
Proof. exact covariance_psd. Qed.
Print Assumptions C22_covariance_psd.

Example C22_nonvacuous : exists m r p' cov' c,
  add_scans eig_exact (wm 4 1 4 1) [demo_scan] = Ok m /\ match_scan 2 m probe pose0 mat3_zero = Ok (r, p', cov') /\
  offsets m = [c] /\ score_points m (s_pts probe) (pose_plus (s_pose probe) c) = Ok (- exp (-1)).
Proof.
  destruct (coarse_search eig_exact pose0 mat3_zero eig_exact_contract) as (m & r & p' & cov' & H1 & H2 & _ & _ & Ho & Hs & _).
  eexists m, r, p', cov', _. split; [exact H1|]. split; [exact H2|]. split; [exact Ho|]. exact Hs.
Qed.

(** C23: binary64. *)
Theorem C23_beam_subsampling : forall (lm : libm) (m : matcher b64) (pts : list (point b64)),
  (1 <= k_beams m)%Z -> pts <> [] -> (Z.of_nat (length pts) <= 2 ^ 52)%Z ->
  exists idxs bp,
    beam_points (A := BA lm) m pts = Ok bp /\
    Forall2 (fun i p => nth_error pts (Z.to_nat i) = Some p) idxs bp /\
    Z.of_nat (length idxs) = Z.min (k_beams m) (Z.of_nat (length pts)) /\
    hd_error idxs = Some 0%Z /\ StronglySorted Z.lt idxs /\
    Forall (fun i => (0 <= i < Z.of_nat (length pts))%Z) idxs /\
    (forall j i, nth_error idxs j = Some i ->
       Rabs (IZR i - INR j * INR (length pts) / INR (length idxs)) <= 1 + INR (length pts) / 2 ^ 51) /\
    ((Z.of_nat (length pts) <= k_beams m)%Z -> bp = pts).
Proof. exact beam_points_b64. Qed.
Print Assumptions C23_beam_subsampling.

(** C24: false as stated, in binary64: a scan without points scores NaN. *)
Theorem C24_finite_refuted : forall (lm : libm), exists m r p' cov',
  add_scans (A := BA lm) (eig0 lm) (matcher_default (A := BA lm) (nofZ (Arith := BA lm) 1)) [empty_scan lm] = Ok m /\
  match_scan (A := BA lm) 100 m (empty_scan lm) (pose0 (A := BA lm)) (mat3_zero (A := BA lm)) = Ok (r, p', cov') /\ r = b64_nan.
Proof. exact empty_scan_witness. Qed.
Print Assumptions C24_finite_refuted.

(** ... and on a map without a scoring cell the covariance is NaN. *)
Theorem C24_silent_map_refuted :
  forall (lm : libm) (fuel : nat) (m : matcher b64) (g : ndt b64) (s : scan b64) (p p' : pose b64) (cov cov' : mat3 b64) (r : b64),
  k_ndt m = Some g -> (forall c q, In c (g_cells g) -> cell_score (A := BA lm) c q = nzero (A := BA lm)) ->
  match_scan (A := BA lm) fuel m s p cov = Ok (r, p', cov') ->
  a00 cov' = b64_nan /\ a11 cov' = b64_nan /\ a22 cov' = b64_nan.
Proof.
  exact (fun lm fuel m g s p p' cov cov' r Hg Hc =>
    zero_scores_nan_covariance lm fuel m g s p p' cov cov' r Hg (silent_map lm g Hc)).
Qed.
Print Assumptions C24_silent_map_refuted.

(** What holds in binary64: the score of a non-empty scan against a map that
    hands out finite likelihoods in [0, 1]. *)
Theorem C24_finite_partial :
  forall (lm : libm) (fuel : nat) (m : matcher b64) (g : ndt b64) (s : scan b64) (p p' : pose b64) (cov cov' : mat3 b64) (r : b64),
  k_ndt m = Some g ->
  (forall q v, ndt_likelihood (A := BA lm) g q = Ok v -> is_finite v = true /\ 0 <= B2R v <= 1) ->
  (1 <= k_beams m)%Z -> s_pts s <> [] -> (Z.of_nat (length (s_pts s)) <= 2 ^ 52)%Z ->
  match_scan (A := BA lm) fuel m s p cov = Ok (r, p', cov') ->
  is_finite r = true /\ -1 <= B2R r <= 0.
Proof. exact score_finite. Qed.
Print Assumptions C24_finite_partial.

(** C25: exact arithmetic. *)
Theorem C25_search_terminates : forall (m : matcher R),
  0 < k_ang_res m -> 0 < k_lin_res m ->
  exists n, forall fuel, (n < fuel)%nat ->
    loop_values fuel (- k_ang_size m) (k_ang_size m) (k_ang_res m) = Ok (axis (k_ang_size m) (k_ang_res m)) /\
    loop_values fuel (- k_lin_size m) (k_lin_size m) (k_lin_res m) = Ok (axis (k_lin_size m) (k_lin_res m)) /\
    forall s p cov, match_scan fuel m s p cov <> Fault OutOfFuel /\
      match_scan fuel m s p cov = match_scan (S n) m s p cov.
Proof. exact search_terminates. Qed.
Print Assumptions C25_search_terminates.

Theorem C25_search_count : forall (size res : R), length (axis size res) = Z.to_nat (Zceil (2 * size / res)).
Proof. exact axis_length. Qed.
Print Assumptions C25_search_count.

(** In binary64 the claim is false: with a window of 1 and a resolution of 2^-60
    the counter never moves. *)
Theorem C25_search_terminates_refuted : forall (lm : libm) (fuel : nat),
  loop_values (A := BA lm) fuel (nopp (Arith := BA lm) (b64_of 1 0)) (b64_of 1 0) (b64_of 1 (-60)) = Fault OutOfFuel.
Proof. exact search_stalls. Qed.
Print Assumptions C25_search_terminates_refuted.

(** What holds in binary64: resolutions of at least 2^-51 window widths. *)
Theorem C25_search_terminates_partial : forall (lm : libm) (size res : b64),
  is_finite size = true -> is_finite res = true -> 0 < B2R res -> B2R size * bpow radix2 (-51) <= B2R res ->
  Rabs (B2R size) <= bpow radix2 1000 -> B2R res <= bpow radix2 1000 ->
  exists n l, forall fuel, (n < fuel)%nat -> loop_values (A := BA lm) fuel (nopp (Arith := BA lm) size) size res = Ok l.
Proof. exact search_terminates_b64. Qed.
Print Assumptions C25_search_terminates_partial.

(** C26: false as stated: the default linear search visits 21 offsets, and
    neither search visits the zero offset exactly. *)
Theorem C26_default_search_refuted : forall (lm : libm),
  exists l, default_linear lm = Ok l /\ length l = 21%nat /\
    forall d, In d l -> neqb (Arith := BA lm) d (nzero (A := BA lm)) = false.
Proof. exact (fun lm => check_loop_spec lm _ 21 (proj1 (default_loops lm))). Qed.
Print Assumptions C26_default_search_refuted.

(** What holds: 80 angular offsets, and every offset is below the window size. *)
Theorem C26_default_angular_partial : forall (lm : libm),
  exists l, default_angular lm = Ok l /\ length l = 80%nat /\
    forall d, In d l -> neqb (Arith := BA lm) d (nzero (A := BA lm)) = false.
Proof. exact (fun lm => check_loop_spec lm _ 80 (proj2 (default_loops lm))). Qed.
Print Assumptions C26_default_angular_partial.

Theorem C26_loop_range_partial : forall (lm : libm) (size res : b64) (fuel : nat) (d : b64) (l : list b64),
  loop_values (A := BA lm) fuel d size res = Ok l ->
  (forall x, In x l -> nlt (Arith := BA lm) x size = true) /\ (l = [] \/ hd_error l = Some d).
Proof. exact loop_values_bound. Qed.
Print Assumptions C26_loop_range_partial.
