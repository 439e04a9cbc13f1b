(** Scan matcher: termination in exact arithmetic, concrete maps and witnesses. *)

From Coq Require Import ZArith Reals List Bool Lia Lra Psatz.
From Flocq Require Import Core BinarySingleNaN.
From Verif Require Import Outcome Arith TypesModel CellModel ScanModel NdtModel MatcherModel
  SpecStats SpecGrid SpecSearch SumLemmas RTactics CellProofs CellProofs2 NdtProofs NdtProofs2
  MatcherProofs MatcherProofs2 MatcherB64b.
Import ListNotations.
Local Open Scope R_scope.

(** * Inert without a map (every arithmetic) *)
Lemma no_map_inert {T} {A : Arith T} (fuel : nat) (m : matcher T) (s : scan T) (pts : list (point T)) (p : pose T) (cov : mat3 T) :
  k_ndt m = None ->
  match_scan fuel m s p cov = Ok (nzero, p, cov) /\ score_scan m s = Ok nzero /\ score_points m pts p = Ok nzero.
Proof. intros H. unfold match_scan, score_scan, score_points. rewrite H. auto. Qed.

(** * matchScan is defined when every candidate is *)
Lemma match_scan_total {T} {A : Arith T} (fuel : nat) (m : matcher T) (g : ndt T) (s : scan T) (p : pose T) (cov : mat3 T)
  (dths ds : list T) (bp : list (point T)) :
  k_ndt m = Some g ->
  loop_values fuel (nopp (k_ang_size m)) (k_ang_size m) (k_ang_res m) = Ok dths ->
  loop_values fuel (nopp (k_lin_size m)) (k_lin_size m) (k_lin_res m) = Ok ds ->
  beam_points m (s_pts s) = Ok bp ->
  (forall dth dx dy, In dth dths -> In dx ds -> In dy ds ->
     exists v, ndt_likelihood_points g (inner_points dx dy (outer_points (s_pose s) dth bp)) = Ok v) ->
  exists r p' cov', match_scan fuel m s p cov = Ok (r, p', cov').
Proof.
  intros Hg Ha Hl Hb Hc. unfold match_scan. rewrite Hg, Ha, Hl. cbn [bind]. rewrite Hb. cbn [bind].
  edestruct (foldM_total (fun w dth => let outer := outer_points (s_pose s) dth bp in
        foldM (fun w dx => foldM (match_step g outer dth dx) w ds) w ds) dths) as (w & Hw).
  { intros w dth Hth. cbv zeta. apply foldM_total. intros w1 dx Hdx. apply foldM_total. intros w2 dy Hdy.
    destruct (Hc dth dx dy Hth Hdx Hdy) as [v Hv]. unfold match_step. rewrite Hv. eexists. reflexivity. }
  rewrite Hw. cbn [bind]. do 3 eexists. reflexivity.
Qed.

(** * Termination: running out of fuel is not an outcome of the search *)
Lemma beam_points_fault {T} {A : Arith T} (m : matcher T) (pts : list (point T)) (f : fault) :
  beam_points m pts = Fault f -> f = BadCast \/ f = OutOfBounds.
Proof.
  unfold beam_points. generalize (map Z.of_nat (seq 0 (Z.to_nat (beams_used m pts)))). intros l.
  induction l as [|i l IH]; cbn [mapM]; [discriminate|]. intros H.
  apply bind_fault in H. destruct H as [H|(q & _ & H)].
  - apply bind_fault in H. destruct H as [H|(idx & _ & H)]; [left; eapply cast_unsigned_fault; exact H|].
    right. eapply vec_get_fault; exact H.
  - apply bind_fault in H. destruct H as [H|(qs & _ & H)]; [apply IH; exact H|discriminate].
Qed.

Lemma likelihood_points_fault {T} {A : Arith T} (g : ndt T) (pts : list (point T)) (f : fault) :
  ndt_likelihood_points g pts = Fault f -> f = BadCast \/ f = OutOfBounds.
Proof.
  unfold ndt_likelihood_points. apply (foldM_fault (fun _ => True) (fun f => f = BadCast \/ f = OutOfBounds)); auto.
  intros acc q e _ _ H. apply bind_fault in H. destruct H as [H|(l & _ & H)]; [|discriminate].
  unfold ndt_likelihood in H. apply bind_fault in H. destruct H as [H|(i & _ & H)].
  - left. eapply ndt_index_fault; exact H.
  - destruct (0 <=? i)%Z; [|discriminate]. apply bind_fault in H. destruct H as [H|(c & _ & H)]; [|discriminate].
    right. eapply vec_get_fault; exact H.
Qed.

Lemma search_fault {T} {A : Arith T} (m : matcher T) (g : ndt T) (s : scan T) (dths ds : list T) (w : mstate T) (f : fault) :
  foldM (fun w dth => bind (beam_points m (s_pts s)) (fun bp => let outer := outer_points (s_pose s) dth bp in
     foldM (fun w dx => foldM (match_step g outer dth dx) w ds) w ds)) w dths = Fault f -> f = BadCast \/ f = OutOfBounds.
Proof.
  apply (foldM_fault (fun _ => True) (fun f => f = BadCast \/ f = OutOfBounds)); auto.
  intros w1 dth e _ _ H. apply bind_fault in H. destruct H as [H|(bp & _ & H)]; [eapply beam_points_fault; exact H|].
  cbv zeta in H. revert H. apply (foldM_fault (fun _ => True) (fun f => f = BadCast \/ f = OutOfBounds)); auto.
  intros w2 dx e2 _ _. apply (foldM_fault (fun _ => True) (fun f => f = BadCast \/ f = OutOfBounds)); auto.
  intros w3 dy e3 _ _ H. unfold match_step in H. apply bind_fault in H. destruct H as [H|(l & _ & H)]; [|discriminate].
  eapply likelihood_points_fault; exact H.
Qed.

Lemma search_terminates (m : matcher R) :
  0 < k_ang_res m -> 0 < k_lin_res m ->
  exists n, forall fuel, (n < fuel)%nat ->
    loop_values fuel (- k_ang_size m) (k_ang_size m) (k_ang_res m) = Ok (axis (k_ang_size m) (k_ang_res m)) /\
    loop_values fuel (- k_lin_size m) (k_lin_size m) (k_lin_res m) = Ok (axis (k_lin_size m) (k_lin_res m)) /\
    forall s p cov, match_scan fuel m s p cov <> Fault OutOfFuel /\
      match_scan fuel m s p cov = match_scan (S n) m s p cov.
Proof.
  intros Ha Hl. destruct (axis_terminates (k_ang_size m) _ Ha) as [na Na]. destruct (axis_terminates (k_lin_size m) _ Hl) as [nl Nl].
  exists (Nat.max na nl). intros fuel Hf.
  assert (Ea := Na fuel ltac:(lia)). assert (El := Nl fuel ltac:(lia)).
  assert (Ea' := Na (S (Nat.max na nl)) ltac:(lia)). assert (El' := Nl (S (Nat.max na nl)) ltac:(lia)).
  split; [exact Ea|]. split; [exact El|]. intros s p cov. unfold match_scan.
  destruct (k_ndt m) as [g|]; [|split; [discriminate|reflexivity]].
  cbn [nopp RA]. rewrite Ea, El, Ea', El'. cbn [bind]. split; [|reflexivity].
  intros H. apply bind_fault in H. destruct H as [H|(w & _ & H)]; [|discriminate].
  apply search_fault in H. destruct H; discriminate.
Qed.

Lemma axis_length (size res : R) : length (axis size res) = Z.to_nat (Zceil (2 * size / res)).
Proof. unfold axis. rewrite map_length, seq_length. reflexivity. Qed.

(** * A concrete map: the square points in one 10 m cell *)

Lemma maxval_big : 1000 < bpow radix2 1024 - bpow radix2 971.
Proof.
  assert (H : bpow radix2 972 <= bpow radix2 1024) by (apply bpow_le; lia).
  assert (H2 : bpow radix2 972 = 2 * bpow radix2 971) by (replace 972%Z with (1 + 971)%Z by lia; rewrite bpow_plus; reflexivity).
  assert (H3 : bpow radix2 10 <= bpow radix2 971) by (apply bpow_le; lia).
  assert (H4 : bpow radix2 10 = 1024) by (cbn; lra). lra.
Qed.

Lemma minpos_small : 0 < bpow radix2 (-1022) <= / 8.
Proof. split; [apply bpow_gt_0|]. apply (bpow_le radix2 (-1022) (-3)). lia. Qed.

Lemma demo_box (range : R) (s : scan R) :
  0 < range <= 100 -> -100 <= pox (s_pose s) -> -100 <= poy (s_pose s) ->
  pox (s_pose s) <= 100 -> poy (s_pose s) <= 100 -> 1 <= pox (s_pose s) + range -> 1 <= poy (s_pose s) + range ->
  scans_box range [s] = mkBox (pox (s_pose s) - range) (pox (s_pose s) + range) (poy (s_pose s) - range) (poy (s_pose s) + range).
Proof.
  intros Hr H1 H2 H3 H4 H5 H6. pose proof maxval_big. pose proof minpos_small.
  unfold scans_box. cbn [fold_left]. unfold box_step, box_init. cbn [b_minx b_maxx b_miny b_maxy].
  rewrite !Rmin_def, !Rmax_def. ra.
  rewrite !Rmin_left by lra. rewrite !Rmax_left by lra. reflexivity.
Qed.

Lemma square_spread (ox oy w : R) : spread_in_squares ox oy w (moved_points [demo_scan]).
Proof.
  intros a b. rewrite demo_points. set (f := in_square_b ox oy w a b).
  destruct (le_lt_dec 5 (length (filter f square_points))) as [H|H]; [right|left; exact H].
  assert (Hall : forall p, In p square_points -> f p = true).
  { intros p Hp. destruct (f p) eqn:E; [reflexivity|exfalso].
    assert (Hlt : forall l, In p l -> (length (filter f l) < length l)%nat).
    { induction l as [|x l IH]; cbn; [tauto|]. intros [->|Hx].
      - rewrite E. clear. induction l as [|y l IH]; cbn; [lia|]. destruct (f y); cbn; lia.
      - specialize (IH Hx). destruct (f x); cbn; lia. }
    specialize (Hlt square_points Hp). cbn [length square_points] in *. lia. }
  exists (mkPoint 0 0), (mkPoint 2 0).
  split; [apply filter_In; split; [cbn; auto|apply Hall; cbn; auto]|].
  split; [apply filter_In; split; [cbn; auto|apply Hall; cbn; auto]|].
  intros E. injection E. lra.
Qed.

Definition one_cell (g : ndt R) : Prop :=
  (g_sx g * g_sy g < 2 ^ 31)%Z /\
  forall q, -3 <= px q < 7 -> -3 <= py q < 7 -> ndt_likelihood g q = Ok (gauss id2 (psub q (mkPoint 1 1))).

Lemma demo_map (eig : mat2 R -> R * R) (m : matcher R) :
  eigen_contract eig -> k_resolution m = 10 -> k_range m = 3 ->
  exists g, add_scans eig m [demo_scan] = Ok (with_ndt m (Some g)) /\ one_cell g /\ scored01 g.
Proof.
  intros He Hres Hrng.
  set (g0 := mkNdt 10 1 1 (-3) (-3) (repeat (@cell_new R RA) 1)).
  assert (Hnew : ndt_new 10 6 6 (-3) (-3) = Ok g0).
  { unfold ndt_new, cast_unsigned. ra.
    assert (E : Ztrunc (6 / 10 + 1) = 1%Z) by (rewrite Ztrunc_floor by lra; apply Zfloor_imp; cbn; lra).
    rewrite E. reflexivity. }
  assert (Hw : ndt_wf g0) by (apply (ndt_new_wf _ _ _ _ _ _ Hnew); reflexivity).
  assert (Hin : forall p, In p square_points -> 0 <= px p <= 2 /\ 0 <= py p <= 2).
  { intros p Hp. cbn in Hp. repeat (destruct Hp as [<-|Hp]; [cbn; lra|]). destruct Hp. }
  destruct (ndt_run_defined eig ([NAddScan demo_scan] ++ [NCompute]) g0 Hw) as (g & Hg).
  { intros p Hp. rewrite history_points_moved in Hp. change (added_scans ([NAddScan demo_scan] ++ [NCompute])) with [demo_scan] in Hp.
    rewrite demo_points in Hp. apply Hin in Hp.
    destruct (ndt_covers 10 6 6 (-3) (-3) g0 p) as (i & Hi & _); try assumption; try lra; [reflexivity|eauto]. }
  exists g. split; [|split].
  - unfold add_scans. rewrite Hrng, Hres, demo_box by (cbn; lra). cbn [b_minx b_maxx b_miny b_maxy].
    cbn [demo_scan s_pose pox poy]. ra.
    replace (0 + 3 - (0 - 3)) with 6 by ring. replace (0 - 3) with (-3) by ring. rewrite Hnew. cbn [bind].
    unfold ndt_run in Hg. cbn [app foldM ndt_step] in Hg. cbn [foldM].
    apply bind_ok in Hg. destruct Hg as (g1 & H1 & Hg). rewrite H1. cbn [bind] in Hg |- *. injection Hg as <-. reflexivity.
  - pose proof (ndt_run_geom eig g0 g _ Hg) as Hgeo.
    split; [destruct Hgeo as (_ & <- & <- & _); reflexivity|].
    intros q Hx Hy.
    assert (Hsq : in_square (-3) (-3) 10 0 0 q) by (split; unfold in_interval; cbn; lra).
    assert (Hi : ndt_index g (px q) (py q) = Ok 0%Z).
    { rewrite <- (same_geom_index g0 g _ _ Hgeo). apply (ndt_index_of_square g0 q 0 0 Hw); cbn; try lra; try lia. exact Hsq. }
    unfold ndt_likelihood. rewrite Hi. cbn [bind Z.leb Z.compare].
    destruct (ndt_cell_contents eig 10 6 6 (-3) (-3) g0 g [NAddScan demo_scan] 0 0) as (c & Hc & _ & _ & _ & Hs);
      try assumption; try lra; try reflexivity; try (cbn; lia).
    change (0 * g_sx g0 + 0)%Z with 0%Z in Hc. rewrite Hc. cbn [bind]. f_equal. rewrite Hs.
    change (added_scans [NAddScan demo_scan]) with [demo_scan]. rewrite demo_points.
    assert (Ef : filter (in_square_b (-3) (-3) 10 0 0) square_points = square_points).
    { assert (K : forall l, (forall p, In p l -> 0 <= px p <= 2 /\ 0 <= py p <= 2) -> filter (in_square_b (-3) (-3) 10 0 0) l = l).
      { induction l as [|p l IH]; intros H; [reflexivity|]. cbn [filter].
        destruct (H p (or_introl eq_refl)) as [[X1 X2] [Y1 Y2]].
        unfold in_square_b, in_interval_b. rewrite !Rle_bool_true by (cbn; lra). rewrite !Rlt_bool_true by (cbn; lra).
        cbn [andb]. f_equal. apply IH. intros p' Hp'. apply H. right; exact Hp'. }
      apply K. exact Hin. }
    rewrite Ef.
    assert (Eo : op_points (map (@CAdd R) square_points) = square_points) by reflexivity.
    rewrite (well_conditioned_score eig (map CAdd square_points) 1 1 id2 q He); rewrite ?Eo, ?square_cov.
    + f_equal. f_equal. unfold mean_point, average, square_points. cbn [sumf length px py INR]. f_equal; field.
    + cbn; lia.
    + split; cbn; unfold trace2, det2, id2; cbn; ring.
    + lra.
    + lra.
    + lra.
    + split; unfold mul2, id2; cbn; f_equal; ring.
  - pose proof (spread_nondegenerate 10 6 6 (-3) (-3) g0 [NAddScan demo_scan]) as Hsp.
    eapply (ndt_run_scored eig); try eassumption; [reflexivity|].
    apply Hsp; [lra|exact Hnew|reflexivity|]. apply square_spread.
Qed.

(** * One scan, one candidate *)
Definition wm (ares asize lres lsize : R) : matcher R := mkMatcher None 10 ares asize lres lsize 1 3.
Definition probe : scan R := mkScan 1 true (mkPose 1 1 0) (mkPose 0 0 0) [mkPoint 0 0].

Lemma probe_beams (m : matcher R) : k_beams m = 1%Z -> beam_points m (s_pts probe) = Ok [mkPoint 0 0].
Proof.
  intros H. unfold beam_points, beams_used, scan_step_size, beams_used. rewrite H. cbn [probe s_pts length].
  change (Z.min 1 (Z.of_nat 1)) with 1%Z. cbn [Z.to_nat Pos.to_nat Pos.iter_op seq map mapM].
  unfold beam_index, cast_unsigned. ra.
  change (map Z.of_nat (seq 0 (Pos.to_nat 1))) with [0%Z]. cbn [mapM].
  match goal with |- context [Ztrunc ?x] => assert (E : Ztrunc x = 0%Z) by (replace x with 0 by (cbn; lra); apply (Ztrunc_IZR 0)) end.
  rewrite E. reflexivity.
Qed.

Lemma probe_used (m : matcher R) : k_beams m = 1%Z -> beams_used m (s_pts probe) = 1%Z.
Proof. intros H. unfold beams_used. rewrite H. reflexivity. Qed.

Lemma probe_points (dth dx dy : R) :
  inner_points dx dy (outer_points (s_pose probe) dth [mkPoint 0 0]) = [mkPoint (1 + dx) (1 + dy)].
Proof. unfold inner_points, outer_points. cbn [map px py probe s_pose pox poy poth]. ra. repeat f_equal; ring. Qed.

Lemma probe_likelihood (g : ndt R) (q : point R) :
  one_cell g -> -3 <= px q < 7 -> -3 <= py q < 7 -> ndt_likelihood_points g [q] = Ok (gauss id2 (psub q (mkPoint 1 1))).
Proof.
  intros [_ H] Hx Hy. unfold ndt_likelihood_points. cbn [foldM]. rewrite (H q Hx Hy). cbn [bind]. f_equal. ra. ring.
Qed.

Lemma probe_score (m : matcher R) (g : ndt R) (q : pose R) :
  k_ndt m = Some g -> k_beams m = 1%Z -> one_cell g -> -3 <= pox q < 7 -> -3 <= poy q < 7 ->
  score_points m (s_pts probe) q = Ok (- exp (- (1 / 2) * ((pox q - 1) * (pox q - 1) + (poy q - 1) * (poy q - 1)))).
Proof.
  intros Hg Hb H1 Hx Hy. apply (score_points_spec m g _ _ _ Hg).
  exists [mkPoint 0 0], (gauss id2 (psub (mkPoint (pox q) (poy q)) (mkPoint 1 1))).
  split; [apply probe_beams; exact Hb|]. split.
  - cbn [map]. replace (move q (mkPoint 0 0)) with (mkPoint (pox q) (poy q)) by (unfold move; cbn; f_equal; ring).
    apply probe_likelihood; assumption.
  - rewrite probe_used by exact Hb. unfold gauss, quad2, psub, id2. cbn [px py m00 m01 m10 m11]. 
    match goal with |- - exp ?a = - exp ?b / 1 => replace b with a by field end. field.
Qed.

Lemma probe_match (fuel : nat) (m : matcher R) (g : ndt R) (p : pose R) (cov : mat3 R) (dths ds : list R) :
  k_ndt m = Some g -> k_beams m = 1%Z -> one_cell g ->
  loop_values fuel (- k_ang_size m) (k_ang_size m) (k_ang_res m) = Ok dths ->
  loop_values fuel (- k_lin_size m) (k_lin_size m) (k_lin_res m) = Ok ds ->
  (forall d, In d ds -> -4 <= d < 6) ->
  exists r p' cov', match_scan fuel m probe p cov = Ok (r, p', cov').
Proof.
  intros Hg Hb H1 Ha Hl Hd. eapply match_scan_total; try eassumption; [apply probe_beams; exact Hb|].
  intros dth dx dy _ Hx Hy. rewrite probe_points. eexists. apply probe_likelihood; [exact H1| |]; cbn [px py].
  - specialize (Hd dx Hx). lra.
  - specialize (Hd dy Hy). lra.
Qed.

Lemma loop_one : loop_values 2 (- (1)) 1 4 = Ok [- (1)].
Proof.
  cbn [loop_values nlt nadd RA bind]. rewrite Rlt_bool_true by lra. rewrite Rlt_bool_false by lra. reflexivity.
Qed.

(** Window half-width 1, resolution 4: the only candidate is (-1, -1, -1). *)
Lemma coarse_offsets (g : ndt R) : offsets (with_ndt (wm 4 1 4 1) (Some g)) = [mkPose (- (1)) (- (1)) (- (1))].
Proof.
  unfold offsets, lattice, with_ndt, wm. cbn [k_lin_size k_lin_res k_ang_size k_ang_res].
  rewrite <- (loop_values_axis 1 4 2 [- (1)]) by (lra || exact loop_one). reflexivity.
Qed.

Lemma coarse_search (eig : mat2 R -> R * R) (p : pose R) (cov : mat3 R) :
  eigen_contract eig ->
  exists m r p' cov', add_scans eig (wm 4 1 4 1) [demo_scan] = Ok m /\
    match_scan 2 m probe p cov = Ok (r, p', cov') /\ score_scan m probe = Ok (-1) /\ r = - exp (-1) /\
    offsets m = [mkPose (- (1)) (- (1)) (- (1))] /\
    score_points m (s_pts probe) (pose_plus (s_pose probe) (mkPose (- (1)) (- (1)) (- (1)))) = Ok (- exp (-1)) /\
    a00 cov' = 2.
Proof.
  intros He. destruct (demo_map eig (wm 4 1 4 1) He eq_refl eq_refl) as (g & Hadd & H1 & Hs).
  set (m := with_ndt (wm 4 1 4 1) (Some g)) in *.
  assert (Hg : k_ndt m = Some g) by reflexivity. assert (Hb : k_beams m = 1%Z) by reflexivity.
  destruct (probe_match 2 m g p cov [- (1)] [- (1)] Hg Hb H1 loop_one loop_one) as (r & p' & cov' & Hm).
  { intros d [<-|[]]. lra. }
  assert (Hsc : score_points m (s_pts probe) (pose_plus (s_pose probe) (mkPose (- (1)) (- (1)) (- (1)))) = Ok (- exp (-1))).
  { rewrite (probe_score m g _ Hg Hb H1); unfold pose_plus; cbn [pox poy probe s_pose]; try lra.
    f_equal. f_equal. f_equal. lra. }
  exists m, r, p', cov'. split; [exact Hadd|]. split; [exact Hm|].
  assert (Ho : offsets m = [mkPose (- (1)) (- (1)) (- (1))]) by apply coarse_offsets.
  split; [|split; [|split; [exact Ho|split; [exact Hsc|]]]].
  - unfold score_scan. rewrite (probe_score m g _ Hg Hb H1); cbn [pox poy probe s_pose]; try lra.
    f_equal. replace (- (1 / 2) * ((1 - 1) * (1 - 1) + (1 - 1) * (1 - 1))) with 0 by lra. rewrite exp_0. lra.
  - destruct (match_scan_best 2 m g probe p p' cov cov' r Hg ltac:(cbn; lra) ltac:(cbn; lra) ltac:(cbn; lia) ltac:(discriminate) Hm) as [_ [(E & _ & H0)|(pre & post & E & Hr & Hv & _)]].
    + exfalso. rewrite Ho in H0. specialize (H0 _ _ (or_introl eq_refl) Hsc). pose proof (exp_pos (-1)). lra.
    + rewrite Ho in E. destruct pre as [|x pre]; [|destruct pre; discriminate].
      injection E as E _. rewrite <- E in Hv. rewrite Hv in Hsc. injection Hsc as ->. reflexivity.
  - rewrite (match_scan_cov 2 m g probe p p' cov cov' r (fun _ => - exp (-1)) Hg ltac:(cbn; lra) ltac:(cbn; lra) ltac:(cbn; lia) ltac:(discriminate) Hm).
    + rewrite Ho. pose proof (exp_pos (-1)).
      unfold add_outer, weighted_covariance, weighted_mean, wcov, wmean, wtotal. cbn [a00 v0 sumf pox]. field. lra.
    + intros c Hc. rewrite Ho in Hc. destruct Hc as [<-|[]]. exact Hsc.
    + rewrite Ho. unfold wtotal. cbn [sumf]. pose proof (exp_pos (-1)). lra.
Qed.

Lemma exp_m1_lt_1 : exp (-1) < 1.
Proof. pose proof exp_0 as E. pose proof (exp_increasing (-1) 0 ltac:(lra)). lra. Qed.

(** A single candidate has no spread at all. *)
Lemma single_cov (w : pose R -> R) (c : pose R) : w c <> 0 -> a00 (weighted_covariance w [c]) = 0.
Proof. intros H. unfold weighted_covariance, wcov, wmean, wtotal. cbn [a00 sumf]. field. lra. Qed.

(** * The size of the map depends on where the scans lie *)
Definition lone_scan (x : R) : scan R := mkScan 0 true (mkPose x x 0) (mkPose 0 0 0) [].
Definition sizing : matcher R := mkMatcher None 1 1 1 1 1 1 10.

Lemma map_size_depends_on_place (eig : mat2 R -> R * R) :
  exists m1 m2 g1 g2,
    add_scans eig sizing [lone_scan 100] = Ok m1 /\ k_ndt m1 = Some g1 /\ g_sx g1 = 21%Z /\
    add_scans eig sizing [lone_scan (-100)] = Ok m2 /\ k_ndt m2 = Some g2 /\ g_sx g2 = 111%Z.
Proof.
  pose proof minpos_small as Hp. pose proof maxval_big as Hq.
  assert (E21 : Ztrunc ((100 + 10 - (100 - 10)) / 1 + 1) = 21%Z).
  { replace ((100 + 10 - (100 - 10)) / 1 + 1) with (IZR 21) by (cbn; lra). apply Ztrunc_IZR. }
  assert (E111 : Ztrunc ((bpow radix2 (-1022) - (-100 - 10)) / 1 + 1) = 111%Z).
  { clear Hq E21. generalize dependent (bpow radix2 (-1022)). intros e He.
    rewrite Ztrunc_floor; [|lra]. apply Zfloor_imp. change (111 + 1)%Z with 112%Z. lra. }
  assert (K1 : exists m1 g1, add_scans eig sizing [lone_scan 100] = Ok m1 /\ k_ndt m1 = Some g1 /\ g_sx g1 = 21%Z).
  { do 2 eexists. split.
    unfold add_scans. cbn [sizing k_range k_resolution].
    rewrite demo_box by (cbn; lra). cbn [b_minx b_maxx b_miny b_maxy lone_scan s_pose pox poy].
    unfold ndt_new, cast_unsigned. ra. rewrite E21. change ((0 <=? 21)%Z && (21 <? 2 ^ 64)%Z) with true. cbn [bind].
    cbn [foldM]. unfold ndt_add_scan. cbn [lone_scan s_pts map foldM bind]. reflexivity.
    split; reflexivity. }
  assert (K2 : exists m2 g2, add_scans eig sizing [lone_scan (-100)] = Ok m2 /\ k_ndt m2 = Some g2 /\ g_sx g2 = 111%Z).
  { do 2 eexists. split.
    unfold add_scans, scans_box. cbn [fold_left]. unfold box_step, box_init.
    cbn [sizing k_range k_resolution b_minx b_maxx b_miny b_maxy lone_scan s_pose pox poy].
    rewrite !Rmin_def, !Rmax_def. ra. rewrite Rmin_left by lra. rewrite Rmax_right by lra.
    unfold ndt_new, cast_unsigned. ra. rewrite E111. change ((0 <=? 111)%Z && (111 <? 2 ^ 64)%Z) with true. cbn [bind].
    cbn [foldM]. unfold ndt_add_scan. cbn [lone_scan s_pts map foldM bind]. reflexivity.
    split; reflexivity. }
  destruct K1 as (m1 & g1 & A1 & A2 & A3). destruct K2 as (m2 & g2 & B1 & B2 & B3).
  exists m1, m2, g1, g2. repeat split; assumption.
Qed.

(** A window that contains the zero offset. *)
Lemma loop_two : loop_values 3 (- (1)) 1 1 = Ok [- (1); - (1) + 1].
Proof.
  cbn [loop_values nlt nadd RA bind]. rewrite !Rlt_bool_true by lra. rewrite Rlt_bool_false by lra. reflexivity.
Qed.

Lemma fine_search (eig : mat2 R -> R * R) (p : pose R) (cov : mat3 R) :
  eigen_contract eig ->
  exists m g r p' cov', add_scans eig (wm 1 1 1 1) [demo_scan] = Ok m /\ k_ndt m = Some g /\ (g_sx g * g_sy g < 2 ^ 31)%Z /\
    spread_in_squares (g_ox g) (g_oy g) (k_resolution m) (moved_points [demo_scan]) /\
    match_scan 3 m probe p cov = Ok (r, p', cov') /\ score_scan m probe = Ok (-1) /\
    (exists c, In c (offsets m) /\ score_points m (s_pts probe) (pose_plus (s_pose probe) c) = Ok (-1)).
Proof.
  intros He. destruct (demo_map eig (wm 1 1 1 1) He eq_refl eq_refl) as (g & Hadd & H1 & Hs).
  set (m := with_ndt (wm 1 1 1 1) (Some g)) in *.
  assert (Hg : k_ndt m = Some g) by reflexivity. assert (Hb : k_beams m = 1%Z) by reflexivity.
  destruct (probe_match 3 m g p cov _ _ Hg Hb H1 loop_two loop_two) as (r & p' & cov' & Hm).
  { intros d [<-|[<-|[]]]; lra. }
  assert (Hsc : score_points m (s_pts probe) (s_pose probe) = Ok (-1)).
  { rewrite (probe_score m g _ Hg Hb H1); cbn [pox poy probe s_pose]; try lra.
    f_equal. replace (- (1 / 2) * ((1 - 1) * (1 - 1) + (1 - 1) * (1 - 1))) with 0 by lra. rewrite exp_0. lra. }
  exists m, g, r, p', cov'. split; [exact Hadd|]. split; [exact Hg|]. split; [apply H1|].
  split; [apply square_spread|]. split; [exact Hm|]. split; [exact Hsc|].
  exists (mkPose 0 0 0). split.
  - apply (zero_offset m 1 1); cbn; lra || lia.
  - replace (pose_plus (s_pose probe) (mkPose 0 0 0)) with (s_pose probe); [exact Hsc|].
    unfold pose_plus, probe. cbn. f_equal; lra.
Qed.

(** scorePoints and matchScan are normalised on every map built by addScans. *)
Lemma scores_normalised (eig : mat2 R -> R * R) (m0 m : matcher R) (g : ndt R) (scans : list (scan R)) :
  eigen_contract eig -> 0 < k_resolution m0 -> add_scans eig m0 scans = Ok m -> k_ndt m = Some g ->
  (g_sx g * g_sy g < 2 ^ 31)%Z ->
  spread_in_squares (g_ox g) (g_oy g) (k_resolution m0) (moved_points scans) -> (1 <= k_beams m0)%Z ->
  (forall pts q v, pts <> [] -> score_points m pts q = Ok v -> -1 <= v <= 0) /\
  (forall s v, s_pts s <> [] -> score_scan m s = Ok v -> -1 <= v <= 0) /\
  (forall fuel s p cov r p' cov', 0 < k_ang_res m0 -> 0 < k_lin_res m0 -> s_pts s <> [] ->
     match_scan fuel m s p cov = Ok (r, p', cov') -> -1 <= r <= 0).
Proof.
  intros He Hr Hadd Hg Hn Hsp Hb.
  pose proof (add_scans_scored eig m0 m g scans He Hr Hadd Hg Hn Hsp) as Hs.
  destruct (add_scans_run eig m0 m scans Hadd) as (g0 & g' & _ & _ & Em).
  assert (Eb : k_beams m = k_beams m0 /\ k_ang_res m = k_ang_res m0 /\ k_lin_res m = k_lin_res m0) by (rewrite Em; auto).
  destruct Eb as (Eb & Ea & El).
  assert (Hb' : (1 <= k_beams m)%Z) by lia.
  split; [|split].
  - intros pts q v Hp H. exact (score_points_range m g pts q v Hg Hs Hb' Hp H).
  - intros s v Hp H. exact (score_points_range m g _ _ v Hg Hs Hb' Hp H).
  - intros fuel s p cov r p' cov' Ha Hl Hp H. rewrite <- Ea in Ha. rewrite <- El in Hl.
    exact (match_scan_range fuel m g s p p' cov cov' r Hg Hs Ha Hl Hb' Hp H).
Qed.

Lemma covariance_psd (eig : mat2 R -> R * R) (m0 m : matcher R) (g : ndt R) (scans : list (scan R))
  (fuel : nat) (s : scan R) (p p' : pose R) (cov cov' : mat3 R) (r : R) (w : pose R -> R) :
  eigen_contract eig -> 0 < k_resolution m0 -> add_scans eig m0 scans = Ok m -> k_ndt m = Some g ->
  (g_sx g * g_sy g < 2 ^ 31)%Z ->
  spread_in_squares (g_ox g) (g_oy g) (k_resolution m0) (moved_points scans) -> (1 <= k_beams m)%Z ->
  0 < k_ang_res m -> 0 < k_lin_res m -> s_pts s <> [] ->
  match_scan fuel m s p cov = Ok (r, p', cov') ->
  (forall c, In c (offsets m) -> score_points m (s_pts s) (pose_plus (s_pose s) c) = Ok (w c)) ->
  (exists c, In c (offsets m) /\ w c < 0) ->
  psd3 cov' /\ (forall v, 0 <= quad3 (weighted_covariance w (offsets m)) v <= quad3 cov' v).
Proof.
  intros He Hr Hadd Hg Hn Hsp Hb Ha Hl Hp H Hw Hc.
  pose proof (add_scans_scored eig m0 m g scans He Hr Hadd Hg Hn Hsp) as Hs.
  eapply match_scan_cov_psd; eassumption.
Qed.

(** * Binary64: an empty scan against a freshly built map *)
Section B.
Context (lm : libm).
Let A : Arith b64 := BA lm.
Existing Instance A.

Definition empty_scan : scan b64 := mkScan 0 true pose0 pose0 [].
Definition eig0 (m : mat2 b64) : b64 * b64 := (nzero, nzero).

Lemma empty_scan_witness : exists m r p' cov',
  add_scans eig0 (matcher_default (nofZ 1)) [empty_scan] = Ok m /\
  match_scan 100 m empty_scan pose0 mat3_zero = Ok (r, p', cov') /\ r = b64_nan.
Proof.
  destruct (add_scans eig0 (matcher_default (nofZ 1)) [empty_scan]) as [m|f] eqn:E.
  2:{ exfalso. assert (H : is_ok (add_scans eig0 (matcher_default (nofZ 1)) [empty_scan]) = true) by (vm_compute; reflexivity).
      rewrite E in H. discriminate. }
  destruct (add_scans_run eig0 _ _ _ E) as (g0 & g & _ & _ & Em).
  destruct (empty_scan_returns lm 100 m g empty_scan pose0 mat3_zero) as (r & p' & cov' & H).
  - rewrite Em. reflexivity.
  - rewrite Em. cbn. lia.
  - reflexivity.
  - rewrite Em. vm_compute. reflexivity.
  - rewrite Em. vm_compute. reflexivity.
  - exists m, r, p', cov'. split; [reflexivity|]. split; [exact H|].
    apply (empty_scan_nan lm 100 m g empty_scan pose0 p' mat3_zero cov' r); [rewrite Em; reflexivity|rewrite Em; cbn; lia|reflexivity|exact H].
Qed.
End B.
