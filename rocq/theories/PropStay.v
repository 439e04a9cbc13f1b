(** C176: a scan that fits best where it lies is left there. *)

From Coq Require Import ZArith Reals List Bool Lia Lra Psatz.
From Flocq Require Import Core BinarySingleNaN.
From Verif Require Import Outcome Arith TypesModel CellModel ScanModel NdtModel MatcherModel SpecOrigin
  SpecStats SpecGrid SpecSearch SumLemmas RTactics CellProofs CellProofs2 NdtProofs NdtProofs2
  MatcherProofs MatcherProofs2 MatcherB64b B64Tactics B64Lemmas MatcherWitness.
Import ListNotations.
Local Open Scope R_scope.

(** The score of a scan moved by a correction. *)
Definition score_moved (m : matcher R) (s : scan R) (c : pose R) (v : R) : Prop :=
  score_points m (s_pts s) (mkPose (pox (s_pose s) + pox c) (poy (s_pose s) + poy c) (poth (s_pose s) + poth c)) = Ok v.

Theorem C176_stays_partial :
  forall (fuel : nat) (m : matcher R) (g : ndt R) (s : scan R) (p' : pose R) (cov cov' : mat3 R) (r v : R) (i j : nat),
  k_ndt m = Some g -> 0 < k_ang_res m -> 0 < k_lin_res m -> (1 <= k_beams m)%Z -> s_pts s <> [] ->
  (0 < i)%nat -> (0 < j)%nat -> k_lin_size m = INR i * k_lin_res m -> k_ang_size m = INR j * k_ang_res m ->
  score_scan m s = Ok v ->
  (forall c w, In c (lattice (k_lin_size m) (k_lin_res m) (k_ang_size m) (k_ang_res m)) -> c <> mkPose 0 0 0 -> score_moved m s c w -> v < w) ->
  match_scan fuel m s origin cov = Ok (r, p', cov') -> p' = mkPose 0 0 0 /\ (r = v \/ (r = 0 /\ 0 <= v)).
Proof.
  intros fuel m g s p' cov cov' r v i j Hg Ha Hl Hb Hs Hi Hj Ei Ej Hv Best H.
  assert (Z : In (mkPose 0 0 0) (offsets m)) by (apply (zero_offset m i j); assumption).
  assert (E0 : pose_plus (s_pose s) (mkPose 0 0 0) = s_pose s) by (destruct (s_pose s); unfold pose_plus; cbn; f_equal; ring).
  destruct (match_scan_best fuel m g s origin p' cov cov' r Hg Ha Hl Hb Hs H) as [All [(R0 & P & N)|(pre & post & E & Hr & Sc & _)]].
  - rewrite P. split; [reflexivity|]. right. split; [exact R0|]. apply (N _ v Z). rewrite E0. exact Hv.
  - assert (I : In p' (offsets m)) by (rewrite E; apply in_elt).
    destruct (All _ Z) as (v' & Hv' & Le). rewrite E0 in Hv'. unfold score_scan in Hv. rewrite Hv in Hv'. injection Hv' as <-.
    assert (D : p' = mkPose 0 0 0).
    { destruct p' as [x y t]. destruct (Req_dec x 0) as [X|X]; [destruct (Req_dec y 0) as [Y|Y]; [destruct (Req_dec t 0) as [W|W]|]|].
      - subst. reflexivity.
      - exfalso. assert (v < r); [|lra]. apply (Best _ r I); [intro Q; injection Q; tauto|exact Sc].
      - exfalso. assert (v < r); [|lra]. apply (Best _ r I); [intro Q; injection Q; tauto|exact Sc].
      - exfalso. assert (v < r); [|lra]. apply (Best _ r I); [intro Q; injection Q; tauto|exact Sc]. }
    split; [exact D|]. left. rewrite D, E0 in Sc. rewrite Hv in Sc. injection Sc as ->. reflexivity.
Qed.
Print Assumptions C176_stays_partial.

(** One beam that ends in the middle of the cell, a metre in front of the robot. *)
Definition ahead : scan R := mkScan 1 true (mkPose 0 1 0) (mkPose 0 0 0) [mkPoint 1 0].

Lemma first_beam (m : matcher R) (q : point R) (qs : list (point R)) : k_beams m = 1%Z ->
  beam_points m (q :: qs) = Ok [q] /\ beams_used m (q :: qs) = 1%Z.
Proof.
  intros H.
  assert (U : beams_used m (q :: qs) = 1%Z) by (unfold beams_used; rewrite H; apply Z.min_l; cbn [length]; lia).
  split; [|exact U]. unfold beam_points. rewrite U. cbn [Z.to_nat].
  change (map Z.of_nat (seq 0 (Pos.to_nat 1))) with [0%Z]. cbn [mapM].
  unfold beam_index, cast_unsigned. ra.
  match goal with |- context [Ztrunc ?x] => assert (E : Ztrunc x = 0%Z) by (replace x with 0 by (cbn; lra); apply (Ztrunc_IZR 0)) end.
  rewrite E. reflexivity.
Qed.

Lemma beam_score (m : matcher R) (g : ndt R) (q : point R) (qs : list (point R)) (c : pose R) :
  k_ndt m = Some g -> k_beams m = 1%Z -> one_cell g -> -3 <= px (move c q) < 7 -> -3 <= py (move c q) < 7 ->
  score_points m (q :: qs) c = Ok (- exp (- (1 / 2) * ((px (move c q) - 1) * (px (move c q) - 1) + (py (move c q) - 1) * (py (move c q) - 1)))).
Proof.
  intros Hg Hb H1 Hx Hy. destruct (first_beam m q qs Hb) as [B U]. apply (score_points_spec m g _ _ _ Hg).
  exists [q], (gauss id2 (psub (move c q) (mkPoint 1 1))). split; [exact B|]. split; [cbn [map]; apply probe_likelihood; assumption|].
  rewrite U. unfold gauss, quad2, psub, id2. cbn [px py m00 m01 m10 m11].
  match goal with |- - exp ?a = - exp ?b / 1 => replace b with a by field end. field.
Qed.

Lemma two_values : axis 1 1 = [- (1); - (1) + 1].
Proof. symmetry. apply (loop_values_axis 1 1 3); [lra|exact loop_two]. Qed.

Lemma ahead_others (c : pose R) : In c (lattice 1 1 1 1) -> c <> mkPose 0 0 0 ->
  let q := move (pose_plus (s_pose ahead) c) (mkPoint 1 0) in
  -3 <= px q < 7 /\ -3 <= py q < 7 /\ 0 < (px q - 1) * (px q - 1) + (py q - 1) * (py q - 1).
Proof.
  intros H N q. unfold lattice in H. rewrite two_values in H.
  apply in_flat_map in H. destruct H as (t & Ht & H). apply in_flat_map in H. destruct H as (x & Hx & H). apply in_map_iff in H. destruct H as (y & <- & Hy).
  unfold q, move, pose_plus, ahead. cbn [px py pox poy poth s_pose].
  pose proof (COS_bound (0 + t)) as C. pose proof (SIN_bound (0 + t)) as S.
  assert (Bx : -1 <= x <= 0) by (destruct Hx as [<-|[<-|[]]]; lra). assert (By : -1 <= y <= 0) by (destruct Hy as [<-|[<-|[]]]; lra).
  split; [lra|]. split; [lra|].
  destruct Ht as [<-|[<-|[]]].
  - assert (Cs : cos (0 + - (1)) < 1).
    { replace (0 + - (1)) with (- (1)) in * by ring. rewrite cos_neg in *.
      assert (0 < sin 1) by (apply sin_gt_0; pose proof PI2_3_2; unfold PI2 in *; lra).
      pose proof (sin2_cos2 1). unfold Rsqr in *. nra. }
    set (k := cos (0 + - (1))) in *. set (l := sin (0 + - (1))) in *.
    apply Rlt_le_trans with ((k * 1 - l * 0 + (0 + x) - 1) * (k * 1 - l * 0 + (0 + x) - 1)); [|pose proof (Rle_0_sqr (l * 1 + k * 0 + (1 + y) - 1)); unfold Rsqr in *; lra].
    assert (k * 1 - l * 0 + (0 + x) - 1 < 0) by lra. nra.
  - replace (0 + (- (1) + 1)) with 0 by ring. rewrite cos_0, sin_0.
    destruct (Req_dec x 0) as [X|X]; [destruct (Req_dec y 0) as [Y|Y]|].
    + exfalso. apply N. subst. f_equal. ring.
    + assert (0 < y * y) by nra. nra.
    + assert (0 < x * x) by nra. nra.
Qed.

Lemma ahead_range (x y t : R) : In x [- (1); - (1) + 1] -> In y [- (1); - (1) + 1] ->
  let q := move (pose_plus (s_pose ahead) (mkPose x y t)) (mkPoint 1 0) in -3 <= px q < 7 /\ -3 <= py q < 7.
Proof.
  intros Hx Hy q. unfold q, move, pose_plus, ahead. cbn [px py pox poy poth s_pose].
  pose proof (COS_bound (0 + t)) as C. pose proof (SIN_bound (0 + t)) as S.
  assert (Bx : -1 <= x <= 0) by (destruct Hx as [<-|[<-|[]]]; lra). assert (By : -1 <= y <= 0) by (destruct Hy as [<-|[<-|[]]]; lra). lra.
Qed.

Lemma exp_below (d : R) : 0 < d -> -1 < - exp (- (1 / 2) * d).
Proof. intro H. pose proof (exp_increasing (- (1 / 2) * d) 0 ltac:(lra)) as E. rewrite exp_0 in E. lra. Qed.

Lemma ahead_zero (m : matcher R) (g : ndt R) : k_ndt m = Some g -> k_beams m = 1%Z -> one_cell g -> score_scan m ahead = Ok (-1).
Proof.
  intros Hg Hb H1. unfold score_scan. change (s_pts ahead) with [mkPoint 1 0].
  assert (M : move (s_pose ahead) (mkPoint 1 0) = mkPoint 1 1).
  { unfold move, ahead. cbn [s_pose px py pox poy poth]. rewrite cos_0, sin_0. f_equal; ring. }
  rewrite (beam_score m g _ [] _ Hg Hb H1); rewrite M; cbn [px py]; try lra.
  replace (- (1 / 2) * ((1 - 1) * (1 - 1) + (1 - 1) * (1 - 1))) with 0 by ring. rewrite exp_0. f_equal.
Qed.

Example C176_nonvacuous : exists (m : matcher R) g r p' cov',
  add_scans eig_exact (wm 1 1 1 1) [demo_scan] = Ok m /\ k_ndt m = Some g /\ score_scan m ahead = Ok (-1) /\
  (forall c w, In c (lattice (k_lin_size m) (k_lin_res m) (k_ang_size m) (k_ang_res m)) -> c <> mkPose 0 0 0 -> score_moved m ahead c w -> -1 < w) /\
  match_scan 3 m ahead origin mat3_zero = Ok (r, p', cov').
Proof.
  destruct (demo_map eig_exact (wm 1 1 1 1) eig_exact_contract eq_refl eq_refl) as (g & Hadd & H1 & Hs).
  set (m := with_ndt (wm 1 1 1 1) (Some g)) in *.
  assert (Hg : k_ndt m = Some g) by reflexivity. assert (Hb : k_beams m = 1%Z) by reflexivity.
  assert (Sc : forall c, In c (lattice 1 1 1 1) -> c <> mkPose 0 0 0 -> exists w, score_moved m ahead c w /\ -1 < w).
  { intros c I N. destruct (ahead_others c I N) as (Q1 & Q2 & Q3). eexists. split; [apply (beam_score m g (mkPoint 1 0) [] _ Hg Hb H1 Q1 Q2)|apply exp_below; exact Q3]. }
  destruct (match_scan_total 3 m g ahead origin mat3_zero _ _ [mkPoint 1 0] Hg loop_two loop_two) as (r & p' & cov' & Hm).
  - apply (first_beam m (mkPoint 1 0) [] Hb).
  - intros t x y Ht Hx Hy. 
    assert (I : In (mkPose x y t) (lattice 1 1 1 1)).
    { unfold lattice. rewrite two_values. apply in_flat_map. exists t. split; [exact Ht|]. apply in_flat_map. exists x. split; [exact Hx|].
      apply in_map_iff. exists y. split; [reflexivity|exact Hy]. }
    assert (E : inner_points x y (outer_points (s_pose ahead) t [mkPoint 1 0]) = [move (pose_plus (s_pose ahead) (mkPose x y t)) (mkPoint 1 0)]).
    { unfold inner_points, outer_points, move, pose_plus. cbn [map px py s_pose pox poy poth]. ra. f_equal. f_equal; ring. }
    rewrite E. eexists. apply probe_likelihood; [exact H1| |].
    + destruct (ahead_range x y t Hx Hy) as [Q _]. exact Q.
    + destruct (ahead_range x y t Hx Hy) as [_ Q]. exact Q.
  - exists m, g, r, p', cov'. split; [exact Hadd|]. split; [exact Hg|]. split; [apply (ahead_zero m g Hg Hb H1)|]. split; [|exact Hm].
    intros c w I N Hw. destruct (Sc c I N) as (w' & Hw' & Lt). unfold score_moved in *. rewrite Hw in Hw'. injection Hw' as ->. exact Lt.
Qed.

(** Matching a scan against the map made of it alone may move it: when only some
    of its points are used, they may fit better elsewhere. *)
Lemma four_values : loop_values 5 (- (2)) 2 1 = Ok [- (2); - (2) + 1; - (2) + 1 + 1; - (2) + 1 + 1 + 1].
Proof. cbn [loop_values nlt nadd RA bind]. rewrite !Rlt_bool_true by lra. rewrite Rlt_bool_false by lra. reflexivity. Qed.

Theorem C176_own_map_refuted : exists (m : matcher R) r p' cov',
  add_scans eig_exact (wm 1 2 1 2) [demo_scan] = Ok m /\ match_scan 5 m demo_scan origin mat3_zero = Ok (r, p', cov') /\
  exists v, score_scan m demo_scan = Ok v /\ r < v /\ p' <> mkPose 0 0 0.
Proof.
  destruct (demo_map eig_exact (wm 1 2 1 2) eig_exact_contract eq_refl eq_refl) as (g & Hadd & H1 & Hs).
  set (m := with_ndt (wm 1 2 1 2) (Some g)) in *.
  assert (Hg : k_ndt m = Some g) by reflexivity. assert (Hb : k_beams m = 1%Z) by reflexivity.
  set (ds := [- (2); - (2) + 1; - (2) + 1 + 1; - (2) + 1 + 1 + 1]).
  assert (Rd : forall d, In d ds -> -2 <= d <= 1) by (intros d [<-|[<-|[<-|[<-|[]]]]]; lra).
  assert (Mv : forall c, move c (mkPoint 0 0) = mkPoint (pox c) (poy c)) by (intro c; unfold move; cbn; f_equal; ring).
  destruct (match_scan_total 5 m g demo_scan origin mat3_zero ds ds [mkPoint 0 0] Hg four_values four_values) as (r & p' & cov' & Hm).
  - apply (first_beam m (mkPoint 0 0) _ Hb).
  - intros t x y _ Hx Hy. apply Rd in Hx, Hy.
    assert (E : inner_points x y (outer_points (s_pose demo_scan) t [mkPoint 0 0]) = [mkPoint x y]).
    { unfold inner_points, outer_points. cbn [map px py s_pose pox poy poth demo_scan]. ra. f_equal. f_equal; ring. }
    rewrite E. eexists. apply probe_likelihood; [exact H1| |]; cbn [px py]; lra.
  - exists m, r, p', cov'. split; [exact Hadd|]. split; [exact Hm|]. exists (- exp (-1)).
    assert (S0 : score_points m (s_pts demo_scan) (mkPose 0 0 0) = Ok (- exp (-1))).
    { change (s_pts demo_scan) with (mkPoint 0 0 :: tl square_points).
      rewrite (beam_score m g _ _ _ Hg Hb H1); rewrite Mv; cbn [px py pox poy]; try lra. f_equal. f_equal. f_equal. lra. }
    assert (S1 : score_points m (s_pts demo_scan) (pose_plus (s_pose demo_scan) (mkPose 1 1 0)) = Ok (-1)).
    { change (s_pts demo_scan) with (mkPoint 0 0 :: tl square_points).
      rewrite (beam_score m g _ _ _ Hg Hb H1); rewrite Mv; unfold pose_plus; cbn [px py pox poy s_pose demo_scan]; try lra.
      match goal with |- context [exp ?e] => replace e with 0 by lra end. rewrite exp_0. f_equal. }
    assert (I1 : In (mkPose 1 1 0) (offsets m)).
    { unfold offsets, lattice. assert (Ax : axis 2 1 = ds) by (symmetry; apply (loop_values_axis 2 1 5); [lra|exact four_values]).
      cbn [m with_ndt wm k_lin_size k_lin_res k_ang_size k_ang_res]. rewrite Ax.
      apply in_flat_map. exists 0. split; [right; right; left; ring|]. apply in_flat_map. exists 1. split; [right; right; right; left; ring|].
      apply in_map_iff. exists 1. split; [reflexivity|right; right; right; left; ring]. }
    destruct (match_scan_best 5 m g demo_scan origin p' mat3_zero cov' r Hg ltac:(cbn; lra) ltac:(cbn; lra) ltac:(cbn; lia) ltac:(discriminate) Hm) as [All B].
    destruct (All _ I1) as (w & Hw & Le). rewrite S1 in Hw. injection Hw as <-. pose proof exp_m1_lt_1.
    split; [exact S0|]. split; [lra|]. intros ->. destruct B as [(R0 & _)|(pre & post & _ & _ & Sc & _)]; [lra|].
    assert (E0 : pose_plus (s_pose demo_scan) (mkPose 0 0 0) = mkPose 0 0 0) by (unfold pose_plus; cbn; f_equal; ring).
    rewrite E0, S0 in Sc. injection Sc as Sc. lra.
Qed.
Print Assumptions C176_own_map_refuted.

(** In doubles the default search does not try the correction 0 (C26), but one that
    is next to it. *)
Definition near_zero (u : b64) (o : outcome (list b64)) : bool :=
  match o with Ok l => existsb (fun d => is_finite d && Bleb (Bopp u) d && Bleb d u) l | Fault _ => false end.
Lemma near_zero_spec (u : b64) (o : outcome (list b64)) : is_finite u = true -> near_zero u o = true ->
  exists l d, o = Ok l /\ In d l /\ is_finite d = true /\ Rabs (B2R d) <= B2R u.
Proof.
  intros Fu H. destruct o as [l|f]; [|discriminate H]. cbn [near_zero] in H. apply existsb_exists in H. destruct H as (d & I & H).
  apply andb_true_iff in H. destruct H as [H H3]. apply andb_true_iff in H. destruct H as [H1 H2].
  exists l, d. split; [reflexivity|]. split; [exact I|]. split; [exact H1|].
  rewrite Bleb_correct in H2 by (rewrite ?is_finite_Bopp; assumption). rewrite Bleb_correct in H3 by assumption. rewrite B2R_Bopp in H2.
  destruct (Rle_bool_spec (- B2R u) (B2R d)); [|discriminate H2]. destruct (Rle_bool_spec (B2R d) (B2R u)); [|discriminate H3]. apply Rabs_le. lra.
Qed.
Lemma nano_val : B2R (b64_of 1 (-54)) = bpow radix2 (-54) /\ is_finite (b64_of 1 (-54)) = true.
Proof.
  assert (E : b64_of 1 (-54) = @B754_finite 53 1024 false 4503599627370496 (-106) eq_refl) by (apply b64_eq; vm_compute; reflexivity).
  rewrite E. cbn [B2R is_finite]. split; [|reflexivity]. unfold F2R. cbn [Fnum Fexp SpecFloat.cond_Zopp].
  change (IZR 4503599627370496) with (bpow radix2 52). rewrite <- bpow_plus. reflexivity.
Qed.
Theorem C176_default_search_partial : forall lm : libm, exists ls d ths t,
  default_linear lm = Ok ls /\ In d ls /\ is_finite d = true /\ Rabs (B2R d) <= bpow radix2 (-54) /\
  default_angular lm = Ok ths /\ In t ths /\ is_finite t = true /\ Rabs (B2R t) <= bpow radix2 (-54).
Proof.
  intro lm. destruct nano_val as [V F]. rewrite <- V.
  destruct (near_zero_spec (b64_of 1 (-54)) (default_linear lm) F) as (ls & d & H1 & H2 & H3 & H4); [vm_compute; reflexivity|].
  destruct (near_zero_spec (b64_of 1 (-54)) (default_angular lm) F) as (ths & t & G1 & G2 & G3 & G4); [vm_compute; reflexivity|].
  exists ls, d, ths, t. tauto.
Qed.
Print Assumptions C176_default_search_partial.
