(** C166: what a map says about a place depends only on what was seen there. *)

From Coq Require Import ZArith Reals List Bool Lia Lra Psatz Permutation.
From Flocq Require Import Core.
From Verif Require Import Outcome Arith TypesModel CellModel ScanModel NdtModel MatcherModel
  SpecStats SpecGrid SpecShift SpecLocal SumLemmas RTactics CellProofs CellProofs2 NdtProofs NdtProofs2 MatcherProofs MatcherProofs2 MatcherWitness PropShift.
Import ListNotations.
Local Open Scope R_scope.

Definition corner_of (g : ndt R) : point R := mkPoint (g_ox g) (g_oy g).

Section Local.
Context (eig : mat2 R -> R * R) (m : matcher R).
Context (Hr : 0 < k_resolution m).

(** The likelihood in a map that addScans built. *)
Lemma built_in : forall scans k g a b q, add_scans eig m scans = Ok k -> k_ndt k = Some g -> (g_sx g * g_sy g < 2 ^ 31)%Z ->
  (0 <= a < g_sx g)%Z -> (0 <= b < g_sy g)%Z -> in_square (g_ox g) (g_oy g) (k_resolution m) a b q ->
  ndt_likelihood g q = Ok (cell_score (cell_run eig (map CAdd (filter (in_square_b (g_ox g) (g_oy g) (k_resolution m) a b) (moved_points scans)) ++ [CCompute])) q).
Proof.
  intros scans k g a b q B K Sm Ha Hb Sq. apply add_scans_run in B. cbv zeta in B. destruct B as (g0 & g1 & N0 & R0 & Ek). rewrite Ek in K. cbn in K. injection K as ->.
  pose proof (ndt_run_geom eig g0 g _ R0) as G. destruct (ndt_new_cells _ _ _ _ _ g0 N0) as (_ & X0 & Y0 & _).
  destruct G as (_ & Gx & Gy & Go & Gp & _). rewrite <- Go, <- Gp, X0, Y0 in *. rewrite <- Gx in *. rewrite <- Gy in *.
  exact (like_in eig _ _ _ _ _ g0 g scans Hr N0 Sm R0 a b q Ha Hb Sq).
Qed.
(** A place the map covers is in one of its squares. *)
Lemma covered_square : forall scans k g q a b, add_scans eig m scans = Ok k -> k_ndt k = Some g -> (g_sx g * g_sy g < 2 ^ 31)%Z ->
  (exists i, ndt_index g (px q) (py q) = Ok i /\ (0 <= i)%Z) -> in_square (g_ox g) (g_oy g) (k_resolution m) a b q -> (0 <= a < g_sx g)%Z /\ (0 <= b < g_sy g)%Z.
Proof.
  intros scans k g q a b B K Sm (i & Ei & Pi) Sq. apply add_scans_run in B. cbv zeta in B. destruct B as (g0 & g1 & N0 & R0 & Ek). rewrite Ek in K. cbn in K. injection K as ->.
  pose proof (ndt_run_geom eig g0 g _ R0) as G. pose proof (same_geom_index g0 g (px q) (py q) G) as Ix. destruct (ndt_new_cells _ _ _ _ _ g0 N0) as (_ & X0 & Y0 & _).
  destruct G as (_ & Gx & Gy & Go & Gp & _). rewrite <- Go, <- Gp, X0, Y0 in Sq. rewrite <- Gx, <- Gy in *.
  apply (square_of _ Hr g0 _ _ _ _ q a b N0 Sm); [|exact Sq]. exists i. split; [rewrite Ix; exact Ei|exact Pi].
Qed.

Lemma alike_like : forall scans scans' k k' g g' q,
  add_scans eig m scans = Ok k -> add_scans eig m scans' = Ok k' -> k_ndt k = Some g -> k_ndt k' = Some g' ->
  (g_sx g * g_sy g < 2 ^ 31)%Z -> (g_sx g' * g_sy g' < 2 ^ 31)%Z ->
  (exists i, ndt_index g (px q) (py q) = Ok i /\ (0 <= i)%Z) -> (exists i, ndt_index g' (px q) (py q) = Ok i /\ (0 <= i)%Z) ->
  seen_alike (k_resolution m) (corner_of g) (corner_of g') scans scans' q ->
  ndt_likelihood g' q = ndt_likelihood g q.
Proof.
  intros scans scans' k k' g g' q B B' K K' Sm Sm' C C' (a & b & a' & b' & S & S' & P). cbn [corner_of px py] in *.
  destruct (covered_square scans k g q a b B K Sm C S) as [Ha Hb]. destruct (covered_square scans' k' g' q a' b' B' K' Sm' C' S') as [Ha' Hb'].
  rewrite (built_in scans k g a b q B K Sm Ha Hb S), (built_in scans' k' g' a' b' q B' K' Sm' Ha' Hb' S'). f_equal.
  destruct (order_independent eig (map CAdd (filter (in_square_b (g_ox g') (g_oy g') (k_resolution m) a' b') (moved_points scans')))
              (map CAdd (filter (in_square_b (g_ox g) (g_oy g) (k_resolution m) a b) (moved_points scans)))) as (_ & _ & _ & _ & O); [rewrite !op_points_map_CAdd; symmetry; exact P|].
  apply O.
Qed.
End Local.

(** The likelihood of a place both maps cover, and the scores of scans there. *)
Theorem C166_same_place_partial : forall (eig : mat2 R -> R * R) (m k k' : matcher R) (g g' : ndt R) (scans scans' : list (scan R)),
  0 < k_resolution m -> add_scans eig m scans = Ok k -> add_scans eig m scans' = Ok k' -> k_ndt k = Some g -> k_ndt k' = Some g' ->
  (g_sx g * g_sy g < 2 ^ 31)%Z -> (g_sx g' * g_sy g' < 2 ^ 31)%Z ->
  let alike q := (exists i, ndt_index g (px q) (py q) = Ok i /\ (0 <= i)%Z) /\ (exists i, ndt_index g' (px q) (py q) = Ok i /\ (0 <= i)%Z) /\
                 seen_alike (k_resolution m) (corner_of g) (corner_of g') scans scans' q in
  (forall q, alike q -> ndt_likelihood g' q = ndt_likelihood g q) /\
  (forall pts p, (forall q, In q pts -> alike (move p q)) -> score_points k' pts p = score_points k pts p).
Proof.
  intros eig m k k' g g' scans scans' Hr B B' K K' Sm Sm' alike.
  assert (L : forall q, alike q -> ndt_likelihood g' q = ndt_likelihood g q).
  { intros q (C & C' & S). exact (alike_like eig m Hr scans scans' k k' g g' q B B' K K' Sm Sm' C C' S). }
  split; [exact L|]. intros pts p H. unfold score_points. rewrite K, K'.
  assert (Q1 : k_beams k' = k_beams k).
  { apply add_scans_run in B. apply add_scans_run in B'. cbv zeta in B, B'. destruct B as (g0 & g1 & _ & _ & ->). destruct B' as (g0' & g1' & _ & _ & ->). reflexivity. }
  assert (Qb : beams_used k' pts = beams_used k pts) by (unfold beams_used; rewrite Q1; reflexivity).
  unfold scan_step_size. rewrite Qb. erewrite foldM_ext; [reflexivity|]. intros z i. cbv beta.
  destruct (beam_index _ i) as [idx|]; cbn [bind]; [|reflexivity]. destruct (vec_get pts idx) as [q|] eqn:G; cbn [bind]; [|reflexivity].
  rewrite !iso_move, L; [reflexivity|]. apply H. apply vec_get_inv in G. destruct G as [_ G]. apply nth_error_In in G. exact G.
Qed.
Print Assumptions C166_same_place_partial.

(** Scans added elsewhere, by robots that are not further left or down. *)
Theorem C166_added_partial : forall (eig : mat2 R -> R * R) (m k k' : matcher R) (g g' : ndt R) (scans added : list (scan R)) (q : point R),
  0 < k_resolution m -> scans <> [] -> fits (k_range m) scans -> fits (k_range m) (scans ++ added) -> not_lower scans added ->
  add_scans eig m scans = Ok k -> add_scans eig m (scans ++ added) = Ok k' -> k_ndt k = Some g -> k_ndt k' = Some g' ->
  (g_sx g * g_sy g < 2 ^ 31)%Z -> (g_sx g' * g_sy g' < 2 ^ 31)%Z ->
  (exists i, ndt_index g (px q) (py q) = Ok i /\ (0 <= i)%Z) ->
  (forall a b p, in_square (g_ox g) (g_oy g) (k_resolution m) a b q -> In p (seen added) -> ~ in_square (g_ox g) (g_oy g) (k_resolution m) a b p) ->
  ndt_likelihood g' q = ndt_likelihood g q.
Proof.
  intros eig m k k' g g' scans added q Hr Ne F F' Nl B B' K K' Sm Sm' C Far.
  destruct (corner eig m scans k g Ne F B K) as [[(s1 & I1 & E1) L1] [(s2 & I2 & E2) L2]].
  assert (Ne' : scans ++ added <> []) by (destruct scans; [congruence|discriminate]).
  destruct (corner eig m (scans ++ added) k' g' Ne' F' B' K') as [[(s3 & I3 & E3) L3] [(s4 & I4 & E4) L4]].
  assert (Ox : g_ox g' = g_ox g).
  { specialize (L3 s1 (in_or_app _ _ _ (or_introl I1))). apply in_app_or in I3. destruct I3 as [I3|I3]; [specialize (L1 s3 I3); cbv beta in *; lra|].
    destruct (Nl s3 I3) as [(s0 & J & Le) _]. specialize (L1 s0 J). cbv beta in *. lra. }
  assert (Oy : g_oy g' = g_oy g).
  { specialize (L4 s2 (in_or_app _ _ _ (or_introl I2))). apply in_app_or in I4. destruct I4 as [I4|I4]; [specialize (L2 s4 I4); cbv beta in *; lra|].
    destruct (Nl s4 I4) as [_ (s0 & J & Le)]. specialize (L2 s0 J). cbv beta in *. lra. }
  assert (W : exists a b, (0 <= a < g_sx g)%Z /\ (0 <= b < g_sy g)%Z /\ in_square (g_ox g) (g_oy g) (k_resolution m) a b q).
  { destruct C as (i & Ei & Pi). pose proof B as B0. apply add_scans_run in B0. cbv zeta in B0. destruct B0 as (g0 & g1 & N0 & R0 & Ek). rewrite Ek in K. cbn in K. injection K as ->.
    pose proof (ndt_run_geom eig g0 g _ R0) as G. destruct (ndt_new_cells _ _ _ _ _ g0 N0) as (Ecs & _). pose proof G as (Gc & Gx & Gy & Go & Gp & _).
    assert (Wf : ndt_wf g0) by (apply (ndt_new_wf _ _ _ _ _ g0 N0); rewrite Gx, Gy; exact Sm).
    destruct (ndt_index_square g0 q i Wf) as (a & b & S & Ba & Bb & _); [rewrite Ecs; exact Hr|rewrite (same_geom_index g0 g _ _ G); exact Ei|exact Pi|].
    rewrite Go, Gp, Ecs in S. rewrite Gx in Ba. rewrite Gy in Bb. exists a, b. auto. }
  destruct W as (a & b & Ha & Hb & Sq).
  assert (Big : (g_sx g <= g_sx g')%Z /\ (g_sy g <= g_sy g')%Z).
  { pose proof (box_attained (k_range m) scans box_init) as At. pose proof (box_attained (k_range m) (scans ++ added) box_init) as At'. cbv zeta in At, At'.
    fold (scans_box (k_range m) scans) in At. fold (scans_box (k_range m) (scans ++ added)) in At'.
    assert (Mono : b_maxx (scans_box (k_range m) scans) <= b_maxx (scans_box (k_range m) (scans ++ added)) /\ b_maxy (scans_box (k_range m) scans) <= b_maxy (scans_box (k_range m) (scans ++ added))).
    { unfold scans_box. rewrite fold_left_app. fold (scans_box (k_range m) scans). generalize (scans_box (k_range m) scans). clear. induction added as [|s l IH]; intro bx; cbn [fold_left]; [split; lra|].
      destruct (IH (box_step (k_range m) bx s)) as [I1 I2]. unfold box_step in *. cbn [b_maxx b_maxy] in *. rewrite !Rmax_def in *. pose proof (Rmax_r (nadd (pox (s_pose s)) (k_range m)) (b_maxx bx)). pose proof (Rmax_r (nadd (poy (s_pose s)) (k_range m)) (b_maxy bx)). lra. }
    pose proof B as B0. apply add_scans_run in B0. cbv zeta in B0. destruct B0 as (g0 & g1 & N0 & R0 & Ek). rewrite Ek in K. cbn in K. injection K as ->.
    pose proof B' as B1. apply add_scans_run in B1. cbv zeta in B1. destruct B1 as (g0' & g1' & N0' & R0' & Ek'). rewrite Ek' in K'. cbn in K'. injection K' as ->.
    destruct (ndt_run_geom eig g0 g _ R0) as (_ & <- & <- & Go & Gp & _). destruct (ndt_run_geom eig g0' g' _ R0') as (_ & <- & <- & Go' & Gp' & _).
    destruct (ndt_new_cells _ _ _ _ _ g0 N0) as (_ & X0 & Y0 & _). destruct (ndt_new_cells _ _ _ _ _ g0' N0') as (_ & X0' & Y0' & _).
    assert (Hx : b_minx (scans_box (k_range m) (scans ++ added)) = b_minx (scans_box (k_range m) scans)) by congruence.
    assert (Hy : b_miny (scans_box (k_range m) (scans ++ added)) = b_miny (scans_box (k_range m) scans)) by congruence.
    clear - N0 N0' Mono Hx Hy Hr. unfold ndt_new in N0, N0'.
    apply bind_ok in N0. destruct N0 as (u & U & N0). apply bind_ok in N0. destruct N0 as (v & V & N0). injection N0 as <-.
    apply bind_ok in N0'. destruct N0' as (u' & U' & N0'). apply bind_ok in N0'. destruct N0' as (v' & V' & N0'). injection N0' as <-. cbn [g_sx g_sy].
    apply cast_unsigned_inv in U. apply cast_unsigned_inv in V. apply cast_unsigned_inv in U'. apply cast_unsigned_inv in V'.
    destruct U as [U _], V as [V _], U' as [U' _], V' as [V' _]. cbn [ntrunc RA] in *. injection U as <-. injection V as <-. injection U' as <-. injection V' as <-.
    rewrite Hx, Hy. ra. split; apply Ztrunc_le; apply Rplus_le_compat_r; unfold Rdiv; apply Rmult_le_compat_r; try (left; apply Rinv_0_lt_compat; exact Hr); lra. }
  rewrite (built_in eig m Hr scans k g a b q B K Sm Ha Hb Sq).
  rewrite (built_in eig m Hr (scans ++ added) k' g' a b q B' K' Sm') by (rewrite ?Ox, ?Oy; try assumption; lia). rewrite Ox, Oy. do 5 f_equal.
  unfold moved_points. rewrite flat_map_app, filter_app. fold (seen added).
  rewrite (none_in (in_square_b (g_ox g) (g_oy g) (k_resolution m) a b) (seen added)); [rewrite app_nil_r; reflexivity|].
  intros p Ip E. apply in_square_b_spec in E. exact (Far a b p Sq Ip E).
Qed.
Print Assumptions C166_added_partial.

(** The map of the witnesses, and a second robot pose at which nothing is seen. *)
Definition far (x : R) : scan R := mkScan 8 true (mkPose x 0 0) (mkPose 0 0 0) [].
Lemma far_points : forall x, moved_points [demo_scan; far x] = square_points.
Proof. intro x. change [demo_scan; far x] with ([demo_scan] ++ [far x]). unfold moved_points. rewrite flat_map_app. cbn [flat_map far s_pts map app]. rewrite app_nil_r. exact demo_points. Qed.
Lemma far_map : forall (x ox wd : R) (n : nat), -50 <= x <= 50 -> ox = Rmin (x - 3) (-3) -> wd = Rmax (x + 3) 3 - ox -> Ztrunc (wd / 10 + 1) = Z.of_nat n -> (1 <= n < 100)%nat ->
  exists g', add_scans eig_exact (wm 1 1 1 1) [demo_scan; far x] = Ok (with_ndt (wm 1 1 1 1) (Some g')) /\
    g_sx g' = Z.of_nat n /\ g_sy g' = 1%Z /\ g_ox g' = ox /\ g_oy g' = -3 /\ g_cs g' = 10 /\ ndt_wf g'.
Proof.
  intros x ox wd n Hx Eo Ew En Hn.
  set (g0 := mkNdt 10 (Z.of_nat n) 1 ox (-3) (repeat (@cell_new R RA) (Z.to_nat (wrap64 (Z.of_nat n * 1))))).
  assert (Hnew : ndt_new 10 wd 6 ox (-3) = Ok g0).
  { unfold ndt_new, cast_unsigned. ra. rewrite En.
    assert (E : Ztrunc (6 / 10 + 1) = 1%Z) by (rewrite Ztrunc_floor by lra; apply Zfloor_imp; cbn; lra). rewrite E.
    replace (0 <=? Z.of_nat n)%Z with true by (symmetry; apply Z.leb_le; lia). replace (Z.of_nat n <? 2 ^ 64)%Z with true by (symmetry; apply Z.ltb_lt; lia). reflexivity. }
  assert (Hw : ndt_wf g0) by (apply (ndt_new_wf _ _ _ _ _ _ Hnew); cbn [g0 g_sx g_sy]; lia).
  assert (L : ox <= -3 /\ 6 <= wd /\ 3 <= ox + wd). { subst wd. rewrite Eo. pose proof (Rmin_r (x - 3) (-3)). pose proof (Rmax_r (x + 3) 3). lra. }
  destruct (ndt_run_defined eig_exact (map NAddScan [demo_scan; far x] ++ [NCompute]) g0 Hw) as (g' & Hg).
  { intros p Hp. rewrite history_points_moved in Hp. change (added_scans (map NAddScan [demo_scan; far x] ++ [NCompute])) with [demo_scan; far x] in Hp.
    rewrite far_points in Hp. unfold square_points in Hp. cbn [In] in Hp.
    destruct (ndt_covers 10 wd 6 ox (-3) g0 p) as (i & Hi & _); try assumption; try lra; try (cbn [g0 g_sx g_sy]; lia); [| |eauto];
      repeat (destruct Hp as [<-|Hp]; [cbn [px py]; lra|]); destruct Hp. }
  exists g'. split.
  - unfold add_scans.
    assert (Bx : scans_box 3 [demo_scan; far x] = mkBox ox (Rmax (x + 3) 3) (-3) 3).
    { pose proof maxval_big. pose proof minpos_small. unfold scans_box. cbn [fold_left]. unfold box_step, box_init. cbn [b_minx b_maxx b_miny b_maxy demo_scan far s_pose pox poy]. rewrite !Rmin_def, !Rmax_def. ra.
      replace (0 - 3) with (-3) by ring. replace (0 + 3) with 3 by ring.
      rewrite (Rmin_left (-3) (bpow radix2 1024 - bpow radix2 971)) by lra. rewrite (Rmax_left 3 (bpow radix2 (-1022))) by lra. rewrite (Rmin_left (-3) (-3)), (Rmax_left 3 3) by lra. rewrite Eo. reflexivity. }
    cbn [wm k_range k_resolution]. rewrite Bx. cbn [b_minx b_maxx b_miny b_maxy]. ra. rewrite <- Ew. replace (3 - -3) with 6 by ring. rewrite Hnew. cbn [bind].
    unfold ndt_run in Hg. cbn [app map foldM ndt_step] in Hg. cbn [foldM].
    apply bind_ok in Hg. destruct Hg as (g1 & G1 & Hg). rewrite G1. cbn [bind] in Hg |- *. apply bind_ok in Hg. destruct Hg as (g2 & G2 & Hg). rewrite G2. cbn [bind] in Hg |- *. injection Hg as <-. reflexivity.
  - pose proof (ndt_run_geom eig_exact g0 g' _ Hg) as Hgeo. pose proof (same_geom_wf _ _ Hgeo Hw) as W.
    destruct Hgeo as (<- & <- & <- & <- & <- & _). repeat split; try reflexivity; apply W.
Qed.

(** A robot pose six metres to the left, from which nothing at all is seen, moves the
    corner of the map, and with it the squares the old points fall into. *)
Theorem C166_place_refuted : exists (k k' : matcher R) (g g' : ndt R) (scans added : list (scan R)) (q : point R) (l : R),
  add_scans eig_exact (wm 1 1 1 1) scans = Ok k /\ add_scans eig_exact (wm 1 1 1 1) (scans ++ added) = Ok k' /\ k_ndt k = Some g /\ k_ndt k' = Some g' /\
  seen added = [] /\ (exists i, ndt_index g (px q) (py q) = Ok i /\ (0 <= i)%Z) /\ (exists i, ndt_index g' (px q) (py q) = Ok i /\ (0 <= i)%Z) /\
  ndt_likelihood g q = Ok l /\ 0 < l /\ ndt_likelihood g' q = Ok 0.
Proof.
  destruct (demo_map eig_exact (wm 1 1 1 1) eig_exact_contract eq_refl eq_refl) as (g & Ba & [Sm O] & _).
  destruct (far_map (-6) (-9) 12 2) as (g' & Bb & Sx & Sy & Ox & Oy & Cs & W); [lra|rewrite Rmin_left; lra|rewrite Rmax_right; lra|rewrite Ztrunc_floor by lra; apply Zfloor_imp; cbn; lra|lia|].
  exists (with_ndt (wm 1 1 1 1) (Some g)), (with_ndt (wm 1 1 1 1) (Some g')), g, g', [demo_scan], [far (-6)], (mkPoint 1 1), (gauss id2 (psub (mkPoint 1 1) (mkPoint 1 1))).
  assert (L1 : ndt_likelihood g (mkPoint 1 1) = Ok (gauss id2 (psub (mkPoint 1 1) (mkPoint 1 1)))) by (apply O; cbn; lra).
  assert (P : 0 < gauss id2 (psub (mkPoint 1 1) (mkPoint 1 1))) by apply exp_pos.
  assert (Sq : in_square (g_ox g') (g_oy g') (k_resolution (wm 1 1 1 1)) 1 0 (mkPoint 1 1)) by (rewrite Ox, Oy; split; unfold in_interval; cbn; lra).
  split; [exact Ba|]. split; [exact Bb|]. split; [reflexivity|]. split; [reflexivity|]. split; [reflexivity|].
  split. { unfold ndt_likelihood in L1. apply bind_ok in L1. destruct L1 as (i & I & L1). exists i. split; [exact I|]. destruct (0 <=? i)%Z eqn:E; [apply Z.leb_le; exact E|]. injection L1 as L1. rewrite <- L1 in P. exfalso. revert P. ra. lra. }
  split. { eexists. split; [apply (ndt_index_of_square g' (mkPoint 1 1) 1 0 W); rewrite ?Cs, ?Sx, ?Sy; try lra; try lia; exact Sq|]. rewrite Sx. lia. }
  split; [exact L1|]. split; [exact P|].
  rewrite (built_in eig_exact (wm 1 1 1 1) ltac:(cbn; lra) [demo_scan; far (-6)] (with_ndt (wm 1 1 1 1) (Some g')) g' 1 0 (mkPoint 1 1) Bb eq_refl); [|rewrite Sx, Sy; cbn; lia|rewrite Sx; lia|rewrite Sy; lia|exact Sq].
  f_equal. apply score_few. rewrite count_of_run, op_points_app, op_points_map_CAdd. rewrite app_length. cbn [op_points length]. rewrite Nat.add_0_r.
  rewrite far_points, Ox, Oy. cbn [wm k_resolution]. unfold square_points. cbn [filter]. unfold in_square_b, in_interval_b. cbn [px py].
  rewrite (Rle_bool_false (-9 + 1 * 10) 0) by lra. cbn [andb]. destruct (_ && _), (_ && _), (_ && _); cbn [length INR]; lra.
Qed.
Print Assumptions C166_place_refuted.

(** A robot twenty metres to the right leaves the place alone. *)
Example C166_nonvacuous : exists (k k' : matcher R) (g g' : ndt R) (q : point R) (l : R),
  0 < k_resolution (wm 1 1 1 1) /\ fits (k_range (wm 1 1 1 1)) [demo_scan] /\ fits (k_range (wm 1 1 1 1)) ([demo_scan] ++ [far 20]) /\ not_lower [demo_scan] [far 20] /\
  add_scans eig_exact (wm 1 1 1 1) [demo_scan] = Ok k /\ add_scans eig_exact (wm 1 1 1 1) ([demo_scan] ++ [far 20]) = Ok k' /\ k_ndt k = Some g /\ k_ndt k' = Some g' /\
  (g_sx g * g_sy g < 2 ^ 31)%Z /\ (g_sx g' * g_sy g' < 2 ^ 31)%Z /\ g_sx g <> g_sx g' /\ (exists i, ndt_index g (px q) (py q) = Ok i /\ (0 <= i)%Z) /\
  seen_alike (k_resolution (wm 1 1 1 1)) (corner_of g) (corner_of g') [demo_scan] ([demo_scan] ++ [far 20]) q /\ ndt_likelihood g' q = Ok l /\ 0 < l.
Proof.
  destruct (demo_map eig_exact (wm 1 1 1 1) eig_exact_contract eq_refl eq_refl) as (g & Ba & [Sm O] & _).
  destruct (far_map 20 (-3) 26 3) as (g' & Bb & Sx & Sy & Ox & Oy & Cs & W); [lra|rewrite Rmin_right; lra|rewrite Rmax_left; lra|rewrite Ztrunc_floor by lra; apply Zfloor_imp; cbn; lra|lia|].
  assert (L1 : ndt_likelihood g (mkPoint 1 1) = Ok (gauss id2 (psub (mkPoint 1 1) (mkPoint 1 1)))) by (apply O; cbn; lra).
  assert (P : 0 < gauss id2 (psub (mkPoint 1 1) (mkPoint 1 1))) by apply exp_pos.
  assert (Big : 100 < 2 ^ 1023) by (apply Rlt_le_trans with (2 ^ 7); [lra|apply Rle_pow; [lra|lia]]).
  assert (Sm' : (g_sx g' * g_sy g' < 2 ^ 31)%Z) by (rewrite Sx, Sy; lia).
  assert (F : fits (k_range (wm 1 1 1 1)) [demo_scan]) by (intros s [<-|[]]; cbn [demo_scan s_pose pox poy wm k_range]; lra).
  assert (F' : fits (k_range (wm 1 1 1 1)) ([demo_scan] ++ [far 20])) by (intros s [<-|[<-|[]]]; cbn [demo_scan far s_pose pox poy wm k_range]; lra).
  assert (Nl : not_lower [demo_scan] [far 20]) by (intros s [<-|[]]; split; exists demo_scan; (split; [left; reflexivity|cbn; lra])).
  assert (C : exists i, ndt_index g (px (mkPoint 1 1)) (py (mkPoint 1 1)) = Ok i /\ (0 <= i)%Z).
  { pose proof L1 as L2. unfold ndt_likelihood in L2. apply bind_ok in L2. destruct L2 as (i & I & L2). exists i. split; [exact I|]. destruct (0 <=? i)%Z eqn:E; [apply Z.leb_le; exact E|]. injection L2 as L2. rewrite <- L2 in P. exfalso. revert P. ra. lra. }
  assert (Hr : 0 < k_resolution (wm 1 1 1 1)) by (cbn; lra).
  pose proof (corner eig_exact (wm 1 1 1 1) [demo_scan] _ g ltac:(discriminate) F Ba eq_refl) as [[(s1 & [<-|[]] & E1) _] [(s2 & [<-|[]] & E2) _]].
  cbn in E1, E2.
  exists (with_ndt (wm 1 1 1 1) (Some g)), (with_ndt (wm 1 1 1 1) (Some g')), g, g', (mkPoint 1 1), (gauss id2 (psub (mkPoint 1 1) (mkPoint 1 1))).
  split; [exact Hr|]. split; [exact F|]. split; [exact F'|]. split; [exact Nl|]. split; [exact Ba|]. split; [exact Bb|]. split; [reflexivity|]. split; [reflexivity|]. split; [exact Sm|]. split; [exact Sm'|].
  split. { pose proof Ba as B0. apply add_scans_run in B0. cbv zeta in B0. destruct B0 as (g0 & g1 & N0 & R0 & Ek). unfold with_ndt in Ek. injection Ek as <-.
    destruct (ndt_run_geom eig_exact g0 g _ R0) as (_ & <- & _). cbn [wm k_range k_resolution] in N0. rewrite demo_box in N0 by (cbn; lra). cbn [b_minx b_maxx b_miny b_maxy demo_scan s_pose pox poy] in N0.
    unfold ndt_new in N0. apply bind_ok in N0. destruct N0 as (u & U & N0). apply bind_ok in N0. destruct N0 as (v & V & N0). injection N0 as <-. cbn [g_sx].
    apply cast_unsigned_inv in U. destruct U as [U _]. cbn [ntrunc RA] in U. injection U as <-. rewrite Sx. ra. replace (0 + 3 - (0 - 3)) with 6 by ring. rewrite Ztrunc_floor by lra.
    assert (E : Zfloor (6 / 10 + 1) = 1%Z) by (apply Zfloor_imp; cbn; lra). rewrite E. discriminate. }
  split; [exact C|].
  split. { exists 0%Z, 0%Z, 0%Z, 0%Z. cbn [corner_of px py wm k_resolution]. rewrite Ox, Oy. replace (g_ox g) with (-3) by lra. replace (g_oy g) with (-3) by lra.
    split; [split; unfold in_interval; cbn; lra|]. split; [split; unfold in_interval; cbn; lra|]. unfold seen. rewrite flat_map_app. cbn [flat_map far s_pts map app]. rewrite !app_nil_r. apply Permutation_refl. }
  split; [|exact P].
  rewrite (C166_added_partial eig_exact (wm 1 1 1 1) _ _ g g' [demo_scan] [far 20] (mkPoint 1 1) Hr ltac:(discriminate) F F' Nl Ba Bb eq_refl eq_refl Sm Sm' C); [exact L1|]. intros a b p _ [].
Qed.
