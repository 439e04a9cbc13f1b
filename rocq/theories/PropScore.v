(** Property C142: what a score means, in terms of the points the map was built
    from; the value of a likelihood for C06 and C12; C143: which weight a
    measurement gives to which particle.  Exact arithmetic, except where said. *)

From Coq Require Import ZArith Reals List Lia Lra Bool.
From Flocq Require Import Core.
From Verif Require Import Outcome Arith TypesModel CellModel ScanModel NdtModel MatcherModel MotionModel FilterModel
  SpecStats SpecGrid SpecSearch SpecFilter SpecScore RTactics CellProofs CellProofs2 NdtProofs NdtProofs2 MatcherProofs MatcherProofs2 MatcherWitness
  FilterProofs FilterProofs2 MotionProofs OccProofs FilterWitness.
Import ListNotations.
Local Open Scope R_scope.

(** A symmetric matrix has axes. *)
Lemma axes_exist : forall (m : mat2 R) (s l : R),
  symmetric2 m -> eigenvalues2 m (s, l) -> s <= l -> 0 < l -> exists vx vy, axes m s l vx vy.
Proof.
  intros [a b b' d] s l Hs [Ht Hd] Hsl Hl. unfold symmetric2, trace2, det2 in *. cbn [m00 m01 m10 m11 fst snd] in *. subst b'.
  unfold axes. cbn [m00 m01 m10 m11].
  destruct (Req_dec b 0) as [->|Hb].
  - assert (E : (a - s) * (a - l) = 0).
    { replace ((a - s) * (a - l)) with (a * a - a * (s + l) + s * l) by ring. rewrite Ht, Hd. ring. }
    apply Rmult_integral in E. destruct E as [E|E].
    + exists 1, 0. assert (a = s) by lra. assert (d = l) by lra. subst a d. repeat split; try ring; assumption.
    + exists 0, 1. assert (a = l) by lra. assert (d = s) by lra. subst a d. repeat split; try ring; assumption.
  - assert (Ed : d = s + l - a) by lra. subst d. clear Ht.
    assert (Eb : b * b = (a - s) * (l - a)) by (replace (b * b) with (a * (s + l - a) - s * l) by lra; ring).
    assert (Hbb : 0 < b * b) by (apply Rsqr_pos_lt in Hb; exact Hb).
    set (n := b * b + (a - s) * (a - s)). assert (Hn : 0 < n) by (pose proof (Rle_0_sqr (a - s)); unfold Rsqr, n in *; lra).
    assert (En : n = (a - s) * (l - s)) by (unfold n; rewrite Eb; ring).
    assert (Has : a - s <> 0) by (intro E; rewrite E in Eb; lra).
    assert (Hls : l - s <> 0) by (intro E; rewrite E, Rmult_0_r in En; lra).
    set (r := sqrt n). assert (Hr : r * r = n) by (apply sqrt_sqrt; lra). assert (Hr0 : 0 < r) by (apply sqrt_lt_R0; exact Hn).
    exists (b / r), (- (a - s) / r).
    assert (X : b / r * (b / r) = (l - a) / (l - s)).
    { transitivity (b * b / (r * r)); [field; lra|]. rewrite Hr, En, Eb. field. split; assumption. }
    assert (Y : - (a - s) / r * (- (a - s) / r) = (a - s) / (l - s)).
    { transitivity ((a - s) * (a - s) / (r * r)); [field; lra|]. rewrite Hr, En. field. split; assumption. }
    assert (Z : b / r * (- (a - s) / r) = - b / (l - s)).
    { transitivity (- (b * (a - s)) / (r * r)); [field; lra|]. rewrite Hr, En. field. split; assumption. }
    rewrite X, Y, Z. repeat split; try assumption; try (field; assumption).
Qed.

Lemma cov_axes : forall (eig : mat2 R -> R * R) (pts : list (point R)),
  eigen_contract eig -> (3 <= length pts)%nat -> not_all_equal pts ->
  let s := fst (sorted_eig (eig (cov_matrix pts))) in
  let l := snd (sorted_eig (eig (cov_matrix pts))) in
  exists vx vy, axes (cov_matrix pts) s l vx vy.
Proof.
  intros eig pts He Hl Hne s l.
  assert (Hsym : symmetric2 (cov_matrix pts)) by (unfold symmetric2, cov_matrix; cbn; apply sample_cov_sym).
  destruct (sorted_eig_spec _ _ (He _ Hsym)) as [Ho Hev]. fold s l in Ho, Hev.
  assert (Hl0 : 0 < l) by (destruct (info_cases eig pts He Hl Hne) as (_ & H & _); exact H).
  apply axes_exist; assumption.
Qed.

(** What a computed cell with five or more points, not all equal, gives a point. *)
Lemma cell_cloud : forall (eig : mat2 R -> R * R) (ops : list (cell_op R)) (q : point R),
  eigen_contract eig -> (5 <= length (op_points ops))%nat -> not_all_equal (op_points ops) ->
  cloud_likelihood (op_points ops) q (cell_score (cell_run eig (ops ++ [CCompute])) q).
Proof.
  intros eig ops q He Hl Hne. set (pts := op_points ops) in *.
  rewrite run_score by exact Hl. fold pts.
  destruct (cov_axes eig pts He ltac:(lia) Hne) as (vx & vy & Hax).
  destruct (info_cases eig pts He ltac:(lia) Hne) as (Hsl & Hlp & Hev & _ & Hc). cbv zeta in Hax, Hsl, Hlp, Hev, Hc.
  set (s := fst (sorted_eig (eig (cov_matrix pts)))) in *. set (l := snd (sorted_eig (eig (cov_matrix pts)))) in *.
  exists s, l, vx, vy. split; [exact Hax|]. cbv zeta. set (d := psub q (mean_point pts)).
  destruct Hax as (Hv & _ & _ & D00 & D11 & D01 & D10). unfold gauss.
  destruct Hc as [(Hc & Hq)|(Hc & Hdet & Ew & _)].
  - right. split; [lra|]. f_equal. f_equal. rewrite Hq, D00, D01, D11. field. lra.
  - left. split; [lra|]. f_equal. f_equal. rewrite Ew. assert (0 < s) by lra.
    assert (Ed : det2 (cov_matrix pts) = s * l) by (destruct Hev as [_ E]; cbn [fst snd] in E; lra).
    unfold quad2, mat2_inverse, mat2_det. ra. cbn [m00 m01 m10 m11].
    replace (m00 (cov_matrix pts) * m11 (cov_matrix pts) - m10 (cov_matrix pts) * m01 (cov_matrix pts)) with (s * l)
      by (rewrite <- Ed; unfold det2; ring).
    rewrite D00, D01, D10, D11. field. lra.
Qed.

(** C06: what an ill-conditioned cell gives instead (the second case of
    [cloud_likelihood]); together with the first case, C05. *)
Theorem C06_score_partial : forall (eig : mat2 R -> R * R) (ops : list (cell_op R)) (q : point R),
  eigen_contract eig -> likelihood_in (op_points ops) q (cell_score (cell_run eig (ops ++ [CCompute])) q).
Proof.
  intros eig ops q He. split.
  - intro Hl. apply run_few_score. rewrite op_points_compute. exact Hl.
  - intros Hl Hne. apply cell_cloud; assumption.
Qed.
Print Assumptions C06_score_partial.

(** C12: the value of a likelihood. *)
Theorem C12_point_likelihood :
  forall (eig : mat2 R -> R * R) (cs sx sy ox oy : R) (g h : ndt R) (ops : list (ndt_op R)) (p : point R) (v : R),
  eigen_contract eig -> 0 < cs -> ndt_new cs sx sy ox oy = Ok g -> (g_sx g * g_sy g < 2 ^ 31)%Z ->
  ndt_run eig g (ops ++ [NCompute]) = Ok h -> ndt_likelihood h p = Ok v ->
  map_likelihood ox oy cs (g_sx g) (g_sy g) (moved_points (added_scans ops)) p v.
Proof.
  intros eig cs sx sy ox oy g h ops p v He Hcs Hnew Hn Hrun Hv.
  pose proof (ndt_new_wf _ _ _ _ _ g Hnew Hn) as Hw.
  destruct (ndt_new_cells _ _ _ _ _ g Hnew) as (Ecs & Eox & Eoy & _).
  pose proof (ndt_run_geom eig g h _ Hrun) as Hg. pose proof (same_geom_wf g h Hg Hw) as Hwh.
  destruct Hg as (G1 & G2 & G3 & G4 & G5 & _).
  assert (Hcsh : 0 < g_cs h) by congruence.
  unfold ndt_likelihood in Hv. apply bind_ok in Hv. destruct Hv as (i & Hi & Hv). split.
  - intros a b Ha Hb Hin.
    rewrite (ndt_index_of_square h p a b Hwh Hcsh) in Hi by (rewrite <- ?Ecs, <- ?Eox, <- ?Eoy in *; congruence).
    injection Hi as <-.
    destruct (ndt_cell_contents eig cs sx sy ox oy g h ops a b Hcs Hnew Hn Hrun Ha Hb) as (c & Hc & _ & _ & _ & Hs).
    destruct (Z.leb_spec 0 (b * g_sx h + a)); [|nia].
    replace (g_sx h) with (g_sx g) in Hv by congruence. rewrite Hc in Hv. cbn [bind] in Hv. injection Hv as <-.
    rewrite Hs. set (pts := filter _ _).
    pose proof (C06_score_partial eig (map CAdd pts) p He) as K. rewrite op_points_map_CAdd in K. exact K.
  - intro Hout. destruct (Z.leb_spec 0 i) as [Hi0|Hi0]; [|injection Hv as <-; reflexivity].
    exfalso. destruct (ndt_index_square h p i Hwh Hcsh Hi Hi0) as (a & b & Hin & Ha & Hb & _).
    apply (Hout a b); congruence.
Qed.
Print Assumptions C12_point_likelihood.

(** The beams that are looked at, in exact arithmetic. *)
Lemma beams_exact : forall (m : matcher R) (pts bp : list (point R)),
  (1 <= k_beams m)%Z -> pts <> [] -> beam_points m pts = Ok bp ->
  exists idxs, evenly (length pts) (Nat.min (Z.to_nat (k_beams m)) (length pts)) idxs /\
    Forall2 (fun i p => nth_error pts i = Some p) idxs bp.
Proof.
  intros m pts bp Hb Hp H. pose proof (beams_used_pos m pts Hb Hp) as Hu.
  set (u := beams_used m pts) in *.
  assert (Eu : Z.to_nat u = Nat.min (Z.to_nat (k_beams m)) (length pts)) by (unfold u, beams_used; lia).
  rewrite <- Eu. unfold beam_points in H. fold u in H.
  assert (Hl0 : 0 < INR (length pts)) by (apply lt_0_INR; destruct pts; [congruence|cbn; lia]).
  assert (Hu0 : 0 < IZR u) by (apply IZR_lt; lia).
  assert (G : forall k a bp, mapM (fun i => bind (beam_index (scan_step_size m pts) i) (fun idx => vec_get pts idx)) (map Z.of_nat (seq a k)) = Ok bp ->
    exists idxs, length idxs = k /\
      (forall i j, nth_error idxs i = Some j -> INR j <= INR (a + i) * INR (length pts) / INR (Z.to_nat u) < INR j + 1) /\
      Forall2 (fun i p => nth_error pts i = Some p) idxs bp).
  { induction k as [|k IH]; intros a bp' H'; cbn [seq map mapM] in H'.
    - injection H' as <-. exists []. split; [reflexivity|]. split; [|constructor]. intros [|i] j; discriminate.
    - apply bind_ok in H'. destruct H' as (p & Hip & H'). apply bind_ok in Hip. destruct Hip as (idx & Hidx & Hget).
      apply bind_ok in H'. destruct H' as (ps & Hps & H'). injection H' as <-.
      destruct (IH (S a) ps Hps) as (idxs & Hlen & Hnear & Hf).
      unfold vec_get in Hget. destruct (Z.ltb_spec idx 0) as [?|H0]; [discriminate|].
      destruct (nth_error pts (Z.to_nat idx)) as [p'|] eqn:En; [|discriminate]. injection Hget as <-.
      exists (Z.to_nat idx :: idxs). split; [cbn; lia|]. split.
      + intros [|i] j Hij; cbn [nth_error] in Hij.
        * injection Hij as <-. rewrite Nat.add_0_r.
          unfold beam_index, cast_unsigned in Hidx. cbn [ntrunc RA] in Hidx.
          destruct (_ && _) eqn:E; [|discriminate]. injection Hidx as Hidx.
          unfold scan_step_size in Hidx. fold u in Hidx. ra_in Hidx.
          assert (Q : 0 <= IZR (Z.of_nat a) * (IZR (Z.of_nat (length pts)) / IZR u)).
          { rewrite <- !INR_IZR_INZ. apply Rmult_le_pos; [apply pos_INR|]. apply Rmult_le_pos; [lra|]. left. apply Rinv_0_lt_compat. exact Hu0. }
          rewrite Ztrunc_floor in Hidx by exact Q.
          rewrite !INR_IZR_INZ, !Z2Nat.id by lia.
          replace (IZR (Z.of_nat a) * IZR (Z.of_nat (length pts)) / IZR u) with (IZR (Z.of_nat a) * (IZR (Z.of_nat (length pts)) / IZR u)) by (field; lra).
          rewrite <- Hidx. split; [apply Zfloor_lb|apply Zfloor_ub].
        * replace (a + S i)%nat with (S a + i)%nat by lia. apply Hnear. exact Hij.
      + constructor; assumption. }
  destruct (G (Z.to_nat u) 0%nat bp H) as (idxs & H1 & H2 & H3). exists idxs. split; [|exact H3]. split; [exact H1|].
  intros i j Hij. apply (H2 i j Hij).
Qed.

(** C142: on a map built by addScans the score of points at a pose is minus the
    mean likelihood, over the beams looked at, of the beams moved to the pose. *)
Theorem C142_score_points :
  forall (eig : mat2 R -> R * R) (m0 m : matcher R) (g : ndt R) (scans : list (scan R)) (pts : list (point R)) (q : pose R) (v : R),
  eigen_contract eig -> 0 < k_resolution m0 -> add_scans eig m0 scans = Ok m -> k_ndt m = Some g ->
  (g_sx g * g_sy g < 2 ^ 31)%Z -> (1 <= k_beams m0)%Z -> pts <> [] ->
  score_points m pts q = Ok v ->
  score_is (g_ox g) (g_oy g) (k_resolution m0) (g_sx g) (g_sy g) (moved_points scans) (Z.to_nat (k_beams m0)) pts q v.
Proof.
  intros eig m0 m g scans pts q v He Hres Hadd Hg Hn Hb Hp Hv.
  pose proof (add_scans_run _ _ _ _ Hadd) as H. cbv zeta in H. destruct H as (g0 & g' & H0 & Hrun & ->).
  cbn in Hg. injection Hg as ->.
  pose proof (ndt_run_geom eig g0 g _ Hrun) as Hgeo.
  destruct (ndt_new_cells _ _ _ _ _ g0 H0) as (_ & Eox & Eoy & _).
  destruct Hgeo as (_ & Gx & Gy & Gox & Goy & _).
  assert (Hn0 : (g_sx g0 * g_sy g0 < 2 ^ 31)%Z) by (rewrite Gx, Gy; exact Hn).
  apply (score_points_spec (with_ndt m0 (Some g)) g pts q v eq_refl) in Hv. destruct Hv as (bp & l & Hbp & Hl & ->).
  pose proof (beam_points_length _ _ _ Hbp) as Hlen.
  destruct (beams_exact _ pts bp Hb Hp Hbp) as (idxs & Hev & Hf).
  apply likelihood_points_spec in Hl. destruct Hl as (ls & Hls & ->).
  exists idxs, bp, ls. split; [exact Hev|]. split; [exact Hf|]. split.
  - assert (G : forall p x, ndt_likelihood g p = Ok x ->
      map_likelihood (g_ox g) (g_oy g) (k_resolution m0) (g_sx g) (g_sy g) (moved_points scans) p x).
    { intros p x Hx. pose proof (C12_point_likelihood eig _ _ _ _ _ g0 g (map NAddScan scans) p x He Hres H0 Hn0 Hrun Hx) as K.
      rewrite added_scans_map, <- Eox, <- Eoy, Gx, Gy, Gox, Goy in K. exact K. }
    clear - Hls G. revert ls Hls. induction bp as [|p bp IH]; intros ls Hls; cbn [map] in Hls; inversion Hls; subst; constructor; auto.
  - assert (Ll : length ls = length bp) by (apply Forall2_len in Hls; rewrite map_length in Hls; congruence).
    unfold average. rewrite Ll, Hlen, INR_IZR_INZ, Z2Nat.id by (unfold beams_used; cbn; lia).
    unfold Rdiv. ring.
Qed.
Print Assumptions C142_score_points.

(** A scan is scored at its own pose. *)
Theorem C142_score_scan : forall (m : matcher R) (s : scan R), score_scan m s = score_points m (s_pts s) (s_pose s).
Proof. reflexivity. Qed.
Print Assumptions C142_score_scan.

(** The score matchScan reports is that of the pose it reports. *)
Theorem C142_match_scan :
  forall (eig : mat2 R -> R * R) (fuel : nat) (m0 m : matcher R) (g : ndt R) (scans : list (scan R)) (s : scan R)
    (p p' : pose R) (cov cov' : mat3 R) (r : R),
  eigen_contract eig -> 0 < k_resolution m0 -> add_scans eig m0 scans = Ok m -> k_ndt m = Some g ->
  (g_sx g * g_sy g < 2 ^ 31)%Z -> (1 <= k_beams m0)%Z -> 0 < k_ang_res m0 -> 0 < k_lin_res m0 -> s_pts s <> [] ->
  match_scan fuel m s p cov = Ok (r, p', cov') -> r < 0 ->
  score_is (g_ox g) (g_oy g) (k_resolution m0) (g_sx g) (g_sy g) (moved_points scans) (Z.to_nat (k_beams m0)) (s_pts s)
    (mkPose (pox (s_pose s) + pox p') (poy (s_pose s) + poy p') (poth (s_pose s) + poth p')) r.
Proof.
  intros eig fuel m0 m g scans s p p' cov cov' r He Hres Hadd Hg Hn Hb Hra Hrl Hp Hm Hr.
  pose proof (add_scans_run _ _ _ _ Hadd) as H. cbv zeta in H. destruct H as (g0 & g' & _ & _ & Em).
  destruct (match_scan_best fuel m g s p p' cov cov' r Hg) as (_ & [(E & _)|(pre & post & _ & _ & Hv & _)]); try (subst m; assumption); [lra|].
  exact (C142_score_points eig m0 m g scans (s_pts s) _ r He Hres Hadd Hg Hn Hb Hp Hv).
Qed.
Print Assumptions C142_match_scan.

(** A map and a scan with a negative score. *)
Example C142_nonvacuous : exists m g,
  eigen_contract eig_exact /\ add_scans eig_exact (wm 1 1 1 1) [demo_scan] = Ok m /\ k_ndt m = Some g /\
  (g_sx g * g_sy g < 2 ^ 31)%Z /\ score_points m (s_pts probe) (s_pose probe) = Ok (-1) /\
  exists r p' cov', match_scan 3 m probe pose0 mat3_zero = Ok (r, p', cov') /\ r < 0.
Proof.
  destruct (fine_search eig_exact pose0 mat3_zero eig_exact_contract) as (m & g & r & p' & cov' & H1 & H2 & H3 & _ & H5 & H6 & c & Hc & Hs).
  exists m, g. split; [exact eig_exact_contract|]. split; [exact H1|]. split; [exact H2|]. split; [exact H3|]. split; [exact H6|].
  exists r, p', cov'. split; [exact H5|].
  pose proof (add_scans_run _ _ _ _ H1) as H. cbv zeta in H. destruct H as (g0 & g' & _ & _ & Em).
  destruct (match_scan_best 3 m g probe pose0 p' mat3_zero cov' r H2) as (Hall & _); try (subst m; cbn; lra || lia); [discriminate|exact H5|].
  destruct (Hall c Hc) as (v & Hv & Hle). rewrite Hs in Hv. injection Hv as <-. lra.
Qed.

(** C143: a measurement moves no particle and gives each one its own share of
    the scores; a motion update leaves the weights alone; init gives all the same.
    The first one in every arithmetic. *)
Theorem C143_measure : forall {T} {A : Arith T} (score : pose T -> outcome T) (f f' : pfilter T),
  length (pf_wts f) = length (pf_parts f) -> filter_measure score f = Ok f' ->
  pf_parts f' = pf_parts f /\
  exists ss, Forall2 (fun p s => score (mkPose (v0 p) (v1 p) (v2 p)) = Ok s) (pf_parts f) ss /\
    pf_wts f' = map (fun s => ndiv s (fold_left nadd ss nzero)) ss.
Proof.
  intros T A score f f' L E. unfold filter_measure in E. rewrite L, Nat.ltb_irrefl in E.
  apply bind_ok in E. destruct E as (ws & Hw & E). rewrite <- L, skipn_all, app_nil_r in E.
  unfold update_stats in E. apply bind_ok in E. destruct E as (pw & _ & E). injection E as <-. cbn [with_parts pf_parts pf_wts].
  split; [reflexivity|]. exists ws. split; [apply mapM_Forall2; exact Hw|reflexivity].
Qed.
Print Assumptions C143_measure.

Theorem C143_shares : forall (score : pose R -> outcome R) (f f' : pfilter R),
  length (pf_wts f) = length (pf_parts f) -> filter_measure score f = Ok f' ->
  exists ss, Forall2 (fun p s => score (mkPose (v0 p) (v1 p) (v2 p)) = Ok s) (pf_parts f') ss /\
    Forall2 (fun s w => w = s / total ss) ss (pf_wts f').
Proof.
  intros score f f' L E. destruct (C143_measure score f f' L E) as (-> & ss & H1 & ->). exists ss. split; [exact H1|].
  replace (fold_left nadd ss nzero) with (total ss) by (change (fold_left nadd ss nzero) with (fold_left Rplus ss 0); rewrite fold_total; ring).
  generalize (total ss). intro t. clear. induction ss as [|s ss IH]; cbn [map]; constructor; [reflexivity|exact IH].
Qed.
Print Assumptions C143_shares.

Theorem C143_update : forall (normal : @normal_source R) (dx dy dth : R) (f f' : pfilter R),
  total (pf_wts f) = 1 -> filter_update normal dx dy dth f = Ok f' -> pf_wts f' = pf_wts f.
Proof.
  intros normal dx dy dth f f' H1 E. unfold filter_update, update_stats in E. cbn [with_parts pf_parts pf_wts] in E.
  apply bind_ok in E. destruct E as (pw & _ & E). injection E as <-. cbn [pf_wts].
  change (fold_left nadd (pf_wts f) nzero) with (fold_left Rplus (pf_wts f) 0). rewrite fold_total, H1, Rplus_0_l.
  rewrite <- (map_id (pf_wts f)) at 2. apply map_ext. intro w. ra. field.
Qed.
Print Assumptions C143_update.

Theorem C143_init : forall (normal : @normal_source R) (x y th sx sy sth : R) (f f' : pfilter R),
  pf_parts f <> [] -> filter_init normal x y th sx sy sth f = Ok f' ->
  length (pf_parts f') = length (pf_parts f) /\ length (pf_wts f') = length (pf_parts f) /\
  Forall (fun w => w = 1 / INR (length (pf_parts f))) (pf_wts f').
Proof.
  intros normal x y th sx sy sth f f' Hne E. unfold filter_init in E. set (ps := map_i _ _ _) in E.
  assert (Lp : length ps = length (pf_parts f)) by (unfold ps; apply map_i_length).
  assert (H0 : 0 < INR (length (pf_parts f))) by (apply lt_0_INR; destruct (pf_parts f); [congruence|cbn; lia]).
  unfold update_stats in E. cbn [with_parts pf_parts pf_wts] in E.
  apply bind_ok in E. destruct E as (pw & _ & E). injection E as <-. cbn [pf_parts pf_wts].
  rewrite map_length, repeat_length, Lp. split; [reflexivity|]. split; [reflexivity|].
  rewrite <- INR_IZR_INZ.
  set (w := 1 / INR (length (pf_parts f))). assert (Ew : w = 1 / INR (length (pf_parts f))) by reflexivity. clearbody w.
  assert (Et : fold_left Rplus (repeat w (length (pf_parts f))) 0 = 1).
  { rewrite fold_total, Rplus_0_l.
    assert (G : forall n, total (repeat w n) = INR n * w).
    { induction n as [|n IH]; cbn [repeat]; [cbn; ring|]. rewrite S_INR. unfold total in *. cbn [fold_right]. rewrite IH. ring. }
    rewrite G, Ew. field. lra. }
  rewrite Et. apply Forall_forall. intros y' Hy. apply in_map_iff in Hy. destruct Hy as (z & <- & Hz). apply repeat_spec in Hz. subst z.
  field.
Qed.
Print Assumptions C143_init.

(** Two particles, scored -1 and -2. *)
Example C143_nonvacuous :
  let f := mkFilter 2 2 still [mkVec3 0 0 0; mkVec3 1 0 0] [1 / 2; 1 / 2] (mkVec3 0 0 0) mat3_zero in
  total (pf_wts f) = 1 /\ length (pf_wts f) = length (pf_parts f) /\
  exists f', filter_measure (fun p => Ok (- (1 + pox p))) f = Ok f' /\ pf_wts f' = [1 / 3; 2 / 3].
Proof.
  cbv zeta. split; [cbn; lra|]. split; [reflexivity|].
  unfold filter_measure. cbn [pf_wts pf_parts length Nat.ltb Nat.leb mapM bind v0 v1 v2 pox skipn app].
  destruct (update_stats _) as [f'|e] eqn:E.
  - exists f'. split; [reflexivity|]. unfold update_stats in E. cbn [with_parts pf_parts pf_wts] in E.
    apply bind_ok in E. destruct E as (pw & _ & E). injection E as <-. cbn [pf_wts map fold_left]. ra. f_equal; [field; lra|f_equal; field; lra].
  - exfalso. unfold update_stats in E. cbn in E. discriminate E.
Qed.
