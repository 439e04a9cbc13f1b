(** More about the NDT grid: definedness, contents in terms of squares, witnesses. *)

From Coq Require Import ZArith Reals List Bool Lia Lra Psatz Permutation.
From Flocq Require Import Core BinarySingleNaN.
From Verif Require Import Outcome Arith TypesModel CellModel ScanModel NdtModel
  SpecStats SpecGrid SumLemmas RTactics CellProofs CellProofs2 NdtProofs.
Import ListNotations.

Section Generic.
Context {T : Type} {A : Arith T}.

(** A history whose points all have an index never faults. *)
Lemma ndt_add_points_defined (ps : list (point T)) :
  forall g : ndt T, ndt_wf g ->
  (forall p, In p ps -> exists i, ndt_index g (px p) (py p) = Ok i) ->
  exists h, foldM ndt_add_point g ps = Ok h.
Proof.
  induction ps as [|p ps IH]; intros g Hw Hp; cbn [foldM]; [eexists; reflexivity|].
  destruct (Hp p (or_introl eq_refl)) as [i Hi].
  destruct (ndt_add_point g p) as [g1|f] eqn:E.
  - cbn [bind]. pose proof (ndt_add_point_geom g g1 p E) as Hg.
    apply IH; [eapply same_geom_wf; eassumption|].
    intros q Hq. rewrite <- (same_geom_index g g1 _ _ Hg). apply Hp. right; exact Hq.
  - exfalso. unfold ndt_add_point in E. rewrite Hi in E. cbn [bind] in E.
    destruct (0 <=? i)%Z eqn:Ei; [|discriminate].
    destruct (ndt_index_bounds g _ _ i Hw Hi) as [En|B]; [subst i; discriminate|].
    unfold vec_update in E. destruct (vec_get_ok (g_cells g) i B) as (c & Hc & _).
    rewrite Hc in E. discriminate.
Qed.

Lemma ndt_run_defined (eig : mat2 T -> T * T) (ops : list (ndt_op T)) :
  forall g : ndt T, ndt_wf g ->
  (forall p, In p (history_points ops) -> exists i, ndt_index g (px p) (py p) = Ok i) ->
  exists h, ndt_run eig g ops = Ok h.
Proof.
  unfold ndt_run. induction ops as [|o ops IH]; intros g Hw Hp; cbn [foldM]; [eexists; reflexivity|].
  cbn [history_points flat_map] in Hp. fold (history_points ops) in Hp.
  destruct o as [s|]; cbn [ndt_step].
  - destruct (ndt_add_points_defined (map (place (s_pose s)) (s_pts s)) g Hw) as [g1 E].
    + intros p Hi. apply Hp. apply in_or_app. left; exact Hi.
    + unfold ndt_add_scan. rewrite E. cbn [bind].
      assert (Hg : same_geom g g1) by (apply (ndt_add_scan_geom g g1 s); exact E).
      apply IH; [eapply same_geom_wf; eassumption|].
      intros q Hq. rewrite <- (same_geom_index g g1 _ _ Hg). apply Hp. apply in_or_app. right; exact Hq.
  - cbn [bind]. pose proof (ndt_compute_geom eig g) as Hg.
    apply IH; [eapply same_geom_wf; eassumption|].
    intros q Hq. rewrite <- (same_geom_index g _ _ _ Hg). apply Hp. exact Hq.
Qed.

(** Exactly when the index computation is undefined. *)
Definition cell_coordinate_ok (q : T) : Prop := exists z, ntrunc q = Some z /\ (0 <= z < 2 ^ 32)%Z.

Lemma cast_unsigned_defined (bits : Z) (q : T) :
  (exists z, ntrunc q = Some z /\ (0 <= z < 2 ^ bits)%Z) <-> exists z, cast_unsigned bits q = Ok z.
Proof.
  split.
  - intros (z & Hz & B). exists z. unfold cast_unsigned. rewrite Hz.
    rewrite (proj2 (Z.leb_le 0 z)) by lia. rewrite (proj2 (Z.ltb_lt z _)) by lia. reflexivity.
  - intros (z & Hz). apply cast_unsigned_inv in Hz. exists z. exact Hz.
Qed.

Lemma ndt_index_defined (g : ndt T) (x y : T) :
  (exists i, ndt_index g x y = Ok i) <->
  (nlt x (g_ox g) = true \/ nlt y (g_oy g) = true \/
   (cell_coordinate_ok (ndiv (nsub x (g_ox g)) (g_cs g)) /\
    cell_coordinate_ok (ndiv (nsub y (g_oy g)) (g_cs g)))).
Proof.
  unfold ndt_index, cell_coordinate_ok.
  destruct (nlt x (g_ox g)); cbn [orb]; [split; intros; [left; reflexivity|eexists; reflexivity]|].
  destruct (nlt y (g_oy g)); cbn [orb]; [split; intros; [right; left; reflexivity|eexists; reflexivity]|].
  rewrite !cast_unsigned_defined. split.
  - intros (i & H). right; right.
    apply bind_ok in H. destruct H as (gx & Hgx & H). apply bind_ok in H. destruct H as (gy & Hgy & H).
    split; eexists; eassumption.
  - intros [H|[H|((gx & Hgx) & (gy & Hgy))]]; try discriminate.
    rewrite Hgx, Hgy. cbn [bind].
    destruct ((g_sx g <=? gx)%Z || (g_sy g <=? gy)%Z); eexists; reflexivity.
Qed.

(** Scans added by a history. *)
Definition added_scans (ops : list (ndt_op T)) : list (scan T) :=
  flat_map (fun o => match o with NAddScan s => [s] | NCompute => [] end) ops.

Lemma history_points_scans (ops : list (ndt_op T)) :
  history_points ops = flat_map (fun s => map (place (s_pose s)) (s_pts s)) (added_scans ops).
Proof.
  unfold history_points, added_scans.
  induction ops as [|o ops IH]; cbn [flat_map]; [reflexivity|].
  destruct o as [s|]; cbn [flat_map app]; rewrite IH; reflexivity.
Qed.

End Generic.

(** A coordinate that is not a number is undefined behaviour, for every map. *)
Lemma ndt_index_nan (lm : libm) (g : ndt b64) (y : b64) :
  Bltb y (g_oy g) = false ->
  ndt_index (A := BA lm) g b64_nan y = Fault BadCast.
Proof.
  intros Hy. unfold ndt_index. cbn [nlt BA]. rewrite Hy.
  replace (Bltb b64_nan (g_ox g)) with false by (destruct (g_ox g); reflexivity).
  cbn [orb]. unfold cast_unsigned at 1. cbn [ntrunc ndiv nsub BA].
  replace (Bdiv mode_NE (Bminus mode_NE b64_nan (g_ox g)) (g_cs g)) with b64_nan; [reflexivity|].
  destruct (g_ox g); destruct (g_cs g); reflexivity.
Qed.

Local Open Scope R_scope.

Definition moved_points (scans : list (scan R)) : list (point R) :=
  flat_map (fun s => map (move (s_pose s)) (s_pts s)) scans.

Lemma history_points_moved (ops : list (ndt_op R)) :
  history_points ops = moved_points (added_scans ops).
Proof.
  rewrite history_points_scans. unfold moved_points. apply flat_map_ext. intros s.
  apply map_ext. intros q. apply place_move.
Qed.

Lemma ndt_cell_contents (eig : mat2 R -> R * R) (cs sx sy ox oy : R) (g h : ndt R) (ops : list (ndt_op R)) (a b : Z) :
  0 < cs -> ndt_new cs sx sy ox oy = Ok g -> (g_sx g * g_sy g < 2 ^ 31)%Z ->
  ndt_run eig g (ops ++ [NCompute]) = Ok h -> (0 <= a < g_sx g)%Z -> (0 <= b < g_sy g)%Z ->
  let pts := filter (in_square_b ox oy cs a b) (moved_points (added_scans ops)) in
  exists c, vec_get (g_cells h) (b * g_sx g + a) = Ok c /\
    c_n c = INR (length pts) /\
    (pts <> [] -> c_mean c = mean_point pts) /\
    ((3 <= length pts)%nat -> c_cov c = cov_matrix pts) /\
    (forall q, cell_score c q = cell_score (cell_run eig (map CAdd pts ++ [CCompute])) q).
Proof.
  intros Hcs Hnew Hn Hrun Ha Hb pts.
  pose proof (ndt_new_wf _ _ _ _ _ g Hnew Hn) as Hw.
  destruct (ndt_new_cells _ _ _ _ _ g Hnew) as (Ecs & Eox & Eoy & Hall).
  destruct (ndt_run_geom eig g h _ Hrun) as (_ & _ & _ & _ & _ & Hlen).
  set (k := Z.to_nat (b * g_sx g + a)).
  assert (Hpos : (0 <= b * g_sx g + a < g_sx g * g_sy g)%Z) by nia.
  assert (Hkl : (k < length (g_cells g))%nat).
  { destruct Hw as (_ & _ & _ & Hl). unfold k. lia. }
  destruct (nth_error (g_cells g) k) as [c0|] eqn:Ec0; [|apply nth_error_None in Ec0; lia].
  pose proof (Hall c0 (nth_error_In _ _ Ec0)) as ->.
  pose proof (ndt_run_cell eig _ g h k _ Hw Hrun Ec0) as Hk'.
  assert (Eh : cell_history g k (ops ++ [NCompute]) = cell_history g k ops ++ [CCompute]).
  { unfold cell_history. rewrite flat_map_app. reflexivity. }
  rewrite Eh in Hk'. fold (cell_run eig (cell_history g k ops ++ [CCompute])) in Hk'.
  assert (Epts : op_points (cell_history g k ops) = pts).
  { rewrite cell_history_points, history_points_moved. unfold pts. apply filter_ext. intros q.
    unfold k. rewrite in_cell_square; try assumption; [|rewrite Ecs; exact Hcs].
    rewrite Eox, Eoy, Ecs. reflexivity. }
  exists (cell_run eig (cell_history g k ops ++ [CCompute])). split.
  { unfold vec_get. fold k. rewrite Hk'. destruct (Z.ltb_spec (b * g_sx g + a) 0); [lia|reflexivity]. }
  rewrite <- Epts. split; [|split; [|split]].
  - rewrite count_of_run, op_points_compute. reflexivity.
  - intros Hne. rewrite mean_of_run by (rewrite op_points_compute; exact Hne).
    rewrite op_points_compute. reflexivity.
  - intros H3. apply run_compute_stats. exact H3.
  - apply order_independent. rewrite op_points_map_CAdd. apply Permutation_refl.
Qed.

(** Point sets without coincident squares leave no degenerate cell. *)
Lemma in_cell_square_of (g : ndt R) (k : nat) :
  ndt_wf g -> 0 < g_cs g ->
  (forall q, in_cell g k q = false) \/
  exists a b, forall q, in_cell g k q = in_square_b (g_ox g) (g_oy g) (g_cs g) a b q.
Proof.
  intros Hw Hcs. pose proof Hw as (Hx & Hy & Hn & Hl).
  destruct (Z_lt_le_dec (Z.of_nat k) (g_sx g * g_sy g)) as [Hk|Hk].
  - right. assert (Hpos : (0 < g_sx g)%Z) by nia.
    exists (Z.of_nat k mod g_sx g)%Z, (Z.of_nat k / g_sx g)%Z. intros q.
    pose proof (Z.mod_pos_bound (Z.of_nat k) (g_sx g) Hpos) as Hm.
    assert (Hd : (0 <= Z.of_nat k / g_sx g < g_sy g)%Z).
    { split; [apply Z.div_pos; lia|]. apply Z.div_lt_upper_bound; lia. }
    rewrite <- (in_cell_square g _ _ q Hw Hcs Hm Hd). f_equal.
    rewrite (Z.mul_comm _ (g_sx g)), <- Z.div_mod by lia. lia.
  - left. intros q. unfold in_cell. destruct (ndt_index g (px q) (py q)) as [i|f] eqn:E; [|reflexivity].
    apply Z.eqb_neq. destruct (ndt_index_bounds g _ _ i Hw E) as [->|Hi]; lia.
Qed.

Lemma spread_nondegenerate (cs sx sy ox oy : R) (g : ndt R) (ops : list (ndt_op R)) :
  0 < cs -> ndt_new cs sx sy ox oy = Ok g -> (g_sx g * g_sy g < 2 ^ 31)%Z ->
  spread_in_squares ox oy cs (moved_points (added_scans ops)) -> nondegenerate g (history_points ops).
Proof.
  intros Hcs Hnew Hn Hsp k. rewrite history_points_moved.
  destruct (ndt_new_cells _ _ _ _ _ g Hnew) as (Ecs & Eox & Eoy & _).
  destruct (in_cell_square_of g k (ndt_new_wf _ _ _ _ _ g Hnew Hn)) as [H|(a & b & H)]; [rewrite Ecs; exact Hcs| |].
  - left. rewrite (filter_ext _ (fun _ => false) H). clear.
    induction (moved_points (added_scans ops)) as [|x l IH]; cbn; [lia|exact IH].
  - rewrite (filter_ext _ _ H), Ecs, Eox, Eoy. apply Hsp.
Qed.

(** Everything C12 says about point sets. *)
Lemma ndt_likelihood_summary (eig : mat2 R -> R * R) (cs sx sy ox oy : R) (g h : ndt R) (ops : list (ndt_op R)) :
  eigen_contract eig -> 0 < cs -> ndt_new cs sx sy ox oy = Ok g -> (g_sx g * g_sy g < 2 ^ 31)%Z ->
  ndt_run eig g (ops ++ [NCompute]) = Ok h ->
  spread_in_squares ox oy cs (moved_points (added_scans ops)) ->
  (forall p v, ndt_likelihood h p = Ok v -> 0 <= v <= 1) /\
  (forall pts v, ndt_likelihood_points h pts = Ok v ->
    (exists vs, Forall2 (fun p x => ndt_likelihood h p = Ok x) pts vs /\ v = sumf (fun x => x) vs) /\
    0 <= v <= INR (length pts)) /\
  (forall p pts, ndt_index h (px p) (py p) = Ok (-1)%Z ->
    ndt_likelihood_points h (p :: pts) = ndt_likelihood_points h pts) /\
  (forall pts pts' v, Permutation pts pts' -> ndt_likelihood_points h pts = Ok v ->
    ndt_likelihood_points h pts' = Ok v) /\
  (forall s, ndt_likelihood_scan h s = ndt_likelihood_points h (map (move (s_pose s)) (s_pts s))).
Proof.
  intros He Hcs Hnew Hn Hrun Hsp.
  pose proof (spread_nondegenerate _ _ _ _ _ g ops Hcs Hnew Hn Hsp) as Hnd.
  pose proof (ndt_run_scored eig _ _ _ _ _ g h ops He Hnew Hn Hrun Hnd) as Hs.
  split; [intros p v; apply likelihood_range; exact Hs|].
  split.
  { intros pts v Hv. split; [apply likelihood_points_spec; exact Hv|].
    apply (likelihood_points_range h); assumption. }
  split; [intros p pts Ho; apply likelihood_points_outside; exact Ho|].
  split; [intros pts pts' v; apply likelihood_points_perm|].
  apply likelihood_scan_spec.
Qed.

(** * Witness: a 4 x 4 grid holding the square points *)
Definition demo_scan : scan R := mkScan 0 true (mkPose 0 0 0) (mkPose 0 0 0) square_points.
Definition demo_grid : ndt R := mkNdt 1 4 4 0 0 (repeat cell_new 16).

Lemma demo_new : ndt_new 1 3 3 0 0 = Ok demo_grid.
Proof.
  unfold ndt_new, cast_unsigned. ra.
  replace (3 / 1 + 1) with (IZR 4) by (cbn; lra). rewrite Ztrunc_IZR. reflexivity.
Qed.

Lemma demo_points : moved_points [demo_scan] = square_points.
Proof.
  unfold moved_points, demo_scan, square_points, move. cbn [flat_map map s_pose s_pts poth pox poy px py app].
  rewrite cos_0, sin_0. repeat (f_equal; try ring).
Qed.

Lemma demo_run (eig : mat2 R -> R * R) :
  exists h, ndt_run eig demo_grid ([NAddScan demo_scan] ++ [NCompute]) = Ok h.
Proof.
  apply ndt_run_defined.
  - apply (ndt_new_wf _ _ _ _ _ _ demo_new). reflexivity.
  - intros p Hp. 
    assert (Hp' : In p square_points).
    { rewrite <- demo_points. rewrite history_points_moved in Hp. exact Hp. }
    destruct (ndt_covers 1 3 3 0 0 demo_grid p) as (i & Hi & _); try lra.
    + exact demo_new.
    + reflexivity.
    + cbn in Hp'. repeat (destruct Hp' as [<-|Hp']; [cbn; lra|]). destruct Hp'.
    + cbn in Hp'. repeat (destruct Hp' as [<-|Hp']; [cbn; lra|]). destruct Hp'.
    + exists i. exact Hi.
Qed.

Lemma demo_spread : spread_in_squares 0 0 1 (moved_points [demo_scan]).
Proof.
  intros a b. rewrite demo_points.
  destruct (le_lt_dec 5 (length (filter (in_square_b 0 0 1 a b) square_points))) as [H|H]; [right|left; exact H].
  assert (Hall : forall p, In p square_points -> in_square_b 0 0 1 a b p = true).
  { intros p Hp. destruct (in_square_b 0 0 1 a b p) eqn:E; [reflexivity|exfalso].
    assert (Hlt : forall l, In p l -> in_square_b 0 0 1 a b p = false ->
              (length (filter (in_square_b 0 0 1 a b) l) < length l)%nat).
    { induction l as [|x l IH]; cbn; [tauto|]. intros [->|Hx] Hf.
      - rewrite Hf. clear. induction l as [|y l IH]; cbn; [lia|]. destruct (in_square_b 0 0 1 a b y); cbn; lia.
      - specialize (IH Hx Hf). destruct (in_square_b 0 0 1 a b x); cbn; lia. }
    specialize (Hlt square_points Hp E). cbn [length square_points] in *. lia. }
  exists (mkPoint 0 0), (mkPoint 2 0).
  split; [apply filter_In; split; [cbn; auto|apply Hall; cbn; auto]|].
  split; [apply filter_In; split; [cbn; auto|apply Hall; cbn; auto]|].
  intros E. injection E. lra.
Qed.

Lemma ndt_same_cell_new (cs sx sy ox oy : R) (g : ndt R) (p q : point R) (i j : Z) :
  0 < cs -> ndt_new cs sx sy ox oy = Ok g -> (g_sx g * g_sy g < 2 ^ 31)%Z ->
  ndt_index g (px p) (py p) = Ok i -> ndt_index g (px q) (py q) = Ok j -> (0 <= i)%Z -> (0 <= j)%Z ->
  (i = j <-> exists a b, in_square ox oy cs a b p /\ in_square ox oy cs a b q).
Proof.
  intros Hcs Hnew Hn. destruct (ndt_new_cells _ _ _ _ _ g Hnew) as (Ecs & Eox & Eoy & _).
  rewrite <- Ecs, <- Eox, <- Eoy. apply ndt_same_cell; [|rewrite Ecs; exact Hcs].
  exact (ndt_new_wf _ _ _ _ _ g Hnew Hn).
Qed.

Lemma ndt_left_below_new (cs sx sy ox oy : R) (g : ndt R) (p : point R) :
  ndt_new cs sx sy ox oy = Ok g -> px p < ox \/ py p < oy -> ndt_index g (px p) (py p) = Ok (-1)%Z.
Proof.
  intros Hnew. destruct (ndt_new_cells _ _ _ _ _ g Hnew) as (Ecs & Eox & Eoy & _).
  rewrite <- Eox, <- Eoy. apply ndt_left_below.
Qed.

Lemma demo_indices : exists i j,
  ndt_index demo_grid 0 0 = Ok i /\ ndt_index demo_grid 2 1 = Ok j /\ (0 <= i)%Z /\ (0 <= j)%Z /\ i <> j.
Proof.
  exists 0%Z, 6%Z.
  assert (Hw : ndt_wf demo_grid) by (apply (ndt_new_wf _ _ _ _ _ _ demo_new); reflexivity).
  split; [|split; [|repeat split; lia]].
  - apply (ndt_index_of_square demo_grid (mkPoint 0 0) 0 0 Hw); cbn; try lra; try lia.
    split; unfold in_interval; cbn; lra.
  - apply (ndt_index_of_square demo_grid (mkPoint 2 1) 2 1 Hw); cbn; try lra; try lia.
    split; unfold in_interval; cbn; lra.
Qed.
