(** C152: the mark "switchable" of loop closures. *)

From Coq Require Import ZArith Reals List Lia Lra Bool.
From Verif Require Import Outcome Arith RTactics TypesModel ScanModel ConstraintModel SolverModel SpecPose SpecSolver SpecOptim SpecSwitch
  NdtProofs ConstraintProofs OptimProofs PropOptim.
Import ListNotations.
Local Open Scope R_scope.

(** The optimizer gives the same result whatever constraints are marked. *)
Theorem C152_mark_ignored : forall {T} {A : Arith T} (ceres : ceres_oracle T) st cs cs' scans, Forall2 differ_in_mark cs cs' ->
  optimize ceres st cs' scans = optimize ceres st cs scans.
Proof.
  intros T A ceres st cs cs' scans F. unfold optimize. destruct scans as [|s0 scans]; [reflexivity|].
  assert (P : prepare st cs' (s0 :: scans) = prepare st cs (s0 :: scans)); [|rewrite P; reflexivity].
  unfold prepare. assert (L : List.length cs' = List.length cs) by (symmetry; clear - F; induction F; cbn; congruence). rewrite L. f_equal.
  generalize (update_nodes (sv_nodes st) (s0 :: scans)) as ns. intro ns.
  assert (F' : Forall2 differ_in_mark (skipn (sv_num st) cs) (skipn (sv_num st) cs')).
  { generalize (sv_num st) as n. clear - F. induction F as [|c d cs cs' H F IH]; intros [|n]; cbn; try constructor; auto. }
  revert F'. generalize (skipn (sv_num st) cs) (skipn (sv_num st) cs') (sv_blocks st). clear.
  intros l l' bs F. revert bs. induction F as [|c d l l' (H1 & H2 & H3 & H4) F IH]; intro bs; [reflexivity|]. cbn [foldM].
  assert (E : add_constraint ns (s0 :: scans) bs d = add_constraint ns (s0 :: scans) bs c)
    by (unfold add_constraint; rewrite H1, H2, H3, H4; reflexivity).
  rewrite E. destruct (add_constraint ns (s0 :: scans) bs c); cbn [bind]; [apply IH|reflexivity].
Qed.
Print Assumptions C152_mark_ignored.

(** Two scans one apart, measured as one apart; a loop closure, marked, says they
    are 1 + 2 d apart. *)
Definition scan_at (i : Z) (x y th : R) : scan R := mkScan i true (mkPose x y th) pose0 [].
Definition unit3 : mat3 R := mkMat3 1 0 0 0 1 0 0 0 1.
Definition odometry : constraint R := mkConstraint 0 1 (mkVec3 1 0 0) unit3 false.
Definition wrong_closure (d : R) : constraint R := mkConstraint 0 1 (mkVec3 (1 + 2 * d) 0 0) unit3 true.
Definition pair_of_scans : list (scan R) := [scan_at 0 0 0 0; scan_at 1 1 0 0].

Lemma unit_residual : forall r, sqnorm3 (mat3_vec (llt_L unit3) r) = v0 r * v0 r + v1 r * v1 r + v2 r * v2 r.
Proof.
  intro r. destruct (mahalanobis_iff_diagonal unit3 id_pd) as [_ H]. rewrite H; [|repeat split].
  unfold quad3, unit3. cbn. ring.
Qed.
Lemma pair_error : forall d (a b : scan R), s_pose a = mkPose 0 0 0 ->
  map_error [odometry; wrong_closure d] [a; b] =
  2 * (pox (s_pose b) - (1 + d)) * (pox (s_pose b) - (1 + d)) + 2 * d * d + 2 * poy (s_pose b) * poy (s_pose b) +
  2 * ceres_normalize (poth (s_pose b)) * ceres_normalize (poth (s_pose b)).
Proof.
  intros d a b E. unfold map_error, edge_error, odometry, wrong_closure, constraint_residual, residual.
  cbn [map fold_right c_begin c_end c_transform c_information]. change (Z.to_nat 0) with 0%nat. change (Z.to_nat 1) with 1%nat. cbn [nth_error]. rewrite !unit_residual, E.
  unfold raw_residual, pose_vec. cbn [v0 v1 v2 pox poy poth]. ra. rewrite cos_0, sin_0.
  replace (poth (s_pose b) - 0 - 0) with (poth (s_pose b)) by ring. ring.
Qed.

(** The best map has the second scan half way between the two measurements: the
    closure moves it by d, whatever d is. *)
Theorem C152_wrong_closure_moves_map : forall d scans', best_map [odometry; wrong_closure d] pair_of_scans scans' ->
  exists a b, scans' = [a; b] /\ pox (s_pose b) = 1 + d /\ poy (s_pose b) = 0 /\ same_heading (poth (s_pose b)) 0.
Proof.
  intros d scans' (L & F & B). destruct scans' as [|a [|b [|c r]]]; try discriminate L. cbn in F.
  exists a, b. split; [reflexivity|].
  specialize (B [scan_at 0 0 0 0; scan_at 1 (1 + d) 0 0] eq_refl eq_refl).
  rewrite (pair_error d a b F), (pair_error d (scan_at 0 0 0 0) (scan_at 1 (1 + d) 0 0) eq_refl) in B.
  cbn [s_pose scan_at pox poy poth] in B. rewrite ceres_normalize_0 in B.
  set (x := pox (s_pose b)) in *. set (y := poy (s_pose b)) in *. set (n := ceres_normalize (poth (s_pose b))) in *.
  assert (Z : forall u v w : R, 2 * u * u + 2 * v * v + 2 * w * w <= 0 -> u = 0 /\ v = 0 /\ w = 0) by (intros; repeat split; nra).
  destruct (Z (x - (1 + d)) y n) as (Zx & Zy & Zn); [lra|].
  split; [lra|]. split; [exact Zy|].
  destruct (ceres_normalize_spec (poth (s_pose b))) as (_ & k & K). fold n in K. rewrite Zn in K. exists (- k)%Z. rewrite opp_IZR. lra.
Qed.
Print Assumptions C152_wrong_closure_moves_map.

Example C152_nonvacuous : (forall d, best_map [odometry; wrong_closure d] pair_of_scans [scan_at 0 0 0 0; scan_at 1 (1 + d) 0 0]) /\ (forall d, Forall2 differ_in_mark [odometry; wrong_closure d] [odometry; mkConstraint 0 1 (mkVec3 (1 + 2 * d) 0 0) unit3 false]).
Proof.
  split; intro d.
  - split; [reflexivity|]. split; [reflexivity|]. intros [|a [|b [|c r]]] L F; try discriminate L. cbn in F.
    rewrite (pair_error d a b F), (pair_error d (scan_at 0 0 0 0) (scan_at 1 (1 + d) 0 0) eq_refl).
    cbn [s_pose scan_at pox poy poth]. rewrite ceres_normalize_0.
    set (u := pox (s_pose b) - (1 + d)). set (v := poy (s_pose b)). set (w := ceres_normalize (poth (s_pose b))).
    pose proof (Rle_0_sqr u) as U. pose proof (Rle_0_sqr v) as V. pose proof (Rle_0_sqr w) as W. unfold Rsqr in U, V, W. lra.
  - repeat constructor.
Qed.
