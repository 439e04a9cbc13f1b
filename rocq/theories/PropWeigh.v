(** Property C115: what a constraint weighs in the optimisation. *)

From Coq Require Import ZArith Reals List Bool Lra Lia.
From Flocq Require Import Core BinarySingleNaN.
From Verif Require Import Outcome Arith TypesModel ScanModel NdtModel MatcherModel ConstraintModel GraphModel MapperModel
  CellModel SpecStats SpecGrid SpecSearch SpecPose SpecMapper SpecWeigh RTactics SumLemmas CellProofs CellProofs2 NdtProofs NdtProofs2 ConstraintProofs
  MatcherProofs MatcherProofs2 B64Lemmas MatcherB64 MatcherB64b MatcherWitness MapperWitness2.
Import ListNotations.
Local Open Scope R_scope.

(** ** binary64: not a number *)
Section B.
Context (lm : libm).
Let A : Arith b64 := BA lm.
Local Existing Instance A.

Lemma mul_nan_r : forall x : b64, Bmult mode_NE x B754_nan = (B754_nan : b64).
Proof. intros [[]|[]| |[] m e H]; reflexivity. Qed.
Lemma mul_nan_l : forall x : b64, Bmult mode_NE B754_nan x = (B754_nan : b64).
Proof. intros [[]|[]| |[] m e H]; reflexivity. Qed.
Lemma add_nan_l : forall x : b64, Bplus mode_NE B754_nan x = (B754_nan : b64).
Proof. intros [[]|[]| |[] m e H]; reflexivity. Qed.
Lemma add_nan_r : forall x : b64, Bplus mode_NE x B754_nan = (B754_nan : b64).
Proof. intros [[]|[]| |[] m e H]; reflexivity. Qed.
Lemma div_nan_r : forall x : b64, Bdiv mode_NE x B754_nan = (B754_nan : b64).
Proof. intros [[]|[]| |[] m e H]; reflexivity. Qed.

Definition nan_matrix : mat3 b64 :=
  mkMat3 b64_nan b64_nan b64_nan b64_nan b64_nan b64_nan b64_nan b64_nan b64_nan.

Lemma inverse_nan : forall c : mat3 b64, a00 c = b64_nan -> mat3_inverse c = nan_matrix.
Proof.
  intros c H. unfold mat3_inverse, mat3_det. rewrite H. unfold b64_nan. cbn [nmul nadd ndiv nsub A BA].
  rewrite mul_nan_r, !add_nan_l, div_nan_r, !mul_nan_r. reflexivity.
Qed.

Lemma residual_nan : forall t a b, residual t (llt_L nan_matrix) a b = mkVec3 b64_nan b64_nan b64_nan.
Proof.
  intros t a b. assert (L : llt_L nan_matrix = mkMat3 b64_nan nzero nzero b64_nan b64_nan nzero b64_nan b64_nan b64_nan) by reflexivity.
  unfold residual. rewrite L. unfold mat3_vec, b64_nan. cbn [a00 a01 a02 a10 a11 a12 a20 a21 a22 nmul nadd A BA].
  rewrite !mul_nan_l, !add_nan_l. reflexivity.
Qed.

Lemma nan_not_weighable : forall c, c_information c = nan_matrix -> ~ weighable lm c.
Proof.
  intros c H (a & b & F & _). unfold constraint_residual in F. rewrite H, residual_nan in F. discriminate F.
Qed.
End B.

(** C115 is false: the constraint to a scan that hits no cell with a score ... *)
Theorem C115_no_overlap_refuted :
  forall (lm : libm) (fuel : nat) (m : matcher b64) (g : ndt b64) (from to s : scan b64) (p p' : pose b64) (cov cov' : mat3 b64) (r : b64),
  k_ndt m = Some g -> (forall c q, In c (g_cells g) -> cell_score (A := BA lm) c q = nzero (A := BA lm)) ->
  match_scan (A := BA lm) fuel m s p cov = Ok (r, p', cov') ->
  ~ weighable lm (make_constraint (A := BA lm) from to cov').
Proof.
  intros lm fuel m g from to s p p' cov cov' r Hg Hc H.
  destruct (zero_scores_nan_covariance lm fuel m g s p p' cov cov' r Hg (silent_map lm g Hc) H) as (N & _).
  apply nan_not_weighable. cbn [make_constraint c_information]. apply inverse_nan. exact N.
Qed.
Print Assumptions C115_no_overlap_refuted.

(** ... and two laser messages are enough to have one in the graph. *)
Definition unweighable_b (m : mapper b64) : bool :=
  match sh_cons (mp_sh m) with
  | c :: _ => match c_information c with
              | mkMat3 B754_nan B754_nan B754_nan B754_nan B754_nan B754_nan B754_nan B754_nan B754_nan => true
              | _ => false
              end
  | [] => false
  end.
Lemma unweighable_sound : forall lm m, unweighable_b m = true -> exists c, In c (sh_cons (mp_sh m)) /\ ~ weighable lm c.
Proof.
  intros lm m H. unfold unweighable_b in H. destruct (sh_cons (mp_sh m)) as [|c l]; [discriminate H|].
  exists c. split; [left; reflexivity|]. apply nan_not_weighable.
  destruct (c_information c) as [x0 x1 x2 x3 x4 x5 x6 x7 x8].
  destruct x0; try discriminate H; destruct x1; try discriminate H; destruct x2; try discriminate H; destruct x3; try discriminate H;
  destruct x4; try discriminate H; destruct x5; try discriminate H; destruct x6; try discriminate H; destruct x7; try discriminate H;
  destruct x8; try discriminate H. reflexivity.
Qed.
Lemma unweighable_run : forall lm, ends64 (run (A := BA (easy lm)) (cf64 lm 10 1 0 None true None) laser_schedule) unweighable_b = true.
Proof. intro lm. vm_compute. reflexivity. Qed.

Theorem C115_mapping_refuted : forall lm : libm, exists m c,
  reachable (A := BA (easy lm)) (cf64 lm 10 1 0 None true None) m /\ In c (sh_cons (mp_sh m)) /\ ~ weighable (easy lm) c.
Proof.
  intro lm. destruct (ends64_in _ _ (unweighable_run lm)) as (m & E & H).
  destruct (unweighable_sound (easy lm) m H) as (c & I & N). exists m, c. split; [exists laser_schedule; exact E|]. split; assumption.
Qed.
Print Assumptions C115_mapping_refuted.

(** So does an initial pose whose covariance was left zero, the default of the
    message. *)
Lemma inverse_zero : forall lm, mat3_inverse (A := BA lm) (diag3 (A := BA lm) (z64 0) (z64 0) (z64 0)) = nan_matrix.
Proof. intro lm. vm_compute. reflexivity. Qed.
Theorem C115_initial_pose_refuted : forall (lm : libm) (from to : scan b64),
  ~ weighable lm (make_constraint (A := BA lm) from to (diag3 (A := BA lm) (z64 0) (z64 0) (z64 0))).
Proof. intros lm from to. apply nan_not_weighable. cbn [make_constraint c_information]. apply inverse_zero. Qed.
Print Assumptions C115_initial_pose_refuted.

(** ** Exact arithmetic *)
Lemma pd_det : forall m, pos_def3 m -> det3 m <> 0.
Proof.
  intros m H. destruct (pos_def_llt m H) as (l00 & l10 & l11 & l20 & l21 & l22 & E & P0 & P1 & P2 & M).
  rewrite E in M. rewrite M, det3_mul. unfold det3. cbn [a00 a01 a02 a10 a11 a12 a20 a21 a22].
  assert (Q : 0 < l00 * l11 * l22) by (repeat apply Rmult_lt_0_compat; assumption).
  intro Z. apply (Rlt_irrefl 0). replace 0 with (l00 * l11 * l22 * (l00 * l11 * l22)) at 2 by (rewrite <- Z; ring). apply Rmult_lt_0_compat; exact Q.
Qed.

Lemma pd_inverse : forall m, pos_def3 m -> pos_def3 (mat3_inverse m).
Proof.
  intros m H. destruct (mat3_inverse_ok m (pd_det m H)) as (I1 & _). destruct H as ((S1 & S2 & S3) & P).
  split.
  - unfold SpecPose.symmetric3, mat3_inverse, mat3_det. ra. cbn [a00 a01 a02 a10 a11 a12 a20 a21 a22]. rewrite S1, S2, S3. repeat split; ring.
  - intros r N. set (n := mat3_inverse m) in *. set (q := mat3_vec n r).
    assert (E : mat3_vec m q = r).
    { unfold q. assert (X : mat3_vec m (mat3_vec n r) = mat3_vec (mul3 m n) r).
      { unfold mat3_vec, mul3. ra. cbn [a00 a01 a02 a10 a11 a12 a20 a21 a22 v0 v1 v2]. f_equal; ring. }
      rewrite X, I1. unfold mat3_vec, id3. ra. cbn [a00 a01 a02 a10 a11 a12 a20 a21 a22]. destruct r as [x y z]. cbn [v0 v1 v2]. f_equal; ring. }
    assert (Nq : q <> mkVec3 0 0 0).
    { intro Q. apply N. rewrite <- E, Q. unfold mat3_vec. ra. cbn [v0 v1 v2]. f_equal; ring. }
    specialize (P q Nq). replace (SpecPose.quad3 n r) with (SpecPose.quad3 m q); [exact P|].
    transitivity (v0 q * v0 r + v1 q * v1 r + v2 q * v2 r).
    + rewrite <- E at 1 2 3. unfold SpecPose.quad3, mat3_vec. ra. cbn [v0 v1 v2]. ring.
    + unfold q, SpecPose.quad3, mat3_vec. ra. cbn [v0 v1 v2]. ring.
Qed.

(** What holds: a definite covariance gives a definite information, its inverse,
    and an error that is zero only if the poses agree with the measurement. *)
Theorem C115_information_partial : forall (from to : scan R) (cov : mat3 R), pos_def3 cov ->
  let c := make_constraint from to cov in
  is_inverse3 cov (c_information c) /\ pos_def3 (c_information c) /\
  forall a b, constraint_residual c a b = mkVec3 0 0 0 <-> raw_residual (c_transform c) (pose_vec a) (pose_vec b) = mkVec3 0 0 0.
Proof.
  intros from to cov H c. pose proof (pd_inverse cov H) as PI_. unfold c. cbn [make_constraint c_information c_transform].
  split; [apply mat3_inverse_ok, pd_det, H|]. split; [exact PI_|].
  intros a b. unfold constraint_residual, residual. cbn [make_constraint c_information c_transform].
  apply residual_zero_iff_raw. exact PI_.
Qed.
Print Assumptions C115_information_partial.

(** An initial pose with positive variances. *)
Theorem C115_initial_pose_partial : forall (from to : scan R) (a b c : R), 0 < a -> 0 < b -> 0 < c ->
  c_information (make_constraint from to (diag3 a b c)) = diag3 (/ a) (/ b) (/ c) /\ pos_def3 (c_information (make_constraint from to (diag3 a b c))).
Proof.
  intros from to a b c Ha Hb Hc. cbn [make_constraint c_information].
  assert (D : forall u v w, 0 < u -> 0 < v -> 0 < w -> pos_def3 (diag3 u v w)).
  { intros u v w Hu Hv Hw. split; [repeat split; reflexivity|]. intros [x y z] N. unfold SpecPose.quad3, diag3. ra. cbn [a00 a01 a02 a10 a11 a12 a20 a21 a22 v0 v1 v2].
    assert (Q : 0 < u * (x * x) + v * (y * y) + w * (z * z)); [|nra].
    assert (Px : 0 <= u * (x * x)) by (apply Rmult_le_pos; nra). assert (Py : 0 <= v * (y * y)) by (apply Rmult_le_pos; nra).
    assert (Pz : 0 <= w * (z * z)) by (apply Rmult_le_pos; nra).
    destruct (Req_dec x 0) as [->|X]; [destruct (Req_dec y 0) as [->|Y]; [destruct (Req_dec z 0) as [->|Z]; [congruence|]|]|].
    - assert (0 < w * (z * z)) by (apply Rmult_lt_0_compat; nra). lra.
    - assert (0 < v * (y * y)) by (apply Rmult_lt_0_compat; nra). lra.
    - assert (0 < u * (x * x)) by (apply Rmult_lt_0_compat; nra). lra. }
  split; [|apply pd_inverse, D; assumption].
  unfold mat3_inverse, mat3_det, diag3. ra. cbn [a00 a01 a02 a10 a11 a12 a20 a21 a22]. f_equal; field; repeat split; lra.
Qed.
Print Assumptions C115_initial_pose_partial.

(** The matcher's covariance is definite when the scan overlaps the map at
    candidates in all directions. *)
Theorem C115_overlap_partial :
  forall (eig : mat2 R -> R * R) (m0 m : matcher R) (g : ndt R) (scans : list (scan R))
    (fuel : nat) (s : scan R) (p p' : pose R) (cov cov' : mat3 R) (r : R) (w : pose R -> R),
  eigen_contract eig -> 0 < k_resolution m0 -> add_scans eig m0 scans = Ok m -> k_ndt m = Some g ->
  (g_sx g * g_sy g < 2 ^ 31)%Z ->
  spread_in_squares (g_ox g) (g_oy g) (k_resolution m0) (moved_points scans) -> (1 <= k_beams m)%Z ->
  0 < k_ang_res m -> 0 < k_lin_res m -> s_pts s <> [] ->
  match_scan fuel m s p cov = Ok (r, p', cov') ->
  (forall c, In c (offsets m) -> score_points m (s_pts s) (pose_plus (s_pose s) c) = Ok (w c)) ->
  all_directions w (offsets m) ->
  pos_def3 cov' /\ forall from to, pos_def3 (c_information (make_constraint from to cov')).
Proof.
  intros eig m0 m g scans fuel s p p' cov cov' r w He Hr Hadd Hg Hn Hsp Hb Ha Hl Hp H Hw Sp.
  assert (PD : pos_def3 cov'); [|split; [exact PD|intros from to; cbn [make_constraint c_information]; apply pd_inverse; exact PD]].
  pose proof (add_scans_scored eig m0 m g scans He Hr Hadd Hg Hn Hsp) as Hs.
  assert (Hnp : forall c, In c (offsets m) -> w c <= 0) by (intros c Hc; eapply score_points_range; eauto).
  assert (E1 : mkVec3 1 0 0 <> mkVec3 0 0 0) by (intro E; injection E; lra).
  destruct (Sp _ E1) as (c0 & Hc0 & Hneg & _).
  assert (HW : wtotal w (offsets m) < 0).
  { unfold wtotal. pose proof (sumf_pos (fun c => -1 * w c) (offsets m) c0) as Hpos. rewrite sumf_scal in Hpos.
    assert (0 < -1 * sumf w (offsets m)); [|lra]. apply Hpos; [intros c Hc; specialize (Hnp c Hc); lra|exact Hc0|lra]. }
  destruct (match_scan_cov_psd fuel m g s p p' cov cov' r w Hg Hs Ha Hl Hb Hp H Hw (ex_intro _ c0 (conj Hc0 Hneg))) as ((Sy & _) & _).
  split; [exact Sy|]. intros v Nv.
  rewrite (match_scan_cov fuel m g s p p' cov cov' r w Hg Ha Hl Hb Hp H Hw) by lra.
  destruct (weighted_covariance_psd w (offsets m) Hnp HW) as [_ HQ]. specialize (HQ v).
  set (u := weighted_mean w (offsets m)).
  replace (SpecPose.quad3 (add_outer (weighted_covariance w (offsets m)) 2 u) v) with
    (SpecSearch.quad3 (weighted_covariance w (offsets m)) v + 2 * ((v0 v * v0 u + v1 v * v1 u + v2 v * v2 u) * (v0 v * v0 u + v1 v * v1 u + v2 v * v2 u))).
  2:{ unfold SpecPose.quad3, SpecSearch.quad3, add_outer. cbn [a00 a01 a02 a10 a11 a12 a20 a21 a22]. ring. }
  set (d := v0 v * v0 u + v1 v * v1 u + v2 v * v2 u). pose proof (Rle_0_sqr d) as Qd. unfold Rsqr in Qd.
  destruct (Req_dec d 0) as [D|D].
  2:{ assert (0 < d * d) by (pose proof (Rsqr_pos_lt d D); unfold Rsqr in *; assumption). lra. }
  assert (Qp : 0 < SpecSearch.quad3 (weighted_covariance w (offsets m)) v); [|lra].
  destruct (Sp v Nv) as (c & Hc & Wc & Dc). rewrite quad_wcov by lra.
  set (F := fun c => w c * ((v0 v * (pox c - wmean w pox (offsets m)) + v1 v * (poy c - wmean w poy (offsets m)) + v2 v * (poth c - wmean w poth (offsets m))) *
                        (v0 v * (pox c - wmean w pox (offsets m)) + v1 v * (poy c - wmean w poy (offsets m)) + v2 v * (poth c - wmean w poth (offsets m))))).
  assert (FE : forall x, F x = w x * ((v0 v * pox x + v1 v * poy x + v2 v * poth x) * (v0 v * pox x + v1 v * poy x + v2 v * poth x))).
  { intro x. unfold F. assert (X : v0 v * (pox x - wmean w pox (offsets m)) + v1 v * (poy x - wmean w poy (offsets m)) + v2 v * (poth x - wmean w poth (offsets m)) =
      (v0 v * pox x + v1 v * poy x + v2 v * poth x) - d) by (unfold d, u, weighted_mean; cbn [v0 v1 v2]; ring).
    rewrite X, D. ring. }
  assert (P : 0 < sumf (fun x => -1 * F x) (offsets m)).
  { apply (sumf_pos _ _ c); [|exact Hc|].
    - intros x Hx. rewrite FE. specialize (Hnp x Hx). pose proof (Rle_0_sqr (v0 v * pox x + v1 v * poy x + v2 v * poth x)) as Q. unfold Rsqr in Q. nra.
    - rewrite FE. pose proof (Rsqr_pos_lt _ Dc) as Q. unfold Rsqr in Q.
      match goal with |- 0 < -1 * (?a * ?b) => replace (-1 * (a * b)) with (- a * b) by ring end. apply Rmult_lt_0_compat; [lra|exact Q]. }
  rewrite sumf_scal in P. change (0 < sumf F (offsets m) / wtotal w (offsets m)).
  assert (P' : sumf F (offsets m) < 0) by (change (sumf (fun x => F x) (offsets m)) with (sumf F (offsets m)) in P; lra).
  unfold Rdiv. assert (/ wtotal w (offsets m) < 0) by (apply Rinv_lt_0_compat; exact HW). nra.
Qed.
Print Assumptions C115_overlap_partial.

Lemma fine_axis : axis 1 1 = [- (1); - (1) + 1].
Proof. symmetry. apply (loop_values_axis 1 1 3); [lra|exact loop_two]. Qed.

(** A search over the corners (dx, dy, dth in {-1, 0}), all of which score. *)
Example C115_nonvacuous : exists (m : matcher R) g r p' cov' w,
  add_scans eig_exact (wm 1 1 1 1) [demo_scan] = Ok m /\ k_ndt m = Some g /\ (g_sx g * g_sy g < 2 ^ 31)%Z /\
  spread_in_squares (g_ox g) (g_oy g) (k_resolution m) (moved_points [demo_scan]) /\
  match_scan 3 m probe pose0 mat3_zero = Ok (r, p', cov') /\
  (forall c, In c (offsets m) -> score_points m (s_pts probe) (pose_plus (s_pose probe) c) = Ok (w c)) /\
  all_directions w (offsets m).
Proof.
  destruct (demo_map eig_exact (wm 1 1 1 1) eig_exact_contract eq_refl eq_refl) as (g & Hadd & H1 & Hs).
  set (m := with_ndt (wm 1 1 1 1) (Some g)) in *.
  assert (Hg : k_ndt m = Some g) by reflexivity. assert (Hb : k_beams m = 1%Z) by reflexivity.
  destruct (probe_match 3 m g pose0 mat3_zero _ _ Hg Hb H1 loop_two loop_two) as (r & p' & cov' & Hm).
  { intros d [<-|[<-|[]]]; lra. }
  exists m, g, r, p', cov', (fun c => - exp (- (1 / 2) * (pox c * pox c + poy c * poy c))).
  split; [exact Hadd|]. split; [exact Hg|]. split; [apply H1|]. split; [apply square_spread|]. split; [exact Hm|].
  assert (O : offsets m = flat_map (fun dth => flat_map (fun dx => map (fun dy => mkPose dx dy dth) [- (1); - (1) + 1]) [- (1); - (1) + 1]) [- (1); - (1) + 1]).
  { unfold offsets, lattice, m, with_ndt, wm. cbn [k_lin_size k_lin_res k_ang_size k_ang_res]. rewrite fine_axis. reflexivity. }
  rewrite O. cbn [flat_map map app].
  split.
  - intros c Hc. assert (B : -1 <= pox c <= 0 /\ -1 <= poy c <= 0).
    { repeat destruct Hc as [<-|Hc]; cbn [pox poy]; try lra. destruct Hc. }
    rewrite (probe_score m g _ Hg Hb H1); unfold pose_plus; cbn [pox poy probe s_pose]; try lra.
    f_equal. f_equal. f_equal. ring.
  - intros [x y z] N. cbn [v0 v1 v2].
    assert (E : forall a, - exp a < 0) by (intro a; pose proof (exp_pos a); lra).
    destruct (Req_dec x 0) as [->|X]; [destruct (Req_dec y 0) as [->|Y]; [destruct (Req_dec z 0) as [->|Z]; [congruence|]|]|].
    + exists (mkPose (- (1) + 1) (- (1) + 1) (- (1))). split; [cbn [In]; tauto|]. split; [apply E|]. cbn [pox poy poth]. lra.
    + exists (mkPose (- (1) + 1) (- (1)) (- (1) + 1)). split; [cbn [In]; tauto|]. split; [apply E|]. cbn [pox poy poth]. lra.
    + exists (mkPose (- (1)) (- (1) + 1) (- (1) + 1)). split; [cbn [In]; tauto|]. split; [apply E|]. cbn [pox poy poth]. lra.
Qed.
