(** Proofs about constraints and their error term, exact arithmetic. *)

From Coq Require Import ZArith Reals List Bool Lra Lia Psatz.
From Flocq Require Import Core.
From Verif Require Import Outcome Arith TypesModel ScanModel ConstraintModel SpecPose RTactics.
Import ListNotations.
Local Open Scope R_scope.

Lemma cs2 : forall t, cos t * cos t + sin t * sin t = 1.
Proof. intro t. pose proof (sin2_cos2 t) as H. unfold Rsqr in H. lra. Qed.

(** * 3x3 inverse *)
Definition det3 (m : mat3 R) : R :=
  a00 m * (a11 m * a22 m - a12 m * a21 m) - a01 m * (a10 m * a22 m - a12 m * a20 m)
  + a02 m * (a10 m * a21 m - a11 m * a20 m).

Lemma det3_mul : forall m n, det3 (mul3 m n) = det3 m * det3 n.
Proof. intros [] []. unfold det3, mul3. cbn. ring. Qed.

Lemma invertible_det : forall m, invertible3 m -> det3 m <> 0.
Proof.
  intros m (n & H & _) E.
  assert (D : det3 (mul3 m n) = 1) by (rewrite H; unfold det3, id3; cbn; ring).
  rewrite det3_mul, E in D. lra.
Qed.

Lemma mat3_inverse_ok : forall m : mat3 R, det3 m <> 0 -> is_inverse3 m (mat3_inverse m).
Proof.
  intros m H. unfold det3 in H.
  unfold is_inverse3, mul3, mat3_inverse, mat3_det, id3. ra. cbn [a00 a01 a02 a10 a11 a12 a20 a21 a22].
  split; f_equal; field; (intro E; apply H; rewrite <- E; ring).
Qed.

(** * C28 *)
Theorem make_constraint_spec : forall (from to : scan R) (cov : mat3 R),
  let c := make_constraint from to cov in
  compose (s_pose from) (mkPose (v0 (c_transform c)) (v1 (c_transform c)) (v2 (c_transform c))) = s_pose to /\
  c_begin c = s_id from /\ c_end c = s_id to /\ c_switchable c = false /\
  (invertible3 cov -> is_inverse3 cov (c_information c)).
Proof.
  intros from to cov c. unfold c, make_constraint. ra. cbn [c_transform c_begin c_end c_switchable c_information v0 v1 v2].
  split; [|split; [reflexivity|split; [reflexivity|split; [reflexivity|]]]].
  - unfold compose, act. cbn [pox poy poth px py].
    destruct (s_pose from) as [fx fy ft], (s_pose to) as [tx ty tt]. cbn [pox poy poth].
    pose proof (cs2 ft) as E.
    f_equal; [| |ring].
    + transitivity (fx + (tx - fx) * (cos ft * cos ft + sin ft * sin ft)); [ring|rewrite E; ring].
    + transitivity (fy + (ty - fy) * (cos ft * cos ft + sin ft * sin ft)); [ring|rewrite E; ring].
  - intro H. apply mat3_inverse_ok. apply invertible_det. exact H.
Qed.

(** The transform is the only one with this property. *)
Lemma compose_inj : forall p a b : pose R, compose p a = compose p b -> a = b.
Proof.
  intros [x y t] [ax ay at_] [bx by_ bt] H. unfold compose, act in H. cbn in H.
  injection H as H1 H2 H3. pose proof (cs2 t) as E.
  assert (E1 : cos t * (ax - bx) - sin t * (ay - by_) = 0) by lra.
  assert (E2 : sin t * (ax - bx) + cos t * (ay - by_) = 0) by lra.
  assert (X : ax - bx = 0).
  { transitivity ((ax - bx) * (cos t * cos t + sin t * sin t)); [rewrite E; ring|].
    transitivity (cos t * (cos t * (ax - bx) - sin t * (ay - by_)) + sin t * (sin t * (ax - bx) + cos t * (ay - by_))); [ring|].
    rewrite E1, E2; ring. }
  assert (Y : ay - by_ = 0).
  { transitivity ((ay - by_) * (cos t * cos t + sin t * sin t)); [rewrite E; ring|].
    transitivity (cos t * (sin t * (ax - bx) + cos t * (ay - by_)) - sin t * (cos t * (ax - bx) - sin t * (ay - by_))); [ring|].
    rewrite E1, E2; ring. }
  f_equal; lra.
Qed.

(** * NormalizeAngle *)
Lemma two_pi_pos : 0 < 2 * PI.
Proof. pose proof PI_RGT_0. lra. Qed.

Lemma ceres_normalize_spec : forall a : R,
  -PI <= ceres_normalize a < PI /\ same_heading (ceres_normalize a) a.
Proof.
  intro a. unfold ceres_normalize, two_pi. ra.
  set (k := Zfloor ((a + PI) / (2 * PI))).
  pose proof two_pi_pos as Hp.
  pose proof (Zfloor_lb ((a + PI) / (2 * PI))) as L.
  pose proof (Zfloor_ub ((a + PI) / (2 * PI))) as U. fold k in L, U.
  assert (E : a + PI = (2 * PI) * ((a + PI) / (2 * PI))) by (field; lra).
  set (q := (a + PI) / (2 * PI)) in *.
  split; [split|].
  - assert (2 * PI * IZR k <= 2 * PI * q) by (apply Rmult_le_compat_l; lra). lra.
  - assert (2 * PI * q < 2 * PI * (IZR k + 1)) by (apply Rmult_lt_compat_l; lra). lra.
  - exists (- k)%Z. rewrite opp_IZR. ring.
Qed.

Lemma heading_unique : forall a b, -PI <= a < PI -> -PI <= b < PI -> same_heading a b -> a = b.
Proof.
  intros a b Ha Hb (k & E).
  pose proof two_pi_pos as Hp.
  assert (K : (k = 0)%Z).
  { destruct (Z_lt_le_dec k 0).
    - assert (IZR k <= -1) by (apply IZR_le; lia).
      assert (2 * PI * IZR k <= 2 * PI * -1) by (apply Rmult_le_compat_l; lra). lra.
    - destruct (Z_lt_le_dec 0 k); [|lia].
      assert (1 <= IZR k) by (apply IZR_le; lia).
      assert (2 * PI * 1 <= 2 * PI * IZR k) by (apply Rmult_le_compat_l; lra). lra. }
  subst k. lra.
Qed.

Lemma same_heading_refl : forall a, same_heading a a.
Proof. intro a. exists 0%Z. lra. Qed.
Lemma same_heading_sym : forall a b, same_heading a b -> same_heading b a.
Proof. intros a b (k & E). exists (- k)%Z. rewrite opp_IZR. lra. Qed.
Lemma same_heading_trans : forall a b c, same_heading a b -> same_heading b c -> same_heading a c.
Proof. intros a b c (k & E) (j & F). exists (k + j)%Z. rewrite plus_IZR. lra. Qed.

Theorem ceres_normalize_unique : forall a r : R,
  r = ceres_normalize a <-> (-PI <= r < PI /\ same_heading r a).
Proof.
  intros a r. split.
  - intros ->. apply ceres_normalize_spec.
  - intros (H1 & H2). destruct (ceres_normalize_spec a) as (N1 & N2).
    apply heading_unique; auto. eapply same_heading_trans; [exact H2|apply same_heading_sym; exact N2].
Qed.

Lemma ceres_normalize_turn : forall a b, same_heading a b -> ceres_normalize a = ceres_normalize b.
Proof.
  intros a b H. apply ceres_normalize_unique. destruct (ceres_normalize_spec a) as (N1 & N2).
  split; [exact N1|]. eapply same_heading_trans; eauto.
Qed.

Lemma ceres_normalize_0 : ceres_normalize (0 : R) = 0.
Proof.
  symmetry. apply ceres_normalize_unique. pose proof PI_RGT_0. split; [lra|apply same_heading_refl].
Qed.

(** * Periodicity for whole turns *)
Lemma cos_turn : forall a k, cos (a + 2 * PI * IZR k) = cos a.
Proof.
  intros a k. destruct (Z_le_gt_dec 0 k).
  - rewrite <- (cos_period a (Z.to_nat k)). f_equal. rewrite INR_IZR_INZ, Z2Nat.id by lia. ring.
  - rewrite <- (cos_period (a + 2 * PI * IZR k) (Z.to_nat (- k))). f_equal.
    rewrite INR_IZR_INZ, Z2Nat.id by lia. rewrite opp_IZR. ring.
Qed.
Lemma sin_turn : forall a k, sin (a + 2 * PI * IZR k) = sin a.
Proof.
  intros a k. destruct (Z_le_gt_dec 0 k).
  - rewrite <- (sin_period a (Z.to_nat k)). f_equal. rewrite INR_IZR_INZ, Z2Nat.id by lia. ring.
  - rewrite <- (sin_period (a + 2 * PI * IZR k) (Z.to_nat (- k))). f_equal.
    rewrite INR_IZR_INZ, Z2Nat.id by lia. rewrite opp_IZR. ring.
Qed.

(** * C29 *)
Lemma raw_residual_turned : forall t (a b : pose R) k j,
  raw_residual t (pose_vec (turned a k)) (pose_vec (turned b j)) =
  raw_residual t (pose_vec a) (pose_vec b).
Proof.
  intros t a b k j. unfold raw_residual, pose_vec, turned. ra. cbn [v0 v1 v2 pox poy poth].
  rewrite cos_turn, sin_turn. f_equal.
  apply ceres_normalize_turn. exists (j - k)%Z. rewrite minus_IZR. ring.
Qed.

Lemma mat3_vec_0 : forall m : mat3 R, mat3_vec m (mkVec3 0 0 0) = mkVec3 0 0 0.
Proof. intros m. unfold mat3_vec. ra. cbn. f_equal; ring. Qed.

Theorem fresh_residual_zero : forall (from to : scan R) (cov : mat3 R) (k j : Z),
  constraint_residual (make_constraint from to cov) (turned (s_pose from) k) (turned (s_pose to) j) =
  mkVec3 0 0 0.
Proof.
  intros from to cov k j. unfold constraint_residual, residual.
  rewrite raw_residual_turned.
  replace (raw_residual _ _ _) with (mkVec3 0 0 0 : vec3 R).
  - apply mat3_vec_0.
  - unfold raw_residual, make_constraint, pose_vec. ra. cbn [v0 v1 v2 c_transform].
    f_equal; [ring|ring|].
    rewrite <- ceres_normalize_0. f_equal. ring.
Qed.

(** Conversely the raw residual is zero only at poses that reproduce the
    measured transform. *)
Theorem raw_residual_zero_iff : forall (t : vec3 R) (a b : pose R),
  raw_residual t (pose_vec a) (pose_vec b) = mkVec3 0 0 0 <->
  let q := compose a (mkPose (v0 t) (v1 t) (v2 t)) in
  pox b = pox q /\ poy b = poy q /\ same_heading (poth b) (poth q).
Proof.
  intros [t0 t1 t2] [ax ay at_] [bx by_ bt]. unfold raw_residual, pose_vec, compose, act. ra. cbn [v0 v1 v2 pox poy poth px py].
  pose proof (cs2 at_) as E. split.
  - intro H. injection H as H1 H2 H3.
    assert (X : cos at_ * (bx - ax) + sin at_ * (by_ - ay) = t0) by lra.
    assert (Y : - sin at_ * (bx - ax) + cos at_ * (by_ - ay) = t1) by lra.
    split; [|split].
    + rewrite <- X, <- Y. transitivity (ax + (bx - ax) * (cos at_ * cos at_ + sin at_ * sin at_)); [rewrite E; ring|ring].
    + rewrite <- X, <- Y. transitivity (ay + (by_ - ay) * (cos at_ * cos at_ + sin at_ * sin at_)); [rewrite E; ring|ring].
    + symmetry in H3. apply ceres_normalize_unique in H3. destruct H3 as (_ & (k & K)).
      exists (- k)%Z. rewrite opp_IZR. lra.
  - intros (H1 & H2 & (k & K)). f_equal.
    + rewrite H1, H2. transitivity (t0 * (cos at_ * cos at_ + sin at_ * sin at_) - t0); [ring|rewrite E; ring].
    + rewrite H1, H2. transitivity (t1 * (cos at_ * cos at_ + sin at_ * sin at_) - t1); [ring|rewrite E; ring].
    + symmetry. apply ceres_normalize_unique. pose proof PI_RGT_0. split; [lra|].
      exists (- k)%Z. rewrite opp_IZR. lra.
Qed.

(** * C30 *)
Theorem residual_frame_invariant : forall (c : constraint R) (g a b : pose R),
  constraint_residual c (compose g a) (compose g b) = constraint_residual c a b.
Proof.
  intros c [gx gy gt] [ax ay at_] [bx by_ bt]. unfold constraint_residual, residual. f_equal.
  unfold raw_residual, pose_vec, compose, act. ra. cbn [v0 v1 v2 pox poy poth px py].
  rewrite cos_plus, sin_plus. pose proof (cs2 gt) as E.
  f_equal.
  - f_equal.
    transitivity ((cos gt * cos gt + sin gt * sin gt) * (cos at_ * (bx - ax) + sin at_ * (by_ - ay))); [ring|].
    rewrite E; ring.
  - f_equal.
    transitivity ((cos gt * cos gt + sin gt * sin gt) * (- sin at_ * (bx - ax) + cos at_ * (by_ - ay))); [ring|].
    rewrite E; ring.
  - f_equal. ring.
Qed.

(** * C32: Cholesky *)
Lemma pos_def_llt : forall m, pos_def3 m ->
  exists l00 l10 l11 l20 l21 l22,
    llt_L m = mkMat3 l00 0 0 l10 l11 0 l20 l21 l22 /\
    0 < l00 /\ 0 < l11 /\ 0 < l22 /\
    m = mul3 (llt_L m) (mkMat3 l00 l10 l20 0 l11 l21 0 0 l22).
Proof.
  intros [m00 m01 m02 m10 m11 m12 m20 m21 m22] ((S1 & S2 & S3) & P). cbn in S1, S2, S3. subst m01 m02 m12.
  unfold quad3 in P. cbn in P.
  unfold llt_L. ra. cbn.
  assert (P0 : 0 < m00).
  { specialize (P (mkVec3 1 0 0)). cbn in P. assert (mkVec3 1 0 0 <> mkVec3 0 0 0) by (intro E; injection E; lra).
    specialize (P H). lra. }
  rewrite (Rle_bool_false m00 0) by lra.
  assert (S0 : 0 < sqrt m00) by (apply sqrt_lt_R0; lra).
  assert (Q0 : sqrt m00 * sqrt m00 = m00) by (apply sqrt_sqrt; lra).
  set (l00 := sqrt m00) in *. set (l10 := m10 / l00). set (l20 := m20 / l00).
  assert (E10 : l10 * l00 = m10) by (unfold l10; field; lra).
  assert (E20 : l20 * l00 = m20) by (unfold l20; field; lra).
  assert (P1 : 0 < m11 - l10 * l10).
  { specialize (P (mkVec3 (- l10 / l00) 1 0)). cbn in P.
    assert (N : mkVec3 (- l10 / l00) 1 0 <> mkVec3 0 0 0) by (intro E; injection E; lra).
    specialize (P N). set (u := - l10 / l00) in *.
    assert (U : u * l00 = - l10) by (unfold u; field; lra).
    rewrite <- Q0, <- E10 in P.
    replace (m11 - l10 * l10) with (m11 + l10 * (u * l00)) by (rewrite U; ring).
    replace (u * (l00 * l00 * u + l10 * l00 * 1 + m20 * 0) + 1 * (l10 * l00 * u + m11 * 1 + m21 * 0) + 0 * (m20 * u + m21 * 1 + m22 * 0))
      with ((u * l00) * (u * l00 + l10) + l10 * (u * l00) + m11) in P by ring.
    rewrite U in *. lra. }
  rewrite (Rle_bool_false _ 0) by lra.
  assert (S1 : 0 < sqrt (m11 - l10 * l10)) by (apply sqrt_lt_R0; lra).
  assert (Q1 : sqrt (m11 - l10 * l10) * sqrt (m11 - l10 * l10) = m11 - l10 * l10) by (apply sqrt_sqrt; lra).
  set (l11 := sqrt (m11 - l10 * l10)) in *. set (l21 := (m21 - l20 * l10) / l11).
  assert (E21 : l21 * l11 = m21 - l20 * l10) by (unfold l21; field; lra).
  assert (P2 : 0 < m22 - (l20 * l20 + l21 * l21)).
  { set (v := - l21 / l11).
    assert (V : v * l11 = - l21) by (unfold v; field; lra).
    set (u := - (l20 + l10 * v) / l00).
    assert (U : u * l00 = - (l20 + l10 * v)) by (unfold u; field; lra).
    specialize (P (mkVec3 u v 1)). cbn in P.
    assert (N : mkVec3 u v 1 <> mkVec3 0 0 0) by (intro E; injection E; lra).
    specialize (P N).
    replace m00 with (l00 * l00) in P. replace m10 with (l10 * l00) in P. replace m20 with (l20 * l00) in P.
    replace m11 with (l11 * l11 + l10 * l10) in P by lra.
    replace m21 with (l21 * l11 + l20 * l10) in P by lra.
    replace (u * (l00 * l00 * u + l10 * l00 * v + l20 * l00 * 1) +
             v * (l10 * l00 * u + (l11 * l11 + l10 * l10) * v + (l21 * l11 + l20 * l10) * 1) +
             1 * (l20 * l00 * u + (l21 * l11 + l20 * l10) * v + m22 * 1))
      with ((u * l00 + l10 * v + l20) * (u * l00 + l10 * v + l20) + (v * l11 + l21) * (v * l11 + l21)
            + (m22 - (l20 * l20 + l21 * l21))) in P by ring.
    rewrite U, V in P. replace (- (l20 + l10 * v) + l10 * v + l20) with 0 in P by ring.
    replace (- l21 + l21) with 0 in P by ring. lra. }
  rewrite (Rle_bool_false _ 0) by lra.
  assert (S2 : 0 < sqrt (m22 - (l20 * l20 + l21 * l21))) by (apply sqrt_lt_R0; lra).
  assert (Q2 : sqrt (m22 - (l20 * l20 + l21 * l21)) * sqrt (m22 - (l20 * l20 + l21 * l21)) = m22 - (l20 * l20 + l21 * l21)) by (apply sqrt_sqrt; lra).
  set (l22 := sqrt (m22 - (l20 * l20 + l21 * l21))) in *.
  exists l00, l10, l11, l20, l21, l22.
  split; [reflexivity|]. split; [exact S0|]. split; [exact S1|]. split; [exact S2|].
  unfold mul3. cbn. f_equal; lra.
Qed.

(** The factorisation is right: information = L * L^T. *)
Lemma llt_factor : forall m, pos_def3 m -> mul3 (llt_L m) (transpose3 (llt_L m)) = m.
Proof.
  intros m H. destruct (pos_def_llt m H) as (l00 & l10 & l11 & l20 & l21 & l22 & E & _ & _ & _ & F).
  rewrite E in F. rewrite E. symmetry. exact F.
Qed.

(** What is minimised: r^T (L^T L) r. *)
Theorem weighted_norm : forall (l : mat3 R) (r : vec3 R),
  sqnorm3 (mat3_vec l r) = quad3 (mul3 (transpose3 l) l) r.
Proof.
  intros [] []. unfold sqnorm3, mat3_vec, quad3, mul3, transpose3. ra. cbn. ring.
Qed.

Lemma vec3_neq : forall x y z : R, x <> 0 \/ y <> 0 \/ z <> 0 -> mkVec3 x y z <> mkVec3 0 0 0.
Proof. intros x y z H E. injection E. intros. destruct H as [H|[H|H]]; contradiction. Qed.

Theorem mahalanobis_iff_diagonal : forall m, pos_def3 m ->
  ((forall r, sqnorm3 (mat3_vec (llt_L m) r) = quad3 m r) <-> diagonal3 m).
Proof.
  intros m H. destruct (pos_def_llt m H) as (l00 & l10 & l11 & l20 & l21 & l22 & E & P0 & P1 & P2 & F).
  rewrite E in F. rewrite E. split.
  - intro Q.
    pose proof (Q (mkVec3 1 0 0)) as Q0.
    pose proof (Q (mkVec3 0 1 0)) as Q1. rewrite F in Q0, Q1 |- *.
    unfold sqnorm3, mat3_vec, quad3, mul3, diagonal3 in *. ra_in Q0. ra_in Q1. cbn in Q0, Q1 |- *.
    assert (Z10 : l10 * l10 + l20 * l20 = 0) by lra.
    assert (l10 = 0) by nra. assert (l20 = 0) by nra. subst l10 l20.
    assert (Z21 : l21 * l21 = 0) by lra. assert (l21 = 0) by nra. subst l21.
    repeat split; ring.
  - intros (D1 & D2 & D3 & D4 & D5 & D6) [r0 r1 r2]. rewrite F in D1, D2, D3, D4, D5, D6 |- *.
    unfold mul3 in *. cbn in D1, D2, D3, D4, D5, D6.
    assert (l10 = 0).
    { apply (Rmult_eq_reg_l l00); [|lra]. lra. }
    assert (l20 = 0).
    { apply (Rmult_eq_reg_l l00); [|lra]. lra. }
    subst l10 l20.
    assert (l21 = 0).
    { apply (Rmult_eq_reg_l l11); [|lra]. lra. }
    subst l21.
    unfold sqnorm3, mat3_vec, quad3. ra. cbn. ring.
Qed.

(** The scaled residual still vanishes exactly where the raw one does. *)
Theorem residual_zero_iff_raw : forall m (r : vec3 R), pos_def3 m ->
  (mat3_vec (llt_L m) r = mkVec3 0 0 0 <-> r = mkVec3 0 0 0).
Proof.
  intros m [r0 r1 r2] H. destruct (pos_def_llt m H) as (l00 & l10 & l11 & l20 & l21 & l22 & E & P0 & P1 & P2 & F).
  rewrite E. unfold mat3_vec. ra. cbn [a00 a01 a02 a10 a11 a12 a20 a21 a22 v0 v1 v2]. split.
  - intro Q. injection Q as Q0 Q1 Q2.
    assert (r0 = 0) by (apply (Rmult_eq_reg_l l00); lra). subst r0.
    assert (r1 = 0) by (apply (Rmult_eq_reg_l l11); lra). subst r1.
    assert (r2 = 0) by (apply (Rmult_eq_reg_l l22); lra). subst r2. reflexivity.
  - intro Q. injection Q as -> -> ->. f_equal; ring.
Qed.

(** Witness: a positive definite, non-diagonal information matrix. *)
Definition corr_info : mat3 R := mkMat3 4 2 0 2 2 0 0 0 1.
Lemma corr_info_pd : pos_def3 corr_info.
Proof.
  split; [repeat split|]. intros [x y z] N. unfold quad3, corr_info. cbn.
  assert (x <> 0 \/ y <> 0 \/ z <> 0).
  { destruct (Req_dec x 0); [|auto]. destruct (Req_dec y 0); [|auto]. destruct (Req_dec z 0); [|auto].
    subst. exfalso; apply N; reflexivity. }
  replace (x * (4 * x + 2 * y + 0 * z) + y * (2 * x + 2 * y + 0 * z) + z * (0 * x + 0 * y + 1 * z))
    with ((2 * x + y) * (2 * x + y) + y * y + z * z) by ring.
  pose proof (Rle_0_sqr (2 * x + y)) as A1. pose proof (Rle_0_sqr y) as A2. pose proof (Rle_0_sqr z) as A3. unfold Rsqr in *.
  destruct (Req_dec z 0) as [Z|Z].
  - destruct (Req_dec y 0) as [Y|Y].
    + assert (X : x <> 0) by tauto. subst. pose proof (Rsqr_pos_lt x X). unfold Rsqr in *. lra.
    + pose proof (Rsqr_pos_lt y Y). unfold Rsqr in *. lra.
  - pose proof (Rsqr_pos_lt z Z). unfold Rsqr in *. lra.
Qed.
Theorem mahalanobis_false : ~ (forall m, pos_def3 m -> forall r, sqnorm3 (mat3_vec (llt_L m) r) = quad3 m r).
Proof.
  intro Q. pose proof (proj1 (mahalanobis_iff_diagonal corr_info corr_info_pd) (Q corr_info corr_info_pd)) as (D & _).
  unfold corr_info in D. cbn in D. lra.
Qed.

Definition diag_info : mat3 R := mkMat3 1 0 0 0 4 0 0 0 9.
Lemma diag_info_pd : pos_def3 diag_info.
Proof.
  split; [repeat split|]. intros [x y z] N. unfold quad3, diag_info. cbn.
  assert (x <> 0 \/ y <> 0 \/ z <> 0).
  { destruct (Req_dec x 0); [|auto]. destruct (Req_dec y 0); [|auto]. destruct (Req_dec z 0); [|auto].
    subst. exfalso; apply N; reflexivity. }
  pose proof (Rle_0_sqr x) as A1. pose proof (Rle_0_sqr y) as A2. pose proof (Rle_0_sqr z) as A3. unfold Rsqr in *.
  destruct H as [X|[X|X]]; pose proof (Rsqr_pos_lt _ X); unfold Rsqr in *; lra.
Qed.
Lemma diag_info_diag : diagonal3 diag_info.
Proof. repeat split. Qed.
