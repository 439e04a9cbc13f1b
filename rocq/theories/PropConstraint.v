(** Properties C28 - C32: constraints and their error term (exact arithmetic). *)

From Coq Require Import ZArith Reals List.
From Verif Require Import Outcome Arith TypesModel ScanModel ConstraintModel SpecPose SpecDeviation ConstraintProofs RTactics.
Import ListNotations.
Local Open Scope R_scope.

Theorem C28_constraint_reproduces_relative_pose : forall (from to : scan R) (cov : mat3 R),
  let c := make_constraint from to cov in
  compose (s_pose from) (mkPose (v0 (c_transform c)) (v1 (c_transform c)) (v2 (c_transform c))) = s_pose to /\
  c_begin c = s_id from /\ c_end c = s_id to /\ c_switchable c = false /\
  (invertible3 cov -> is_inverse3 cov (c_information c)).
Proof. exact make_constraint_spec. Qed.
Print Assumptions C28_constraint_reproduces_relative_pose.

(** No other transform reproduces the pose. *)
Theorem C28_transform_unique : forall p a b : pose R, compose p a = compose p b -> a = b.
Proof. exact compose_inj. Qed.
Print Assumptions C28_transform_unique.

Example C28_nonvacuous : invertible3 diag_info.
Proof.
  exists (mkMat3 1 0 0 0 (/ 4) 0 0 0 (/ 9)).
  split; unfold mul3, diag_info, id3; cbn; f_equal; field.
Qed.

Theorem C29_fresh_constraint_zero_residual : forall (from to : scan R) (cov : mat3 R) (k j : Z),
  constraint_residual (make_constraint from to cov) (turned (s_pose from) k) (turned (s_pose to) j) =
  mkVec3 0 0 0.
Proof. exact fresh_residual_zero. Qed.
Print Assumptions C29_fresh_constraint_zero_residual.

(** Conversely, for a positive definite information matrix the residual is zero
    only where the poses reproduce the transform (up to whole turns). *)
Theorem C29_zero_residual_only_there : forall (c : constraint R) (a b : pose R),
  pos_def3 (c_information c) ->
  (constraint_residual c a b = mkVec3 0 0 0 <->
   let t := c_transform c in
   let q := compose a (mkPose (v0 t) (v1 t) (v2 t)) in
   pox b = pox q /\ poy b = poy q /\ same_heading (poth b) (poth q)).
Proof.
  exact (fun c a b H => iff_trans (residual_zero_iff_raw (c_information c) _ H)
           (raw_residual_zero_iff (c_transform c) a b)).
Qed.
Print Assumptions C29_zero_residual_only_there.

Example C29_nonvacuous : pos_def3 corr_info.
Proof. exact corr_info_pd. Qed.

Theorem C30_residual_frame_invariant : forall (c : constraint R) (g a b : pose R),
  constraint_residual c (compose g a) (compose g b) = constraint_residual c a b.
Proof. exact residual_frame_invariant. Qed.
Print Assumptions C30_residual_frame_invariant.

(** A residual that is not zero. *)
Example C30_nonvacuous :
  constraint_residual (mkConstraint 0 1 (mkVec3 0 0 0) diag_info false) (mkPose 0 0 0) (mkPose 1 0 0) <> mkVec3 0 0 0.
Proof.
  intro E. apply C29_zero_residual_only_there in E; [|exact diag_info_pd].
  destruct E as (E & _). unfold compose, act in E. cbn in E. Lra.lra.
Qed.

Theorem C31_normalize_angle : forall a r : R,
  r = ceres_normalize a <-> (-PI <= r < PI /\ same_heading r a).
Proof. exact ceres_normalize_unique. Qed.
Print Assumptions C31_normalize_angle.

Example C31_nonvacuous : ceres_normalize PI = -PI.
Proof.
  symmetry. apply C31_normalize_angle. pose proof PI_RGT_0. split; [Lra.lra|].
  exists (-1)%Z. Lra.lra.
Qed.

(** The error vector of a constraint is the Cholesky factor of its information
    matrix times how far the poses are off the measurement. *)
Lemma raw_deviation : forall t (a b : pose R) (e : vec3 R), deviation t a b e <-> e = raw_residual t (pose_vec a) (pose_vec b).
Proof.
  intros [t0 t1 t2] [ax ay at_] [bx by_ bt] [e0 e1 e2]. unfold deviation, raw_residual, pose_vec, act. ra.
  cbn [v0 v1 v2 pox poy poth px py]. pose proof (cs2 at_) as E. split.
  - intros (H & B & (k & K)). injection H as HX HY. f_equal.
    + rewrite HX, HY. transitivity ((t0 + e0) * (cos at_ * cos at_ + sin at_ * sin at_) - t0); [rewrite E; ring|ring].
    + rewrite HX, HY. transitivity ((t1 + e1) * (cos at_ * cos at_ + sin at_ * sin at_) - t1); [rewrite E; ring|ring].
    + apply ceres_normalize_unique. split; [exact B|]. exists (- k)%Z. rewrite opp_IZR. rewrite K. ring.
  - intro H. injection H as H0 H1 H2. apply ceres_normalize_unique in H2. destruct H2 as (B & (k & K)). split; [|split].
    + rewrite H0, H1. f_equal.
      * transitivity (ax + (bx - ax) * (cos at_ * cos at_ + sin at_ * sin at_)); [rewrite E; ring|ring].
      * transitivity (ay + (by_ - ay) * (cos at_ * cos at_ + sin at_ * sin at_)); [rewrite E; ring|ring].
    + exact B.
    + exists (- k)%Z. rewrite opp_IZR. rewrite K. ring.
Qed.

Theorem C32_actual_weighting_partial : forall c, pos_def3 (c_information c) ->
  exists l, lower3 l /\ mul3 l (transpose3 l) = c_information c /\
  forall a b e, deviation (c_transform c) a b e ->
    constraint_residual c a b = times3 l e /\
    sqnorm3 (constraint_residual c a b) = quad3 (mul3 (transpose3 l) l) e.
Proof.
  intros c H. exists (llt_L (c_information c)). split; [|split].
  - destruct (pos_def_llt _ H) as (l00 & l10 & l11 & l20 & l21 & l22 & E & P0 & P1 & P2 & _). rewrite E.
    unfold lower3. cbn. repeat split; assumption.
  - exact (llt_factor _ H).
  - intros a b e D. apply raw_deviation in D. subst e. unfold constraint_residual, residual. split; [reflexivity|apply weighted_norm].
Qed.
Print Assumptions C32_actual_weighting_partial.

(** Poses with any given deviation. *)
Lemma some_deviation : forall t (e : vec3 R), - PI <= v2 e < PI ->
  exists a b, deviation t a b e.
Proof.
  intros t e B. exists (mkPose 0 0 0), (mkPose (v0 t + v0 e) (v1 t + v1 e) (v2 t + v2 e)).
  unfold deviation, act. cbn [pox poy poth px py]. rewrite cos_0, sin_0. split; [f_equal; ring|]. split; [exact B|].
  exists 0%Z. ring.
Qed.

(** It is the Mahalanobis distance exactly for diagonal information matrices. *)
Theorem C32_mahalanobis_diagonal_partial : forall c, pos_def3 (c_information c) ->
  ((forall a b e, deviation (c_transform c) a b e ->
      sqnorm3 (constraint_residual c a b) = quad3 (c_information c) e) <-> diagonal3 (c_information c)).
Proof.
  intros c H. rewrite <- (mahalanobis_iff_diagonal _ H). split.
  - intros Q r.
    set (k := 1 + Rabs (v2 r)). assert (K : 0 < k) by (unfold k; pose proof (Rabs_pos (v2 r)); Lra.lra).
    set (e := mkVec3 (v0 r / k) (v1 r / k) (v2 r / k) : vec3 R).
    assert (B : - PI <= v2 e < PI).
    { pose proof PI2_3_2. assert (Rabs (v2 r / k) < 1).
      { unfold Rdiv. rewrite Rabs_mult, (Rabs_pos_eq (/ k)) by (left; apply Rinv_0_lt_compat; exact K).
        apply (Rmult_lt_reg_r k); [exact K|]. rewrite Rmult_assoc, Rinv_l by Lra.lra. unfold k. Lra.lra. }
      apply Rabs_def2 in H1. unfold e. cbn [v2]. pose proof PI2_3_2. Lra.lra. }
    destruct (some_deviation (c_transform c) e B) as (a & b & D). pose proof (Q a b e D) as E.
    apply raw_deviation in D. unfold constraint_residual, residual in E. rewrite <- D in E.
    assert (F : forall x y : vec3 R, v0 y = k * v0 x -> v1 y = k * v1 x -> v2 y = k * v2 x ->
      sqnorm3 (mat3_vec (llt_L (c_information c)) y) = k * k * sqnorm3 (mat3_vec (llt_L (c_information c)) x) /\
      quad3 (c_information c) y = k * k * quad3 (c_information c) x).
    { intros x y E0 E1 E2. unfold sqnorm3, mat3_vec, quad3. ra. cbn [v0 v1 v2]. rewrite E0, E1, E2. split; ring. }
    destruct (F e r) as (F1 & F2); [unfold e; cbn [v0 v1 v2]; field; Lra.lra ..|]. rewrite F1, F2, E. reflexivity.
  - intros Q a b e D. apply raw_deviation in D. subst e. unfold constraint_residual, residual. apply Q.
Qed.
Print Assumptions C32_mahalanobis_diagonal_partial.

(** C32 is false as stated: the factor L is applied where L^T was needed. *)
Theorem C32_mahalanobis_refuted :
  ~ (forall c, pos_def3 (c_information c) -> forall a b e, deviation (c_transform c) a b e ->
      sqnorm3 (constraint_residual c a b) = quad3 (c_information c) e).
Proof.
  intro Q. pose (c := mkConstraint 0 1 (mkVec3 0 0 0) corr_info false : constraint R).
  pose proof (proj1 (C32_mahalanobis_diagonal_partial c corr_info_pd) (Q c corr_info_pd)) as (D & _).
  unfold c, corr_info in D. cbn in D. Lra.lra.
Qed.
Print Assumptions C32_mahalanobis_refuted.

Example C32_nonvacuous : pos_def3 corr_info /\ pos_def3 diag_info /\ diagonal3 diag_info /\
  deviation (mkVec3 0 0 0) (mkPose 0 0 0) (mkPose 1 2 3) (mkVec3 1 2 3).
Proof.
  split; [exact corr_info_pd|]. split; [exact diag_info_pd|]. split; [exact diag_info_diag|].
  apply raw_deviation. unfold raw_residual, pose_vec. ra. cbn [v0 v1 v2 pox poy poth]. rewrite cos_0, sin_0. f_equal; try ring.
  apply ceres_normalize_unique. pose proof PI2_3_2. pose proof PI_4. split.
  - assert (3 < PI) by (pose proof PI2_3_2; unfold PI2 in *; Lra.lra). Lra.lra.
  - exists 0%Z. ring.
Qed.
