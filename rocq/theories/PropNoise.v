(** Bins of the KD-tree and noise of the motion model. *)

From Coq Require Import ZArith Reals List Bool Lra Lia.
From Flocq Require Import Core BinarySingleNaN.
From Verif Require Import Outcome Arith TypesModel SpecPose RTactics ConstraintProofs NdtProofs KdModel MotionModel FilterModel SpecFilter SpecKld
  AngleProofs KdProofs MotionProofs FilterProofs FilterProofs2 FilterWitness OccProofs.
Import ListNotations.
Local Open Scope R_scope.

Lemma Ztrunc_same_side : forall x y, (0 <= x /\ 0 <= y) \/ (x <= 0 /\ y <= 0) -> Ztrunc x = Ztrunc y -> Rabs (x - y) < 1.
Proof.
  intros x y [(X & Y)|(X & Y)] E.
  - rewrite !Ztrunc_floor in E by assumption.
    pose proof (Zfloor_lb x). pose proof (Zfloor_ub x). pose proof (Zfloor_lb y). pose proof (Zfloor_ub y).
    rewrite E in *. apply Rabs_def1; lra.
  - rewrite !Ztrunc_ceil in E by assumption.
    pose proof (Zceil_ub x). pose proof (Zceil_lb x). pose proof (Zceil_ub y). pose proof (Zceil_lb y).
    rewrite E in *. apply Rabs_def1; lra.
Qed.

Lemma side_div : forall s x y, 0 < s -> (0 <= x /\ 0 <= y) \/ (x <= 0 /\ y <= 0) -> s <= Rabs (x - y) -> Ztrunc (x / s) <> Ztrunc (y / s).
Proof.
  intros s x y S D A E. apply Ztrunc_same_side in E.
  - replace (x / s - y / s) with ((x - y) / s) in E by (field; lra). unfold Rdiv in E. rewrite Rabs_mult, (Rabs_pos_eq (/ s)) in E by (left; apply Rinv_0_lt_compat; exact S).
    apply (Rmult_lt_compat_r s) in E; [|exact S]. rewrite Rmult_assoc, Rinv_l, Rmult_1_r in E by lra. lra.
  - unfold Rdiv. pose proof (Rinv_0_lt_compat s S) as I.
    destruct D as [(D1 & D2)|(D1 & D2)]; [left|right]; split; nra.
Qed.

(** C110: false.  The quotient is truncated toward zero: 80 cm apart, one bin. *)
Theorem C110_apart_refuted : exists (a b : vec3 R) t, bin_apart bin_size a b 0 /\
  kd_add_all bin_size kd_empty [(a, 1); (b, 1)] = Ok t /\ kd_leaf_count t = 1%nat.
Proof.
  exists (mkVec3 (- (4 / 10)) 0 0), (mkVec3 (4 / 10) 0 0).
  assert (Z0 : Ztrunc (- (4 / 10) / (1 / 2)) = 0%Z).
  { rewrite Ztrunc_ceil by lra. apply Zceil_imp. simpl. lra. }
  assert (Z3 : Ztrunc (4 / 10 / (1 / 2)) = 0%Z).
  { rewrite Ztrunc_floor by lra. apply Zfloor_imp. simpl. lra. }
  assert (Z1 : Ztrunc (0 / (1 / 2)) = 0%Z).
  { replace (0 / (1 / 2)) with (IZR 0) by (simpl; lra). apply Ztrunc_IZR. }
  assert (Z2 : Ztrunc (0 / (2671 / 10000)) = 0%Z).
  { replace (0 / (2671 / 10000)) with (IZR 0) by (simpl; lra). apply Ztrunc_IZR. }
  assert (Ka : kd_key bin_size (mkVec3 (- (4 / 10)) 0 0) = Ok (mkVec3 0 0 0)%Z).
  { unfold kd_key, bin_size. cbn [v0 v1 v2]. ra. rewrite !cast_int32_ok by (rewrite ?Z0, ?Z1, ?Z2; lia). rewrite Z0, Z1, Z2. reflexivity. }
  assert (Kb : kd_key bin_size (mkVec3 (4 / 10) 0 0) = Ok (mkVec3 0 0 0)%Z).
  { unfold kd_key, bin_size. cbn [v0 v1 v2]. ra. rewrite !cast_int32_ok by (rewrite ?Z3, ?Z1, ?Z2; lia). rewrite Z3, Z1, Z2. reflexivity. }
  destruct (kd_total bin_size [(mkVec3 (- (4 / 10)) 0 0, 1); (mkVec3 (4 / 10) 0 0, 1)]) as (t & Ht).
  { intros cv [<-|[<-|[]]]; cbn [fst]; eexists; (split; [eassumption|]); intros [|[|i]]; cbn; lia. }
  exists t. split.
  - unfold bin_apart, coord, bin_size. ra. cbn [v0]. rewrite Rabs_left by lra. lra.
  - split; [exact Ht|]. rewrite (kd_counts_bins_R _ _ _ Ht). unfold bin_of, bin_size. ra. cbn [map fst v0 v1 v2].
    rewrite Z0, Z1, Z2, Z3. reflexivity.
Qed.
Print Assumptions C110_apart_refuted.

(** What holds: keys on one side of zero. *)
Theorem C110_apart_partial : forall (size a b : vec3 R) (va vb : R) (i : nat) t,
  0 < coord size i -> bin_apart size a b i -> one_side a b i ->
  kd_add_all size kd_empty [(a, va); (b, vb)] = Ok t -> kd_leaf_count t = 2%nat.
Proof.
  intros size a b va vb i t S D O H. rewrite (kd_counts_bins_R _ _ _ H). cbn [map fst].
  assert (N : bin_of size a <> bin_of size b).
  { intro E. unfold bin_of in E. injection E as E0 E1 E2.
    destruct i as [|[|i]]; cbn [coord] in *; (refine (side_div _ _ _ S O D _); assumption). }
  unfold distinct. cbn [nodup]. destruct (in_dec bin_eq_dec (bin_of size a) [bin_of size b]) as [[E|[]]|_]; [congruence|reflexivity].
Qed.
Print Assumptions C110_apart_partial.

Example C110_nonvacuous : exists t, kd_add_all bin_size kd_empty [(mkVec3 0 0 0, 1); (mkVec3 (1 / 2) 0 0, 1)] = Ok t /\
  bin_apart bin_size (mkVec3 0 0 0) (mkVec3 (1 / 2) 0 0) 0 /\ one_side (mkVec3 0 0 0) (mkVec3 (1 / 2) 0 0) 0 /\ 0 < coord bin_size 0.
Proof.
  pose proof PI_RGT_0. pose proof (IZR_le 4 (2 ^ 28) ltac:(lia)).
  destruct (kd_total bin_size [(mkVec3 0 0 0, 1); (mkVec3 (1 / 2) 0 0, 1)]) as (t & Ht).
  { intros cv [<-|[<-|[]]]; cbn [fst]; apply particle_key; cbn [v0 v1 v2]; try (apply Rabs_le); lra. }
  exists t. split; [exact Ht|]. unfold bin_apart, one_side, coord, bin_size. ra. cbn [v0].
  rewrite Rabs_left by lra. repeat split; lra.
Qed.

(** * Noise *)

Lemma fold_turn_spot : forall h : R, 0 <= h <= PI -> fold_turn h = Rmin h (PI - h).
Proof.
  intros h H. pose proof PI_RGT_0 as P. unfold fold_turn, angle_diff. ra.
  replace (0 - h) with (- h) by ring.
  assert (E1 : Rabs (normalize_angle (- h)) = h).
  { destruct (Rle_lt_dec PI h) as [L|L].
    - replace h with PI by lra. rewrite (normalize_angle_same (- PI) PI).
      + rewrite normalize_angle_id by lra. apply Rabs_pos_eq. lra.
      + exists (-1)%Z. simpl. lra.
    - rewrite normalize_angle_id by lra. rewrite Rabs_Ropp. apply Rabs_pos_eq. lra. }
  rewrite E1, normalize_angle_id by lra. rewrite (Rabs_pos_eq (PI - h)) by lra. 
  unfold nmin, Rmin. ra. destruct (Rlt_bool_spec (PI - h) h); destruct (Rle_dec h (PI - h)); lra.
Qed.

(** Turning on the spot by [h]. *)
Lemma spot_sigmas : forall (m : motion_params R) h, 0 <= h <= PI ->
  motion_sigmas m 0 0 h = (0, sqrt (mo_a4 m * Rmin h (PI - h) * Rmin h (PI - h)), sqrt (mo_a1 m * Rmin h (PI - h) * Rmin h (PI - h))).
Proof.
  intros m h H. pose proof PI_RGT_0 as P. unfold motion_sigmas, motion_mean. ra.
  change (nhypot (0 : R) 0) with (sqrt (0 * 0 + 0 * 0)). replace (0 * 0 + 0 * 0) with 0 by ring. rewrite sqrt_0.
  rewrite Rlt_bool_false by lra. rewrite fold_turn_zero.
  assert (E : fold_turn (angle_diff 0 h) = Rmin h (PI - h)).
  { unfold angle_diff. ra. replace (h - 0) with h by ring. rewrite normalize_angle_id by lra. apply fold_turn_spot. exact H. }
  rewrite E. replace (mo_a1 m * 0 * 0 + mo_a2 m * 0 * 0) with 0 by ring. rewrite sqrt_0.
  repeat match goal with |- (_, _) = (_, _) => apply f_equal2 | |- sqrt _ = sqrt _ => apply f_equal end; ring.
Qed.

(** C111: false.  A half turn on the spot gets no noise at all. *)
Theorem C111_turn_noise_refuted : forall m : motion_params R,
  motion_sigmas m 0 0 PI = (0, 0, 0) /\
  (0 < mo_a1 m -> exists s, snd (motion_sigmas m 0 0 (PI / 2)) = s /\ 0 < s).
Proof.
  intro m. pose proof PI_RGT_0 as P. split.
  - rewrite spot_sigmas by lra. rewrite Rmin_right by lra. replace (PI - PI) with 0 by ring. rewrite !Rmult_0_r, sqrt_0. reflexivity.
  - intro A. rewrite spot_sigmas by lra. eexists. split; [reflexivity|]. cbn [snd]. rewrite Rmin_left by lra.
    apply sqrt_lt_R0. rewrite Rmult_assoc. apply Rmult_lt_0_compat; [exact A|nra].
Qed.
Print Assumptions C111_turn_noise_refuted.

(** What holds: up to a quarter turn on the spot, more turning is more noise. *)
Theorem C111_turn_noise_partial : forall (m : motion_params R) (h h' : R),
  0 <= mo_a1 m -> 0 <= mo_a4 m -> 0 <= h <= h' -> h' <= PI / 2 ->
  forall s1 s2 s3 s1' s2' s3', motion_sigmas m 0 0 h = (s1, s2, s3) -> motion_sigmas m 0 0 h' = (s1', s2', s3') ->
  s1 <= s1' /\ s2 <= s2' /\ s3 <= s3' /\ s3 = sqrt (mo_a1 m) * h.
Proof.
  intros m h h' A1 A4 H H' s1 s2 s3 s1' s2' s3' E E'. pose proof PI_RGT_0 as P.
  rewrite spot_sigmas in E by lra. rewrite spot_sigmas in E' by lra.
  rewrite Rmin_left in E by lra. rewrite Rmin_left in E' by lra.
  injection E as <- <- <-. injection E' as <- <- <-.
  assert (M : h * h <= h' * h') by nra.
  split; [lra|]. split; [apply sqrt_le_1_alt; rewrite !Rmult_assoc; apply Rmult_le_compat_l; assumption|].
  split; [apply sqrt_le_1_alt; rewrite !Rmult_assoc; apply Rmult_le_compat_l; assumption|].
  rewrite Rmult_assoc, sqrt_mult by nra. rewrite sqrt_square by lra. reflexivity.
Qed.
Print Assumptions C111_turn_noise_partial.

Example C111_nonvacuous : motion_sigmas (mkMotion 1 1 1 1 1) 0 0 (PI / 2) = (0, PI / 2, PI / 2).
Proof.
  pose proof PI_RGT_0 as P. rewrite spot_sigmas by lra. cbn [mo_a1 mo_a4]. rewrite Rmin_left by lra.
  rewrite Rmult_1_l, sqrt_square by lra. reflexivity.
Qed.

(** C112: false.  The fifth parameter is never read, in any arithmetic. *)
Theorem C112_parameters_refuted : forall {T} {A : Arith T} (normal : normal_source T) (m : motion_params T) (a5 dx dy dth : T) (ps : list (vec3 T)),
  motion_sample normal (mkMotion (mo_a1 m) (mo_a2 m) (mo_a3 m) (mo_a4 m) a5) dx dy dth ps = motion_sample normal m dx dy dth ps.
Proof. reflexivity. Qed.
Print Assumptions C112_parameters_refuted.

(** What holds: the other four only ever add noise, and each does. *)
Theorem C112_monotone_partial : forall (m m' : motion_params R) (dx dy dth : R),
  mo_a1 m <= mo_a1 m' -> mo_a2 m <= mo_a2 m' -> mo_a3 m <= mo_a3 m' -> mo_a4 m <= mo_a4 m' ->
  no_more (motion_sigmas m dx dy dth) (motion_sigmas m' dx dy dth).
Proof.
  intros m m' dx dy dth H1 H2 H3 H4. unfold motion_sigmas, no_more. destruct (motion_mean dx dy dth) as ((t & r1) & r2). cbn [fst snd].
  generalize (fold_turn r1) (fold_turn r2). intros u v. ra.
  assert (Q : forall a b x, a <= b -> a * x * x <= b * x * x) by (intros; rewrite !Rmult_assoc; apply Rmult_le_compat_r; [apply Rle_0_sqr|assumption]).
  pose proof (Q _ _ u H1). pose proof (Q _ _ v H1). pose proof (Q _ _ t H2). pose proof (Q _ _ t H3). pose proof (Q _ _ u H4). pose proof (Q _ _ v H4).
  repeat split; apply sqrt_le_1_alt; lra.
Qed.
Print Assumptions C112_monotone_partial.

Theorem C112_each_counts_partial : forall m : motion_params R, 0 <= mo_a1 m -> 0 <= mo_a2 m -> 0 <= mo_a3 m -> 0 <= mo_a4 m ->
  let turn m := motion_sigmas m 0 0 (PI / 2) in
  let drive m := motion_sigmas m 1 0 0 in
  (forall a, mo_a1 m < a -> snd (turn m) < snd (turn (mkMotion a (mo_a2 m) (mo_a3 m) (mo_a4 m) (mo_a5 m)))) /\
  (forall a, mo_a2 m < a -> snd (drive m) < snd (drive (mkMotion (mo_a1 m) a (mo_a3 m) (mo_a4 m) (mo_a5 m)))) /\
  (forall a, mo_a3 m < a -> snd (fst (drive m)) < snd (fst (drive (mkMotion (mo_a1 m) (mo_a2 m) a (mo_a4 m) (mo_a5 m))))) /\
  (forall a, mo_a4 m < a -> snd (fst (turn m)) < snd (fst (turn (mkMotion (mo_a1 m) (mo_a2 m) (mo_a3 m) a (mo_a5 m))))).
Proof.
  intros m A1 A2 A3 A4 turn drive. pose proof PI_RGT_0 as P.
  assert (T : forall n, turn n = (0, sqrt (mo_a4 n * (PI / 2) * (PI / 2)), sqrt (mo_a1 n * (PI / 2) * (PI / 2)))).
  { intro n. unfold turn. rewrite spot_sigmas by lra. rewrite Rmin_left by lra. reflexivity. }
  assert (D : forall n, drive n = (sqrt (mo_a2 n), sqrt (mo_a3 n), sqrt (mo_a2 n))).
  { intro n. unfold drive. destruct (motion_sigmas_spec n 1 0 0) as (r1 & r2 & B1 & B2 & H & _ & ->). cbv zeta in *.
    replace (1 * 1 + 0 * 0) with (1 * 1) in * by ring. rewrite sqrt_square in * by lra.
    destruct H as (H1 & H2); [lra|]. rewrite cos_0, sin_0 in H2.
    replace (Rabs (1 * 1 + 0 * 0)) with 1 in H2 by (rewrite Rabs_pos_eq; lra). rewrite Rabs_pos_eq in H1 by lra.
    assert (r1 = 0) by (apply quarter_unique; [assumption|lra|rewrite cos_0; lra]).
    assert (r2 = 0) by (apply quarter_unique; [assumption|lra|rewrite cos_0; lra]). subst.
    f_equal; [f_equal|]; f_equal; ring. }
  assert (Q : 0 < PI / 2 * (PI / 2)) by nra.
  rewrite (T m), (D m). cbn [fst snd].
  split; [intros a Ha; rewrite T; cbn [fst snd mo_a1]; apply sqrt_lt_1_alt; split; nra|].
  split; [intros a Ha; rewrite D; cbn [fst snd mo_a2]; apply sqrt_lt_1_alt; lra|].
  split; [intros a Ha; rewrite D; cbn [fst snd mo_a3]; apply sqrt_lt_1_alt; lra|].
  intros a Ha; rewrite T; cbn [fst snd mo_a4]; apply sqrt_lt_1_alt; split; nra.
Qed.
Print Assumptions C112_each_counts_partial.

Example C112_nonvacuous : snd (motion_sigmas (mkMotion 1 1 1 1 1) 0 0 (PI / 2)) < snd (motion_sigmas (mkMotion 2 1 1 1 1) 0 0 (PI / 2)).
Proof. apply (C112_each_counts_partial (mkMotion 1 1 1 1 1)); cbn; lra. Qed.
