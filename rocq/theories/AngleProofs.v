(** Angles over the reals: atan2, normalize_angle. *)

From Coq Require Import ZArith Reals List Bool Lra Lia Psatz.
From Flocq Require Import Core.
From Verif Require Import Outcome Arith TypesModel SpecPose RTactics ConstraintProofs MotionModel.
Local Open Scope R_scope.

Lemma sqrt_scale : forall x t, 0 < x -> sqrt (x * x + (x * t) * (x * t)) = x * sqrt (1 + t * t).
Proof.
  intros x t H. replace (x * x + x * t * (x * t)) with ((x * x) * (1 + t * t)) by ring.
  rewrite sqrt_mult; [|nra|nra]. rewrite sqrt_square by lra. reflexivity.
Qed.

Lemma cos_atan_sq : forall t, cos (atan t) * sqrt (1 + t * t) = 1.
Proof.
  intro t. rewrite cos_atan. unfold Rsqr.
  assert (0 < sqrt (1 + t * t)) by (apply sqrt_lt_R0; nra). field. lra.
Qed.
Lemma sin_atan_sq : forall t, sin (atan t) * sqrt (1 + t * t) = t.
Proof.
  intro t. rewrite sin_atan. unfold Rsqr.
  assert (0 < sqrt (1 + t * t)) by (apply sqrt_lt_R0; nra). field. lra.
Qed.

Lemma Ratan2_polar : forall y x,
  sqrt (x * x + y * y) * cos (Ratan2 y x) = x /\ sqrt (x * x + y * y) * sin (Ratan2 y x) = y.
Proof.
  intros y x. unfold Ratan2.
  destruct (Rlt_bool_spec 0 x) as [Hx|Hx].
  - replace (x * x + y * y) with (x * x + (x * (y / x)) * (x * (y / x))) by (field; lra).
    rewrite sqrt_scale by exact Hx.
    pose proof (cos_atan_sq (y / x)) as C. pose proof (sin_atan_sq (y / x)) as S.
    set (q := sqrt (1 + y / x * (y / x))) in *. split.
    + replace (x * q * cos (atan (y / x))) with (x * (cos (atan (y / x)) * q)) by ring. rewrite C. ring.
    + replace (x * q * sin (atan (y / x))) with (x * (sin (atan (y / x)) * q)) by ring. rewrite S. field. lra.
  - destruct (Rlt_bool_spec x 0) as [Hx'|Hx'].
    + assert (P : sqrt (x * x + y * y) = - x * sqrt (1 + (y / x) * (y / x))).
      { replace (x * x + y * y) with (- x * - x + (- x * (y / x)) * (- x * (y / x))) by (field; lra).
        apply sqrt_scale. lra. }
      rewrite P.
      pose proof (cos_atan_sq (y / x)) as C. pose proof (sin_atan_sq (y / x)) as S.
      set (q := sqrt (1 + y / x * (y / x))) in *.
      assert (G : forall a, cos a = - cos (atan (y / x)) -> sin a = - sin (atan (y / x)) ->
        - x * q * cos a = x /\ - x * q * sin a = y).
      { intros a Ea Eb. rewrite Ea, Eb. split.
        - replace (- x * q * - cos (atan (y / x))) with (x * (cos (atan (y / x)) * q)) by ring. rewrite C. ring.
        - replace (- x * q * - sin (atan (y / x))) with (x * (sin (atan (y / x)) * q)) by ring. rewrite S. field. lra. }
      destruct (Rle_bool_spec 0 y); apply G.
      * rewrite neg_cos. reflexivity.
      * rewrite neg_sin. reflexivity.
      * replace (atan (y / x) - PI) with (- (PI - atan (y / x))) by ring. rewrite cos_neg.
        rewrite cos_minus, cos_PI, sin_PI. ring.
      * replace (atan (y / x) - PI) with (- (PI - atan (y / x))) by ring. rewrite sin_neg.
        rewrite sin_minus, cos_PI, sin_PI. ring.
    + assert (x = 0) by lra. subst x.
      replace (0 * 0 + y * y) with (y * y) by ring.
      destruct (Rlt_bool_spec 0 y); [rewrite sqrt_square by lra; rewrite cos_PI2, sin_PI2; lra|].
      destruct (Rlt_bool_spec y 0).
      * replace (y * y) with (- y * - y) by ring. rewrite sqrt_square by lra.
        rewrite cos_neg, sin_neg, cos_PI2, sin_PI2. lra.
      * assert (y = 0) by lra. subst y. rewrite cos_0, sin_0. replace (0 * 0) with 0 by ring. rewrite sqrt_0. lra.
Qed.

Lemma Ratan2_range : forall y x, - PI < Ratan2 y x <= PI.
Proof.
  intros y x. unfold Ratan2. pose proof PI_RGT_0.
  pose proof (atan_bound (y / x)).
  destruct (Rlt_bool_spec 0 x); [lra|].
  destruct (Rlt_bool_spec x 0).
  - destruct (Rle_bool_spec 0 y).
    + assert (N : y / x <= 0).
      { replace (y / x) with (- (y * / - x)) by (field; lra).
        assert (0 < / - x) by (apply Rinv_0_lt_compat; lra). nra. }
      assert (atan (y / x) <= 0); [|lra].
      destruct (Rle_lt_or_eq_dec _ _ N) as [L|E].
      * pose proof (atan_increasing _ _ L) as I. rewrite atan_0 in I. lra.
      * rewrite E, atan_0. lra.
    + assert (N : 0 < y / x).
      { replace (y / x) with (- y * / - x) by (field; lra).
        assert (0 < / - x) by (apply Rinv_0_lt_compat; lra). nra. }
      pose proof (atan_increasing _ _ N) as I. rewrite atan_0 in I. lra.
  - destruct (Rlt_bool_spec 0 y); [lra|]. destruct (Rlt_bool_spec y 0); lra.
Qed.

(** Headings in (-pi, pi] are determined by their cosine and sine. *)
Lemma heading_eq : forall a b, cos a = cos b -> sin a = sin b -> same_heading a b.
Proof.
  intros a b C S.
  assert (E : cos (a - b) = 1).
  { rewrite cos_minus, C, S. apply cs2. }
  set (d := a - b) in *.
  assert (Z2 : sin (d / 2) = 0).
  { assert (H : cos d = 1 - 2 * sin (d / 2) * sin (d / 2)).
    { replace d with (2 * (d / 2)) at 1 by field. apply cos_2a_sin. }
    rewrite E in H. nra. }
  destruct (sin_eq_0_0 _ Z2) as [k Hk].
  exists k. unfold d in Hk. lra.
Qed.

Lemma heading_unique' : forall a b, - PI < a <= PI -> - PI < b <= PI -> same_heading a b -> a = b.
Proof.
  intros a b Ha Hb [k Hk]. pose proof PI_RGT_0.
  assert (k = 0)%Z.
  { destruct (Z.lt_trichotomy k 0) as [L|[E|L]]; [|exact E|]; exfalso.
    - assert (IZR k <= -1) by (apply IZR_le; lia). nra.
    - assert (1 <= IZR k) by (apply IZR_le; lia). nra. }
  subst k. lra.
Qed.

Lemma Ratan2_of_polar : forall r t, 0 < r -> - PI < t <= PI -> Ratan2 (r * sin t) (r * cos t) = t.
Proof.
  intros r t Hr Ht. apply heading_unique'; [apply Ratan2_range|exact Ht|].
  destruct (Ratan2_polar (r * sin t) (r * cos t)) as [C S].
  assert (Q : sqrt (r * cos t * (r * cos t) + r * sin t * (r * sin t)) = r).
  { replace (r * cos t * (r * cos t) + r * sin t * (r * sin t)) with (r * r * (cos t * cos t + sin t * sin t)) by ring.
    rewrite cs2, Rmult_1_r. apply sqrt_square. lra. }
  rewrite Q in C, S. apply heading_eq; apply (Rmult_eq_reg_l r); lra.
Qed.

(** normalize_angle *)
Lemma Rfmod_spec : forall x y, 0 < y ->
  exists k : Z, Rfmod x y = x - IZR k * y /\
    (0 <= x -> 0 <= Rfmod x y < y) /\ (x <= 0 -> - y < Rfmod x y <= 0).
Proof.
  intros x y Hy. exists (Ztrunc (x / y)). split; [reflexivity|]. unfold Rfmod.
  assert (I : 0 < / y) by (apply Rinv_0_lt_compat; exact Hy).
  assert (E : x = x / y * y) by (field; lra).
  split; intro H.
  - assert (Q : 0 <= x / y) by (unfold Rdiv; nra).
    rewrite Ztrunc_floor by exact Q.
    pose proof (Zfloor_lb (x / y)). pose proof (Zfloor_ub (x / y)).
    rewrite E at 1 3. split; nra.
  - assert (Q : x / y <= 0) by (unfold Rdiv; nra).
    rewrite Ztrunc_ceil by exact Q.
    pose proof (Zceil_ub (x / y)). pose proof (Zceil_lb (x / y)).
    rewrite E at 1 3. split; nra.
Qed.

Lemma normalize_angle_spec : forall a : R,
  - PI < normalize_angle a <= PI /\ same_heading (normalize_angle a) a.
Proof.
  intro a. unfold normalize_angle. ra. pose proof PI_RGT_0 as P.
  destruct (Rfmod_spec (a + PI) (2 * PI) two_pi_pos) as (k & E & Hp & Hn).
  destruct (Rle_bool_spec (Rfmod (a + PI) (2 * PI)) 0) as [L|L].
  - assert (B : - (2 * PI) < Rfmod (a + PI) (2 * PI) <= 0).
    { destruct (Rle_lt_dec (a + PI) 0) as [N|N]; [apply Hn; exact N|].
      pose proof (Hp (Rlt_le _ _ N)). lra. }
    split; [lra|]. exists (1 - k)%Z. rewrite minus_IZR. lra.
  - assert (B : 0 < Rfmod (a + PI) (2 * PI) < 2 * PI).
    { destruct (Rle_lt_dec (a + PI) 0) as [N|N]; [pose proof (Hn N); lra|].
      pose proof (Hp (Rlt_le _ _ N)). lra. }
    split; [lra|]. exists (- k)%Z. rewrite opp_IZR. lra.
Qed.

Lemma normalize_angle_id : forall a : R, - PI < a <= PI -> normalize_angle a = a.
Proof.
  intros a H. destruct (normalize_angle_spec a) as [B S]. apply heading_unique'; assumption.
Qed.
Lemma normalize_angle_same : forall a b : R, same_heading a b -> normalize_angle a = normalize_angle b.
Proof.
  intros a b H. destruct (normalize_angle_spec a) as [Ba Sa]. destruct (normalize_angle_spec b) as [Bb Sb].
  apply heading_unique'; [assumption..|]. destruct H as [k Hk], Sa as [i Hi], Sb as [j Hj].
  exists (i + k - j)%Z. rewrite minus_IZR, plus_IZR. lra.
Qed.
Lemma normalize_angle_cos : forall a : R, cos (normalize_angle a) = cos a.
Proof. intro a. destruct (normalize_angle_spec a) as [_ [k Hk]]. rewrite Hk. apply cos_turn. Qed.
Lemma normalize_angle_sin : forall a : R, sin (normalize_angle a) = sin a.
Proof. intro a. destruct (normalize_angle_spec a) as [_ [k Hk]]. rewrite Hk. apply sin_turn. Qed.
