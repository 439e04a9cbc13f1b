(** C126: the test whether the robot moved, in double arithmetic. *)

From Coq Require Import ZArith Reals List Bool Lia Lra String.
From Flocq Require Import Core BinarySingleNaN.
From Verif Require Import Outcome Arith TypesModel ScanModel MotionModel LaserModel FilterModel MapperModel SpecPose SpecLaser SpecMapper
  B64Tactics B64Lemmas CellB64 NdtProofs LaserProofs MapperProofs PropGrid64 MapperWitness2 SpecAngle64 SpecMotion64 PropAngle64.
Import ListNotations.
Local Open Scope R_scope.

(** ** The distance *)
Lemma sub_moderate (x y : b64) : moderate x -> moderate y ->
  B2R (Bminus mode_NE x y) = rnd (B2R x - B2R y) /\ is_finite (Bminus mode_NE x y) = true /\
  Rabs (B2R x - B2R y) <= bpow radix2 401.
Proof.
  intros [Fx Bx] [Fy By].
  assert (H : Rabs (B2R x - B2R y) <= bpow radix2 401).
  { eapply Rle_trans; [apply Rabs_triang|]. rewrite Rabs_Ropp.
    replace (bpow radix2 401) with (bpow radix2 400 + bpow radix2 400); [lra|].
    change 401%Z with (400 + 1)%Z. rewrite bpow_plus. change (bpow radix2 1) with 2. lra. }
  destruct (b64_sub_ok x y Fx Fy) as [V F]; [|split; [exact V|split; [exact F|exact H]]].
  eapply Rle_trans; [exact H|]. apply bpow_le. lia.
Qed.

Lemma square64 (x : b64) : is_finite x = true -> Rabs (B2R x) <= bpow radix2 402 ->
  B2R (Bmult mode_NE x x) = rnd (B2R x * B2R x) /\ is_finite (Bmult mode_NE x x) = true /\ 0 <= rnd (B2R x * B2R x) <= bpow radix2 804.
Proof.
  intros F B.
  assert (P : 0 <= B2R x * B2R x <= bpow radix2 804).
  { split; [apply Rle_0_sqr|]. rewrite <- (Rabs_pos_eq (B2R x * B2R x)) by apply Rle_0_sqr. rewrite Rabs_mult.
    change 804%Z with (402 + 402)%Z. rewrite bpow_plus. apply Rmult_le_compat; (apply Rabs_pos || exact B). }
  destruct (b64_mul_ok x x F F) as [V G].
  - rewrite Rabs_pos_eq by lra. eapply Rle_trans; [apply P|]. apply bpow_le. lia.
  - split; [exact V|split; [exact G|]]. split; [apply rnd_lb; [|lra]; change 0 with (IZR 0); apply fmt_int; cbn; lia|apply rnd_ub; [apply fmt_bpow; lia|lra]].
Qed.

Lemma square_error (m x : R) : bpow radix2 (-400) <= m -> Rabs x <= 2 * m ->
  Rabs (rnd (rnd x * rnd x) - x * x) <= u64 * (13 * (m * m)).
Proof.
  intros Hm Hx. pose proof u64_pos as U. pose proof u64_small as US. pose proof eta64_pos as EP.
  assert (M0 : 0 < m) by (eapply Rlt_le_trans; [apply bpow_gt_0|exact Hm]).
  assert (E1 : eta64 <= u64 * m * / 1000) by (apply eta_scale; eapply Rle_trans; [|exact Hm]; apply bpow_le; lia).
  assert (E2 : eta64 <= u64 * (m * m) * / 1000).
  { apply eta_scale. apply Rle_trans with (bpow radix2 (-400) * bpow radix2 (-400)).
    - rewrite <- bpow_plus. apply bpow_le. lia.
    - apply Rmult_le_compat; try (apply bpow_ge_0); exact Hm. }
  set (X := rnd x). pose proof (rnd_err x) as EX. fold X in EX.
  assert (D : Rabs (X - x) <= u64 * (2.001 * m)).
  { assert (u64 * Rabs x <= u64 * (2 * m)) by (apply Rmult_le_compat_l; lra). lra. }
  assert (S : Rabs (X + x) <= 4.001 * m).
  { replace (X + x) with ((X - x) + 2 * x) by ring. eapply Rle_trans; [apply Rabs_triang|].
    rewrite Rabs_mult, (Rabs_pos_eq 2) by lra.
    assert (u64 * (2.001 * m) <= / 1000000000000000 * (2.001 * m)) by (apply Rmult_le_compat_r; lra). lra. }
  assert (Q : Rabs (X * X - x * x) <= u64 * (8.01 * (m * m))).
  { replace (X * X - x * x) with ((X - x) * (X + x)) by ring. rewrite Rabs_mult.
    apply Rle_trans with (u64 * (2.001 * m) * (4.001 * m)).
    - apply Rmult_le_compat; (apply Rabs_pos || assumption).
    - assert (0 <= u64 * (m * m)) by (apply Rmult_le_pos; [lra|apply Rmult_le_pos; lra]). lra. }
  pose proof (rnd_err (X * X)) as EE.
  assert (MM : 0 <= m * m) by (apply Rmult_le_pos; lra).
  assert (XX : Rabs (X * X) <= 4.01 * (m * m)).
  { replace (X * X) with ((X * X - x * x) + x * x) by ring. eapply Rle_trans; [apply Rabs_triang|].
    rewrite (Rabs_mult x x).
    assert (Rabs x * Rabs x <= (2 * m) * (2 * m)) by (apply Rmult_le_compat; (apply Rabs_pos || exact Hx)).
    assert (u64 * (8.01 * (m * m)) <= / 1000000000000000 * (8.01 * (m * m))) by (apply Rmult_le_compat_r; lra). lra. }
  assert (u64 * Rabs (X * X) <= u64 * (4.01 * (m * m))) by (apply Rmult_le_compat_l; lra).
  replace (rnd (X * X) - x * x) with ((rnd (X * X) - X * X) + (X * X - x * x)) by ring.
  eapply Rle_trans; [apply Rabs_triang|].
  assert (0 <= u64 * (m * m)) by (apply Rmult_le_pos; lra). lra.
Qed.

Lemma dist_error (m x y : R) : bpow radix2 (-400) <= m -> Rabs x <= 2 * m -> Rabs y <= 2 * m ->
  Rabs (rnd (rnd (rnd x * rnd x) + rnd (rnd y * rnd y)) - (x * x + y * y)) <= u64 * (36 * (m * m)).
Proof.
  intros Hm Hx Hy. pose proof (square_error m x Hm Hx) as Ex. pose proof (square_error m y Hm Hy) as Ey.
  pose proof u64_pos as U. pose proof u64_small as US. pose proof eta64_pos as EP.
  assert (M0 : 0 < m) by (eapply Rlt_le_trans; [apply bpow_gt_0|exact Hm]).
  assert (E2 : eta64 <= u64 * (m * m) * / 1000).
  { apply eta_scale. apply Rle_trans with (bpow radix2 (-400) * bpow radix2 (-400)).
    - rewrite <- bpow_plus. apply bpow_le. lia.
    - apply Rmult_le_compat; try (apply bpow_ge_0); exact Hm. }
  assert (MM : 0 <= m * m) by (apply Rmult_le_pos; lra).
  assert (UM : 0 <= u64 * (m * m)) by (apply Rmult_le_pos; lra).
  assert (UM2 : u64 * (m * m) <= / 1000000000000000 * (m * m)) by (apply Rmult_le_compat_r; lra).
  set (a := rnd (rnd x * rnd x)) in *. set (b := rnd (rnd y * rnd y)) in *.
  assert (Qx : 0 <= x * x <= 4 * (m * m)).
  { split; [apply Rle_0_sqr|]. rewrite <- (Rabs_pos_eq (x * x)) by apply Rle_0_sqr. rewrite Rabs_mult.
    assert (Rabs x * Rabs x <= (2 * m) * (2 * m)) by (apply Rmult_le_compat; (apply Rabs_pos || exact Hx)). lra. }
  assert (Qy : 0 <= y * y <= 4 * (m * m)).
  { split; [apply Rle_0_sqr|]. rewrite <- (Rabs_pos_eq (y * y)) by apply Rle_0_sqr. rewrite Rabs_mult.
    assert (Rabs y * Rabs y <= (2 * m) * (2 * m)) by (apply Rmult_le_compat; (apply Rabs_pos || exact Hy)). lra. }
  apply Rabs_le_inv in Ex. apply Rabs_le_inv in Ey.
  assert (AB : Rabs (a + b) <= 8.1 * (m * m)) by (apply Rabs_le; lra).
  pose proof (rnd_err (a + b)) as E.
  assert (u64 * Rabs (a + b) <= u64 * (8.1 * (m * m))) by (apply Rmult_le_compat_l; lra).
  apply Rabs_le. apply Rabs_le_inv in E. lra.
Qed.

Lemma rnd_abs_eq (x : R) : Rabs (rnd x) = rnd (Rabs x).
Proof.
  unfold rnd. destruct (Rle_lt_dec 0 x) as [H|H].
  - rewrite (Rabs_pos_eq x) by exact H. apply Rabs_pos_eq. change (0 <= rnd x). apply rnd_lb; [|exact H].
    change 0 with (IZR 0). apply fmt_int. cbn; lia.
  - rewrite (Rabs_left x) by exact H. rewrite round_NE_opp. apply Rabs_left1. change (rnd x <= 0). apply rnd_ub; [|lra].
    change 0 with (IZR 0). apply fmt_int. cbn; lia.
Qed.

Lemma fmt_double (m : b64) : bpow radix2 (-400) <= B2R m -> fmt (2 * B2R m).
Proof.
  intros H. rewrite Rmult_comm. change 2 with (bpow radix2 1). unfold fmt. rewrite fexp64_FLT.
  assert (F : generic_format radix2 (FLT_exp (-1074) 53) (B2R m)) by (rewrite <- fexp64_FLT; apply fmt_b64).
  apply FLT_format_generic in F; [|reflexivity]. destruct F as [[n e] E1 E2 E3]. cbn in E2, E3.
  apply generic_format_FLT. exists (Float radix2 n (e + 1)); cbn; [|exact E2|lia].
  rewrite E1. unfold F2R. cbn [Defs.Fnum Defs.Fexp]. rewrite bpow_plus. change (bpow radix2 1) with 2. ring.
Qed.

(** The squared distance against the squared threshold. *)
Lemma dist_decides (md : b64) (x y : R) : is_finite md = true -> bpow radix2 (-400) <= B2R md <= bpow radix2 400 ->
  let m := B2R md in
  let d2 := rnd (rnd (rnd x * rnd x) + rnd (rnd y * rnd y)) in
  (sqrt (x * x + y * y) < m * (1 - bpow radix2 (-48)) -> d2 < rnd (m * m)) /\
  (m * (1 + bpow radix2 (-48)) <= sqrt (x * x + y * y) -> rnd (m * m) <= d2).
Proof.
  intros Fm [Hm Hm2] m d2. fold m in Hm, Hm2.
  assert (M0 : 0 < m) by (eapply Rlt_le_trans; [apply bpow_gt_0|exact Hm]).
  assert (MM : 0 < m * m) by (apply Rmult_lt_0_compat; exact M0).
  pose proof u64_pos as U. pose proof u64_small as US. pose proof eta64_pos as EP.
  assert (E2 : eta64 <= u64 * (m * m) * / 1000).
  { apply eta_scale. apply Rle_trans with (bpow radix2 (-400) * bpow radix2 (-400)).
    - rewrite <- bpow_plus. apply bpow_le. lia.
    - apply Rmult_le_compat; try (apply bpow_ge_0); exact Hm. }
  assert (UM : 0 < u64 * (m * m)) by (apply Rmult_lt_0_compat; lra).
  assert (EM : Rabs (rnd (m * m) - m * m) <= u64 * (1.01 * (m * m))).
  { eapply Rle_trans; [apply rnd_err|]. rewrite (Rabs_pos_eq (m * m)) by lra. lra. }
  apply Rabs_le_inv in EM.
  assert (B48 : bpow radix2 (-48) = 32 * u64).
  { unfold u64. change (bpow radix2 (-48)) with (/ IZR (2 ^ 48)). change (bpow radix2 (-53)) with (/ IZR (2 ^ 53)). cbn. lra. }
  rewrite B48.
  assert (N : 0 <= x * x + y * y) by (pose proof (Rle_0_sqr x); pose proof (Rle_0_sqr y); unfold Rsqr in *; lra).
  pose proof (sqrt_pos (x * x + y * y)) as P. pose proof (sqrt_sqrt _ N) as Q. set (r := sqrt (x * x + y * y)) in *.
  assert (X2 : 0 <= x * x) by apply Rle_0_sqr. assert (Y2 : 0 <= y * y) by apply Rle_0_sqr.
  assert (Ax : Rabs x * Rabs x <= r * r) by (rewrite <- Rabs_mult, Rabs_pos_eq; lra).
  assert (Ay : Rabs y * Rabs y <= r * r) by (rewrite <- Rabs_mult, Rabs_pos_eq; lra).
  assert (Sq : forall a b, 0 <= a -> 0 <= b -> a * a <= b * b -> a <= b).
  { intros a b Ha Hb Hab. apply Rnot_lt_le. intro L. assert (b * b < a * a) by (apply Rmult_le_0_lt_compat; lra). lra. }
  assert (Rx : Rabs x <= r) by (apply Sq; [apply Rabs_pos|exact P|exact Ax]).
  assert (Ry : Rabs y <= r) by (apply Sq; [apply Rabs_pos|exact P|exact Ay]).
  assert (UU : u64 * (u64 * (m * m)) <= / 1000000000000000 * (u64 * (m * m))) by (apply Rmult_le_compat_r; lra).
  split; intro H.
  - assert (L1 : r <= 2 * m).
    { assert (u64 * m <= / 1000000000000000 * m) by (apply Rmult_le_compat_r; lra).
      assert (0 <= u64 * m) by (apply Rmult_le_pos; lra). lra. }
    pose proof (dist_error m x y Hm ltac:(lra) ltac:(lra)) as D. fold d2 in D. apply Rabs_le_inv in D.
    assert (RR : r * r <= (m * (1 - 32 * u64)) * (m * (1 - 32 * u64))) by (apply Rmult_le_compat; lra).
    replace (m * (1 - 32 * u64) * (m * (1 - 32 * u64))) with (m * m - 64 * (u64 * (m * m)) + 1024 * (u64 * (u64 * (m * m)))) in RR by ring.
    lra.
  - destruct (Rle_lt_dec (Rabs x) (2 * m)) as [Lx|Lx]; [destruct (Rle_lt_dec (Rabs y) (2 * m)) as [Ly|Ly]|].
    + pose proof (dist_error m x y Hm Lx Ly) as D. fold d2 in D. apply Rabs_le_inv in D.
      assert (M1 : 0 <= m * (1 + 32 * u64)) by (apply Rmult_le_pos; lra).
      assert (RR : (m * (1 + 32 * u64)) * (m * (1 + 32 * u64)) <= r * r) by (apply Rmult_le_compat; lra).
      replace (m * (1 + 32 * u64) * (m * (1 + 32 * u64))) with (m * m + 64 * (u64 * (m * m)) + 1024 * (u64 * (u64 * (m * m)))) in RR by ring.
      assert (0 <= u64 * (u64 * (m * m))) by (apply Rmult_le_pos; lra).
      lra.
    + assert (Z0 : fmt 0) by (change 0 with (IZR 0); apply fmt_int; cbn; lia).
      assert (L2 : 2 * m <= Rabs (rnd y)) by (rewrite rnd_abs_eq; apply rnd_lb; [apply fmt_double; exact Hm|lra]).
      assert (L3 : m * m <= rnd y * rnd y).
      { rewrite <- (Rabs_pos_eq (rnd y * rnd y)) by apply Rle_0_sqr. rewrite Rabs_mult. apply Rmult_le_compat; lra. }
      assert (L4 : rnd (m * m) <= rnd (rnd y * rnd y)) by (apply rnd_le; exact L3).
      assert (L5 : 0 <= rnd (rnd x * rnd x)) by (apply rnd_lb; [exact Z0|apply Rle_0_sqr]).
      unfold d2. apply rnd_lb; [apply generic_format_round; typeclasses eauto|lra].
    + assert (Z0 : fmt 0) by (change 0 with (IZR 0); apply fmt_int; cbn; lia).
      assert (L2 : 2 * m <= Rabs (rnd x)) by (rewrite rnd_abs_eq; apply rnd_lb; [apply fmt_double; exact Hm|lra]).
      assert (L3 : m * m <= rnd x * rnd x).
      { rewrite <- (Rabs_pos_eq (rnd x * rnd x)) by apply Rle_0_sqr. rewrite Rabs_mult. apply Rmult_le_compat; lra. }
      assert (L4 : rnd (m * m) <= rnd (rnd x * rnd x)) by (apply rnd_le; exact L3).
      assert (L5 : 0 <= rnd (rnd y * rnd y)) by (apply rnd_lb; [exact Z0|apply Rle_0_sqr]).
      unfold d2. apply rnd_lb; [apply generic_format_round; typeclasses eauto|lra].
Qed.

(** ** The change of heading *)
Lemma turn_decides (lm : libm) (p q : pose b64) (d : R) : exact_fmod lm -> moderate (poth p) -> moderate (poth q) ->
  turn (B2R (poth p)) (B2R (poth q)) d ->
  is_finite (angle_diff (A := BA lm) (poth p) (poth q)) = true /\
  Rabs (Rabs (B2R (angle_diff (A := BA lm) (poth p) (poth q))) - Rabs d) <= turn_error p q.
Proof.
  intros X Mp Mq [Hd [j Hj]]. destruct (sub_moderate _ _ Mq Mp) as (V & F & B).
  unfold angle_diff. change (nsub (Arith := BA lm) (poth q) (poth p)) with (Bminus mode_NE (poth q) (poth p)).
  set (s := Bminus mode_NE (poth q) (poth p)) in *.
  assert (Bs : Rabs (B2R s) <= bpow radix2 1000).
  { rewrite V. apply Rabs_le_inv in B. apply Rle_trans with (bpow radix2 401); [|apply bpow_le; lia].
    apply Rabs_le. split; [apply rnd_lb; [apply fmt_opp, fmt_bpow; lia|lra]|apply rnd_ub; [apply fmt_bpow; lia|lra]]. }
  destruct (C125_normalize_angle lm s X F Bs) as [[Fr [k Hk]] Rg].
  set (r := normalize_angle (A := BA lm) s) in *. split; [exact Fr|].
  pose proof (proj1 (proj1 C125_pi)) as PL.
  set (a := B2R (poth p)) in *. set (b := B2R (poth q)) in *.
  pose proof (rnd_err (b - a)) as Es. rewrite <- V in Es.
  pose proof u64_pos as U. pose proof u64_small as US. pose proof eta_tiny as ET.
  assert (AB : Rabs (b - a) <= Rabs a + Rabs b).
  { eapply Rle_trans; [apply Rabs_triang|]. rewrite Rabs_Ropp. lra. }
  assert (TE : turn_error p q = 8 * u64 * (Rabs a + Rabs b + 8)).
  { unfold turn_error, a, b, u64. change (bpow radix2 (-50)) with (/ IZR (2 ^ 50)). change (bpow radix2 (-53)) with (/ IZR (2 ^ 53)). cbn. lra. }
  assert (E : Rabs (B2R r - (b - a + 2 * PI * IZR k)) <= turn_error p q).
  { replace (B2R r - (b - a + 2 * PI * IZR k)) with ((B2R r - (B2R s + 2 * PI * IZR k)) + (B2R s - (b - a))) by ring.
    eapply Rle_trans; [apply Rabs_triang|]. rewrite error_val in Hk. rewrite TE.
    pose proof (Rabs_pos a). pose proof (Rabs_pos b).
    assert (Q1 : u64 * Rabs (b - a) <= u64 * (Rabs a + Rabs b)) by (apply Rmult_le_compat_l; lra).
    assert (Q2 : u64 * (Rabs a + Rabs b) <= / 1000000000000000 * (Rabs a + Rabs b)) by (apply Rmult_le_compat_r; lra).
    assert (Q3 : Rabs (B2R s) <= 1.1 * (Rabs a + Rabs b) + 1).
    { replace (B2R s) with ((B2R s - (b - a)) + (b - a)) by ring. eapply Rle_trans; [apply Rabs_triang|]. lra. }
    assert (Q4 : 4 * u64 * (Rabs (B2R s) + 8) <= 4 * u64 * (1.1 * (Rabs a + Rabs b) + 9)) by (apply Rmult_le_compat_l; lra).
    assert (0 <= u64 * Rabs a) by (apply Rmult_le_pos; lra). assert (0 <= u64 * Rabs b) by (apply Rmult_le_pos; lra).
    rewrite !Rmult_plus_distr_l in *. lra. }
  (* the whole turns between the two do not matter *)
  set (n := (k - j)%Z).
  assert (E' : Rabs (B2R r - (d + 2 * PI * IZR n)) <= turn_error p q).
  { replace (d + 2 * PI * IZR n) with (b - a + 2 * PI * IZR k) by (unfold n; rewrite minus_IZR; lra). exact E. }
  assert (Pd : Rabs d <= PI) by (apply Rabs_le; lra).
  assert (Pr : Rabs (B2R r) <= PI) by lra.
  assert (W1 : Rabs d <= Rabs (d + 2 * PI * IZR n)).
  { destruct (Z.eq_dec n 0) as [->|N]; [rewrite Rmult_0_r, Rplus_0_r; lra|].
    assert (1 <= Rabs (IZR n)) by (rewrite <- abs_IZR; apply IZR_le; lia).
    pose proof (Rabs_triang (d + 2 * PI * IZR n) (- d)) as T. rewrite Rabs_Ropp in T.
    replace (d + 2 * PI * IZR n + - d) with (2 * PI * IZR n) in T by ring. rewrite Rabs_mult, (Rabs_pos_eq (2 * PI)) in T by (pose proof PI_RGT_0; lra).
    assert (2 * PI * 1 <= 2 * PI * Rabs (IZR n)) by (apply Rmult_le_compat_l; [pose proof PI_RGT_0; lra|assumption]). lra. }
  assert (W2 : Rabs (B2R r) <= Rabs (B2R r - 2 * PI * IZR n)).
  { destruct (Z.eq_dec n 0) as [->|N]; [rewrite Rmult_0_r, Rminus_0_r; lra|].
    assert (1 <= Rabs (IZR n)) by (rewrite <- abs_IZR; apply IZR_le; lia).
    pose proof (Rabs_triang (2 * PI * IZR n - B2R r) (B2R r)) as T. rewrite (Rabs_minus_sym (2 * PI * IZR n)) in T.
    replace (2 * PI * IZR n - B2R r + B2R r) with (2 * PI * IZR n) in T by ring. rewrite Rabs_mult, (Rabs_pos_eq (2 * PI)) in T by (pose proof PI_RGT_0; lra).
    assert (2 * PI * 1 <= 2 * PI * Rabs (IZR n)) by (apply Rmult_le_compat_l; [pose proof PI_RGT_0; lra|assumption]). lra. }
  apply Rabs_le. split.
  - pose proof (Rabs_triang (B2R r) (d + 2 * PI * IZR n - B2R r)) as T. rewrite (Rabs_minus_sym (d + 2 * PI * IZR n)) in T.
    replace (B2R r + (d + 2 * PI * IZR n - B2R r)) with (d + 2 * PI * IZR n) in T by ring. lra.
  - pose proof (Rabs_triang (B2R r - (d + 2 * PI * IZR n)) d) as T.
    replace (B2R r - (d + 2 * PI * IZR n) + d) with (B2R r - 2 * PI * IZR n) in T by ring. lra.
Qed.

Lemma turn_exists (a b : R) : exists d, turn a b d.
Proof. exists (angle_diff (A := RA) a b). apply angle_diff_turn. Qed.

(** The test decides by the real poses, up to the precision of the arithmetic. *)
Theorem C126_moved (lm : libm) (md mr : b64) (p q : pose b64) : exact_fmod lm ->
  is_finite md = true -> bpow radix2 (-400) <= B2R md <= bpow radix2 400 -> is_finite mr = true ->
  moderate_pose p -> moderate_pose q ->
  (moved (B2R md * (1 + bpow radix2 (-48))) (B2R mr + turn_error p q) (real_pose p) (real_pose q) ->
     small_motion (A := BA lm) md mr p q = false) /\
  (small_motion (A := BA lm) md mr p q = false ->
     moved (B2R md * (1 - bpow radix2 (-48))) (B2R mr - turn_error p q) (real_pose p) (real_pose q)).
Proof.
  intros X Fm Bm Fr (Px & Py & Pt) (Qx & Qy & Qt).
  destruct (sub_moderate _ _ Qx Px) as (Vx & Fx & Bx). destruct (sub_moderate _ _ Qy Py) as (Vy & Fy & By).
  assert (Lift : forall z, Rabs z <= bpow radix2 401 -> Rabs (rnd z) <= bpow radix2 402).
  { intros z Hz. apply Rabs_le_inv in Hz. apply Rle_trans with (bpow radix2 401); [|apply bpow_le; lia].
    apply Rabs_le. split; [apply rnd_lb; [apply fmt_opp, fmt_bpow; lia|lra]|apply rnd_ub; [apply fmt_bpow; lia|lra]]. }
  set (dx := Bminus mode_NE (pox q) (pox p)) in *. set (dy := Bminus mode_NE (poy q) (poy p)) in *.
  destruct (square64 dx Fx) as (Vxx & Fxx & Bxx); [rewrite Vx; apply Lift; exact Bx|].
  destruct (square64 dy Fy) as (Vyy & Fyy & Byy); [rewrite Vy; apply Lift; exact By|].
  destruct (b64_add_ok _ _ Fxx Fyy) as [Vd Fd].
  { rewrite Vxx, Vyy. rewrite Rabs_pos_eq by lra. apply Rle_trans with (bpow radix2 804 + bpow radix2 804); [lra|].
    rewrite <- (Rmult_1_l (bpow radix2 804)) at 1 2. rewrite <- Rmult_plus_distr_r. change (1 + 1) with (bpow radix2 1).
    rewrite <- bpow_plus. apply bpow_le. lia. }
  destruct (square64 md Fm) as (Vm & Fmm & _).
  { rewrite Rabs_pos_eq by (pose proof (bpow_gt_0 radix2 (-400)); lra). eapply Rle_trans; [apply Bm|]. apply bpow_le. lia. }
  rewrite Vxx, Vyy, Vx, Vy in Vd.
  pose proof (dist_decides md (B2R (pox q) - B2R (pox p)) (B2R (poy q) - B2R (poy p)) Fm Bm) as [Near Far]. cbv zeta in Near, Far.
  rewrite <- Vd in Near, Far. rewrite <- Vm in Near, Far.
  destruct (turn_exists (B2R (poth p)) (B2R (poth q))) as [d Td].
  destruct (turn_decides lm p q d X Pt Qt Td) as [Ft Et]. apply Rabs_le_inv in Et.
  unfold small_motion, moved, sq_dist, real_pose. cbn [pox poy poth px py].
  change (nsub (Arith := BA lm) (pox q) (pox p)) with dx. change (nsub (Arith := BA lm) (poy q) (poy p)) with dy.
  cbn [nlt nmul nadd nabs BA].
  set (t := angle_diff (A := BA lm) (poth p) (poth q)) in *.
  rewrite (Bltb_correct _ _ _ _ Fd Fmm).
  assert (Fa : is_finite (Babs t) = true) by (rewrite is_finite_Babs; exact Ft).
  rewrite (Bltb_correct _ _ _ _ Fa Fr), B2R_Babs.
  replace ((B2R (pox p) - B2R (pox q)) * (B2R (pox p) - B2R (pox q)) + (B2R (poy p) - B2R (poy q)) * (B2R (poy p) - B2R (poy q)))
    with ((B2R (pox q) - B2R (pox p)) * (B2R (pox q) - B2R (pox p)) + (B2R (poy q) - B2R (poy p)) * (B2R (poy q) - B2R (poy p))) by ring.
  split.
  - intros [M|(d' & Td' & M)].
    + rewrite Rlt_bool_false; [reflexivity|]. apply Far. exact M.
    + apply andb_false_iff. right. apply Rlt_bool_false. rewrite (turn_unique _ _ _ _ Td' Td) in M. lra.
  - intro H. apply andb_false_iff in H. destruct H as [H|H].
    + left. apply Rnot_lt_le. intro L. apply Near in L. rewrite Rlt_bool_true in H by exact L. discriminate H.
    + right. exists d. split; [exact Td|].
      destruct (Rlt_bool_spec (Rabs (B2R t)) (B2R mr)) as [L|L]; [discriminate H|]. lra.
Qed.
Print Assumptions C126_moved.

(** What this means for a scan that arrives: a robot that stayed clearly below
    both thresholds has its scan ignored; one that went clearly beyond one of
    them has it processed. *)
Theorem C126_scan (lm : libm) (cf : config b64) s sp e s' sp' start : exact_fmod lm ->
  is_finite (cf_min_dist cf) = true -> bpow radix2 (-400) <= B2R (cf_min_dist cf) <= bpow radix2 400 -> is_finite (cf_min_rot cf) = true ->
  moderate_pose (sh_odom s) -> moderate_pose (from_msg (A := BA lm) start) ->
  sp_pc sp = SIdle -> sh_scans s <> [] -> le_start e = Some start ->
  laser_begin (A := BA lm) cf s sp e = Ok (s', sp') ->
  (~ moved (B2R (cf_min_dist cf) * (1 - bpow radix2 (-48))) (B2R (cf_min_rot cf) - turn_error (sh_odom s) (from_msg (A := BA lm) start))
       (real_pose (sh_odom s)) (real_pose (from_msg (A := BA lm) start)) ->
     ~ busy sp' /\ untouched s s' /\ sp_filter sp' = sp_filter sp) /\
  (moved (B2R (cf_min_dist cf) * (1 + bpow radix2 (-48))) (B2R (cf_min_rot cf) + turn_error (sh_odom s) (from_msg (A := BA lm) start))
       (real_pose (sh_odom s)) (real_pose (from_msg (A := BA lm) start)) ->
     sh_init s = true -> sp_frame sp <> ""%string -> (forall ns, le_end e ns <> None) -> busy sp').
Proof.
  intros X Fm Bm Fr Mp Mq I N Es H.
  destruct (C126_moved lm _ _ _ _ X Fm Bm Fr Mp Mq) as [Far Near]. split.
  - intros M. pose proof H as H0. apply laser_begin_cases in H; [|exact I].
    destruct H as [(P & U & F)|(start' & end_ & guess & pts & sc & s1 & sp1 & L & U1 & In & Es' & Ee & Hg & _)].
    + split; [intro B; apply B; exact P|]. split; assumption.
    + exfalso. rewrite Es in Es'. injection Es' as <-. unfold guess_pose in Hg. destruct (sh_scans s); [contradiction|].
      destruct (small_motion (A := BA lm) (cf_min_dist cf) (cf_min_rot cf) (sh_odom s) (from_msg (A := BA lm) start)) eqn:S; [discriminate Hg|].
      apply M, Near. reflexivity.
  - intros M In Fr' Ee. specialize (Far M). unfold laser_begin, learn_laser in H. cbn [sp_frame learn_range] in H.
    destruct (sp_frame sp =? "")%string eqn:E; [apply String.eqb_eq in E; contradiction|].
    cbn [bind] in H. rewrite In, Es in H. unfold guess_pose in H. destruct (sh_scans s); [contradiction|].
    rewrite Far in H. apply bind_ok in H. destruct H as (ns & Ns & H). specialize (Ee ns).
    destruct (le_end e ns) as [end_|]; [|contradiction].
    apply bind_ok in H. destruct H as (pts & _ & H). unfold alloc in H. cbv beta iota zeta in H. injection H as _ <-.
    unfold busy. cbn [sp_pc at_pc]. destruct (use_filter cf); [discriminate|]. destruct (sh_enable _); discriminate.
Qed.
Print Assumptions C126_scan.

(** ** Non-vacuity: thresholds of one metre and one radian; the robot is at the
    origin, then two metres or nothing ahead. *)
Lemma easy_fmod (lm : libm) : exact_fmod (easy (with_fmod lm)).
Proof.
  intros x y Fx Fy Y0. cbn [lm_fmod easy with_fmod].
  destruct (Bltb (Babs x) y) eqn:L; [|apply fmod64_exact; assumption].
  rewrite Bltb_correct in L; [|rewrite is_finite_Babs; exact Fx|exact Fy]. rewrite B2R_Babs in L.
  destruct (Rlt_bool_spec (Rabs (B2R x)) (B2R y)) as [L'|]; [|discriminate L].
  split; [exact Fx|]. split; [exists 0%Z; lra|]. split; [|apply Rle_0_sqr].
  apply Rlt_le_trans with (B2R y); [exact L'|apply Rle_abs].
Qed.

Definition still_shared : shared b64 :=
  mkShared [] [0%nat] [] false None None (mkPose (z64 0) (z64 0) (z64 0)) (mkPose (z64 0) (z64 0) (z64 0)) (z64 0) true true None [].
Definition still_spin : spin b64 := mkSpin SIdle (z64 2) "laser" (mkPose (z64 0) (z64 0) (z64 0)) false None None.
Definition still_ev (x : Z) : laser_ev b64 :=
  mkLaserEv (mkLaser (z64 0) (z64 0) (z64 2) [z64 1]) "laser" (Some (at64 0 0)) (Some (at64 x 0)) (z64 0) (fun _ => Some (at64 x 0)) (fun _ _ _ => z64 0) [].

Definition begins (lm : libm) (x : Z) (P : spin b64 -> bool) : bool :=
  match laser_begin (A := BA (easy (with_fmod lm))) (cf64 (easy (with_fmod lm)) 5 5 5 None true None) still_shared still_spin (still_ev x) with
  | Ok (_, sp) => P sp | Fault _ => false end.
Lemma begins_two (lm : libm) : begins lm 2 (fun sp => match sp_pc sp with SIdle => false | _ => true end) = true.
Proof. vm_compute. reflexivity. Qed.
Lemma begins_none (lm : libm) : begins lm 0 (fun sp => match sp_pc sp with SIdle => true | _ => false end) = true.
Proof. vm_compute. reflexivity. Qed.

Lemma at64_pose (lm : libm) (x : Z) : x = 0%Z \/ x = 2%Z -> from_msg (A := BA (easy (with_fmod lm))) (at64 x 0) = mkPose (z64 x) (z64 0) (z64 0).
Proof. intros [-> | ->]; unfold from_msg; f_equal; apply b64_eq; vm_compute; reflexivity. Qed.

Lemma z64_moderate (x : Z) : (Z.abs x <= 2)%Z -> moderate (z64 x).
Proof.
  intros H. destruct (b64_ofZ x) as [V F]; [lia|]. split; [exact F|]. unfold z64. rewrite V, <- abs_IZR.
  apply Rle_trans with (bpow radix2 1); [change (bpow radix2 1) with (IZR 2); apply IZR_le; exact H|apply bpow_le; lia].
Qed.

Lemma B2R_z (x : Z) : (Z.abs x <= 2)%Z -> B2R (z64 x) = IZR x.
Proof. intros H. apply b64_ofZ. lia. Qed.

Example C126_nonvacuous (lm : libm) :
  let lm' := easy (with_fmod lm) in
  let p := mkPose (z64 0) (z64 0) (z64 0) in
  exact_fmod lm' /\ moderate_pose p /\ moderate_pose (from_msg (A := BA lm') (at64 2 0)) /\
  moved (B2R (z64 1) * (1 + bpow radix2 (-48))) (B2R (z64 1) + turn_error p (from_msg (A := BA lm') (at64 2 0)))
    (real_pose p) (real_pose (from_msg (A := BA lm') (at64 2 0))) /\
  ~ moved (B2R (z64 1) * (1 - bpow radix2 (-48))) (B2R (z64 1) - turn_error p (from_msg (A := BA lm') (at64 0 0)))
    (real_pose p) (real_pose (from_msg (A := BA lm') (at64 0 0))) /\
  (exists s' sp', laser_begin (A := BA lm') (cf64 lm' 5 5 5 None true None) still_shared still_spin (still_ev 2) = Ok (s', sp') /\ busy sp') /\
  (exists s' sp', laser_begin (A := BA lm') (cf64 lm' 5 5 5 None true None) still_shared still_spin (still_ev 0) = Ok (s', sp') /\ ~ busy sp').
Proof.
  intros lm' p. unfold lm'. rewrite !at64_pose by lia.
  assert (M0 : moderate (z64 0)) by (apply z64_moderate; cbn; lia).
  assert (M2 : moderate (z64 2)) by (apply z64_moderate; cbn; lia).
  assert (B48 : bpow radix2 (-48) = / IZR (2 ^ 48)) by reflexivity.
  assert (B50 : bpow radix2 (-50) = / IZR (2 ^ 50)) by reflexivity.
  split; [apply easy_fmod|]. split; [repeat split; exact (proj1 M0) || exact (proj2 M0)|].
  split; [repeat split; cbn [pox poy poth]; (exact (proj1 M0) || exact (proj2 M0) || exact (proj1 M2) || exact (proj2 M2))|].
  split; [|split].
  - left. unfold real_pose, sq_dist, p. cbn [pox poy poth px py]. rewrite !B2R_z by (cbn; lia).
    replace ((0 - 2) * (0 - 2) + (0 - 0) * (0 - 0)) with (2 * 2) by ring. rewrite sqrt_square by lra. rewrite B48. cbn. lra.
  - unfold turn_error, real_pose, p. intros [M|(d & [D [k K]] & M)]; revert M; unfold sq_dist; cbn [pox poy poth px py] in *; rewrite !B2R_z in * by (cbn; lia).
    + replace ((0 - 0) * (0 - 0) + (0 - 0) * (0 - 0)) with 0 by ring. rewrite sqrt_0, B48. cbn. lra.
    + assert (d = 0).
      { pose proof PI_RGT_0. destruct (Z.lt_trichotomy k 0) as [L|[->|L]]; [exfalso|lra|exfalso].
        - assert (IZR k <= -1) by (apply IZR_le; lia). assert (PI * IZR k <= PI * -1) by (apply Rmult_le_compat_l; lra). lra.
        - assert (1 <= IZR k) by (apply IZR_le; lia). assert (PI * 1 <= PI * IZR k) by (apply Rmult_le_compat_l; lra). lra. }
      subst d. rewrite !Rabs_R0, B50. cbn. lra.
  - split.
    + pose proof (begins_two lm) as H. unfold begins in H.
      destruct (laser_begin _ _ _ _) as [[s' sp']|]; [|discriminate H]. exists s', sp'. split; [reflexivity|].
      unfold busy. intro E. rewrite E in H. discriminate H.
    + pose proof (begins_none lm) as H. unfold begins in H.
      destruct (laser_begin _ _ _ _) as [[s' sp']|]; [|discriminate H]. exists s', sp'. split; [reflexivity|].
      unfold busy. intro E. apply E. destruct (sp_pc sp'); try discriminate H. reflexivity.
Qed.
