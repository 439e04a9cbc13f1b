(** The points of a scan, in double arithmetic. *)

From Coq Require Import ZArith Reals List Bool Lia Lra.
From Flocq Require Import Core BinarySingleNaN.
From Verif Require Import Outcome Arith TypesModel LaserModel SpecPose SpecLaser LaserProofs LaserB64
  B64Tactics B64Lemmas CellB64 SpecMotion64 SpecPlace64 NearB64 NearestB64 PropPlace64 SpecRigid64 PropRigid64 SpecLaser64 SingleB64.
Import ListNotations.
Local Open Scope R_scope.

(** [x] divided by [n] and multiplied by [i], with [i] at most [n]. *)
Lemma near_scale (M k b : R) (x : b64) (v : R) (i n : nat) : usual_size M -> 0 <= k <= 10 -> 0 <= b <= 10 -> near M k b x v ->
  (i <= n)%nat -> (0 < n)%nat -> (Z.of_nat n <= 2 ^ 40)%Z ->
  near M (k + 2 * b + / 50) b (Bmult mode_NE (Bdiv mode_NE x (b64_of (Z.of_nat n) 0)) (b64_of (Z.of_nat i) 0)) (INR i / INR n * v).
Proof.
  intros HM K B X I N NB. pose proof (near_size M HM k b x v ltac:(lra) X) as SX. destruct X as (FX & EX & VX).
  pose proof (M_pos M HM) as MP. pose proof (uM_pos M HM) as UP. pose proof (uM_small M HM) as US. pose proof (big_M M HM) as BM. pose proof (eta_M M HM) as EM.
  pose proof u64_pos as U0.
  destruct (b64_ofZ (Z.of_nat n) ltac:(lia)) as [Vn Fn]. destruct (b64_ofZ (Z.of_nat i) ltac:(lia)) as [Vi Fi].
  rewrite <- INR_IZR_INZ in Vn, Vi.
  assert (n1 : 1 <= INR n). { change 1 with (INR 1). apply le_INR. lia. }
  assert (i0 : 0 <= INR i) by apply pos_INR. assert (il : INR i <= INR n) by (apply le_INR; lia).
  assert (nB : INR n <= bpow radix2 40). { rewrite INR_IZR_INZ. change (bpow radix2 40) with (IZR (2 ^ 40)). apply IZR_le. exact NB. }
  assert (In : 0 < / INR n) by (apply Rinv_0_lt_compat; lra).
  assert (r01 : 0 <= INR i / INR n <= 1).
  { split; [apply Rmult_le_pos; lra|]. apply Rle_trans with (INR n / INR n); [apply Rmult_le_compat_r; lra|right; field; lra]. }
  set (d := b64_of (Z.of_nat n) 0) in *. set (g := b64_of (Z.of_nat i) 0) in *.
  assert (AD : Rabs (B2R x / B2R d) = Rabs (B2R x) * / INR n) by (rewrite Vn; unfold Rdiv; rewrite Rabs_mult, (Rabs_pos_eq (/ INR n)) by lra; reflexivity).
  assert (IN1 : / INR n <= 1) by (rewrite <- Rinv_1; apply Rinv_le; lra).
  destruct (b64_div_ok x d FX) as [V1 F1].
  { rewrite Vn. lra. }
  { rewrite AD. apply Rle_trans with (Rabs (B2R x) * 1); [apply Rmult_le_compat_l; [apply Rabs_pos|exact IN1]|].
    assert ((b + / 1000) * M <= 1000000 * M) by (apply Rmult_le_compat_r; lra). lra. }
  set (y := Bdiv mode_NE x d) in *.
  assert (E1 : Rabs (B2R y - B2R x / INR n) <= u64 * (Rabs (B2R x) * / INR n) + eta64).
  { rewrite V1. rewrite <- Vn at 1. eapply Rle_trans; [apply rnd_err|]. rewrite AD. lra. }
  (* times i *)
  assert (IE : INR i * eta64 <= / 1000 * (u64 * M)).
  { apply Rle_trans with (bpow radix2 40 * eta64); [apply Rmult_le_compat_r; [pose proof eta64_pos; lra|lra]|].
    unfold eta64. rewrite <- bpow_plus. apply Rle_trans with (bpow radix2 (-53 + -400) * bpow radix2 (-10)).
    - rewrite <- bpow_plus. apply bpow_le. lia.
    - rewrite Rmult_comm. apply Rmult_le_compat; try apply bpow_ge_0; [change (bpow radix2 (-10)) with (/ 1024); lra|].
      rewrite bpow_plus. apply Rmult_le_compat_l; [apply bpow_ge_0|apply HM]. }
  assert (E2 : Rabs (B2R y * INR i - INR i / INR n * B2R x) <= u64 * ((b + / 1000) * M) + / 1000 * (u64 * M)).
  { replace (B2R y * INR i - INR i / INR n * B2R x) with (INR i * (B2R y - B2R x / INR n)) by (field; lra).
    rewrite Rabs_mult, (Rabs_pos_eq (INR i)) by exact i0.
    eapply Rle_trans; [apply Rmult_le_compat_l; [exact i0|exact E1]|].
    replace (INR i * (u64 * (Rabs (B2R x) * / INR n) + eta64)) with (u64 * (INR i / INR n * Rabs (B2R x)) + INR i * eta64) by (unfold Rdiv; ring).
    apply Rplus_le_compat; [|exact IE]. apply Rmult_le_compat_l; [lra|].
    rewrite <- (Rmult_1_l ((b + / 1000) * M)). apply Rmult_le_compat; try apply Rabs_pos; lra. }
  replace (u64 * ((b + / 1000) * M)) with ((b + / 1000) * (u64 * M)) in E2 by ring.
  assert (S2 : Rabs (B2R y * B2R g) <= (b + / 500) * M).
  { rewrite Vi. replace (B2R y * INR i) with ((B2R y * INR i - INR i / INR n * B2R x) + INR i / INR n * B2R x) by ring.
    eapply Rle_trans; [apply Rabs_triang|].
    assert (Rabs (INR i / INR n * B2R x) <= (b + / 1000) * M).
    { rewrite Rabs_mult, (Rabs_pos_eq (INR i / INR n)) by lra. rewrite <- (Rmult_1_l ((b + / 1000) * M)). apply Rmult_le_compat; try apply Rabs_pos; lra. }
    assert ((b + / 1000) * (u64 * M) <= 11 * (u64 * M)) by (apply Rmult_le_compat_r; lra). lra. }
  destruct (b64_mul_ok y g F1 Fi) as [V3 F3].
  { eapply Rle_trans; [exact S2|]. apply Rle_trans with (1000000 * M); [apply Rmult_le_compat_r; lra|exact BM]. }
  split; [exact F3|]. split.
  2: { rewrite Rabs_mult, (Rabs_pos_eq (INR i / INR n)) by lra. rewrite <- (Rmult_1_l (b * M)). apply Rmult_le_compat; try apply Rabs_pos; lra. }
  rewrite V3. pose proof (near_rnd M HM (b + / 500) (B2R y * B2R g) ltac:(lra) S2) as E3. rewrite Vi in *.
  assert (E4 : Rabs (INR i / INR n * B2R x - INR i / INR n * v) <= k * (u64 * M)).
  { rewrite <- Rmult_minus_distr_l, Rabs_mult, (Rabs_pos_eq (INR i / INR n)) by lra. rewrite <- (Rmult_1_l (k * (u64 * M))).
    apply Rmult_le_compat; try apply Rabs_pos; lra. }
  replace (rnd (B2R y * INR i) - INR i / INR n * v) with ((rnd (B2R y * INR i) - B2R y * INR i) + ((B2R y * INR i - INR i / INR n * B2R x) + (INR i / INR n * B2R x - INR i / INR n * v))) by ring.
  eapply Rle_trans; [apply Rabs_triang|]. pose proof (Rabs_triang (B2R y * INR i - INR i / INR n * B2R x) (INR i / INR n * B2R x - INR i / INR n * v)). lra.
Qed.

(** A rotation and a translation of a point known up to rounding. *)
Lemma near_act (lm : libm) (M k b kt bt : R) (h x y tx ty : b64) (v w a c : R) : accurate_trig lm -> usual_size M ->
  0 <= k <= 20 -> 0 <= b <= 4 -> 0 <= kt <= 30 -> 0 <= bt <= 10 -> is_finite h = true ->
  near M k b x v -> near M k b y w -> near M kt bt tx a -> near M kt bt ty c ->
  near M (2 * k + 10 * b + kt + bt + / 10) (2 * b + bt)
    (Bplus mode_NE (Bminus mode_NE (Bmult mode_NE (lm_cos lm h) x) (Bmult mode_NE (lm_sin lm h) y)) tx)
    (cos (B2R h) * v - sin (B2R h) * w + a) /\
  near M (2 * k + 10 * b + kt + bt + / 10) (2 * b + bt)
    (Bplus mode_NE (Bplus mode_NE (Bmult mode_NE (lm_sin lm h) x) (Bmult mode_NE (lm_cos lm h) y)) ty)
    (sin (B2R h) * v + cos (B2R h) * w + c).
Proof.
  intros T HM K B KT BT Fh X Y TX TY. pose proof (cos_unit lm h T Fh) as HC. pose proof (sin_unit lm h T Fh) as HS.
  pose proof (near_mul M HM k b _ _ _ _ ltac:(lra) ltac:(lra) HC X) as m1.
  pose proof (near_mul M HM k b _ _ _ _ ltac:(lra) ltac:(lra) HS Y) as m2.
  pose proof (near_mul M HM k b _ _ _ _ ltac:(lra) ltac:(lra) HS X) as m3.
  pose proof (near_mul M HM k b _ _ _ _ ltac:(lra) ltac:(lra) HC Y) as m4.
  near_op near_sub M HM m1 m2 nx1. near_op near_add M HM m3 m4 ny1.
  near_op near_add M HM nx1 TX nx2. near_op near_add M HM ny1 TY ny2.
  split; [eapply near_weaken; [exact HM| | |exact nx2]; lra|eapply near_weaken; [exact HM| | |exact ny2]; lra].
Qed.

Lemma direction_bound (M r a : R) : Rabs r <= M -> Rabs (r * cos a) <= M /\ Rabs (r * sin a) <= M.
Proof.
  intros B. rewrite !Rabs_mult. assert (C : Rabs (cos a) <= 1) by (apply Rabs_le; apply COS_bound). assert (S : Rabs (sin a) <= 1) by (apply Rabs_le; apply SIN_bound).
  rewrite <- (Rmult_1_r M). split; apply Rmult_le_compat; try apply Rabs_pos; assumption.
Qed.

(** A reading in the robot frame. *)
Lemma robot_near (lm : libm) (M : R) (laser : pose b64) (a r : b64) : accurate_trig lm -> usual_size M -> pose_upto M laser ->
  is_finite a = true -> upto M r ->
  let v := act (real_pose laser) (polar (B2R a) (B2R r)) in
  let q := to_robot (A := BA lm) laser a r in
  near M (172 / 10) 3 (px q) (px v) /\ near M (172 / 10) 3 (py q) (py v).
Proof.
  intros T HM (LX & LY & LT) Fa Hr v q. pose proof (near_upto M _ Hr) as NR.
  pose proof (cos_unit lm a T Fa) as HC. pose proof (sin_unit lm a T Fa) as HS.
  pose proof (near_mul M HM 0 1 _ _ _ _ ltac:(lra) ltac:(lra) HC NR) as m1.
  pose proof (near_mul M HM 0 1 _ _ _ _ ltac:(lra) ltac:(lra) HS NR) as m2.
  pose proof (fun a b c d => near_act lm M _ _ 0 1 _ _ _ _ _ _ _ _ _ T HM a b c d LT m1 m2 (near_upto M _ LX) (near_upto M _ LY)) as L.
  specialize (L ltac:(lra) ltac:(lra) ltac:(lra) ltac:(lra)). destruct L as [nx1 ny1].
  unfold v, act, real_pose, polar. cbn [px py pox poy poth].
  split.
  - replace (B2R (pox laser) + (cos (B2R (poth laser)) * (B2R r * cos (B2R a)) - sin (B2R (poth laser)) * (B2R r * sin (B2R a)))) with
      (cos (B2R (poth laser)) * (cos (B2R a) * B2R r) - sin (B2R (poth laser)) * (sin (B2R a) * B2R r) + B2R (pox laser)) by ring.
    eapply near_weaken; [exact HM| | |exact nx1]; lra.
  - replace (B2R (poy laser) + (sin (B2R (poth laser)) * (B2R r * cos (B2R a)) + cos (B2R (poth laser)) * (B2R r * sin (B2R a)))) with
      (sin (B2R (poth laser)) * (cos (B2R a) * B2R r) + cos (B2R (poth laser)) * (sin (B2R a) * B2R r) + B2R (poy laser)) by ring.
    eapply near_weaken; [exact HM| | |exact ny1]; lra.
Qed.

(** Moving a point by a motion known up to rounding. *)
Lemma moved_near (lm : libm) (M H kh kt bt : R) (s : pose b64) (p : point b64) (v : point R) (t : pose R) : accurate_trig lm -> usual_size M -> 0 <= H ->
  0 <= kh <= 7 -> 0 <= kt <= 13 -> 0 <= bt <= 4 ->
  near M (172 / 10) 3 (px p) (px v) -> near M (172 / 10) 3 (py p) (py v) ->
  near M kt bt (pox s) (pox t) -> near M kt bt (poy s) (poy t) -> is_finite (poth s) = true -> Rabs (B2R (poth s) - poth t) <= kh * (u64 * (H + 1)) ->
  let q := move_point (A := BA lm) s p in
  close (bpow radix2 (-46) * M * (H + 1)) (px q) (px (act t v)) /\ close (bpow radix2 (-46) * M * (H + 1)) (py q) (py (act t v)).
Proof.
  intros T HM H0 KH KT BT NX NY TX TY Fh Eh q.
  destruct (near_act lm M (172 / 10) 3 kt bt (poth s) (px p) (py p) (pox s) (poy s) (px v) (py v) (pox t) (poy t) T HM
    ltac:(lra) ltac:(lra) ltac:(lra) ltac:(lra) Fh NX NY TX TY) as [(FX & EX & _) (FY & EY & _)].
  pose proof (M_pos M HM) as MP. pose proof (uM_pos M HM) as UP.
  destruct NX as (_ & _ & BX). destruct NY as (_ & _ & BY).
  set (h := B2R (poth s)) in *. set (g := poth t) in *.
  pose proof (cos_lip h g) as LC. pose proof (sin_lip h g) as LS.
  set (e := kh * (u64 * (H + 1))) in *. assert (e0 : 0 <= e) by (pose proof (Rabs_pos (h - g)); lra).
  assert (P : forall a b, Rabs a <= Rabs (h - g) -> Rabs b <= 3 * M -> Rabs (a * b) <= 3 * (e * M)).
  { intros a b A B. rewrite Rabs_mult. apply Rle_trans with (e * (3 * M)); [apply Rmult_le_compat; try apply Rabs_pos; lra|lra]. }
  assert (EE : 6 * (e * M) = 6 * kh * (H + 1) * (u64 * M)) by (unfold e; ring).
  assert (TOT : (2 * (172 / 10) + 10 * 3 + kt + bt + / 10) * (u64 * M) + 6 * (e * M) <= bpow radix2 (-46) * M * (H + 1)).
  { rewrite EE, u128. replace (128 * u64 * M * (H + 1)) with (128 * (H + 1) * (u64 * M)) by ring. rewrite <- Rmult_plus_distr_r.
    apply Rmult_le_compat_r; [lra|]. nra. }
  unfold act. cbn [px py]. fold g. split.
  - split; [exact FX|]. eapply Rle_trans; [|exact TOT].
    change (px q) with (Bplus mode_NE (Bminus mode_NE (Bmult mode_NE (lm_cos lm (poth s)) (px p)) (Bmult mode_NE (lm_sin lm (poth s)) (py p))) (pox s)).
    match goal with |- Rabs (?z - _) <= _ => replace (z - (pox t + (cos g * px v - sin g * py v))) with
      ((z - (cos h * px v - sin h * py v + pox t)) + ((cos h - cos g) * px v - (sin h - sin g) * py v)) by ring end.
    eapply Rle_trans; [apply Rabs_triang|]. apply Rplus_le_compat; [exact EX|]. unfold Rminus at 1. eapply Rle_trans; [apply Rabs_triang|]. rewrite Rabs_Ropp.
    pose proof (P _ _ LC BX). pose proof (P _ _ LS BY). lra.
  - split; [exact FY|]. eapply Rle_trans; [|exact TOT].
    change (py q) with (Bplus mode_NE (Bplus mode_NE (Bmult mode_NE (lm_sin lm (poth s)) (px p)) (Bmult mode_NE (lm_cos lm (poth s)) (py p))) (poy s)).
    match goal with |- Rabs (?z - _) <= _ => replace (z - (poy t + (sin g * px v + cos g * py v))) with
      ((z - (sin h * px v + cos h * py v + poy t)) + ((sin h - sin g) * px v + (cos h - cos g) * py v)) by ring end.
    eapply Rle_trans; [apply Rabs_triang|]. apply Rplus_le_compat; [exact EY|]. eapply Rle_trans; [apply Rabs_triang|].
    pose proof (P _ _ LC BY). pose proof (P _ _ LS BX). lra.
Qed.

Lemma heading_size (h : R) : 0 <= h -> h + 1 <= bpow radix2 400 -> usual_size (h + 1).
Proof. intros H B. split; [|exact B]. apply Rle_trans with (bpow radix2 0); [apply bpow_le; lia|cbn; lra]. Qed.

(** The turn during the sweep. *)
Lemma sweep_turn (o e : b64) : is_finite o = true -> is_finite e = true -> let D := Rabs (B2R e - B2R o) in D + 1 <= bpow radix2 400 ->
  near (D + 1) (1002 / 1000) 1 (Bminus mode_NE e o) (B2R e - B2R o).
Proof.
  intros FO FE D B. assert (D0 : 0 <= D) by apply Rabs_pos. pose proof (heading_size D D0 B) as HD.
  destruct (b64_sub_ok e o FE FO) as [V F].
  { fold D. apply Rle_trans with (bpow radix2 400); [lra|apply bpow_le; lia]. }
  split; [exact F|]. split; [|fold D; lra]. rewrite V.
  pose proof (near_rnd (D + 1) HD 1 (B2R e - B2R o) ltac:(lra) ltac:(fold D; lra)) as E. pose proof (uM_pos (D + 1) HD). lra.
Qed.

Section Sweep.
Context (lm : libm) (M : R) (rm : b64) (laser o e : pose b64) (m : laser_msg b64).
Hypotheses (T : accurate_trig lm) (HS : usual_sweep M rm laser o e m).
Let n : nat := length (lr_ranges m).
Let t : pose b64 := sweep_translation (A := BA lm) o e.
Let per : pose b64 := per_measurement (A := BA lm) t n.

Lemma upright_place (i : nat) (r : b64) : (i < n)%nat -> upto M r ->
  converted (reading_error M o e) 1 laser m (share o e (INR i / INR n)) (i, r)
    (move_point (A := BA lm) (upright_shift (A := BA lm) per i) (to_robot (A := BA lm) laser (beam_angle (A := BA lm) m i) r)).
Proof.
  intros I Hr. destruct HS as (HM & _ & HL & (OX & OY & OT) & (EX & EY & ET) & HD & HA & HI & HN & _). fold n in HN.
  destruct (beam_direction lm m i HA HI ltac:(lia)) as [FA DA].
  exists (B2R (beam_angle (A := BA lm) m i)). split; [exact DA|]. cbn [fst snd]. rewrite Rmult_1_l.
  destruct (robot_near lm M laser _ r T HM HL FA Hr) as [NX NY].
  pose proof (Rabs_pos (B2R (poth e) - B2R (poth o))) as D0. pose proof (heading_size _ D0 HD) as HH.
  pose proof (sweep_turn _ _ OT ET HD) as ST.
  pose proof (near_scale _ (1002 / 1000) 1 _ _ i n HH ltac:(lra) ltac:(lra) ST ltac:(lia) ltac:(lia) HN) as (FH & EH & _).
  near_op near_sub M HM (near_upto M _ EX) (near_upto M _ OX) dx1. near_op near_sub M HM (near_upto M _ EY) (near_upto M _ OY) dy1.
  pose proof (fun a b => near_scale M _ _ _ _ i n HM a b dx1 ltac:(lia) ltac:(lia) HN) as sx1. specialize (sx1 ltac:(lra) ltac:(lra)).
  pose proof (fun a b => near_scale M _ _ _ _ i n HM a b dy1 ltac:(lia) ltac:(lia) HN) as sy1. specialize (sy1 ltac:(lra) ltac:(lra)).
  refine (moved_near lm M (Rabs (B2R (poth e) - B2R (poth o))) _ _ _ (upright_shift (A := BA lm) per i) _ _ (share o e (INR i / INR n)) T HM D0 _ _ _ NX NY _ _ FH EH);
    [| | |exact sx1|exact sy1]; lra.
Qed.

Lemma inverted_place (i : nat) (r : b64) : (i < n)%nat -> upto M r ->
  converted (reading_error M o e) (-1) laser m (share o e (1 - INR i / INR n)) (i, r)
    (move_point (A := BA lm) (inverted_shift (A := BA lm) t per i) (to_robot (A := BA lm) laser (Bopp (beam_angle (A := BA lm) m i)) r)).
Proof.
  intros I Hr. destruct HS as (HM & _ & HL & (OX & OY & OT) & (EX & EY & ET) & HD & HA & HI & HN & _). fold n in HN.
  destruct (beam_direction lm m i HA HI ltac:(lia)) as [FA DA].
  exists (B2R (beam_angle (A := BA lm) m i)). split; [exact DA|]. cbn [fst snd].
  replace (-1 * B2R (beam_angle (A := BA lm) m i)) with (B2R (Bopp (beam_angle (A := BA lm) m i))) by (rewrite B2R_Bopp; ring).
  rewrite <- is_finite_Bopp in FA.
  destruct (robot_near lm M laser _ r T HM HL FA Hr) as [NX NY].
  pose proof (Rabs_pos (B2R (poth e) - B2R (poth o))) as D0. pose proof (heading_size _ D0 HD) as HH.
  pose proof (sweep_turn _ _ OT ET HD) as ST.
  pose proof (near_scale _ (1002 / 1000) 1 _ _ i n HH ltac:(lra) ltac:(lra) ST ltac:(lia) ltac:(lia) HN) as SH.
  pose proof (fun a b c d => near_sub _ HH _ _ _ _ _ _ _ _ a b c d ST SH) as RH. specialize (RH ltac:(lra) ltac:(lra) ltac:(lra) ltac:(lra)).
  near_op near_sub M HM (near_upto M _ EX) (near_upto M _ OX) dx1. near_op near_sub M HM (near_upto M _ EY) (near_upto M _ OY) dy1.
  pose proof (fun a b => near_scale M _ _ _ _ i n HM a b dx1 ltac:(lia) ltac:(lia) HN) as sx1. specialize (sx1 ltac:(lra) ltac:(lra)).
  pose proof (fun a b => near_scale M _ _ _ _ i n HM a b dy1 ltac:(lia) ltac:(lia) HN) as sy1. specialize (sy1 ltac:(lra) ltac:(lra)).
  near_op near_sub M HM dx1 sx1 rx1. near_op near_sub M HM dy1 sy1 ry1.
  assert (EQ : forall x k : R, x - k * x = (1 - k) * x) by (intros; ring). rewrite EQ in RH, rx1, ry1.
  destruct RH as (FH & EH & _).
  refine (moved_near lm M (Rabs (B2R (poth e) - B2R (poth o))) _ _ _ (inverted_shift (A := BA lm) t per i) _ _ (share o e (1 - INR i / INR n)) T HM D0 _ _ _ NX NY _ _ FH EH);
    [| | |exact rx1|exact ry1]; lra.
Qed.

Lemma used_reading (l : list (nat * b64)) (ir : nat * b64) : incl l (indexed (lr_ranges m)) -> In ir (filter (fun ir => Bleb (snd ir) rm) l) ->
  (fst ir < n)%nat /\ upto M (snd ir).
Proof.
  intros S H. apply filter_In in H. destruct H as [H L]. apply S in H. destruct ir as [i r]. cbn [fst snd] in *. unfold indexed in H.
  split; [apply in_combine_l in H; apply in_seq in H; unfold n; lia|].
  apply in_combine_r in H. apply HS; assumption.
Qed.

Lemma map_Forall2 {X Y : Type} (P : X -> Y -> Prop) (f : X -> Y) (l : list X) : (forall x, In x l -> P x (f x)) -> Forall2 P l (map f l).
Proof. induction l as [|x l IH]; intros H; constructor; [apply H; left; reflexivity|apply IH; intros y Y1; apply H; right; exact Y1]. Qed.

(** Upright laser. *)
Lemma upright64 : exists pts, scan_points (A := BA lm) false rm laser o e m = Ok pts /\
  Forall2 (fun ir q => converted (reading_error M o e) 1 laser m (share o e (INR (fst ir) / INR n)) ir q)
    (filter (fun ir => Bleb (snd ir) rm) (indexed (lr_ranges m))) pts.
Proof.
  eexists. split.
  - unfold scan_points. rewrite upright_points_filter. reflexivity.
  - rewrite (filter_ext (fun ir : nat * b64 => negb (skipped (A := BA lm) rm (snd ir))) (fun ir : nat * b64 => Bleb (snd ir) rm)).
    + apply map_Forall2. intros [i r] H. destruct (used_reading _ _ (incl_refl _) H) as [I U]. apply upright_place; assumption.
    + intros [i r]. cbn [snd]. rewrite skipped_b64 by apply HS. apply negb_involutive.
Qed.

(** Inverted laser. *)
Lemma inverted64 : lr_ranges m <> [] -> exists pts, scan_points (A := BA lm) true rm laser o e m = Ok pts /\
  Forall2 (fun ir q => converted (reading_error M o e) (-1) laser m (share o e (1 - INR (fst ir) / INR n)) ir q)
    (filter (fun ir => Bleb (snd ir) rm) (rev (tl (indexed (lr_ranges m))))) pts.
Proof.
  intros NE. assert (Hl : exists k, length (lr_ranges m) = S k) by (destruct (lr_ranges m); [contradiction|eexists; reflexivity]).
  destruct Hl as [k Hk]. eexists. split.
  - unfold scan_points. rewrite Hk. rewrite inverted_points_filter by lia. reflexivity.
  - rewrite (filter_ext (fun ir : nat * b64 => negb (skipped (A := BA lm) rm (snd ir))) (fun ir : nat * b64 => Bleb (snd ir) rm)).
    + assert (EI : skipn 1 (firstn (S k) (combine (seq 0 (length (lr_ranges m))) (lr_ranges m))) = tl (indexed (lr_ranges m))).
      { rewrite firstn_all2 by (rewrite combine_length, seq_length; lia). unfold indexed. destruct (combine _ _); reflexivity. }
      rewrite EI. apply map_Forall2. intros [i r] H.
      assert (S : incl (rev (tl (indexed (lr_ranges m)))) (indexed (lr_ranges m))).
      { intros x X. apply in_rev in X. destruct (indexed (lr_ranges m)); [exact X|right; exact X]. }
      destruct (used_reading _ _ S H) as [I U]. rewrite <- Hk. apply inverted_place; assumption.
    + intros [i r]. cbn [snd]. rewrite skipped_b64 by apply HS. apply negb_involutive.
Qed.
End Sweep.

(** C135: an upright laser; every reading not above the maximum, in order. *)
Theorem C135_upright (lm : libm) (M : R) (rm : b64) (laser o e : pose b64) (m : laser_msg b64) :
  accurate_trig lm -> usual_sweep M rm laser o e m ->
  exists pts, scan_points (A := BA lm) false rm laser o e m = Ok pts /\
    Forall2 (fun ir q => converted (reading_error M o e) 1 laser m (share o e (INR (fst ir) / INR (length (lr_ranges m)))) ir q)
      (filter (fun ir => Bleb (snd ir) rm) (indexed (lr_ranges m))) pts.
Proof. apply upright64. Qed.
Print Assumptions C135_upright.

(** An inverted laser; the same without reading 0, last to first, directions
    and motion counted backwards. *)
Theorem C135_inverted (lm : libm) (M : R) (rm : b64) (laser o e : pose b64) (m : laser_msg b64) :
  accurate_trig lm -> usual_sweep M rm laser o e m -> lr_ranges m <> [] ->
  exists pts, scan_points (A := BA lm) true rm laser o e m = Ok pts /\
    Forall2 (fun ir q => converted (reading_error M o e) (-1) laser m (share o e (1 - INR (fst ir) / INR (length (lr_ranges m)))) ir q)
      (filter (fun ir => Bleb (snd ir) rm) (rev (tl (indexed (lr_ranges m))))) pts.
Proof. apply inverted64. Qed.
Print Assumptions C135_inverted.

(** Three readings, the middle one above the maximum, of a robot that moves and
    turns. *)
Definition sweep_msg : laser_msg b64 := mkLaser (b64_of (-1) 0) (b64_of 1 0) (b64_of 7 0) [b64_of 2 0; b64_of 9 0; b64_of 3 0].
Example C135_nonvacuous (lm : libm) :
  accurate_trig (with_nearest lm) /\ usual_sweep 8 (b64_of 7 0) place_pose (mkPose (b64_of 1 0) (b64_of 2 0) (b64_of 0 0)) place_pose sweep_msg /\
  filter (fun ir => Bleb (snd ir) (b64_of 7 0)) (indexed (lr_ranges sweep_msg)) = [(0%nat, b64_of 2 0); (2%nat, b64_of 3 0)].
Proof.
  split; [apply nearest_accurate|]. split; [|reflexivity].
  assert (W : forall z k, (Z.abs z <= 8)%Z -> (3 <= k)%Z -> upto (bpow radix2 k) (b64_of z 0)).
  { intros z k Hz Hk. destruct (b64_of_small z Hz) as [F B]. split; [exact F|]. eapply Rle_trans; [exact B|].
    change 8 with (bpow radix2 3). apply bpow_le. exact Hk. }
  split; [apply size8|]. split; [reflexivity|].
  split; [repeat split; try reflexivity; apply b64_of_small; lia|].
  split; [repeat split; try reflexivity; apply b64_of_small; lia|].
  split; [repeat split; try reflexivity; apply b64_of_small; lia|].
  split.
  { cbn [poth place_pose]. rewrite (proj1 (b64_ofZ 1 ltac:(lia))), (proj1 (b64_ofZ 0 ltac:(lia))). rewrite Rabs_pos_eq by lra.
    apply Rle_trans with (bpow radix2 1); [cbn; lra|apply bpow_le; lia]. }
  split; [apply W; lia|]. split; [apply W; lia|]. split; [cbn; lia|].
  intros r [<-|[<-|[<-|[]]]] L; [apply b64_of_small; lia|discriminate L|apply b64_of_small; lia].
Qed.
