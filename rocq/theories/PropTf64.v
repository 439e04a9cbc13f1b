(** The rotation in the published map to odom transform, in double arithmetic. *)

From Coq Require Import ZArith Reals List Lia Lra.
From Flocq Require Import Core BinarySingleNaN.
From Verif Require Import Outcome Arith TypesModel LaserModel FilterModel TfModel SpecPose
  B64Tactics B64Lemmas CellB64 PropGrid64 SpecMotion64 SpecPlace64 NearB64 NearestB64 PropPlace64 SpecRigid64 PropRigid64.
Import ListNotations.
Local Open Scope R_scope.

Lemma u256 : bpow radix2 (-45) = 256 * u64. Proof. apply (uk 8). Qed.
Lemma uM1 : u64 * 1 = u64. Proof. ring. Qed.

(** Products of two doubles known up to errors. *)
Lemma near_mul2 (k1 k2 b1 b2 : R) (x y : b64) (v w : R) : 0 <= k1 <= 100 -> 0 <= k2 <= 100 -> 0 <= b1 <= 10 -> 0 <= b2 <= 10 ->
  near 1 k1 b1 x v -> near 1 k2 b2 y w -> near 1 (b1 * k2 + b2 * k1 + b1 * b2 + / 10) (b1 * b2) (Bmult mode_NE x y) (v * w).
Proof.
  intros K1 K2 B1 B2 X Y. pose proof (near_size 1 size1 k1 b1 x v ltac:(lra) X) as SX. pose proof (near_size 1 size1 k2 b2 y w ltac:(lra) Y) as SY.
  destruct X as (FX & EX & VX). destruct Y as (FY & EY & VY). rewrite !Rmult_1_r in *. pose proof u64_pos as U. pose proof u64_small as US.
  assert (EX' : Rabs (B2R x - v) <= / 1000000). { eapply Rle_trans; [exact EX|]. assert (k1 * u64 <= 100 * / 1000000000000000) by (apply Rmult_le_compat; lra). lra. }
  assert (P1 : 0 <= b1 * b2 <= 100). { split; [apply Rmult_le_pos; lra|]. replace 100 with (10 * 10) by ring. apply Rmult_le_compat; lra. }
  assert (S : Rabs (B2R x * B2R y) <= b1 * b2 + 21 / 1000).
  { rewrite Rabs_mult. apply Rle_trans with ((b1 + / 1000) * (b2 + / 1000)); [apply Rmult_le_compat; [apply Rabs_pos|apply Rabs_pos|exact SX|exact SY]|].
    lra. }
  destruct (b64_mul_ok x y FX FY) as [V F].
  { eapply Rle_trans; [exact S|]. apply Rle_trans with (bpow radix2 7); [cbn; lra|apply bpow_le; lia]. }
  pose proof (near_rnd 1 size1 (b1 * b2 + 21 / 1000) (B2R x * B2R y) ltac:(lra) ltac:(lra)) as E. rewrite <- V, Rmult_1_r in E.
  split; [exact F|]. rewrite ?Rmult_1_r. split.
  - replace (B2R (Bmult mode_NE x y) - v * w) with ((B2R (Bmult mode_NE x y) - B2R x * B2R y) + ((B2R x - v) * w + B2R x * (B2R y - w))) by ring.
    eapply Rle_trans; [apply Rabs_triang|]. pose proof (Rabs_triang ((B2R x - v) * w) (B2R x * (B2R y - w))) as TR. rewrite !Rabs_mult in TR.
    assert (Q1 : Rabs (B2R x - v) * Rabs w <= k1 * u64 * b2) by (apply Rmult_le_compat; [apply Rabs_pos|apply Rabs_pos|exact EX|exact VY]).
    assert (SX' : Rabs (B2R x) <= b1 + / 10000).
    { replace (B2R x) with ((B2R x - v) + v) by ring. eapply Rle_trans; [apply Rabs_triang|]. lra. }
    assert (Q2 : Rabs (B2R x) * Rabs (B2R y - w) <= (b1 + / 10000) * (k2 * u64)) by (apply Rmult_le_compat; [apply Rabs_pos|apply Rabs_pos|exact SX'|exact EY]).
    assert (Q3 : / 10000 * (k2 * u64) <= / 100 * u64). { assert (k2 * u64 <= 100 * u64) by (apply Rmult_le_compat_r; lra). lra. }
    lra.
  - rewrite Rabs_mult. apply Rmult_le_compat; [apply Rabs_pos|apply Rabs_pos|exact VX|exact VY].
Qed.

(** The root of a double of at least one. *)
Lemma sqrt_near (k : R) (x : b64) (v : R) : 0 <= k <= 90 -> near 1 k 6 x v -> 1 <= B2R x -> 0 <= v ->
  is_finite (Bsqrt mode_NE x) = true /\ Rabs (B2R (Bsqrt mode_NE x) - sqrt v) <= 55 * u64 /\ / 2 <= B2R (Bsqrt mode_NE x) /\ 9 / 10 <= sqrt v <= 3.
Proof.
  intros K (F & E & B) H1 H0. rewrite !Rmult_1_r in *. pose proof u64_pos as U. pose proof u64_small as US.
  destruct (Bsqrt_correct 53 1024 prec64_gt_0 prec64_lt_emax mode_NE x) as (V & FS & _).
  change (round radix2 (SpecFloat.fexp 53 1024) (round_mode mode_NE) (sqrt (B2R x))) with (rnd (sqrt (B2R x))) in V.
  assert (FS' : is_finite (Bsqrt mode_NE x) = true).
  { rewrite FS. destruct x as [s|s| |[] m e He]; try reflexivity; try discriminate F. exfalso. revert H1.
    assert (B2R (B754_finite true m e He : b64) <= 0); [|lra]. cbn. apply F2R_le_0. cbn. lia. }
  assert (KU : k * u64 <= / 1000000). { assert (k * u64 <= 90 * / 1000000000000000) by (apply Rmult_le_compat; lra). lra. }
  apply Rabs_le_inv in B.
  assert (Bv : 99 / 100 <= v <= 6) by (apply Rabs_le_inv in E; lra).
  assert (Bx : 1 <= B2R x <= 61 / 10) by (apply Rabs_le_inv in E; lra).
  assert (Sv : 9 / 10 <= sqrt v <= 3).
  { split; [replace (9 / 10) with (sqrt (9 / 10 * (9 / 10))) by (apply sqrt_square; lra)|replace 3 with (sqrt (3 * 3)) by (apply sqrt_square; lra)]; apply sqrt_le_1; lra. }
  assert (Sx : 1 <= sqrt (B2R x) <= 3).
  { split; [rewrite <- sqrt_1|replace 3 with (sqrt (3 * 3)) by (apply sqrt_square; lra)]; apply sqrt_le_1; lra. }
  assert (D : Rabs (sqrt (B2R x) - sqrt v) <= 90 / 19 * 10 * u64).
  { assert (Q : (sqrt (B2R x) - sqrt v) * (sqrt (B2R x) + sqrt v) = B2R x - v).
    { pose proof (sqrt_sqrt (B2R x) ltac:(lra)). pose proof (sqrt_sqrt v ltac:(lra)). lra. }
    assert (Q2 : Rabs (sqrt (B2R x) - sqrt v) * (19 / 10) <= 90 * u64).
    { apply Rle_trans with (Rabs (sqrt (B2R x) - sqrt v) * (sqrt (B2R x) + sqrt v)).
      - apply Rmult_le_compat_l; [apply Rabs_pos|lra].
      - rewrite <- (Rabs_pos_eq (sqrt (B2R x) + sqrt v)) by lra. rewrite <- Rabs_mult, Q. eapply Rle_trans; [exact E|]. apply Rmult_le_compat_r; lra. }
    lra. }
  assert (R1 : Rabs (rnd (sqrt (B2R x)) - sqrt (B2R x)) <= 31 / 10 * u64).
  { eapply Rle_trans; [apply (near_rnd 1 size1 3 (sqrt (B2R x))); [lra|rewrite Rabs_pos_eq; lra]|]. lra. }
  rewrite <- V in R1. split; [exact FS'|]. split.
  - replace (B2R (Bsqrt mode_NE x) - sqrt v) with ((B2R (Bsqrt mode_NE x) - sqrt (B2R x)) + (sqrt (B2R x) - sqrt v)) by ring.
    eapply Rle_trans; [apply Rabs_triang|]. lra.
  - split; [|exact Sv]. apply Rabs_le_inv in R1. lra.
Qed.

(** One half divided by, and times, such a root. *)
Lemma half_over (h t : b64) (s : R) : is_finite h = true -> B2R h = / 2 -> is_finite t = true -> Rabs (B2R t - s) <= 55 * u64 -> / 2 <= B2R t -> 9 / 10 <= s <= 3 ->
  near 1 36 (6 / 10) (Bdiv mode_NE h t) (/ 2 / s) /\ near 1 32 2 (Bmult mode_NE h t) (/ 2 * s).
Proof.
  intros Fh Vh Ft E Lt Bs. pose proof u64_pos as U. pose proof u64_small as US. pose proof (Rabs_le_inv _ _ E) as E'.
  assert (Bt : 89 / 100 <= B2R t <= 31 / 10) by lra.
  assert (Q : / 2 / B2R t <= 6 / 10). { unfold Rdiv. assert (/ B2R t <= / (89 / 100)) by (apply Rinv_le; lra). replace (/ (89 / 100)) with (100 / 89) in * by field. lra. }
  assert (Q0 : 0 <= / 2 / B2R t) by (apply Rmult_le_pos; [lra|apply Rlt_le, Rinv_0_lt_compat; lra]).
  assert (Q' : / 2 / s <= 6 / 10). { unfold Rdiv. assert (/ s <= / (9 / 10)) by (apply Rinv_le; lra). replace (/ (9 / 10)) with (10 / 9) in * by field. lra. }
  assert (Q0' : 0 <= / 2 / s) by (apply Rmult_le_pos; [lra|apply Rlt_le, Rinv_0_lt_compat; lra]).
  split.
  - destruct (b64_div_ok h t Fh ltac:(lra)) as [V F].
    { rewrite Vh, Rabs_pos_eq by exact Q0. apply Rle_trans with (bpow radix2 0); [cbn; lra|apply bpow_le; lia]. }
    pose proof (near_rnd 1 size1 1 (B2R h / B2R t) ltac:(lra) ltac:(rewrite Vh, Rabs_pos_eq by exact Q0; lra)) as R1. rewrite <- V, Rmult_1_r, Vh in R1.
    split; [exact F|]. rewrite ?Rmult_1_r. split; [|rewrite Rabs_pos_eq; lra].
    replace (B2R (Bdiv mode_NE h t) - / 2 / s) with ((B2R (Bdiv mode_NE h t) - / 2 / B2R t) + (/ 2 / B2R t - / 2 / s)) by ring.
    eapply Rle_trans; [apply Rabs_triang|].
    replace (/ 2 / B2R t - / 2 / s) with (- (B2R t - s) * (/ 2 / B2R t) * (/ s)) by (field; lra).
    rewrite !Rabs_mult, Rabs_Ropp, (Rabs_pos_eq (/ 2 / B2R t)) by exact Q0.
    assert (I : 0 <= / s <= 10 / 9). { split; [apply Rlt_le, Rinv_0_lt_compat; lra|]. replace (10 / 9) with (/ (9 / 10)) by field. apply Rinv_le; lra. }
    rewrite (Rabs_pos_eq (/ s)) by lra.
    assert (Rabs (B2R t - s) * (/ 2 / B2R t) * / s <= 55 * u64 * (57 / 100) * (10 / 9)).
    { apply Rmult_le_compat; [apply Rmult_le_pos; [apply Rabs_pos|exact Q0]|lra| |lra].
      apply Rmult_le_compat; [apply Rabs_pos|exact Q0|exact E|]. unfold Rdiv. assert (/ B2R t <= / (89 / 100)) by (apply Rinv_le; lra). replace (/ (89 / 100)) with (100 / 89) in * by field. lra. }
    lra.
  - assert (S : Rabs (B2R h * B2R t) <= 2 * 1) by (rewrite Vh, Rabs_pos_eq; lra).
    destruct (b64_mul_ok h t Fh Ft) as [V F].
    { eapply Rle_trans; [exact S|]. apply Rle_trans with (bpow radix2 1); [cbn; lra|apply bpow_le; lia]. }
    pose proof (near_rnd 1 size1 2 (B2R h * B2R t) ltac:(lra) S) as R1. rewrite <- V, Rmult_1_r, Vh in R1.
    split; [exact F|]. rewrite ?Rmult_1_r. split; [|rewrite Rabs_pos_eq; lra].
    replace (B2R (Bmult mode_NE h t) - / 2 * s) with ((B2R (Bmult mode_NE h t) - / 2 * B2R t) + / 2 * (B2R t - s)) by ring.
    eapply Rle_trans; [apply Rabs_triang|]. rewrite (Rabs_mult (/ 2)), (Rabs_pos_eq (/ 2)) by lra. lra.
Qed.

(** A number known up to errors, with a better bound on its value. *)
Lemma near_bound (k b b' : R) (x : b64) (v : R) : near 1 k b x v -> Rabs v <= b' -> near 1 k b' x v.
Proof. intros (F & E & _) B. split; [exact F|]. split; [exact E|]. lra. Qed.

(** Entry (2, 2) of a rotation about the vertical axis. *)
Lemma iso22_near (lm : libm) (p : pose b64) : accurate_trig lm -> is_finite (poth p) = true -> near 1 22 1 (to_iso22 (A := BA lm) p) 1.
Proof.
  intros T F. pose proof (cos_unit lm _ T F) as HC. pose proof (unit_is_near _ _ HC) as NC.
  set (one := none_ (A := BA lm)). assert (F1 : is_finite one = true) by reflexivity. assert (V1 : B2R one = 1) by exact (proj1 (b64_ofZ 1 ltac:(lia))).
  assert (N1 : near 1 0 1 one 1). { split; [exact F1|]. rewrite V1. rewrite Rminus_diag_eq, Rabs_R0, Rabs_R1 by reflexivity. lra. }
  assert (U1 : unit_near one 1). { split; [exact F1|]. rewrite V1. rewrite Rminus_diag_eq, Rabs_R0, Rabs_R1 by reflexivity. pose proof u64_pos. lra. }
  near_op near_sub 1 size1 N1 NC nx1.
  pose proof (fun x y => near_mul_r 1 size1 _ _ _ _ _ _ x y U1 nx1) as m1. specialize (m1 ltac:(lra) ltac:(lra)).
  pose proof (fun x y => near_mul_r 1 size1 _ _ _ _ _ _ x y U1 m1) as m2. specialize (m2 ltac:(lra) ltac:(lra)).
  near_op near_add 1 size1 m2 NC nx2.
  replace ((1 - cos (B2R (poth p))) * 1 * 1 + cos (B2R (poth p))) with 1 in nx2 by ring.
  apply (near_bound _ _ 1) in nx2; [|rewrite Rabs_R1; lra].
  eapply near_weaken; [exact size1| |apply Rle_refl|exact nx2]; lra.
Qed.

Lemma zero_times (z u : b64) : is_finite z = true -> B2R z = 0 -> is_finite u = true -> is_finite (Bmult mode_NE z u) = true /\ B2R (Bmult mode_NE z u) = 0.
Proof.
  intros Fz Vz Fu. destruct (b64_mul_ok z u Fz Fu) as [V F].
  - rewrite Vz, Rmult_0_l, Rabs_R0. apply bpow_ge_0.
  - split; [exact F|]. rewrite V, Vz, Rmult_0_l. apply rnd_fmt. apply generic_format_0.
Qed.

Lemma tuple4 {X : Type} (a b c d x y z w : X) : (a, b, c, d) = (x, y, z, w) -> a = x /\ b = y /\ c = z /\ d = w.
Proof. intros E. injection E as E1 E2 E3 E4. repeat split; assumption. Qed.

Lemma half_value (lm : libm) : B2R (nlit (A := BA lm) 1 2) = / 2.
Proof.
  replace (nlit (A := BA lm) 1 2) with (b64_of 1 (-1)) by (apply b64_eq; vm_compute; reflexivity).
  rewrite (proj1 (b64_dy 1 (-1) ltac:(lia) ltac:(lia))). change (bpow radix2 (-1)) with (/ 2). ring.
Qed.

(** From approximate half-angle values to the rotation. *)
Lemma half_angle (z w : b64) (Z W S C : R) : near 1 90 1 z Z -> near 1 32 2 w W -> Z * Z + W * W = 1 -> 2 * Z * W = S -> W * W - Z * Z = C ->
  Rabs (B2R z * B2R z + B2R w * B2R w - 1) <= bpow radix2 (-45) /\ Rabs (2 * B2R z * B2R w - S) <= bpow radix2 (-45) /\
  Rabs (B2R w * B2R w - B2R z * B2R z - C) <= bpow radix2 (-45).
Proof.
  intros (_ & EZ & _) (_ & EW & _) H1 H2 H3. rewrite !Rmult_1_r in *. rewrite u256. pose proof u64_pos as U. pose proof u64_small as US.
  assert (BZ : Rabs Z <= 1). { apply Rabs_le. assert (0 <= W * W) by apply Rle_0_sqr. split; nra. }
  assert (BW : Rabs W <= 1). { apply Rabs_le. assert (0 <= Z * Z) by apply Rle_0_sqr. split; nra. }
  set (a := B2R z - Z) in *. set (b := B2R w - W) in *.
  assert (PZ : B2R z = Z + a) by (unfold a; ring). assert (PW : B2R w = W + b) by (unfold b; ring). rewrite PZ, PW. clearbody a b. clear PZ PW.
  assert (ML : forall x y p q, Rabs x <= p -> Rabs y <= q -> Rabs (x * y) <= p * q).
  { intros x y p q Hx Hy. rewrite Rabs_mult. apply Rmult_le_compat; [apply Rabs_pos|apply Rabs_pos|exact Hx|exact Hy]. }
  pose proof (ML Z a _ _ BZ EZ) as A1. pose proof (ML W b _ _ BW EW) as A2. pose proof (ML Z b _ _ BZ EW) as A3. pose proof (ML W a _ _ BW EZ) as A4.
  pose proof (ML a a _ _ EZ EZ) as A5. pose proof (ML b b _ _ EW EW) as A6. pose proof (ML a b _ _ EZ EW) as A7.
  assert (T : u64 * u64 <= u64 * / 1000000) by (apply Rmult_le_compat_l; lra).
  apply Rabs_le_inv in A1, A2, A3, A4, A5, A6, A7.
  split; [|split]; apply Rabs_le.
  - replace ((Z + a) * (Z + a) + (W + b) * (W + b) - 1) with (2 * (Z * a) + 2 * (W * b) + a * a + b * b + (Z * Z + W * W - 1)) by ring. rewrite H1. lra.
  - replace (2 * (Z + a) * (W + b) - S) with (2 * (Z * b) + 2 * (W * a) + 2 * (a * b) + (2 * Z * W - S)) by ring. rewrite H2. lra.
  - replace ((W + b) * (W + b) - (Z + a) * (Z + a) - C) with (2 * (W * b) - 2 * (Z * a) + b * b - a * a + (W * W - Z * Z - C)) by ring. rewrite H3. lra.
Qed.

Theorem C133_message (lm : libm) (robot odom : pose b64) : accurate_trig lm -> is_finite (poth robot) = true -> is_finite (poth odom) = true ->
  let msg := tf_message (A := BA lm) robot odom in
  vertical_rotation (bpow radix2 (-45)) msg (B2R (poth robot) - B2R (poth odom)) /\
  ps_x msg = itx (map_to_odom (A := BA lm) robot odom) /\ ps_y msg = ity (map_to_odom (A := BA lm) robot odom) /\ B2R (ps_z msg) = 0.
Proof.
  intros T RT OT msg.
  pose proof (cos_unit lm _ T RT) as C1. pose proof (sin_unit lm _ T RT) as S1.
  pose proof (cos_unit lm _ T OT) as C2. pose proof (sin_unit lm _ T OT) as S2.
  set (z := nzero (A := BA lm)). assert (FZ : is_finite z = true) by reflexivity. assert (VZ : B2R z = 0) by reflexivity.
  pose proof (unit_zero_minus z _ _ FZ VZ S1) as M1. pose proof (unit_zero_plus z _ _ FZ VZ S1) as P1.
  pose proof (unit_zero_minus z _ _ FZ VZ S2) as M2. pose proof (unit_zero_plus z _ _ FZ VZ S2) as P2.
  pose proof (entry _ _ _ _ _ _ _ _ C1 C2 M1 M2) as e00. pose proof (entry _ _ _ _ _ _ _ _ C1 P2 M1 C2) as e01.
  pose proof (entry _ _ _ _ _ _ _ _ P1 C2 C1 M2) as e10. pose proof (entry _ _ _ _ _ _ _ _ P1 P2 C1 C2) as e11.
  set (h := B2R (poth robot) - B2R (poth odom)).
  assert (Ch : cos h = cos (B2R (poth robot)) * cos (B2R (poth odom)) + sin (B2R (poth robot)) * sin (B2R (poth odom))) by apply cos_minus.
  assert (Sh : sin h = sin (B2R (poth robot)) * cos (B2R (poth odom)) - cos (B2R (poth robot)) * sin (B2R (poth odom))) by apply sin_minus.
  replace (cos (B2R (poth robot)) * cos (B2R (poth odom)) + - sin (B2R (poth robot)) * - sin (B2R (poth odom))) with (cos h) in e00 by (rewrite Ch; ring).
  replace (cos (B2R (poth robot)) * sin (B2R (poth odom)) + - sin (B2R (poth robot)) * cos (B2R (poth odom))) with (- sin h) in e01 by (rewrite Sh; ring).
  replace (sin (B2R (poth robot)) * cos (B2R (poth odom)) + cos (B2R (poth robot)) * - sin (B2R (poth odom))) with (sin h) in e10 by (rewrite Sh; ring).
  replace (sin (B2R (poth robot)) * sin (B2R (poth odom)) + cos (B2R (poth robot)) * cos (B2R (poth odom))) with (cos h) in e11 by (rewrite Ch; ring).
  assert (Bc : Rabs (cos h) <= 1) by (apply Rabs_le; apply COS_bound). assert (Bs : Rabs (sin h) <= 1) by (apply Rabs_le; apply SIN_bound).
  apply (near_bound _ _ 1) in e00; [|exact Bc]. apply (near_bound _ _ 1) in e11; [|exact Bc].
  apply (near_bound _ _ 1) in e10; [|exact Bs]. apply (near_bound _ _ 1) in e01; [|rewrite Rabs_Ropp; exact Bs].
  assert (CS : sin h * sin h + cos h * cos h = 1) by (pose proof (sin2_cos2 h) as Q; unfold Rsqr in Q; exact Q).
  (* entry (2, 2) *)
  pose proof (near_mul2 22 22 1 1 _ _ _ _ ltac:(lra) ltac:(lra) ltac:(lra) ltac:(lra) (iso22_near lm robot T RT) (iso22_near lm odom T OT)) as e22.
  apply (near_weaken 1 size1 _ 46 _ 1) in e22; [|lra|lra]. rewrite (Rmult_1_r 1) in e22.
  change (Bmult mode_NE (to_iso22 (A := BA lm) robot) (to_iso22 (A := BA lm) odom)) with (map_to_odom22 (A := BA lm) robot odom) in e22.
  set (m := map_to_odom (A := BA lm) robot odom) in *.
  change (near 1 (1205 / 100) 1 (i00 m) (cos h)) in e00. change (near 1 (1205 / 100) 1 (i01 m) (- sin h)) in e01.
  change (near 1 (1205 / 100) 1 (i10 m) (sin h)) in e10. change (near 1 (1205 / 100) 1 (i11 m) (cos h)) in e11.
  set (m22 := map_to_odom22 (A := BA lm) robot odom) in *.
  set (one := none_ (A := BA lm)). assert (F1 : is_finite one = true) by reflexivity. assert (V1 : B2R one = 1) by exact (proj1 (b64_ofZ 1 ltac:(lia))).
  assert (N1 : near 1 0 1 one 1). { split; [exact F1|]. rewrite V1. rewrite Rminus_diag_eq, Rabs_R0, Rabs_R1 by reflexivity. lra. }
  set (hf := nlit (A := BA lm) 1 2). assert (Fh : is_finite hf = true) by reflexivity. assert (Vh : B2R hf = / 2) by apply half_value.
  near_op near_sub 1 size1 e10 e01 dd. replace (sin h - - sin h) with (2 * sin h) in dd by ring.
  near_op near_add 1 size1 e00 e11 t1. near_op near_add 1 size1 t1 e22 tr. near_op near_add 1 size1 tr N1 vv.
  near_op near_sub 1 size1 e22 e00 q1. near_op near_sub 1 size1 q1 e11 q2. near_op near_add 1 size1 q2 N1 ww.
  replace (cos h + cos h + 1 + 1) with (2 + 2 * cos h) in vv by ring. replace (1 - cos h - cos h + 1) with (2 - 2 * cos h) in ww by ring.
  apply (near_weaken 1 size1 _ 90 _ 6) in vv; [|lra|lra]. apply (near_weaken 1 size1 _ 90 _ 6) in ww; [|lra|lra].
  apply (near_weaken 1 size1 _ (262 / 10) _ 2) in dd; [|lra|lra].
  pose proof (Rabs_le_inv _ _ Bc) as Bc'. pose proof u64_pos as U. pose proof u64_small as US.
  assert (GO : forall v : b64, near 1 90 6 v (2 + 2 * cos h) -> 1 <= B2R v ->
    near 1 90 1 (Bmult mode_NE (Bminus mode_NE (i10 m) (i01 m)) (Bdiv mode_NE hf (Bsqrt mode_NE v))) (sin h / sqrt (2 + 2 * cos h)) /\
    near 1 32 2 (Bmult mode_NE hf (Bsqrt mode_NE v)) (/ 2 * sqrt (2 + 2 * cos h)) /\
    is_finite (Bdiv mode_NE hf (Bsqrt mode_NE v)) = true /\ 0 < sqrt (2 + 2 * cos h)).
  { intros v Nv Hv. destruct (sqrt_near 90 v (2 + 2 * cos h) ltac:(lra) Nv Hv ltac:(lra)) as (Ft & Et & Lt & Bq).
    destruct (half_over hf (Bsqrt mode_NE v) _ Fh Vh Ft Et Lt Bq) as [Nu Nw].
    split; [|split; [exact Nw|split; [apply Nu|lra]]].
    pose proof (near_mul2 (262 / 10) 36 2 (6 / 10) _ _ _ _ ltac:(lra) ltac:(lra) ltac:(lra) ltac:(lra) dd Nu) as Nz.
    replace (2 * sin h * (/ 2 / sqrt (2 + 2 * cos h))) with (sin h / sqrt (2 + 2 * cos h)) in Nz by (field; lra).
    apply (near_weaken 1 size1 _ 90 _ 2) in Nz; [|lra|lra]. apply (near_bound _ _ 1) in Nz; [exact Nz|].
    pose proof (sqrt_sqrt (2 + 2 * cos h) ltac:(lra)) as SS. set (t := sqrt (2 + 2 * cos h)) in *.
    assert (Z2 : (sin h / t) * (sin h / t) <= 1).
    { replace (sin h / t * (sin h / t)) with ((sin h * sin h) / (t * t)) by (field; lra). rewrite SS.
      replace (sin h * sin h) with ((1 - cos h) * (1 + cos h)) by lra.
      assert (P : 0 < 1 + cos h) by (assert (0 < t * t) by (apply Rmult_lt_0_compat; lra); lra).
      replace ((1 - cos h) * (1 + cos h) / (2 + 2 * cos h)) with ((1 - cos h) / 2) by (field; lra). lra. }
    apply Rabs_le. split; nra. }
  assert (GO2 : forall v : b64, near 1 90 6 v (2 - 2 * cos h) -> 1 <= B2R v ->
    near 1 90 1 (Bmult mode_NE (Bminus mode_NE (i10 m) (i01 m)) (Bdiv mode_NE hf (Bsqrt mode_NE v))) (sin h / sqrt (2 - 2 * cos h)) /\
    near 1 32 2 (Bmult mode_NE hf (Bsqrt mode_NE v)) (/ 2 * sqrt (2 - 2 * cos h)) /\
    is_finite (Bdiv mode_NE hf (Bsqrt mode_NE v)) = true /\ 0 < sqrt (2 - 2 * cos h)).
  { intros v Nv Hv. destruct (sqrt_near 90 v (2 - 2 * cos h) ltac:(lra) Nv Hv ltac:(lra)) as (Ft & Et & Lt & Bq).
    destruct (half_over hf (Bsqrt mode_NE v) _ Fh Vh Ft Et Lt Bq) as [Nu Nw].
    split; [|split; [exact Nw|split; [apply Nu|lra]]].
    pose proof (near_mul2 (262 / 10) 36 2 (6 / 10) _ _ _ _ ltac:(lra) ltac:(lra) ltac:(lra) ltac:(lra) dd Nu) as Nz.
    replace (2 * sin h * (/ 2 / sqrt (2 - 2 * cos h))) with (sin h / sqrt (2 - 2 * cos h)) in Nz by (field; lra).
    apply (near_weaken 1 size1 _ 90 _ 2) in Nz; [|lra|lra]. apply (near_bound _ _ 1) in Nz; [exact Nz|].
    pose proof (sqrt_sqrt (2 - 2 * cos h) ltac:(lra)) as SS. set (t := sqrt (2 - 2 * cos h)) in *.
    assert (Z2 : (sin h / t) * (sin h / t) <= 1).
    { replace (sin h / t * (sin h / t)) with ((sin h * sin h) / (t * t)) by (field; lra). rewrite SS.
      replace (sin h * sin h) with ((1 - cos h) * (1 + cos h)) by lra.
      assert (P : 0 < 1 - cos h) by (assert (0 < t * t) by (apply Rmult_lt_0_compat; lra); lra).
      replace ((1 - cos h) * (1 + cos h) / (2 - 2 * cos h)) with ((1 + cos h) / 2) by (field; lra). lra. }
    apply Rabs_le. split; nra. }
  assert (SPLIT : forall x y zz w, quat_of_rotation (A := BA lm) m m22 = (x, y, zz, w) ->
    (B2R x = 0 /\ B2R y = 0 /\ is_finite x = true /\ is_finite y = true) /\ (is_finite zz = true /\ is_finite w = true) /\
    Rabs (B2R zz * B2R zz + B2R w * B2R w - 1) <= bpow radix2 (-45) /\ Rabs (2 * B2R zz * B2R w - sin h) <= bpow radix2 (-45) /\
    Rabs (B2R w * B2R w - B2R zz * B2R zz - cos h) <= bpow radix2 (-45)).
  { intros x y zz w. unfold quat_of_rotation.
    change (nadd (Arith := BA lm) (nadd (Arith := BA lm) (i00 m) (i11 m)) m22) with (Bplus mode_NE (Bplus mode_NE (i00 m) (i11 m)) m22).
    set (trv := Bplus mode_NE (Bplus mode_NE (i00 m) (i11 m)) m22) in *.
    change (nlt (Arith := BA lm) (nzero (A := BA lm)) trv) with (Bltb z trv).
    rewrite Bltb_correct by (try exact FZ; apply tr). rewrite VZ.
    destruct (Rlt_bool_spec 0 (B2R trv)) as [Hp|Hn].
    - assert (L1 : 1 <= B2R (Bplus mode_NE trv one)).
      { destruct (b64_add_ok trv one (proj1 tr) F1) as [V _].
        - pose proof (fun a => near_size 1 size1 _ _ _ _ a tr) as Sz. specialize (Sz ltac:(lra)).
          eapply Rle_trans; [apply Rabs_triang|]. rewrite V1, Rabs_R1. apply Rle_trans with (bpow radix2 3); [cbn; lra|apply bpow_le; lia].
        - rewrite V, V1. apply rnd_lb; [apply (fmt_int 1); lia|lra]. }
      destruct (GO _ vv L1) as (Nz & Nw & Fu & Pt). intros E. cbv zeta in E. apply tuple4 in E. destruct E as (<- & <- & <- & <-).
      pose proof (zero_times (Bminus mode_NE z z) _ ltac:(reflexivity) ltac:(reflexivity) Fu) as [Fx Vx].
      split; [repeat split; assumption|]. split; [split; [apply Nz|apply Nw]|].
      pose proof (sqrt_sqrt (2 + 2 * cos h) ltac:(lra)) as SS. set (t := sqrt (2 + 2 * cos h)) in *.
      assert (P : 0 < 1 + cos h) by (assert (0 < t * t) by (apply Rmult_lt_0_compat; lra); lra).
      assert (Z2 : sin h / t * (sin h / t) = (1 - cos h) / 2).
      { replace (sin h / t * (sin h / t)) with ((sin h * sin h) / (t * t)) by (field; lra). rewrite SS.
        replace (sin h * sin h) with ((1 - cos h) * (1 + cos h)) by lra. field. lra. }
      apply (half_angle _ _ _ _ _ _ Nz Nw).
      + rewrite Z2. replace (/ 2 * t * (/ 2 * t)) with (t * t / 4) by field. rewrite SS. field.
      + field. lra.
      + rewrite Z2. replace (/ 2 * t * (/ 2 * t)) with (t * t / 4) by field. rewrite SS. field.
    - assert (Ct : cos h <= - 49 / 100).
      { destruct tr as (_ & Et & _). rewrite Rmult_1_r in Et. apply Rabs_le_inv in Et. lra. }
      assert (F00 : is_finite (i00 m) = true) by apply e00. assert (F11 : is_finite (i11 m) = true) by apply e11. assert (F22 : is_finite m22 = true) by apply e22.
      assert (L00 : B2R (i00 m) < B2R m22).
      { destruct e00 as (_ & Ea & _). destruct e22 as (_ & Eb & _). rewrite !Rmult_1_r in *. apply Rabs_le_inv in Ea. apply Rabs_le_inv in Eb. lra. }
      assert (L11 : B2R (i11 m) < B2R m22).
      { destruct e11 as (_ & Ea & _). destruct e22 as (_ & Eb & _). rewrite !Rmult_1_r in *. apply Rabs_le_inv in Ea. apply Rabs_le_inv in Eb. lra. }
      assert (CMP : nlt (Arith := BA lm) (if nlt (Arith := BA lm) (i00 m) (i11 m) then i11 m else i00 m) m22 = true).
      { change (Bltb (if Bltb (i00 m) (i11 m) then i11 m else i00 m) m22 = true). destruct (Bltb (i00 m) (i11 m)); rewrite Bltb_correct by assumption; apply Rlt_bool_true; assumption. }
      rewrite CMP.
      assert (L1 : 1 <= B2R (Bplus mode_NE (Bminus mode_NE (Bminus mode_NE m22 (i00 m)) (i11 m)) one)).
      { destruct ww as (_ & Ew & _). rewrite Rmult_1_r in Ew. apply Rabs_le_inv in Ew. lra. }
      destruct (GO2 _ ww L1) as (Nz & Nw & Fu & Pt). intros E. cbv zeta in E. apply tuple4 in E. destruct E as (<- & <- & <- & <-).
      pose proof (zero_times (Bplus mode_NE z z) _ ltac:(reflexivity) ltac:(reflexivity) Fu) as [Fx Vx].
      split; [repeat split; assumption|]. split; [split; [apply Nw|apply Nz]|].
      pose proof (sqrt_sqrt (2 - 2 * cos h) ltac:(lra)) as SS. set (t := sqrt (2 - 2 * cos h)) in *.
      assert (P : 0 < 1 - cos h) by lra.
      assert (Z2 : sin h / t * (sin h / t) = (1 + cos h) / 2).
      { replace (sin h / t * (sin h / t)) with ((sin h * sin h) / (t * t)) by (field; lra). rewrite SS.
        replace (sin h * sin h) with ((1 - cos h) * (1 + cos h)) by lra. field. lra. }
      destruct (half_angle _ _ (sin h / t) (/ 2 * t) (sin h) (- cos h) Nz Nw) as (G1 & G2 & G3).
      + rewrite Z2. replace (/ 2 * t * (/ 2 * t)) with (t * t / 4) by field. rewrite SS. field.
      + field. lra.
      + rewrite Z2. replace (/ 2 * t * (/ 2 * t)) with (t * t / 4) by field. rewrite SS. field.
      + split; [rewrite Rplus_comm; exact G1|]. split.
        * match goal with |- Rabs (2 * ?a * ?b - _) <= _ => replace (2 * a * b) with (2 * b * a) by ring end. exact G2.
        * match goal with |- Rabs (?a * ?a - ?b * ?b - _) <= _ => replace (a * a - b * b - cos h) with (- (b * b - a * a - - cos h)) by ring end.
          rewrite Rabs_Ropp. exact G3. }
  unfold msg, tf_message. fold m m22. destruct (quat_of_rotation (A := BA lm) m m22) as [[[x y] zz] w] eqn:Q.
  specialize (SPLIT x y zz w eq_refl). split; [exact SPLIT|]. repeat split; reflexivity.
Qed.
Print Assumptions C133_message.

(** The robot at (3, 4) facing 1 rad, odometry at (1, 0) facing 0. *)
Example C133_nonvacuous (lm : libm) : let odom := mkPose (b64_of 1 0) (b64_of 0 0) (b64_of 0 0) in
  accurate_trig (with_nearest lm) /\ usual_size 8 /\ pose_upto 8 place_pose /\ pose_upto 8 odom /\ Rabs (px (mkPoint 0 0)) <= 8.
Proof.
  cbv zeta. split; [apply nearest_accurate|]. split; [apply size8|]. split; [repeat split; try reflexivity; apply b64_of_small; lia|].
  split; [repeat split; try reflexivity; apply b64_of_small; lia|]. cbn. rewrite Rabs_R0. lra.
Qed.
