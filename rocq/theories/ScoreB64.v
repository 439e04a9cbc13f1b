(** The exponent of the likelihood of a cell in binary64: if the points of the
    cell are spread in every direction by more than the rounding noise, the
    exponent computed by ndt_model.cpp:105-116 is never positive beyond 2^-60. *)

From Coq Require Import ZArith Reals List Bool Lia Lra Psatz.
From Flocq Require Import Core BinarySingleNaN.
From Verif Require Import Outcome Arith TypesModel CellModel SpecStats SumLemmas CellProofs B64Lemmas CellB64.
Import ListNotations.
Local Open Scope R_scope.

(** [x] is finite and approximates [r], a number of size at most [m], up to [k]
    units of relative and [z] of absolute error. *)
Definition apx (k m z : R) (x : b64) (r : R) : Prop :=
  is_finite x = true /\ Rabs r <= m /\ Rabs (B2R x - r) <= k * u64 * m + z.

Lemma apx_exact (x : b64) : is_finite x = true -> apx 0 (Rabs (B2R x)) 0 x (B2R x).
Proof.
  intros F. repeat split; [exact F|lra|]. rewrite Rminus_diag_eq, Rabs_R0 by reflexivity. lra.
Qed.

Lemma apx_weaken (k m z k' m' z' : R) (x : b64) (r : R) :
  apx k m z x r -> 0 <= k -> k <= k' -> m <= m' -> z <= z' -> apx k' m' z' x r.
Proof.
  intros (F & B & D) H0 Hk Hm Hz. repeat split; [exact F|lra|].
  assert (M0 : 0 <= m) by (pose proof (Rabs_pos r); lra). pose proof u64_pos as U0.
  assert (k * u64 * m <= k' * u64 * m'); [|lra].
  apply Rmult_le_compat; [apply Rmult_le_pos; lra|exact M0| |exact Hm]. apply Rmult_le_compat_r; lra.
Qed.

Lemma apx_size (k m z : R) (x : b64) (r : R) :
  apx k m z x r -> 0 <= k <= 100 -> Rabs (B2R x) <= 1.001 * m + z.
Proof.
  intros (F & B & D) Hk. pose proof u64_pos as U0. pose proof u64_small as U1.
  assert (M0 : 0 <= m) by (pose proof (Rabs_pos r); lra).
  replace (B2R x) with ((B2R x - r) + r) by ring. eapply Rle_trans; [apply Rabs_triang|].
  assert (k * u64 <= / 1000) by nra. assert (k * u64 * m <= / 1000 * m) by (apply Rmult_le_compat_r; lra). lra.
Qed.

(** Rounding. *)
Lemma rnd_apx (k m z v r : R) :
  0 <= k <= 100 -> 0 <= z -> Rabs r <= m -> Rabs (v - r) <= k * u64 * m + z ->
  Rabs (rnd v - r) <= (k + 1.01) * u64 * m + (1.01 * z + eta64).
Proof.
  intros Hk Hz Hr Hd. pose proof u64_pos as U0. pose proof u64_small as U1. pose proof (rnd_err v) as E.
  assert (M0 : 0 <= m) by (pose proof (Rabs_pos r); lra).
  assert (V : Rabs v <= 1.001 * m + z).
  { replace v with ((v - r) + r) by ring. eapply Rle_trans; [apply Rabs_triang|].
    assert (k * u64 <= / 1000) by nra. assert (k * u64 * m <= / 1000 * m) by (apply Rmult_le_compat_r; lra). lra. }
  assert (u64 * Rabs v <= u64 * (1.001 * m + z)) by (apply Rmult_le_compat_l; lra).
  assert (u64 * z <= 0.01 * z) by (apply Rmult_le_compat_r; lra).
  assert (0 <= u64 * m) by (apply Rmult_le_pos; lra).
  replace (rnd v - r) with ((rnd v - v) + (v - r)) by ring. eapply Rle_trans; [apply Rabs_triang|]. lra.
Qed.

Lemma apx_mul (k m z k' m' : R) (x y : b64) (r s : R) :
  apx k m z x r -> apx k' m' 0 y s -> 0 <= k <= 10 -> 0 <= k' <= 10 -> 0 <= z ->
  m * m' <= bpow radix2 900 -> z * m' <= bpow radix2 900 ->
  apx (1.01 * k + k' + 1.01) (m * m') (1.1 * (z * m') + eta64) (Bmult mode_NE x y) (r * s).
Proof.
  intros Hx Hy Hk Hk' Hz Hm Hzm.
  pose proof (apx_size _ _ _ _ _ Hx ltac:(lra)) as Sx. pose proof (apx_size _ _ _ _ _ Hy ltac:(lra)) as Sy.
  destruct Hx as (Fx & Bx & Dx). destruct Hy as (Fy & By & Dy).
  pose proof u64_pos as U0. pose proof u64_small as U1.
  assert (M0 : 0 <= m) by (pose proof (Rabs_pos r); lra). assert (M0' : 0 <= m') by (pose proof (Rabs_pos s); lra).
  assert (MM : 0 <= m * m') by (apply Rmult_le_pos; lra). assert (ZM : 0 <= z * m') by (apply Rmult_le_pos; lra).
  assert (Big : 2 * bpow radix2 900 + 2 * bpow radix2 900 <= bpow radix2 1023).
  { apply Rle_trans with (bpow radix2 2 * bpow radix2 900); [change (bpow radix2 2) with 4; lra|].
    rewrite <- bpow_plus. apply bpow_le. lia. }
  assert (P : Rabs (B2R x * B2R y) <= bpow radix2 1023).
  { rewrite Rabs_mult. apply Rle_trans with ((1.001 * m + z) * (1.001 * m' + 0)).
    - apply Rmult_le_compat; try apply Rabs_pos; assumption.
    - eapply Rle_trans; [|exact Big]. nra. }
  destruct (b64_mul_ok x y Fx Fy P) as [V F]. split; [exact F|].
  assert (Bp : Rabs (r * s) <= m * m') by (rewrite Rabs_mult; apply Rmult_le_compat; try apply Rabs_pos; assumption).
  split; [exact Bp|]. rewrite V.
  assert (D : Rabs (B2R x * B2R y - r * s) <= (1.01 * k + k') * u64 * (m * m') + 1.001 * (z * m')).
  { replace (B2R x * B2R y - r * s) with ((B2R x - r) * B2R y + r * (B2R y - s)) by ring.
    eapply Rle_trans; [apply Rabs_triang|]. rewrite !Rabs_mult.
    assert (K1 : Rabs (B2R x - r) * Rabs (B2R y) <= (k * u64 * m + z) * (1.001 * m' + 0))
      by (apply Rmult_le_compat; try apply Rabs_pos; assumption).
    assert (K2 : Rabs r * Rabs (B2R y - s) <= m * (k' * u64 * m' + 0))
      by (apply Rmult_le_compat; try apply Rabs_pos; assumption).
    assert (0 <= k * (u64 * (m * m'))) by (apply Rmult_le_pos; [lra|apply Rmult_le_pos; lra]). nra. }
  pose proof (rnd_apx (1.01 * k + k') (m * m') (1.001 * (z * m')) (B2R x * B2R y) (r * s) ltac:(lra) ltac:(lra) Bp D) as E.
  eapply Rle_trans; [exact E|]. lra.
Qed.

Lemma apx_add (k m z m' z' : R) (x y : b64) (r s : R) :
  apx k m z x r -> apx k m' z' y s -> 0 <= k <= 10 -> 0 <= z -> 0 <= z' ->
  m + z + (m' + z') <= bpow radix2 900 ->
  apx (k + 1.01) (m + m') (1.01 * (z + z') + eta64) (Bplus mode_NE x y) (r + s).
Proof.
  intros Hx Hy Hk Hz Hz' Hm.
  pose proof (apx_size _ _ _ _ _ Hx ltac:(lra)) as Sx. pose proof (apx_size _ _ _ _ _ Hy ltac:(lra)) as Sy.
  destruct Hx as (Fx & Bx & Dx). destruct Hy as (Fy & By & Dy).
  assert (M0 : 0 <= m) by (pose proof (Rabs_pos r); lra). assert (M0' : 0 <= m') by (pose proof (Rabs_pos s); lra).
  assert (Big : 2 * bpow radix2 900 <= bpow radix2 1023).
  { apply Rle_trans with (bpow radix2 1 * bpow radix2 900); [change (bpow radix2 1) with 2; lra|].
    rewrite <- bpow_plus. apply bpow_le. lia. }
  assert (P : Rabs (B2R x + B2R y) <= bpow radix2 1023).
  { eapply Rle_trans; [apply Rabs_triang|]. lra. }
  destruct (b64_add_ok x y Fx Fy P) as [V F]. split; [exact F|].
  assert (Bp : Rabs (r + s) <= m + m') by (eapply Rle_trans; [apply Rabs_triang|]; lra).
  split; [exact Bp|]. rewrite V. apply rnd_apx; [lra|lra|exact Bp|].
  replace (B2R x + B2R y - (r + s)) with ((B2R x - r) + (B2R y - s)) by ring.
  eapply Rle_trans; [apply Rabs_triang|]. lra.
Qed.

Lemma grow (x y : R) : 1 <= x -> 0 <= y -> y <= x * y.
Proof. intros. nra. Qed.
Lemma one_mul (x y : R) : 1 <= x -> 1 <= y -> 1 <= x * y.
Proof. intros. nra. Qed.

Lemma sq_sum (x y : R) : (x + y) * (x + y) <= 2 * (x * x + y * y).
Proof. pose proof (Rle_0_sqr (x - y)) as H. unfold Rsqr in H. nra. Qed.

(** * The exponent *)
Section Exponent.
Variables (th tr v a b d : R) (i00 i01 i10 i11 q0 q1 : b64).
Let s := th * tr.

Definition half_neg : b64 := Bopp (Bdiv mode_NE (b64_of 1 0) (b64_of 2 0)).

Lemma half_neg_val : is_finite half_neg = true /\ B2R half_neg = - / 2.
Proof. unfold half_neg. rewrite is_finite_Bopp, B2R_Bopp. split; [vm_compute; reflexivity|]. vm_compute. lra. Qed.

Definition exponent64 : b64 :=
  let r0 := Bplus mode_NE (Bmult mode_NE (Bmult mode_NE half_neg q0) i00) (Bmult mode_NE (Bmult mode_NE half_neg q1) i10) in
  let r1 := Bplus mode_NE (Bmult mode_NE (Bmult mode_NE half_neg q0) i01) (Bmult mode_NE (Bmult mode_NE half_neg q1) i11) in
  Bplus mode_NE (Bmult mode_NE r0 q0) (Bmult mode_NE r1 q1).

Lemma exponent_bound :
  0 < th -> bpow radix2 (-300) <= s <= bpow radix2 300 ->
  (forall w0 w1, v * (w0 * w0 + w1 * w1) <= a * (w0 * w0) + 2 * b * (w0 * w1) + d * (w1 * w1)) ->
  32 * u64 * tr <= v ->
  apx 2 s 0 i00 (th * d) -> apx 2 s 0 i01 (- (th * b)) -> apx 2 s 0 i10 (- (th * b)) -> apx 2 s 0 i11 (th * a) ->
  is_finite q0 = true -> is_finite q1 = true -> Rabs (B2R q0) <= bpow radix2 110 -> Rabs (B2R q1) <= bpow radix2 110 ->
  is_finite exponent64 = true /\ B2R exponent64 <= bpow radix2 (-60).
Proof.
  intros Hth [SL SU] Hv Hvtr I00 I01 I10 I11 F0 F1 B0 B1.
  destruct half_neg_val as [Fh Vh].
  pose proof (apx_exact half_neg Fh) as Ah. rewrite Vh in Ah.
  replace (Rabs (- / 2)) with (/ 2) in Ah by (rewrite Rabs_Ropp, Rabs_pos_eq; lra).
  pose proof (apx_exact q0 F0) as A0. pose proof (apx_exact q1 F1) as A1.
  set (X := Rabs (B2R q0)) in *. set (Y := Rabs (B2R q1)) in *.
  assert (X0 : 0 <= X) by apply Rabs_pos. assert (Y0 : 0 <= Y) by apply Rabs_pos.
  pose proof u64_pos as U0. pose proof u64_small as U1. pose proof eta64_pos as E0.
  assert (S0 : 0 < s) by (pose proof (bpow_gt_0 radix2 (-300)); lra).
  set (G := bpow radix2 110) in *. set (H := bpow radix2 300) in *.
  assert (G1 : 1 <= G) by (change 1 with (bpow radix2 0); apply bpow_le; lia).
  assert (H1 : 1 <= H) by (change 1 with (bpow radix2 0); apply bpow_le; lia).
  assert (GH : 64 * (G * G * H) <= bpow radix2 900).
  { replace 64 with (bpow radix2 6) by (cbn; lra). unfold G, H. rewrite <- !bpow_plus. apply bpow_le. lia. }
  assert (GG : 1 <= G * G) by (apply one_mul; lra).
  assert (GHb : G * H <= G * G * H) by (rewrite Rmult_assoc; apply grow; [lra|apply Rmult_le_pos; lra]).
  assert (GHc : G <= G * H) by (rewrite Rmult_comm; apply grow; lra).
  assert (Eta : eta64 <= / 1000000).
  { apply Rle_trans with (bpow radix2 (-20)); [apply bpow_le; lia|cbn; lra]. }
  assert (HX : X * s <= G * H) by (apply Rmult_le_compat; lra).
  assert (HY : Y * s <= G * H) by (apply Rmult_le_compat; lra).
  assert (XS : 0 <= X * s) by (apply Rmult_le_pos; lra). assert (YS : 0 <= Y * s) by (apply Rmult_le_pos; lra).
  assert (HE : eta64 * s <= / 1000000 * H) by (apply Rmult_le_compat; lra).
  assert (ES : 0 <= eta64 * s) by (apply Rmult_le_pos; lra).
  (* -0.5 q *)
  pose proof (apx_mul _ _ _ _ _ _ _ _ _ Ah A0 ltac:(lra) ltac:(lra) ltac:(lra) ltac:(nra) ltac:(nra)) as P0.
  pose proof (apx_mul _ _ _ _ _ _ _ _ _ Ah A1 ltac:(lra) ltac:(lra) ltac:(lra) ltac:(nra) ltac:(nra)) as P1.
  apply (apx_weaken _ _ _ 1.02 (/ 2 * X) eta64) in P0; [|lra|lra|lra|lra].
  apply (apx_weaken _ _ _ 1.02 (/ 2 * Y) eta64) in P1; [|lra|lra|lra|lra].
  (* times the matrix *)
  assert (T : forall (w : b64) (W rw : R) (i : b64) (ri : R), 0 <= W -> W * s <= G * H ->
    apx 1.02 (/ 2 * W) eta64 w rw -> apx 2 s 0 i ri ->
    apx 4.1 (/ 2 * (W * s)) (1.1 * (eta64 * s) + eta64) (Bmult mode_NE w i) (rw * ri)).
  { intros w W rw i ri W0 WS Aw Ai.
    pose proof (apx_mul _ _ _ _ _ _ _ _ _ Aw Ai ltac:(lra) ltac:(lra) ltac:(lra) ltac:(nra) ltac:(nra)) as P.
    apply (apx_weaken _ _ _ 4.1 (/ 2 * (W * s)) (1.1 * (eta64 * s) + eta64)) in P; [exact P|lra|lra|lra|lra]. }
  pose proof (T _ _ _ _ _ X0 HX P0 I00) as T00. pose proof (T _ _ _ _ _ Y0 HY P1 I10) as T10.
  pose proof (T _ _ _ _ _ X0 HX P0 I01) as T01. pose proof (T _ _ _ _ _ Y0 HY P1 I11) as T11.
  set (z1 := 1.1 * (eta64 * s) + eta64) in *.
  assert (Z1 : 0 <= z1) by (unfold z1; lra). assert (Z1b : z1 <= / 1000 * H) by (unfold z1; lra).
  pose proof (apx_add _ _ _ _ _ _ _ _ _ T00 T10 ltac:(lra) Z1 Z1 ltac:(nra)) as R0.
  pose proof (apx_add _ _ _ _ _ _ _ _ _ T01 T11 ltac:(lra) Z1 Z1 ltac:(nra)) as R1.
  set (L := X + Y) in *. assert (L0 : 0 <= L) by (unfold L; lra).
  set (z2 := 3 * z1 + eta64).
  assert (Z2 : 0 <= z2) by (unfold z2; lra). assert (Z2b : z2 <= / 100 * H) by (unfold z2; lra).
  apply (apx_weaken _ _ _ 5.2 (/ 2 * (L * s)) z2) in R0; [|lra|lra|unfold L; lra|unfold z2; lra].
  apply (apx_weaken _ _ _ 5.2 (/ 2 * (L * s)) z2) in R1; [|lra|lra|unfold L; lra|unfold z2; lra].
  assert (HL : L * s <= 2 * (G * H)) by (unfold L; lra). assert (LS : 0 <= L * s) by (apply Rmult_le_pos; lra).
  assert (L2 : forall W, 0 <= W -> W <= G -> / 2 * (L * s) * W <= G * G * H /\ z2 * W <= / 100 * (G * H)).
  { intros W W0 WG. split.
    - apply Rle_trans with (/ 2 * (2 * (G * H)) * G); [apply Rmult_le_compat; lra|nra].
    - apply Rle_trans with (/ 100 * H * G); [apply Rmult_le_compat; lra|nra]. }
  destruct (L2 X X0 B0) as [L2a L2b]. destruct (L2 Y Y0 B1) as [L2c L2d].
  pose proof (apx_mul _ _ _ _ _ _ _ _ _ R0 A0 ltac:(lra) ltac:(lra) Z2 ltac:(lra) ltac:(lra)) as S0'.
  pose proof (apx_mul _ _ _ _ _ _ _ _ _ R1 A1 ltac:(lra) ltac:(lra) Z2 ltac:(lra) ltac:(lra)) as S1'.
  assert (ZX : 0 <= z2 * X) by (apply Rmult_le_pos; lra). assert (ZY : 0 <= z2 * Y) by (apply Rmult_le_pos; lra).
  apply (apx_weaken _ _ _ 6.4 (/ 2 * (L * s) * X) (1.1 * (z2 * X) + eta64)) in S0'; [|lra|lra|lra|lra].
  apply (apx_weaken _ _ _ 6.4 (/ 2 * (L * s) * Y) (1.1 * (z2 * Y) + eta64)) in S1'; [|lra|lra|lra|lra].
  pose proof (apx_add _ _ _ _ _ _ _ _ _ S0' S1' ltac:(lra) ltac:(lra) ltac:(lra) ltac:(lra)) as Ex.
  destruct Ex as (Fe & _ & De). split; [exact Fe|].
  change (Bplus mode_NE _ _) with exponent64 in De.
  match type of De with Rabs (_ - ?r) <= _ => set (ex := r) in * end.
  assert (Eex : ex = - / 2 * (th * (a * (B2R q1 * B2R q1) - 2 * b * (B2R q0 * B2R q1) + d * (B2R q0 * B2R q0)))).
  { unfold ex. ring. }
  pose proof (Hv (B2R q1) (- B2R q0)) as Hq.
  set (N := B2R q0 * B2R q0 + B2R q1 * B2R q1) in *.
  assert (XX : X * X = B2R q0 * B2R q0) by (unfold X; rewrite <- Rabs_mult, Rabs_pos_eq; [reflexivity|apply Rle_0_sqr]).
  assert (YY : Y * Y = B2R q1 * B2R q1) by (unfold Y; rewrite <- Rabs_mult, Rabs_pos_eq; [reflexivity|apply Rle_0_sqr]).
  assert (N0 : 0 <= N) by (unfold N; nra).
  assert (LN : L * L <= 2 * N).
  { unfold L, N. rewrite <- XX, <- YY. apply sq_sum. }
  assert (Main : ex <= - (16 * (u64 * s * N))).
  { rewrite Eex.
    assert (K1 : v * N <= a * (B2R q1 * B2R q1) - 2 * b * (B2R q0 * B2R q1) + d * (B2R q0 * B2R q0)) by (unfold N; lra).
    assert (K2 : 32 * u64 * tr * N <= v * N) by (apply Rmult_le_compat_r; lra).
    assert (K3 : th * (32 * u64 * tr * N) <= th * (a * (B2R q1 * B2R q1) - 2 * b * (B2R q0 * B2R q1) + d * (B2R q0 * B2R q0)))
      by (apply Rmult_le_compat_l; lra).
    replace (th * (32 * u64 * tr * N)) with (32 * (u64 * s * N)) in K3 by (unfold s; ring). lra. }
  assert (Err : (6.4 + 1.01) * u64 * (/ 2 * (L * s) * X + / 2 * (L * s) * Y) <= 8 * (u64 * s * N)).
  { replace ((6.4 + 1.01) * u64 * (/ 2 * (L * s) * X + / 2 * (L * s) * Y)) with (3.705 * (u64 * s) * (L * L)) by (unfold L; lra).
    assert (US : 0 <= u64 * s) by (apply Rmult_le_pos; lra).
    assert (u64 * s * (L * L) <= u64 * s * (2 * N)) by (apply Rmult_le_compat_l; lra).
    assert (0 <= u64 * s * N) by (apply Rmult_le_pos; lra). lra. }
  assert (Tiny : 1.01 * (1.1 * (z2 * X) + eta64 + (1.1 * (z2 * Y) + eta64)) + eta64 <= bpow radix2 (-60)).
  { assert (Z3 : z2 <= eta64 * (10 * H)).
    { unfold z2, z1. assert (eta64 * s <= eta64 * H) by (apply Rmult_le_compat_l; lra).
      assert (eta64 * 1 <= eta64 * H) by (apply Rmult_le_compat_l; lra). lra. }
    assert (Zx : z2 * X <= eta64 * (10 * H) * G) by (apply Rmult_le_compat; lra).
    assert (Zy : z2 * Y <= eta64 * (10 * H) * G) by (apply Rmult_le_compat; lra).
    assert (Zg : eta64 * 1 <= eta64 * (H * G)) by (apply Rmult_le_compat_l; nra).
    apply Rle_trans with (64 * (eta64 * (H * G))); [lra|].
    replace 64 with (bpow radix2 6) by (cbn; lra). unfold eta64, H, G. rewrite <- !bpow_plus. apply bpow_le. lia. }
  assert (0 <= u64 * s * N) by (apply Rmult_le_pos; [apply Rmult_le_pos; lra|lra]).
  apply Rabs_le_inv in De. lra.
Qed.

End Exponent.
