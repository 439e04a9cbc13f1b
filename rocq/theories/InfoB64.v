(** The information matrix of a cell in binary64 (ndt_model.cpp:83-100) and the
    likelihood computed from it, for points spread by more than the rounding
    noise. *)

From Coq Require Import ZArith Reals List Bool Lia Lra Psatz.
From Flocq Require Import Core BinarySingleNaN.
From Verif Require Import Outcome Arith TypesModel CellModel SpecStats SumLemmas CellProofs B64Lemmas CellB64 ScoreB64.
Import ListNotations.
Local Open Scope R_scope.

(** A quadratic form bounded below by [v] times the square of the vector. *)
Definition bounded_below (v a b d : R) : Prop :=
  forall w0 w1, v * (w0 * w0 + w1 * w1) <= a * (w0 * w0) + 2 * b * (w0 * w1) + d * (w1 * w1).

Lemma bounded_below_det (v a b d : R) :
  0 < v -> bounded_below v a b d ->
  v <= a /\ v <= d /\ Rabs b <= (a + d) / 2 /\ v * (a + d) / 2 <= a * d - b * b.
Proof.
  intros V0 H. pose proof (H 1 0) as H1. pose proof (H 0 1) as H2. pose proof (H 1 1) as H3. pose proof (H 1 (-1)) as H4.
  assert (Ha : v <= a) by lra. assert (Hd : v <= d) by lra.
  assert (D : b * b <= (a - v) * (d - v)).
  { pose proof (H (- b) (a - v)) as K1. pose proof (H (d - v) (- b)) as K2.
    set (al := a - v) in *. set (be := d - v) in *.
    assert (Ea : a = al + v) by (unfold al; ring). assert (Ed : d = be + v) by (unfold be; ring).
    assert (al0 : 0 <= al) by (unfold al; lra). assert (be0 : 0 <= be) by (unfold be; lra).
    assert (Q1 : 0 <= al * (al * be - b * b)) by (rewrite Ea, Ed in K1; lra).
    assert (Q2 : 0 <= be * (al * be - b * b)) by (rewrite Ea, Ed in K2; lra).
    destruct (Rle_lt_dec (b * b) (al * be)) as [L|L]; [exact L|exfalso].
    assert (al = 0) by nra. assert (be = 0) by nra.
    assert (b = 0) by lra. subst b. nra. }
  repeat split; [exact Ha|exact Hd| |].
  - apply Rabs_le. lra.
  - assert (v * (a + d) - v * v <= a * d - b * b) by lra. nra.
Qed.

Section Info.
Variable lm : libm.
Let Ar : Arith b64 := BA lm.
Local Existing Instance Ar.
Variable eig : mat2 b64 -> b64 * b64.
Variable cov : mat2 b64.
Let a := B2R (m00 cov).
Let b := B2R (m01 cov).
Let d := B2R (m11 cov).
Let tr := a + d.
Variable v : R.

Hypothesis F00 : is_finite (m00 cov) = true.
Hypothesis F01 : is_finite (m01 cov) = true.
Hypothesis F11 : is_finite (m11 cov) = true.
Hypothesis Sym : m10 cov = m01 cov.
Hypothesis V0 : 0 < v.
Hypothesis Hv : bounded_below v a b d.
Hypothesis Vtr : 32 * u64 * tr <= v.
Hypothesis Tr : bpow radix2 (-200) <= tr <= bpow radix2 200.
Hypothesis Efin : is_finite (fst (eig cov)) = true /\ is_finite (snd (eig cov)) = true.
Hypothesis Elarge : tr / 4 <= Rmax (B2R (fst (eig cov))) (B2R (snd (eig cov))) <= 2 * tr.

Let tr0 : 0 < tr.
Proof. pose proof (bpow_gt_0 radix2 (-200)). lra. Qed.

Let tr2 : bpow radix2 (-400) <= tr * tr <= bpow radix2 400.
Proof.
  pose proof tr0. pose proof (bpow_gt_0 radix2 (-200)).
  split; [replace (-400)%Z with (-200 + -200)%Z by lia|replace 400%Z with (200 + 200)%Z by lia]; rewrite bpow_plus;
    apply Rmult_le_compat; lra.
Qed.

Lemma eta_tiny (m : R) : bpow radix2 (-900) <= m -> eta64 <= 0.001 * (u64 * m).
Proof. intros H. pose proof (eta_scale m H). lra. Qed.

(** One product or quotient of an entry of the matrix. *)
Lemma entry_apx (th e r : R) (x : b64) :
  0 < th -> bpow radix2 (-300) <= th * tr -> Rabs e <= tr -> r = th * e -> is_finite x = true -> B2R x = rnd r ->
  apx 2 (th * tr) 0 x (th * e).
Proof.
  intros Hth Hs He -> Fx Vx. repeat split; [exact Fx| |].
  - rewrite Rabs_mult, (Rabs_pos_eq th) by lra. apply Rmult_le_compat_l; lra.
  - rewrite Vx. pose proof (rnd_err (th * e)) as E.
    assert (K : Rabs (th * e) <= th * tr) by (rewrite Rabs_mult, (Rabs_pos_eq th) by lra; apply Rmult_le_compat_l; lra).
    pose proof u64_pos as U0.
    assert (u64 * Rabs (th * e) <= u64 * (th * tr)) by (apply Rmult_le_compat_l; lra).
    assert (H9 : bpow radix2 (-900) <= th * tr) by (eapply Rle_trans; [apply bpow_le|exact Hs]; lia).
    pose proof (eta_tiny _ H9). assert (0 <= u64 * (th * tr)) by (apply Rmult_le_pos; [lra|apply Rmult_le_pos; [lra|pose proof tr0; lra]]). lra.
Qed.

Definition lit1000 : b64 := @nlit b64 Ar 1 1000.

Lemma lit_val : 0.0009 <= B2R lit1000 <= 0.0011 /\ is_finite lit1000 = true.
Proof.
  split; [|vm_compute; reflexivity].
  assert (E : B2R lit1000 = 1152921504606847 * / 1152921504606846976) by (vm_compute; lra).
  rewrite E. lra.
Qed.

Lemma abs_entries : Rabs a <= tr /\ Rabs b <= tr /\ Rabs d <= tr.
Proof.
  destruct (bounded_below_det v a b d V0 Hv) as (Ha & Hd & Hb & _). fold tr in Hb. pose proof tr0.
  assert (Rabs a = a) by (apply Rabs_pos_eq; lra). assert (Rabs d = d) by (apply Rabs_pos_eq; lra).
  unfold tr in *. lra.
Qed.

(** The thin branch. *)
Lemma thin_apx (L : b64) :
  is_finite L = true -> tr / 4 <= B2R L <= 2 * tr ->
  let dt := Bmult mode_NE (Bmult mode_NE lit1000 L) L in
  exists th, 0 < th /\ bpow radix2 (-300) <= th * tr <= bpow radix2 300 /\
    apx 2 (th * tr) 0 (Bdiv mode_NE (m11 cov) dt) (th * d) /\
    apx 2 (th * tr) 0 (Bdiv mode_NE (Bopp (m10 cov)) dt) (- (th * b)) /\
    apx 2 (th * tr) 0 (Bdiv mode_NE (Bopp (m01 cov)) dt) (- (th * b)) /\
    apx 2 (th * tr) 0 (Bdiv mode_NE (m00 cov) dt) (th * a).
Proof.
  intros FL [L1 L2] dt. pose proof tr0 as T0. pose proof tr2 as [T1 T2].
  destruct lit_val as [[l1 l2] Fl]. pose proof u64_pos as U0. pose proof u64_small as U1.
  set (l := B2R lit1000) in *. set (y := B2R L) in *.
  assert (Y0 : 0 < y) by lra.
  assert (T20 : bpow radix2 (-400) <= tr).
  { eapply Rle_trans; [|apply Tr]. apply bpow_le. lia. }
  assert (Et : eta64 <= 0.001 * (u64 * tr)) by (apply eta_tiny; eapply Rle_trans; [apply bpow_le|exact T20]; lia).
  assert (Et2 : eta64 <= 0.001 * (u64 * (tr * tr))) by (apply eta_tiny; eapply Rle_trans; [apply bpow_le|exact T1]; lia).
  assert (TB : tr <= bpow radix2 1000) by (eapply Rle_trans; [apply Tr|apply bpow_le; lia]).
  assert (TB2 : tr * tr <= bpow radix2 1000) by (eapply Rle_trans; [exact T2|apply bpow_le; lia]).
  assert (B3 : bpow radix2 1000 * 8 <= bpow radix2 1023).
  { replace 8 with (bpow radix2 3) by (cbn; lra). rewrite <- bpow_plus. apply bpow_le. lia. }
  assert (P1 : 0.0002 * tr <= l * y <= 0.0023 * tr) by nra.
  destruct (b64_mul_ok lit1000 L Fl FL) as [V1 F1].
  { fold l y. rewrite Rabs_pos_eq by lra. lra. }
  fold l y in V1. pose proof (rnd_err (l * y)) as E1. rewrite <- V1 in E1. rewrite (Rabs_pos_eq (l * y)) in E1 by lra.
  set (p := B2R (Bmult mode_NE lit1000 L)) in *.
  assert (U2 : u64 * (l * y) <= u64 * (0.0023 * tr)) by (apply Rmult_le_compat_l; lra).
  assert (U3 : u64 * tr <= 0.001 * tr * 0.001) by nra.
  assert (P2 : 0.0001 * tr <= p <= 0.003 * tr) by (apply Rabs_le_inv in E1; lra).
  assert (P3 : 0.00002 * (tr * tr) <= p * y <= 0.006 * (tr * tr)).
  { pose proof (Rmult_le_compat (0.0001 * tr) p (tr / 4) y ltac:(lra) ltac:(lra) ltac:(lra) ltac:(lra)) as C1.
    pose proof (Rmult_le_compat p (0.003 * tr) y (2 * tr) ltac:(lra) ltac:(lra) ltac:(lra) ltac:(lra)) as C2.
    assert (0 <= tr * tr) by (apply Rmult_le_pos; lra). lra. }
  destruct (b64_mul_ok (Bmult mode_NE lit1000 L) L F1 FL) as [V2 F2].
  { fold p y. assert (0 < tr * tr) by (apply Rmult_lt_0_compat; lra). rewrite Rabs_pos_eq by lra. lra. }
  fold p y in V2. fold dt in V2, F2. pose proof (rnd_err (p * y)) as E2. rewrite <- V2 in E2.
  rewrite (Rabs_pos_eq (p * y)) in E2 by (apply Rmult_le_pos; lra).
  set (q := tr * tr) in *. assert (Q0 : 0 < q) by (unfold q; apply Rmult_lt_0_compat; lra).
  assert (U4 : u64 * (p * y) <= u64 * (0.006 * q)) by (apply Rmult_le_compat_l; lra).
  assert (U5 : u64 * q <= 0.000001 * q) by (apply Rmult_le_compat_r; lra).
  assert (P4 : 0.00001 * q <= B2R dt <= 0.007 * q) by (apply Rabs_le_inv in E2; lra).
  assert (D0 : 0 < B2R dt) by lra.
  set (th := / B2R dt). assert (Th : 0 < th) by (apply Rinv_0_lt_compat; lra).
  assert (Thd : th * B2R dt = 1) by (unfold th; apply Rinv_l; lra).
  assert (Q1 : 1 <= th * q * 0.007).
  { assert (th * B2R dt <= th * (0.007 * q)) by (apply Rmult_le_compat_l; lra). lra. }
  assert (Q2 : th * q <= 100000).
  { assert (th * (0.00001 * q) <= th * B2R dt) by (apply Rmult_le_compat_l; lra). lra. }
  assert (S1 : bpow radix2 (-300) <= th * tr).
  { assert (K : 1 <= th * tr * tr) by (unfold q in Q1; lra).
    apply Rmult_le_reg_r with tr; [exact T0|].
    apply Rle_trans with (bpow radix2 (-300) * bpow radix2 200).
    - apply Rmult_le_compat_l; [apply bpow_ge_0|apply Tr].
    - rewrite <- bpow_plus. apply Rle_trans with (bpow radix2 0); [apply bpow_le; lia|cbn; lra]. }
  assert (S2 : th * tr <= bpow radix2 300).
  { apply Rmult_le_reg_r with tr; [exact T0|]. apply Rle_trans with (bpow radix2 300 * bpow radix2 (-200)).
    - rewrite <- bpow_plus. apply Rle_trans with (bpow radix2 17); [|apply bpow_le; lia].
      change (bpow radix2 17) with 131072. unfold q in Q2. lra.
    - apply Rmult_le_compat_l; [apply bpow_ge_0|apply Tr]. }
  destruct abs_entries as (Aa & Ab & Ad).
  assert (G : forall (x : b64) (e : R), is_finite x = true -> B2R x = e -> Rabs e <= tr ->
              apx 2 (th * tr) 0 (Bdiv mode_NE x dt) (th * e)).
  { intros x e Fx Ex He. destruct (b64_div_ok x dt Fx) as [V F]; [lra| |].
    - unfold Rdiv. fold th. rewrite Ex, Rabs_mult, (Rabs_pos_eq th) by lra.
      apply Rle_trans with (tr * th); [apply Rmult_le_compat_r; lra|]. rewrite Rmult_comm.
      eapply Rle_trans; [exact S2|]. apply bpow_le. lia.
    - apply (entry_apx th e (B2R x / B2R dt)); try assumption.
      unfold Rdiv. fold th. rewrite Ex. ring. }
  exists th. split; [exact Th|]. split; [split; assumption|].
  split; [apply G; [exact F11|reflexivity|exact Ad]|].
  assert (Gb : forall x, x = m01 cov -> apx 2 (th * tr) 0 (Bdiv mode_NE (Bopp x) dt) (- (th * b))).
  { intros x ->. replace (- (th * b)) with (th * - b) by ring.
    apply G; [rewrite is_finite_Bopp; exact F01|apply B2R_Bopp|rewrite Rabs_Ropp; exact Ab]. }
  split; [apply Gb, Sym|]. split; [apply Gb; reflexivity|].
  apply G; [exact F00|reflexivity|exact Aa].
Qed.

(** The inverse. *)
Lemma inverse_apx :
  exists th, 0 < th /\ bpow radix2 (-300) <= th * tr <= bpow radix2 300 /\
    apx 2 (th * tr) 0 (m00 (mat2_inverse cov)) (th * d) /\
    apx 2 (th * tr) 0 (m01 (mat2_inverse cov)) (- (th * b)) /\
    apx 2 (th * tr) 0 (m10 (mat2_inverse cov)) (- (th * b)) /\
    apx 2 (th * tr) 0 (m11 (mat2_inverse cov)) (th * a).
Proof.
  pose proof tr0 as T0. pose proof tr2 as [T1 T2]. pose proof u64_pos as U0. pose proof u64_small as U1.
  destruct (bounded_below_det v a b d V0 Hv) as (Ha & Hd & Hb & Hdet). fold tr in Hb, Hdet.
  destruct abs_entries as (Aa & Ab & Ad).
  set (q := tr * tr) in *. assert (Q0 : 0 < q) by (unfold q; apply Rmult_lt_0_compat; lra).
  assert (Et2 : eta64 <= 0.001 * (u64 * q)) by (apply eta_tiny; eapply Rle_trans; [apply bpow_le|exact T1]; lia).
  assert (TB2 : q <= bpow radix2 1000) by (eapply Rle_trans; [exact T2|apply bpow_le; lia]).
  assert (B3 : bpow radix2 1000 * 8 <= bpow radix2 1023).
  { replace 8 with (bpow radix2 3) by (cbn; lra). rewrite <- bpow_plus. apply bpow_le. lia. }
  assert (P1 : 0 <= a * d <= q / 4).
  { unfold q, tr. split; [apply Rmult_le_pos; lra|]. pose proof (Rle_0_sqr (a - d)) as Sq. unfold Rsqr in Sq. lra. }
  assert (P2 : 0 <= b * b <= q / 4).
  { split; [apply Rle_0_sqr|]. replace (b * b) with (Rabs b * Rabs b) by (rewrite <- Rabs_mult; apply Rabs_pos_eq, Rle_0_sqr).
    pose proof (Rmult_le_compat (Rabs b) (tr / 2) (Rabs b) (tr / 2) (Rabs_pos b) (Rabs_pos b) Hb Hb) as K. unfold q. lra. }
  destruct (b64_mul_ok (m00 cov) (m11 cov) F00 F11) as [V1 F1].
  { fold a d. rewrite Rabs_pos_eq by lra. lra. }
  destruct (b64_mul_ok (m01 cov) (m01 cov) F01 F01) as [V2 F2].
  { fold b. rewrite Rabs_pos_eq by lra. lra. }
  fold a d in V1. fold b in V2.
  pose proof (rnd_err (a * d)) as E1. rewrite <- V1, (Rabs_pos_eq (a * d)) in E1 by lra.
  pose proof (rnd_err (b * b)) as E2. rewrite <- V2, (Rabs_pos_eq (b * b)) in E2 by lra.
  set (x := B2R (Bmult mode_NE (m00 cov) (m11 cov))) in *. set (y := B2R (Bmult mode_NE (m01 cov) (m01 cov))) in *.
  assert (U2 : u64 * (a * d) <= u64 * (q / 4)) by (apply Rmult_le_compat_l; lra).
  assert (U3 : u64 * (b * b) <= u64 * (q / 4)) by (apply Rmult_le_compat_l; lra).
  assert (U4 : u64 * q <= 0.000001 * q) by (apply Rmult_le_compat_r; lra).
  assert (UQ : 0 < u64 * q) by (apply Rmult_lt_0_compat; lra).
  apply Rabs_le_inv in E1. apply Rabs_le_inv in E2.
  assert (XY : Rabs (x - y) <= 0.51 * q) by (apply Rabs_le; lra).
  destruct (b64_sub_ok (Bmult mode_NE (m00 cov) (m11 cov)) (Bmult mode_NE (m01 cov) (m01 cov)) F1 F2) as [V3 F3].
  { fold x y. lra. }
  fold x y in V3. pose proof (rnd_err (x - y)) as E3. rewrite <- V3 in E3.
  set (dt := Bminus mode_NE (Bmult mode_NE (m00 cov) (m11 cov)) (Bmult mode_NE (m01 cov) (m01 cov))) in *.
  assert (U5 : u64 * Rabs (x - y) <= u64 * (0.51 * q)) by (apply Rmult_le_compat_l; lra).
  apply Rabs_le_inv in E3.
  assert (Vq : 16 * (u64 * q) <= v * tr / 2).
  { assert (32 * u64 * tr * tr <= v * tr) by (apply Rmult_le_compat_r; lra). unfold q. lra. }
  assert (P4 : 14 * (u64 * q) <= B2R dt <= 0.6 * q) by lra.
  assert (D0 : 0 < B2R dt) by lra.
  assert (Ed : mat2_det cov = dt).
  { unfold mat2_det, dt. rewrite Sym. reflexivity. }
  destruct (b64_ofZ 1 ltac:(lia)) as [One FO].
  assert (I0 : 0 < / B2R dt) by (apply Rinv_0_lt_compat; lra).
  assert (Idt : / B2R dt * B2R dt = 1) by (apply Rinv_l; lra).
  assert (I1 : 1 <= / B2R dt * q * 0.6).
  { assert (/ B2R dt * B2R dt <= / B2R dt * (0.6 * q)) by (apply Rmult_le_compat_l; lra). lra. }
  assert (I2 : / B2R dt * (14 * (u64 * q)) <= 1).
  { assert (/ B2R dt * (14 * (u64 * q)) <= / B2R dt * B2R dt) by (apply Rmult_le_compat_l; lra). lra. }
  assert (U53 : u64 * 9007199254740992 = 1) by (rewrite u64_val; field).
  assert (I3 : / B2R dt * q <= 9007199254740992).
  { assert (K : / B2R dt * (u64 * q) * 9007199254740992 <= 9007199254740992) by lra.
    replace (/ B2R dt * (u64 * q) * 9007199254740992) with (/ B2R dt * q * (u64 * 9007199254740992)) in K by ring.
    rewrite U53 in K. lra. }
  assert (IB : / B2R dt <= bpow radix2 460).
  { apply Rmult_le_reg_r with q; [exact Q0|]. apply Rle_trans with (bpow radix2 60); [change (bpow radix2 60) with 1152921504606846976; lra|].
    apply Rle_trans with (bpow radix2 460 * bpow radix2 (-400)); [rewrite <- bpow_plus; apply bpow_le; lia|].
    apply Rmult_le_compat_l; [apply bpow_ge_0|exact T1]. }
  destruct (b64_div_ok (b64_of 1 0) dt FO) as [V4 F4]; [lra| |].
  { rewrite One. unfold Rdiv. rewrite Rmult_1_l, Rabs_pos_eq by lra. eapply Rle_trans; [exact IB|]. apply bpow_le. lia. }
  rewrite One in V4. unfold Rdiv in V4. rewrite Rmult_1_l in V4.
  pose proof (rnd_err (/ B2R dt)) as E4. rewrite <- V4, (Rabs_pos_eq (/ B2R dt)) in E4 by lra.
  set (th := B2R (Bdiv mode_NE (b64_of 1 0) dt)) in *.
  assert (IL : bpow radix2 (-900) <= / B2R dt).
  { apply Rmult_le_reg_r with q; [exact Q0|]. apply Rle_trans with (bpow radix2 (-900) * bpow radix2 400).
    - apply Rmult_le_compat_l; [apply bpow_ge_0|exact T2].
    - rewrite <- bpow_plus. apply Rle_trans with (bpow radix2 0); [apply bpow_le; lia|cbn; lra]. }
  pose proof (eta_tiny _ IL) as Ei. apply Rabs_le_inv in E4.
  assert (UI : u64 * / B2R dt <= 0.001 * / B2R dt) by (apply Rmult_le_compat_r; lra).
  assert (T9 : 0.9 * / B2R dt <= th <= 1.1 * / B2R dt) by lra.
  assert (Th : 0 < th) by lra.
  assert (Q1 : 1 <= th * q).
  { assert (0.9 * / B2R dt * q <= th * q) by (apply Rmult_le_compat_r; lra). lra. }
  assert (Q2 : th * q <= 10000000000000000).
  { assert (th * q <= 1.1 * / B2R dt * q) by (apply Rmult_le_compat_r; lra). lra. }
  assert (S1 : bpow radix2 (-300) <= th * tr).
  { apply Rmult_le_reg_r with tr; [exact T0|].
    apply Rle_trans with (bpow radix2 (-300) * bpow radix2 200).
    - apply Rmult_le_compat_l; [apply bpow_ge_0|apply Tr].
    - rewrite <- bpow_plus. apply Rle_trans with (bpow radix2 0); [apply bpow_le; lia|]. change (bpow radix2 0) with 1. unfold q in Q1. lra. }
  assert (S2 : th * tr <= bpow radix2 300).
  { apply Rmult_le_reg_r with tr; [exact T0|]. apply Rle_trans with (bpow radix2 300 * bpow radix2 (-200)).
    - rewrite <- bpow_plus. apply Rle_trans with (bpow radix2 60); [|apply bpow_le; lia].
      change (bpow radix2 60) with 1152921504606846976. unfold q in Q2. lra.
    - apply Rmult_le_compat_l; [apply bpow_ge_0|apply Tr]. }
  assert (G : forall (w : b64) (e : R), is_finite w = true -> B2R w = e -> Rabs e <= tr ->
              apx 2 (th * tr) 0 (Bmult mode_NE w (Bdiv mode_NE (b64_of 1 0) dt)) (th * e)).
  { intros w e Fw Ew He. destruct (b64_mul_ok w (Bdiv mode_NE (b64_of 1 0) dt) Fw F4) as [V F].
    - fold th. rewrite Ew, Rabs_mult, (Rabs_pos_eq th) by lra.
      apply Rle_trans with (tr * th); [apply Rmult_le_compat_r; lra|]. rewrite Rmult_comm.
      eapply Rle_trans; [exact S2|]. apply bpow_le. lia.
    - apply (entry_apx th e (B2R w * th)); try assumption. rewrite Ew. ring. }
  assert (Gb : forall w, w = m01 cov -> apx 2 (th * tr) 0 (Bmult mode_NE (Bopp w) (Bdiv mode_NE (b64_of 1 0) dt)) (- (th * b))).
  { intros w ->. replace (- (th * b)) with (th * - b) by ring.
    apply G; [rewrite is_finite_Bopp; exact F01|apply B2R_Bopp|rewrite Rabs_Ropp; exact Ab]. }
  exists th. split; [exact Th|]. split; [split; assumption|].
  unfold mat2_inverse. rewrite Ed. cbn [m00 m01 m10 m11].
  split; [apply G; [exact F11|reflexivity|exact Ad]|].
  split; [apply Gb; reflexivity|]. split; [apply Gb, Sym|].
  apply G; [exact F00|reflexivity|exact Aa].
Qed.

Lemma info_apx :
  let i := info_of_cov eig cov in
  exists th, 0 < th /\ bpow radix2 (-300) <= th * tr <= bpow radix2 300 /\
    apx 2 (th * tr) 0 (m00 i) (th * d) /\ apx 2 (th * tr) 0 (m01 i) (- (th * b)) /\
    apx 2 (th * tr) 0 (m10 i) (- (th * b)) /\ apx 2 (th * tr) 0 (m11 i) (th * a).
Proof.
  intros i. unfold i, info_of_cov. destruct Efin as [Ff Fs].
  assert (LG : forall sm lg, (if nlt (snd (eig cov)) (fst (eig cov)) then (snd (eig cov), fst (eig cov)) else (fst (eig cov), snd (eig cov))) = (sm, lg) ->
     is_finite lg = true /\ tr / 4 <= B2R lg <= 2 * tr).
  { intros sm lg. change (nlt (snd (eig cov)) (fst (eig cov))) with (Bltb (snd (eig cov)) (fst (eig cov))).
    rewrite Bltb_correct by assumption. destruct (Rlt_bool_spec (B2R (snd (eig cov))) (B2R (fst (eig cov)))) as [C|C];
      intros [= <- <-]; (split; [assumption|]).
    - rewrite Rmax_left in Elarge by lra. exact Elarge.
    - rewrite Rmax_right in Elarge by lra. exact Elarge. }
  destruct (if nlt (snd (eig cov)) (fst (eig cov)) then _ else _) as [sm lg] eqn:E.
  destruct (LG sm lg eq_refl) as [Fl Bl].
  destruct (nlt sm (nmul (nlit 1 1000) lg)).
  - destruct (thin_apx lg Fl Bl) as (th & T0 & T1 & A1 & A2 & A3 & A4).
    exists th. repeat split; try assumption; [apply T1|apply T1|apply A1..|apply A2|apply A2|apply A2|apply A3|apply A3|apply A3|apply A4|apply A4|apply A4].
  - exact inverse_apx.
Qed.

End Info.
