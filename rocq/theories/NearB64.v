(** Bookkeeping of rounding errors: sums and products with sines and cosines of
    doubles of at most a given size. *)

From Coq Require Import ZArith Reals List Lia Lra.
From Flocq Require Import Core BinarySingleNaN.
From Verif Require Import Outcome Arith TypesModel B64Tactics B64Lemmas CellB64 SpecPlace64.
Local Open Scope R_scope.

(** [x] stands for [v] up to [k] units of [u64 * M]; [v] is at most [b * M]. *)
Definition near (M k b : R) (x : b64) (v : R) : Prop :=
  is_finite x = true /\ Rabs (B2R x - v) <= k * (u64 * M) /\ Rabs v <= b * M.

Lemma near_exact (M b : R) (x : b64) : is_finite x = true -> Rabs (B2R x) <= b * M -> near M 0 b x (B2R x).
Proof. intros F B. split; [exact F|]. split; [rewrite Rminus_diag_eq by reflexivity; rewrite Rabs_R0; lra|exact B]. Qed.

Lemma near_upto (M : R) (x : b64) : upto M x -> near M 0 1 x (B2R x).
Proof. intros [F B]. apply near_exact; [exact F|lra]. Qed.

Lemma near_close (M k b : R) (x : b64) (v : R) : near M k b x v -> close (k * (u64 * M)) x v.
Proof. intros (F & E & _). split; assumption. Qed.

Section N.
Context (M : R) (HM : usual_size M).

Lemma M_pos : 0 < M.
Proof. eapply Rlt_le_trans; [apply bpow_gt_0|apply HM]. Qed.
Lemma uM_pos : 0 < u64 * M.
Proof. apply Rmult_lt_0_compat; [apply u64_pos|apply M_pos]. Qed.
Lemma uM_small : 1000000 * (u64 * M) <= M.
Proof. pose proof u64_val as V. pose proof M_pos. assert (u64 * M = M * / 9007199254740992) by (rewrite V; lra). lra. Qed.
Lemma eta_M : eta64 <= u64 * M * / 1000.
Proof. apply eta_scale. eapply Rle_trans; [|apply HM]. apply bpow_le. lia. Qed.
Lemma big_M : 1000000 * M <= bpow radix2 1023.
Proof.
  apply Rle_trans with (bpow radix2 20 * bpow radix2 400); [|rewrite <- bpow_plus; apply bpow_le; lia].
  destruct HM as [_ H]. change (bpow radix2 20) with 1048576. pose proof M_pos.
  assert (1048576 * M <= 1048576 * bpow radix2 400) by (apply Rmult_le_compat_l; lra). lra.
Qed.

(** Rounding a value of at most [c * M]. *)
Lemma near_rnd (c x : R) : 0 <= c <= 1000 -> Rabs x <= c * M -> Rabs (rnd x - x) <= (c + / 1000) * (u64 * M).
Proof.
  intros C B. pose proof uM_pos. pose proof eta_M. pose proof u64_pos.
  eapply Rle_trans; [apply rnd_err|].
  assert (u64 * Rabs x <= u64 * (c * M)) by (apply Rmult_le_compat_l; lra).
  replace (u64 * (c * M)) with (c * (u64 * M)) in * by ring. lra.
Qed.

Lemma near_size (k b : R) (x : b64) (v : R) : 0 <= k <= 1000 -> near M k b x v -> Rabs (B2R x) <= (b + / 1000) * M.
Proof.
  intros K (F & E & B). replace (B2R x) with ((B2R x - v) + v) by ring. eapply Rle_trans; [apply Rabs_triang|].
  pose proof uM_small. pose proof uM_pos. pose proof M_pos.
  assert (k * (u64 * M) <= 1000 * (u64 * M)) by (apply Rmult_le_compat_r; lra). lra.
Qed.

Lemma near_weaken (k k' b b' : R) (x : b64) (v : R) : k <= k' -> b <= b' -> near M k b x v -> near M k' b' x v.
Proof.
  intros K B (F & E & V). pose proof uM_pos. pose proof M_pos. split; [exact F|].
  assert (k * (u64 * M) <= k' * (u64 * M)) by (apply Rmult_le_compat_r; lra).
  assert (b * M <= b' * M) by (apply Rmult_le_compat_r; lra). lra.
Qed.

Lemma near_add (k1 k2 b1 b2 : R) (x y : b64) (v w : R) : 0 <= k1 <= 100 -> 0 <= k2 <= 100 -> 0 <= b1 <= 100 -> 0 <= b2 <= 100 ->
  near M k1 b1 x v -> near M k2 b2 y w -> near M (k1 + k2 + b1 + b2 + / 100) (b1 + b2) (Bplus mode_NE x y) (v + w).
Proof.
  intros K1 K2 B1 B2 X Y. pose proof (near_size k1 b1 x v ltac:(lra) X) as SX. pose proof (near_size k2 b2 y w ltac:(lra) Y) as SY.
  destruct X as (FX & EX & VX). destruct Y as (FY & EY & VY).
  pose proof M_pos. pose proof big_M. pose proof uM_pos.
  assert (S : Rabs (B2R x + B2R y) <= (b1 + b2 + / 500) * M).
  { eapply Rle_trans; [apply Rabs_triang|]. lra. }
  destruct (b64_add_ok x y FX FY) as [V F].
  { eapply Rle_trans; [exact S|]. assert ((b1 + b2 + / 500) * M <= 1000000 * M) by (apply Rmult_le_compat_r; lra). lra. }
  pose proof (near_rnd (b1 + b2 + / 500) _ ltac:(lra) S) as E. rewrite <- V in E.
  split; [exact F|]. split.
  - replace (B2R (Bplus mode_NE x y) - (v + w)) with ((B2R (Bplus mode_NE x y) - (B2R x + B2R y)) + ((B2R x - v) + (B2R y - w))) by ring.
    eapply Rle_trans; [apply Rabs_triang|]. pose proof (Rabs_triang (B2R x - v) (B2R y - w)). lra.
  - eapply Rle_trans; [apply Rabs_triang|]. lra.
Qed.

Lemma near_opp (k b : R) (x : b64) (v : R) : near M k b x v -> near M k b (Bopp x) (- v).
Proof.
  intros (F & E & V). split; [rewrite is_finite_Bopp; exact F|]. rewrite B2R_Bopp, Rabs_Ropp. split; [|exact V].
  replace (- B2R x - - v) with (- (B2R x - v)) by ring. rewrite Rabs_Ropp. exact E.
Qed.

Lemma near_sub (k1 k2 b1 b2 : R) (x y : b64) (v w : R) : 0 <= k1 <= 100 -> 0 <= k2 <= 100 -> 0 <= b1 <= 100 -> 0 <= b2 <= 100 ->
  near M k1 b1 x v -> near M k2 b2 y w -> near M (k1 + k2 + b1 + b2 + / 100) (b1 + b2) (Bminus mode_NE x y) (v - w).
Proof.
  intros K1 K2 B1 B2 X Y. pose proof (near_size k1 b1 x v ltac:(lra) X) as SX. pose proof (near_size k2 b2 y w ltac:(lra) Y) as SY.
  destruct X as (FX & EX & VX). destruct Y as (FY & EY & VY).
  pose proof M_pos. pose proof big_M. pose proof uM_pos.
  assert (S : Rabs (B2R x - B2R y) <= (b1 + b2 + / 500) * M).
  { unfold Rminus. eapply Rle_trans; [apply Rabs_triang|]. rewrite Rabs_Ropp. lra. }
  destruct (b64_sub_ok x y FX FY) as [V F].
  { eapply Rle_trans; [exact S|]. assert ((b1 + b2 + / 500) * M <= 1000000 * M) by (apply Rmult_le_compat_r; lra). lra. }
  pose proof (near_rnd (b1 + b2 + / 500) _ ltac:(lra) S) as E. rewrite <- V in E.
  split; [exact F|]. split.
  - replace (B2R (Bminus mode_NE x y) - (v - w)) with ((B2R (Bminus mode_NE x y) - (B2R x - B2R y)) + ((B2R x - v) - (B2R y - w))) by ring.
    eapply Rle_trans; [apply Rabs_triang|]. pose proof (Rabs_triang (B2R x - v) (- (B2R y - w))) as T. rewrite Rabs_Ropp in T.
    replace (B2R x - v + - (B2R y - w)) with (B2R x - v - (B2R y - w)) in T by ring. lra.
  - unfold Rminus. eapply Rle_trans; [apply Rabs_triang|]. rewrite Rabs_Ropp. lra.
Qed.

(** A double within [2 u64] of a number of magnitude at most one. *)
Definition unit_near (c : b64) (C : R) : Prop := is_finite c = true /\ Rabs (B2R c - C) <= 2 * u64 /\ Rabs C <= 1.

Lemma unit_opp (c : b64) (C : R) : unit_near c C -> unit_near (Bopp c) (- C).
Proof.
  intros (F & E & V). split; [rewrite is_finite_Bopp; exact F|]. rewrite B2R_Bopp, Rabs_Ropp. split; [|exact V].
  replace (- B2R c - - C) with (- (B2R c - C)) by ring. rewrite Rabs_Ropp. exact E.
Qed.

Lemma near_mul (k b : R) (c x : b64) (C v : R) : 0 <= k <= 100 -> 0 <= b <= 100 ->
  unit_near c C -> near M k b x v -> near M (k + 3 * b + / 50) b (Bmult mode_NE c x) (C * v).
Proof.
  intros K B (FC & EC & C1) X. pose proof (near_size k b x v ltac:(lra) X) as SX. destruct X as (FX & EX & VX).
  pose proof M_pos. pose proof big_M. pose proof uM_pos. pose proof uM_small as US. pose proof u64_pos as U. pose proof u64_val as UV.
  assert (U1 : 2 * u64 <= / 1000000) by (rewrite UV; lra).
  assert (SC : Rabs (B2R c) <= 1 + / 1000000).
  { replace (B2R c) with ((B2R c - C) + C) by ring. eapply Rle_trans; [apply Rabs_triang|]. lra. }
  assert (S : Rabs (B2R c * B2R x) <= (b + / 500) * M).
  { rewrite Rabs_mult. apply Rle_trans with ((1 + / 1000000) * ((b + / 1000) * M)).
    - apply Rmult_le_compat; [apply Rabs_pos|apply Rabs_pos|exact SC|exact SX].
    - rewrite <- Rmult_assoc. apply Rmult_le_compat_r; lra. }
  destruct (b64_mul_ok c x FC FX) as [V F].
  { eapply Rle_trans; [exact S|]. assert ((b + / 500) * M <= 1000000 * M) by (apply Rmult_le_compat_r; lra). lra. }
  pose proof (near_rnd (b + / 500) _ ltac:(lra) S) as E. rewrite <- V in E.
  split; [exact F|]. split.
  - replace (B2R (Bmult mode_NE c x) - C * v) with ((B2R (Bmult mode_NE c x) - B2R c * B2R x) + ((B2R c - C) * B2R x + C * (B2R x - v))) by ring.
    eapply Rle_trans; [apply Rabs_triang|]. pose proof (Rabs_triang ((B2R c - C) * B2R x) (C * (B2R x - v))) as T.
    rewrite !Rabs_mult in T.
    assert (P1 : Rabs (B2R c - C) * Rabs (B2R x) <= 2 * u64 * ((b + / 1000) * M)) by (apply Rmult_le_compat; [apply Rabs_pos|apply Rabs_pos|exact EC|exact SX]).
    assert (P2 : Rabs C * Rabs (B2R x - v) <= 1 * (k * (u64 * M))) by (apply Rmult_le_compat; [apply Rabs_pos|apply Rabs_pos|exact C1|exact EX]).
    replace (2 * u64 * ((b + / 1000) * M)) with ((2 * b + / 500) * (u64 * M)) in P1 by lra. lra.
  - rewrite Rabs_mult. apply Rle_trans with (1 * (b * M)); [apply Rmult_le_compat; [apply Rabs_pos|apply Rabs_pos|exact C1|exact VX]|lra].
Qed.
Lemma near_mul_r (k b : R) (c x : b64) (C v : R) : 0 <= k <= 100 -> 0 <= b <= 100 ->
  unit_near c C -> near M k b x v -> near M (k + 3 * b + / 50) b (Bmult mode_NE x c) (v * C).
Proof.
  intros K B (FC & EC & C1) X. pose proof (near_size k b x v ltac:(lra) X) as SX. destruct X as (FX & EX & VX).
  pose proof M_pos. pose proof big_M. pose proof uM_pos. pose proof uM_small as US. pose proof u64_pos as U. pose proof u64_val as UV.
  assert (U1 : 2 * u64 <= / 1000000) by (rewrite UV; lra).
  assert (SC : Rabs (B2R c) <= 1 + / 1000000).
  { replace (B2R c) with ((B2R c - C) + C) by ring. eapply Rle_trans; [apply Rabs_triang|]. lra. }
  assert (S : Rabs (B2R x * B2R c) <= (b + / 500) * M).
  { rewrite Rmult_comm, Rabs_mult. apply Rle_trans with ((1 + / 1000000) * ((b + / 1000) * M)).
    - apply Rmult_le_compat; [apply Rabs_pos|apply Rabs_pos|exact SC|exact SX].
    - rewrite <- Rmult_assoc. apply Rmult_le_compat_r; lra. }
  destruct (b64_mul_ok x c FX FC) as [V F].
  { eapply Rle_trans; [exact S|]. assert ((b + / 500) * M <= 1000000 * M) by (apply Rmult_le_compat_r; lra). lra. }
  pose proof (near_rnd (b + / 500) _ ltac:(lra) S) as E. rewrite <- V in E.
  split; [exact F|]. split.
  - replace (B2R (Bmult mode_NE x c) - v * C) with ((B2R (Bmult mode_NE x c) - B2R x * B2R c) + ((B2R c - C) * B2R x + C * (B2R x - v))) by ring.
    eapply Rle_trans; [apply Rabs_triang|]. pose proof (Rabs_triang ((B2R c - C) * B2R x) (C * (B2R x - v))) as T.
    rewrite !Rabs_mult in T.
    assert (P1 : Rabs (B2R c - C) * Rabs (B2R x) <= 2 * u64 * ((b + / 1000) * M)) by (apply Rmult_le_compat; [apply Rabs_pos|apply Rabs_pos|exact EC|exact SX]).
    assert (P2 : Rabs C * Rabs (B2R x - v) <= 1 * (k * (u64 * M))) by (apply Rmult_le_compat; [apply Rabs_pos|apply Rabs_pos|exact C1|exact EX]).
    replace (2 * u64 * ((b + / 1000) * M)) with ((2 * b + / 500) * (u64 * M)) in P1 by lra. lra.
  - rewrite Rmult_comm, Rabs_mult. apply Rle_trans with (1 * (b * M)); [apply Rmult_le_compat; [apply Rabs_pos|apply Rabs_pos|exact C1|exact VX]|lra].
Qed.
End N.

Lemma cos_unit (lm : libm) (x : b64) : accurate_trig lm -> is_finite x = true -> unit_near (lm_cos lm x) (cos (B2R x)).
Proof.
  intros T F. destruct (T x F) as [[FC EC] _]. split; [exact FC|]. split; [|apply Rabs_le; apply COS_bound].
  eapply Rle_trans; [exact EC|]. unfold u64. replace (-52)%Z with (1 + -53)%Z by lia. rewrite bpow_plus. change (bpow radix2 1) with 2. lra.
Qed.
Lemma sin_unit (lm : libm) (x : b64) : accurate_trig lm -> is_finite x = true -> unit_near (lm_sin lm x) (sin (B2R x)).
Proof.
  intros T F. destruct (T x F) as [_ [FC EC]]. split; [exact FC|]. split; [|apply Rabs_le; apply SIN_bound].
  eapply Rle_trans; [exact EC|]. unfold u64. replace (-52)%Z with (1 + -53)%Z by lia. rewrite bpow_plus. change (bpow radix2 1) with 2. lra.
Qed.

(** Zero plus and minus a double. *)
Lemma unit_zero_minus (z c : b64) (C : R) : is_finite z = true -> B2R z = 0 -> unit_near c C -> unit_near (Bminus mode_NE z c) (- C).
Proof.
  intros Fz Z (F & E & V).
  assert (S : Rabs (B2R z - B2R c) <= bpow radix2 1023).
  { rewrite Z. replace (0 - B2R c) with (- (B2R c - C) + - C) by ring. eapply Rle_trans; [apply Rabs_triang|]. rewrite !Rabs_Ropp.
    pose proof u64_val as UV. apply Rle_trans with 2; [rewrite UV in E; lra|]. change 2 with (bpow radix2 1). apply bpow_le. lia. }
  destruct (b64_sub_ok z c Fz F S) as [V2 F2]. split; [exact F2|]. split; [|rewrite Rabs_Ropp; exact V].
  rewrite V2, Z. replace (0 - B2R c) with (B2R (Bopp c)) by (rewrite B2R_Bopp; ring).
  rewrite rnd_fmt by apply generic_format_B2R. rewrite B2R_Bopp. replace (- B2R c - - C) with (- (B2R c - C)) by ring. rewrite Rabs_Ropp. exact E.
Qed.
Lemma unit_zero_plus (z c : b64) (C : R) : is_finite z = true -> B2R z = 0 -> unit_near c C -> unit_near (Bplus mode_NE z c) C.
Proof.
  intros Fz Z (F & E & V).
  assert (S : Rabs (B2R z + B2R c) <= bpow radix2 1023).
  { rewrite Z. replace (0 + B2R c) with ((B2R c - C) + C) by ring. eapply Rle_trans; [apply Rabs_triang|].
    pose proof u64_val as UV. apply Rle_trans with 2; [rewrite UV in E; lra|]. change 2 with (bpow radix2 1). apply bpow_le. lia. }
  destruct (b64_add_ok z c Fz F S) as [V2 F2]. split; [exact F2|]. split; [|exact V].
  rewrite V2, Z. rewrite Rplus_0_l. rewrite rnd_fmt by apply generic_format_B2R. exact E.
Qed.

(** Sine and cosine change no faster than their argument. *)
Lemma sin_le_abs (x : R) : Rabs (sin x) <= Rabs x.
Proof.
  destruct (Rlt_le_dec 1 (Rabs x)) as [H|H].
  - apply Rle_trans with 1; [apply Rabs_le; apply SIN_bound|lra].
  - assert (P : forall y, 0 <= y -> y <= 1 -> Rabs (sin y) <= y).
    { intros y Y0 Y1. pose proof PI_RGT_0. pose proof PI2_3_2. rewrite Rabs_pos_eq by (apply sin_ge_0; lra).
      destruct Y0 as [Y0| <-]; [left; apply sin_lt_x; exact Y0|rewrite sin_0; lra]. }
    unfold Rabs at 2. destruct (Rcase_abs x) as [Hn|Hp].
    + rewrite <- (Ropp_involutive x) at 1. rewrite sin_neg, Rabs_Ropp. rewrite Rabs_left in H by exact Hn. apply P; lra.
    + rewrite Rabs_right in H by exact Hp. apply P; lra.
Qed.
Lemma cos_lip (a b : R) : Rabs (cos a - cos b) <= Rabs (a - b).
Proof.
  rewrite form2. rewrite !Rabs_mult. rewrite (Rabs_left (-2)) by lra.
  pose proof (sin_le_abs ((a - b) / 2)) as H. assert (B : Rabs (sin ((a + b) / 2)) <= 1) by (apply Rabs_le; apply SIN_bound).
  unfold Rdiv in H at 2. rewrite Rabs_mult, (Rabs_pos_eq (/ 2)) in H by lra.
  apply Rle_trans with (- - 2 * (Rabs (a - b) * / 2) * 1); [|lra].
  apply Rmult_le_compat; [apply Rmult_le_pos; [lra|apply Rabs_pos]|apply Rabs_pos|apply Rmult_le_compat_l; [lra|exact H]|exact B].
Qed.
Lemma sin_lip (a b : R) : Rabs (sin a - sin b) <= Rabs (a - b).
Proof.
  rewrite form4. rewrite !Rabs_mult. rewrite (Rabs_pos_eq 2) by lra.
  pose proof (sin_le_abs ((a - b) / 2)) as H. assert (B : Rabs (cos ((a + b) / 2)) <= 1) by (apply Rabs_le; apply COS_bound).
  unfold Rdiv in H at 2. rewrite Rabs_mult, (Rabs_pos_eq (/ 2)) in H by lra.
  apply Rle_trans with (2 * 1 * (Rabs (a - b) * / 2)); [|lra].
  apply Rmult_le_compat; [apply Rmult_le_pos; [lra|apply Rabs_pos]|apply Rabs_pos|apply Rmult_le_compat_l; [lra|exact B]|exact H].
Qed.

(** One addition or subtraction, with the bounds computed. *)
Ltac near_op L M HM A B E :=
  pose proof (fun a b c d => L M HM _ _ _ _ _ _ _ _ a b c d A B) as E;
  specialize (E ltac:(lra) ltac:(lra) ltac:(lra) ltac:(lra)).
