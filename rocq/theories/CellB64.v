(** Rounding errors of the statistics of a cell in binary64: how far the mean and
    the covariance of ndt_model.cpp:50-82 are from those of the points. *)

From Coq Require Import ZArith Reals List Bool Lia Lra Psatz.
From Flocq Require Import Core BinarySingleNaN.
From Verif Require Import Outcome Arith TypesModel CellModel SpecStats SumLemmas CellProofs B64Lemmas.
Import ListNotations.
Local Open Scope R_scope.

Definition u64 : R := bpow radix2 (-53).
Definition eta64 : R := bpow radix2 (-1075).

Lemma u64_pos : 0 < u64.
Proof. apply bpow_gt_0. Qed.
Lemma u64_small : u64 <= / 1000000000000000.
Proof. unfold u64. cbn. lra. Qed.
Lemma u64_val : u64 = / 9007199254740992.
Proof. unfold u64. cbn. reflexivity. Qed.
Lemma eta64_pos : 0 < eta64.
Proof. apply bpow_gt_0. Qed.

Lemma rnd_err (x : R) : Rabs (rnd x - x) <= u64 * Rabs x + eta64.
Proof.
  eapply Rle_trans; [apply rnd_error|]. fold u64 eta64.
  assert (0 <= u64 * Rabs x) by (apply Rmult_le_pos; [pose proof u64_pos; lra|apply Rabs_pos]).
  pose proof eta64_pos. apply Rmax_lub; lra.
Qed.

Lemma eta_scale (B : R) : bpow radix2 (-900) <= B -> eta64 <= u64 * B * / 1000.
Proof.
  intros H. assert (E : eta64 <= u64 * bpow radix2 (-900) * / 1000).
  { unfold eta64, u64. replace (-1075)%Z with (-53 + (-900) + (-122))%Z by lia. rewrite !bpow_plus.
    pose proof (bpow_gt_0 radix2 (-53)) as P1. pose proof (bpow_gt_0 radix2 (-900)) as P2.
    assert (bpow radix2 (-122) <= / 1000).
    { apply Rle_trans with (bpow radix2 (-10)); [apply bpow_le; lia|cbn; lra]. }
    pose proof (Rmult_lt_0_compat _ _ P1 P2). nra. }
  eapply Rle_trans; [exact E|]. pose proof u64_pos. nra.
Qed.

(** One step of the running mean, in real numbers. *)
Lemma avg_real (o x k p s d B : R) :
  bpow radix2 (-900) <= B -> 0 <= k -> Rabs o <= 2 * B -> Rabs x <= B ->
  p = rnd (o * k) -> s = rnd (p + x) -> d = rnd (s / (k + 1)) ->
  Rabs (o * k) <= 2 * (B * (k + 1)) /\ Rabs (p + x) <= 3 * (B * (k + 1)) /\ Rabs (s / (k + 1)) <= 3 * B /\
  Rabs (d - (o * k + x) / (k + 1)) <= 8 * u64 * B.
Proof.
  intros HB Hk Ho Hx Ep Es Ed.
  pose proof (rnd_err (o * k)) as E1. rewrite <- Ep in E1.
  pose proof (rnd_err (p + x)) as E2. rewrite <- Es in E2.
  pose proof (rnd_err (s / (k + 1))) as E3. rewrite <- Ed in E3.
  pose proof u64_pos as U0. pose proof u64_small as U1. pose proof (eta_scale B HB) as He.
  assert (B0 : 0 < B) by (pose proof (bpow_gt_0 radix2 (-900)); lra).
  set (t := k + 1) in *. assert (T1 : 1 <= t) by (unfold t; lra).
  assert (BW : B <= B * t) by nra.
  assert (Huw : u64 * B <= u64 * (B * t)) by (apply Rmult_le_compat_l; lra).
  assert (K1 : Rabs (o * k) <= 2 * (B * t)).
  { rewrite Rabs_mult, (Rabs_pos_eq k) by lra. unfold t. pose proof (Rabs_pos o). nra. }
  assert (K1u : u64 * Rabs (o * k) <= 2 * (u64 * (B * t))) by nra.
  assert (UW : 0 < u64 * (B * t)) by (apply Rmult_lt_0_compat; nra).
  assert (UWs : u64 * (B * t) <= B * t * / 1000000) by nra.
  assert (D1 : Rabs (p - o * k) <= 2.001 * (u64 * (B * t))) by lra.
  assert (K2' : Rabs (p + x) <= 2.01 * (B * t)).
  { replace (p + x) with ((p - o * k) + (o * k + x)) by ring.
    eapply Rle_trans; [apply Rabs_triang|].
    assert (Rabs (o * k + x) <= 2 * (B * t)); [|lra].
    eapply Rle_trans; [apply Rabs_triang|]. rewrite Rabs_mult, (Rabs_pos_eq k) by lra. unfold t.
    pose proof (Rabs_pos o). nra. }
  assert (K2u : u64 * Rabs (p + x) <= 2.01 * (u64 * (B * t))) by nra.
  assert (D2 : Rabs (s - (o * k + x)) <= 4.02 * (u64 * (B * t))).
  { replace (s - (o * k + x)) with ((s - (p + x)) + (p - o * k)) by ring.
    eapply Rle_trans; [apply Rabs_triang|]. lra. }
  assert (K3 : Rabs s <= 2.1 * (B * t)).
  { replace s with ((s - (p + x)) + (p + x)) by ring. eapply Rle_trans; [apply Rabs_triang|]. lra. }
  assert (It : 0 < / t) by (apply Rinv_0_lt_compat; lra).
  assert (K4 : Rabs (s / t) <= 2.1 * B).
  { unfold Rdiv. rewrite Rabs_mult, (Rabs_pos_eq (/ t)) by lra.
    apply Rmult_le_reg_r with t; [lra|]. rewrite Rmult_assoc, Rinv_l by lra. lra. }
  assert (D4 : Rabs (s / t - (o * k + x) / t) <= 4.02 * (u64 * B)).
  { replace (s / t - (o * k + x) / t) with ((s - (o * k + x)) * / t) by (unfold Rdiv; ring).
    rewrite Rabs_mult, (Rabs_pos_eq (/ t)) by lra.
    apply Rmult_le_reg_r with t; [lra|]. rewrite Rmult_assoc, Rinv_l by lra. lra. }
  assert (K4u : u64 * Rabs (s / t) <= 2.1 * (u64 * B)) by nra.
  assert (UB : 0 < u64 * B) by (apply Rmult_lt_0_compat; lra).
  repeat split; [exact K1|lra|lra|].
  replace (d - (o * k + x) / t) with ((d - s / t) + (s / t - (o * k + x) / t)) by ring.
  eapply Rle_trans; [apply Rabs_triang|]. lra.
Qed.

(** The same for the double operations of [cell_add_point]. *)
Lemma avg_b64 (o x : b64) (k : Z) (n : b64) (B : R) :
  bpow radix2 (-900) <= B <= bpow radix2 900 -> (0 <= k < 2 ^ 50)%Z ->
  is_finite o = true -> is_finite x = true -> is_finite n = true -> B2R n = IZR k ->
  Rabs (B2R o) <= 2 * B -> Rabs (B2R x) <= B ->
  let d := Bdiv mode_NE (Bplus mode_NE (Bmult mode_NE o n) x) (Bplus mode_NE n (b64_of 1 0)) in
  is_finite d = true /\ Rabs (B2R d - (B2R o * IZR k + B2R x) / (IZR k + 1)) <= 8 * u64 * B.
Proof.
  intros [HB HB'] Hk Fo Fx Fn En Ho Hx d.
  assert (K0 : 0 <= IZR k) by (apply IZR_le; lia).
  assert (K50 : IZR k + 1 <= bpow radix2 50).
  { rewrite <- (plus_IZR k 1). change (bpow radix2 50) with (IZR (2 ^ 50)). apply IZR_le. lia. }
  assert (B0 : 0 < B) by (pose proof (bpow_gt_0 radix2 (-900)); lra).
  assert (BW : B * (IZR k + 1) <= bpow radix2 950).
  { replace 950%Z with (900 + 50)%Z by lia. rewrite bpow_plus. apply Rmult_le_compat; lra. }
  assert (B4 : 4 * bpow radix2 950 <= bpow radix2 1023).
  { replace 4 with (bpow radix2 2) by (cbn; lra). rewrite <- bpow_plus. apply bpow_le. lia. }
  assert (Bbig : 4 * B <= bpow radix2 1023).
  { eapply Rle_trans; [|exact B4]. assert (B <= bpow radix2 950); [|lra].
    eapply Rle_trans; [exact HB'|]. apply bpow_le. lia. }
  destruct (avg_real (B2R o) (B2R x) (IZR k) _ _ _ B HB K0 Ho Hx eq_refl eq_refl eq_refl) as (M1 & M2 & M3 & M4).
  destruct (b64_mul_ok o n Fo Fn) as [V1 F1]; [rewrite En; lra|]. rewrite En in V1.
  destruct (b64_add_ok (Bmult mode_NE o n) x F1 Fx) as [V2 F2]; [rewrite V1; lra|]. rewrite V1 in V2.
  destruct (b64_ofZ 1 ltac:(lia)) as [One F1'].
  destruct (b64_add_ok n (b64_of 1 0) Fn F1') as [V3 F3].
  { rewrite En, One, Rabs_pos_eq by lra. eapply Rle_trans; [exact K50|]. apply bpow_le. lia. }
  rewrite En, One, <- (plus_IZR k 1), rnd_fmt in V3 by (apply fmt_int; lia). rewrite plus_IZR in V3.
  destruct (b64_div_ok (Bplus mode_NE (Bmult mode_NE o n) x) (Bplus mode_NE n (b64_of 1 0)) F2) as [V4 F4].
  { rewrite V3. lra. }
  { rewrite V2, V3. lra. }
  rewrite V2, V3 in V4. unfold d. split; [exact F4|]. rewrite V4. exact M4.
Qed.

(** The running mean of a sequence: a count, a value, the numbers so far. *)
Definition running (f : point b64 -> R) (B : R) (pts : list (point b64)) (o : b64) : Prop :=
  is_finite o = true /\
  Rabs (B2R o * INR (length pts) - sumf f pts) <= 4 * u64 * B * (INR (length pts) * (INR (length pts) + 1)).

Lemma sumf_abs {X} (f : X -> R) (B : R) (l : list X) :
  (forall x, In x l -> Rabs (f x) <= B) -> Rabs (sumf f l) <= B * INR (length l).
Proof.
  induction l as [|a l IH]; intros H; cbn [sumf length]; [rewrite Rabs_R0; cbn; lra|].
  rewrite S_INR. eapply Rle_trans; [apply Rabs_triang|].
  pose proof (H a (or_introl eq_refl)). pose proof (IH (fun x Hx => H x (or_intror Hx))). lra.
Qed.

Lemma INR_bound (k : nat) (z : Z) : (Z.of_nat k <= z)%Z -> INR k <= IZR z.
Proof. intros H. rewrite INR_IZR_INZ. apply IZR_le. exact H. Qed.

Lemma running_value (f : point b64 -> R) (B : R) (pts : list (point b64)) (o : b64) :
  0 < B -> (Z.of_nat (length pts) <= 2 ^ 50)%Z -> pts <> [] ->
  (forall p, In p pts -> Rabs (f p) <= B) -> running f B pts o ->
  Rabs (B2R o - average f pts) <= 4 * u64 * B * (INR (length pts) + 1) /\ Rabs (average f pts) <= B /\ Rabs (B2R o) <= 2 * B.
Proof.
  intros B0 Hl Hne Hf [_ H].
  assert (N1 : 1 <= INR (length pts)).
  { change 1 with (INR 1). apply le_INR. destruct pts; [congruence|cbn; lia]. }
  assert (N50 : INR (length pts) + 1 <= 2251799813685248).
  { pose proof (INR_bound _ _ Hl). cbn in H0. lra. }
  set (n := INR (length pts)) in *.
  pose proof (sumf_abs f B pts Hf) as S. fold n in S.
  assert (In_ : 0 < / n) by (apply Rinv_0_lt_compat; lra).
  assert (E : Rabs (B2R o - average f pts) <= 4 * u64 * B * (n + 1)).
  { unfold average. fold n. replace (B2R o - sumf f pts / n) with ((B2R o * n - sumf f pts) * / n) by (field; lra).
    rewrite Rabs_mult, (Rabs_pos_eq (/ n)) by lra.
    apply Rmult_le_reg_r with n; [lra|]. rewrite Rmult_assoc, Rinv_l by lra. lra. }
  assert (V : Rabs (average f pts) <= B).
  { unfold average, Rdiv. fold n. rewrite Rabs_mult, (Rabs_pos_eq (/ n)) by lra.
    apply Rmult_le_reg_r with n; [lra|]. rewrite Rmult_assoc, Rinv_l by lra. lra. }
  repeat split; [exact E|exact V|].
  replace (B2R o) with ((B2R o - average f pts) + average f pts) by ring.
  eapply Rle_trans; [apply Rabs_triang|].
  assert (4 * u64 * B * (n + 1) <= B); [|lra].
  rewrite u64_val. nra.
Qed.

Lemma running_step (f : point b64 -> R) (B : R) (pts : list (point b64)) (o x n : b64) (p : point b64) :
  bpow radix2 (-900) <= B <= bpow radix2 900 -> (Z.of_nat (length pts) < 2 ^ 50)%Z ->
  (forall q, In q (pts ++ [p]) -> Rabs (f q) <= B) ->
  is_finite x = true -> B2R x = f p -> is_finite n = true -> B2R n = INR (length pts) ->
  (pts = [] -> B2R o = 0) ->
  running f B pts o ->
  running f B (pts ++ [p]) (Bdiv mode_NE (Bplus mode_NE (Bmult mode_NE o n) x) (Bplus mode_NE n (b64_of 1 0))).
Proof.
  intros HB Hl Hf Fx Ex Fn En Hz Hr.
  assert (B0 : 0 < B) by (pose proof (bpow_gt_0 radix2 (-900)); lra).
  assert (Hlen : INR (length (pts ++ [p])) = INR (length pts) + 1).
  { rewrite app_length. cbn [length]. rewrite plus_INR. cbn. lra. }
  assert (Ho : Rabs (B2R o) <= 2 * B).
  { destruct pts as [|q qs] eqn:P; [rewrite (Hz eq_refl), Rabs_R0; lra|].
    apply (running_value f B (q :: qs) o); [exact B0|lia|discriminate| |exact Hr].
    intros r Hr'. apply Hf, in_or_app. left. exact Hr'. }
  assert (Hx : Rabs (B2R x) <= B).
  { rewrite Ex. apply Hf, in_or_app. right. left. reflexivity. }
  assert (En' : B2R n = IZR (Z.of_nat (length pts))) by (rewrite En; apply INR_IZR_INZ).
  destruct Hr as [Fo Hr].
  destruct (avg_b64 o x (Z.of_nat (length pts)) n B HB ltac:(lia) Fo Fx Fn En' Ho Hx) as [Fd Hd].
  rewrite <- INR_IZR_INZ in Hd. split; [exact Fd|].
  rewrite Hlen, sumf_app. cbn [sumf]. rewrite Rplus_0_r, <- Ex.
  set (d := Bdiv _ _ _) in *. set (k := INR (length pts)) in *.
  assert (K0 : 0 <= k) by (unfold k; apply pos_INR).
  assert (Q : Rabs (B2R d * (k + 1) - (B2R o * k + B2R x)) <= 8 * u64 * B * (k + 1)).
  { replace (B2R d * (k + 1) - (B2R o * k + B2R x)) with ((B2R d - (B2R o * k + B2R x) / (k + 1)) * (k + 1)) by (field; lra).
    rewrite Rabs_mult, (Rabs_pos_eq (k + 1)) by lra. apply Rmult_le_compat_r; lra. }
  replace (B2R d * (k + 1) - (sumf f pts + B2R x))
    with ((B2R d * (k + 1) - (B2R o * k + B2R x)) + (B2R o * k - sumf f pts)) by ring.
  eapply Rle_trans; [apply Rabs_triang|]. nra.
Qed.

(** The statistics accumulated in a cell. *)
Definition fin_point (p : point b64) : Prop := is_finite (px p) = true /\ is_finite (py p) = true.
Definition within (M : R) (p : point b64) : Prop := fin_point p /\ Rabs (B2R (px p)) <= M /\ Rabs (B2R (py p)) <= M.

(** The product as the machine computes it. *)
Definition xx (p : point b64) : R := rnd (B2R (px p) * B2R (px p)).
Definition xy (p : point b64) : R := rnd (B2R (px p) * B2R (py p)).
Definition yy (p : point b64) : R := rnd (B2R (py p) * B2R (py p)).

Section Cell.
Variable lm : libm.
Local Existing Instance BA.
Let A : Arith b64 := BA lm.
Local Existing Instance A.

Definition sums_inv (M : R) (pts : list (point b64)) (c : cell b64) : Prop :=
  is_finite (c_n c) = true /\ B2R (c_n c) = INR (length pts) /\
  running (fun p => B2R (px p)) M pts (px (c_mean c)) /\
  running (fun p => B2R (py p)) M pts (py (c_mean c)) /\
  running xx (2 * (M * M)) pts (m00 (c_corr c)) /\
  running xy (2 * (M * M)) pts (m01 (c_corr c)) /\
  running yy (2 * (M * M)) pts (m11 (c_corr c)) /\
  (pts = [] -> B2R (px (c_mean c)) = 0 /\ B2R (py (c_mean c)) = 0 /\
               B2R (m00 (c_corr c)) = 0 /\ B2R (m01 (c_corr c)) = 0 /\ B2R (m11 (c_corr c)) = 0).

Definition scale_ok (M : R) : Prop := bpow radix2 (-400) <= M <= bpow radix2 400.

Lemma square_scale (M : R) : scale_ok M -> bpow radix2 (-900) <= 2 * (M * M) <= bpow radix2 900.
Proof.
  intros [L U]. pose proof (bpow_gt_0 radix2 (-400)) as P.
  assert (bpow radix2 (-400) * bpow radix2 (-400) <= M * M) by (apply Rmult_le_compat; lra).
  assert (M * M <= bpow radix2 400 * bpow radix2 400) by (apply Rmult_le_compat; lra).
  rewrite <- bpow_plus in *. cbn [Z.add] in *. split.
  - apply Rle_trans with (bpow radix2 (-400 + -400)); [apply bpow_le; lia|]. pose proof (bpow_gt_0 radix2 (-400 + -400)).
    cbn in *. lra.
  - apply Rle_trans with (2 * bpow radix2 (400 + 400)); [cbn in *; lra|].
    replace 2 with (bpow radix2 1) by (cbn; lra). rewrite <- bpow_plus. apply bpow_le. lia.
Qed.

Lemma scale_pos (M : R) : scale_ok M -> 0 < M.
Proof. intros [L _]. pose proof (bpow_gt_0 radix2 (-400)). lra. Qed.

Lemma scale_wide (M : R) : scale_ok M -> bpow radix2 (-900) <= M <= bpow radix2 900.
Proof.
  intros [L U]. split; [eapply Rle_trans; [|exact L]|eapply Rle_trans; [exact U|]]; apply bpow_le; lia.
Qed.

Lemma product_ok (M : R) (x y : b64) :
  scale_ok M -> is_finite x = true -> is_finite y = true -> Rabs (B2R x) <= M -> Rabs (B2R y) <= M ->
  is_finite (Bmult mode_NE x y) = true /\ B2R (Bmult mode_NE x y) = rnd (B2R x * B2R y) /\
  Rabs (B2R x * B2R y) <= M * M /\
  Rabs (rnd (B2R x * B2R y) - B2R x * B2R y) <= 1.01 * u64 * (M * M) /\
  Rabs (rnd (B2R x * B2R y)) <= 2 * (M * M).
Proof.
  intros S Fx Fy Hx Hy. pose proof (scale_pos M S) as M0. pose proof (square_scale M S) as [SL SU].
  assert (P : Rabs (B2R x * B2R y) <= M * M).
  { rewrite Rabs_mult. apply Rmult_le_compat; try apply Rabs_pos; assumption. }
  assert (MM : 0 < M * M) by nra.
  destruct (b64_mul_ok x y Fx Fy) as [V F].
  { eapply Rle_trans; [exact P|]. apply Rle_trans with (bpow radix2 900); [lra|apply bpow_le; lia]. }
  pose proof (rnd_err (B2R x * B2R y)) as E. pose proof (eta_scale _ SL) as He. pose proof u64_pos as U0. pose proof u64_small as U1.
  assert (u64 * Rabs (B2R x * B2R y) <= u64 * (M * M)) by (apply Rmult_le_compat_l; lra).
  assert (D : Rabs (rnd (B2R x * B2R y) - B2R x * B2R y) <= 1.01 * u64 * (M * M)) by nra.
  repeat split; try assumption.
  replace (rnd (B2R x * B2R y)) with ((rnd (B2R x * B2R y) - B2R x * B2R y) + B2R x * B2R y) by ring.
  eapply Rle_trans; [apply Rabs_triang|]. nra.
Qed.

Lemma b64_zero : B2R (b64_of 0 0) = 0 /\ is_finite (b64_of 0 0) = true.
Proof. exact (b64_ofZ 0 ltac:(lia)). Qed.

Lemma running_nil (f : point b64 -> R) (B : R) : running f B [] (b64_of 0 0).
Proof.
  destruct b64_zero as [V F]. split; [exact F|]. cbn [length sumf]. rewrite V.
  replace (0 * INR 0 - 0) with 0 by ring. rewrite Rabs_R0. cbn. lra.
Qed.

Lemma sums_new (M : R) : sums_inv M [] (cell_new (T := b64)).
Proof.
  destruct b64_zero as [V F]. unfold sums_inv. cbn.
  repeat split; try exact V; try exact F; try (apply (running_nil _ _)).
Qed.

Lemma sums_add (M : R) (pts : list (point b64)) (c : cell b64) (p : point b64) :
  scale_ok M -> (Z.of_nat (length pts) < 2 ^ 50)%Z -> Forall (within M) (pts ++ [p]) ->
  sums_inv M pts c -> sums_inv M (pts ++ [p]) (cell_add_point c p).
Proof.
  intros S Hl Hw (Fn & En & Hx & Hy & H00 & H01 & H11 & Hz).
  rewrite Forall_forall in Hw. pose proof (Hw p ltac:(apply in_or_app; right; left; reflexivity)) as ((Fx & Fy) & Bx & By).
  assert (Hlen : INR (length (pts ++ [p])) = INR (length pts) + 1).
  { rewrite app_length. cbn [length]. rewrite plus_INR. cbn. lra. }
  destruct (product_ok M _ _ S Fx Fx Bx Bx) as (Pf0 & Pv0 & _).
  destruct (product_ok M _ _ S Fx Fy Bx By) as (Pf1 & Pv1 & _).
  destruct (product_ok M _ _ S Fy Fy By By) as (Pf2 & Pv2 & _).
  pose proof (scale_wide M S) as SW. pose proof (square_scale M S) as SS.
  unfold sums_inv, cell_add_point. cbn [c_n c_mean c_corr px py m00 m01 m11 nadd nmul ndiv A BA none_ nofZ].
  assert (Fq : forall g h : point b64 -> b64, (forall q, In q (pts ++ [p]) -> is_finite (g q) = true /\ Rabs (B2R (g q)) <= M) ->
    (forall q, In q (pts ++ [p]) -> is_finite (h q) = true /\ Rabs (B2R (h q)) <= M) ->
    forall q, In q (pts ++ [p]) -> Rabs (rnd (B2R (g q) * B2R (h q))) <= 2 * (M * M)).
  { intros g h Hg Hh q Hq. destruct (Hg q Hq) as [G1 G2]. destruct (Hh q Hq) as [K1 K2].
    apply (product_ok M (g q) (h q) S G1 K1 G2 K2). }
  assert (WX : forall q, In q (pts ++ [p]) -> is_finite (px q) = true /\ Rabs (B2R (px q)) <= M).
  { intros q Hq. destruct (Hw q Hq) as ((Q1 & Q2) & Q3 & Q4). split; assumption. }
  assert (WY : forall q, In q (pts ++ [p]) -> is_finite (py q) = true /\ Rabs (B2R (py q)) <= M).
  { intros q Hq. destruct (Hw q Hq) as ((Q1 & Q2) & Q3 & Q4). split; assumption. }
  destruct (b64_ofZ 1 ltac:(lia)) as [One F1].
  assert (En' : B2R (c_n c) = IZR (Z.of_nat (length pts))) by (rewrite En; apply INR_IZR_INZ).
  assert (Cnt : B2R (Bplus mode_NE (c_n c) (b64_of 1 0)) = INR (length pts) + 1 /\ is_finite (Bplus mode_NE (c_n c) (b64_of 1 0)) = true).
  { assert (Ab : Rabs (B2R (c_n c) + B2R (b64_of 1 0)) <= bpow radix2 1023).
    { rewrite En', One, <- (plus_IZR _ 1). apply IZR_bpow1023. lia. }
    destruct (b64_add_ok _ _ Fn F1 Ab) as [V F]. split; [|exact F].
    rewrite V, En', One, <- (plus_IZR _ 1), rnd_fmt by (apply fmt_int; lia). rewrite plus_IZR, <- INR_IZR_INZ. lra. }
  destruct Cnt as [Cv Cf].
  split; [exact Cf|]. split; [rewrite Hlen; exact Cv|].
  split; [|split; [|split; [|split; [|split]]]].
  - apply running_step; try assumption; try reflexivity; [intros q Hq; apply (WX q Hq)|intros E; apply (Hz E)].
  - apply running_step; try assumption; try reflexivity; [intros q Hq; apply (WY q Hq)|intros E; apply (Hz E)].
  - apply running_step; try assumption; [apply (Fq px px WX WX)|intros E; apply (Hz E)].
  - apply running_step; try assumption; [apply (Fq px py WX WY)|intros E; apply (Hz E)].
  - apply running_step; try assumption; [apply (Fq py py WY WY)|intros E; apply (Hz E)].
  - intros E. destruct pts; discriminate E.
Qed.

Lemma accumulate_sums (M : R) (pts : list (point b64)) :
  scale_ok M -> (Z.of_nat (length pts) <= 2 ^ 50)%Z -> Forall (within M) pts -> sums_inv M pts (accumulate pts).
Proof.
  intros S. unfold accumulate. induction pts as [|p pts IH] using rev_ind; intros Hl Hw; [apply sums_new|].
  rewrite fold_left_app. cbn [fold_left]. rewrite app_length in Hl. cbn [length] in Hl.
  apply sums_add; [exact S|lia|exact Hw|]. apply IH; [lia|]. apply Forall_app in Hw. apply Hw.
Qed.

(** One entry of the covariance matrix, in real numbers. *)
Lemma cov_real (M af ag afg o mx my m d s c n : R) :
  scale_ok M -> 3 <= n -> n <= 1099511627776 ->
  Rabs af <= M -> Rabs ag <= M -> Rabs afg <= M * M ->
  Rabs (mx - af) <= 4 * u64 * M * (n + 1) -> Rabs (my - ag) <= 4 * u64 * M * (n + 1) ->
  Rabs (o - afg) <= 8 * u64 * (M * M) * (n + 1) + 1.01 * u64 * (M * M) ->
  m = rnd (mx * my) -> d = rnd (o - m) -> s = rnd (n / (n - 1)) -> c = rnd (d * s) ->
  Rabs (mx * my) <= 2 * (M * M) /\ Rabs (o - m) <= 3 * (M * M) /\ Rabs (n / (n - 1)) <= 2 /\ Rabs (d * s) <= 5 * (M * M) /\
  Rabs (c - (afg - af * ag) * (n / (n - 1))) <= 32 * u64 * (M * M) * (n + 1).
Proof.
  intros S N3 Nb Haf Hag Hafg Hmx Hmy Ho Em Ed Es Ec.
  pose proof (rnd_err (mx * my)) as E1. rewrite <- Em in E1.
  pose proof (rnd_err (o - m)) as E2. rewrite <- Ed in E2.
  pose proof (rnd_err (n / (n - 1))) as E3. rewrite <- Es in E3.
  pose proof (rnd_err (d * s)) as E4. rewrite <- Ec in E4.
  pose proof (scale_pos M S) as M0. pose proof (square_scale M S) as [SL _].
  pose proof (eta_scale _ SL) as He. pose proof u64_pos as U0. pose proof u64_small as U1.
  assert (He1 : eta64 <= u64 * / 1000).
  { eapply Rle_trans; [apply (eta_scale 1); change 1 with (bpow radix2 0); apply bpow_le; lia|]. lra. }
  assert (MM : 0 < M * M) by nra. set (Q := M * M) in *.
  assert (W0 : 0 < u64 * Q) by (apply Rmult_lt_0_compat; lra). set (W := u64 * Q) in *.
  set (N := n + 1) in *. assert (N4 : 4 <= N) by (unfold N; lra).
  assert (UN : u64 * N <= / 4000).
  { rewrite u64_val. unfold N. lra. }
  assert (WN : W * N <= Q * / 4000) by (unfold W; nra).
  assert (WN4 : 4 * W <= W * N) by nra.
  assert (Ws : W <= Q * / 1000000) by (unfold W; nra).
  assert (He' : eta64 <= W * / 100) by (unfold W; nra).
  assert (em : 4 * u64 * M * N <= M * / 1000) by nra.
  assert (Bmx : Rabs mx <= 1.001 * M).
  { replace mx with ((mx - af) + af) by ring. eapply Rle_trans; [apply Rabs_triang|]. lra. }
  assert (Bmy : Rabs my <= 1.001 * M).
  { replace my with ((my - ag) + ag) by ring. eapply Rle_trans; [apply Rabs_triang|]. lra. }
  assert (Bmm : Rabs (mx * my) <= 1.003 * Q).
  { rewrite Rabs_mult. apply Rle_trans with ((1.001 * M) * (1.001 * M)); [apply Rmult_le_compat; try apply Rabs_pos; assumption|].
    unfold Q. nra. }
  assert (Dmm : Rabs (mx * my - af * ag) <= 8.01 * (W * N)).
  { replace (mx * my - af * ag) with ((mx - af) * my + af * (my - ag)) by ring.
    eapply Rle_trans; [apply Rabs_triang|]. rewrite !Rabs_mult.
    assert (K1 : Rabs (mx - af) * Rabs my <= (4 * u64 * M * N) * (1.001 * M)) by (apply Rmult_le_compat; try apply Rabs_pos; assumption).
    assert (K2 : Rabs af * Rabs (my - ag) <= M * (4 * u64 * M * N)) by (apply Rmult_le_compat; try apply Rabs_pos; assumption).
    assert (X : u64 * M * N * M = W * N) by (unfold W, Q; ring). nra. }
  assert (u1 : u64 * Rabs (mx * my) <= 1.003 * W).
  { unfold W. nra. }
  assert (Dm : Rabs (m - mx * my) <= 1.02 * W) by lra.
  assert (Bm : Rabs m <= 1.004 * Q).
  { replace m with ((m - mx * my) + mx * my) by ring. eapply Rle_trans; [apply Rabs_triang|]. lra. }
  assert (Ho' : Rabs (o - afg) <= 8 * (W * N) + 1.01 * W) by (unfold W; lra).
  assert (Bo : Rabs o <= 1.01 * Q).
  { replace o with ((o - afg) + afg) by ring. eapply Rle_trans; [apply Rabs_triang|]. lra. }
  assert (Bom : Rabs (o - m) <= 2.02 * Q).
  { unfold Rminus. eapply Rle_trans; [apply Rabs_triang|]. rewrite Rabs_Ropp. lra. }
  assert (u2 : u64 * Rabs (o - m) <= 2.02 * W) by (unfold W; nra).
  assert (Dd : Rabs (d - (afg - af * ag)) <= 17.1 * (W * N)).
  { replace (d - (afg - af * ag)) with ((d - (o - m)) + ((o - afg) + (- (m - mx * my) + - (mx * my - af * ag)))) by ring.
    eapply Rle_trans; [apply Rabs_triang|]. eapply Rle_trans; [apply Rplus_le_compat_l, Rabs_triang|].
    eapply Rle_trans; [apply Rplus_le_compat_l, Rplus_le_compat_l, Rabs_triang|]. rewrite !Rabs_Ropp. lra. }
  assert (Bd : Rabs d <= 2.03 * Q).
  { replace d with ((d - (o - m)) + (o - m)) by ring. eapply Rle_trans; [apply Rabs_triang|]. lra. }
  assert (S1 : 0 < n / (n - 1) <= 1.5).
  { assert (I : 0 < / (n - 1)) by (apply Rinv_0_lt_compat; lra). split; [apply Rmult_lt_0_compat; lra|].
    apply Rmult_le_reg_r with (n - 1); [lra|]. unfold Rdiv. rewrite Rmult_assoc, Rinv_l by lra. lra. }
  set (sc := n / (n - 1)) in *.
  assert (As : Rabs sc = sc) by (apply Rabs_pos_eq; lra). rewrite As in *.
  assert (Ds : Rabs (s - sc) <= 1.51 * u64) by nra.
  assert (Bs : Rabs s <= 1.501).
  { replace s with ((s - sc) + sc) by ring. eapply Rle_trans; [apply Rabs_triang|]. rewrite As. lra. }
  assert (Bds : Rabs (d * s) <= 3.1 * Q).
  { rewrite Rabs_mult. apply Rle_trans with ((2.03 * Q) * 1.501); [apply Rmult_le_compat; try apply Rabs_pos; assumption|]. lra. }
  assert (u4 : u64 * Rabs (d * s) <= 3.1 * W) by (unfold W; nra).
  assert (Dds : Rabs (d * s - (afg - af * ag) * sc) <= 26.6 * (W * N)).
  { replace (d * s - (afg - af * ag) * sc) with ((d - (afg - af * ag)) * sc + d * (s - sc)) by ring.
    eapply Rle_trans; [apply Rabs_triang|]. rewrite !Rabs_mult, As.
    assert (K1 : Rabs (d - (afg - af * ag)) * sc <= 17.1 * (W * N) * 1.5).
    { apply Rmult_le_compat; [apply Rabs_pos|lra|exact Dd|lra]. }
    assert (K2 : Rabs d * Rabs (s - sc) <= (2.03 * Q) * (1.51 * u64)) by (apply Rmult_le_compat; try apply Rabs_pos; assumption).
    assert (X : (2.03 * Q) * (1.51 * u64) = 2.03 * 1.51 * W) by (unfold W; ring). lra. }
  repeat split; try lra.
  replace (c - (afg - af * ag) * sc) with ((c - d * s) + (d * s - (afg - af * ag) * sc)) by ring.
  eapply Rle_trans; [apply Rabs_triang|].
  assert (X : 32 * u64 * Q * N = 32 * (W * N)) by (unfold W; ring). lra.
Qed.

Lemma sumf_abs_diff {X} (f g : X -> R) (e : R) (l : list X) :
  (forall x, In x l -> Rabs (f x - g x) <= e) -> Rabs (sumf f l - sumf g l) <= e * INR (length l).
Proof.
  intros H. replace (sumf f l - sumf g l) with (sumf (fun x => f x - g x) l).
  - apply sumf_abs. exact H.
  - induction l as [|a l IH]; cbn; [lra|]. rewrite IH; [lra|]. intros x Hx. apply H. right. exact Hx.
Qed.

Lemma average_diff {X} (f g : X -> R) (e : R) (l : list X) :
  l <> [] -> (forall x, In x l -> Rabs (f x - g x) <= e) -> Rabs (average f l - average g l) <= e.
Proof.
  intros Hne H. assert (N1 : 1 <= INR (length l)).
  { change 1 with (INR 1). apply le_INR. destruct l; [congruence|cbn; lia]. }
  pose proof (sumf_abs_diff f g e l H) as S. unfold average.
  replace (sumf f l / INR (length l) - sumf g l / INR (length l)) with ((sumf f l - sumf g l) * / INR (length l)) by (field; lra).
  assert (I : 0 < / INR (length l)) by (apply Rinv_0_lt_compat; lra).
  rewrite Rabs_mult, (Rabs_pos_eq (/ _)) by lra.
  apply Rmult_le_reg_r with (INR (length l)); [lra|]. rewrite Rmult_assoc, Rinv_l by lra. lra.
Qed.

Definition near (e : R) (x : b64) (r : R) : Prop := is_finite x = true /\ Rabs (B2R x - r) <= e.

(** One entry as the machine computes it. *)
Lemma cov_b64 (M : R) (pts : list (point b64)) (f g : point b64 -> b64) (mx my o n : b64) :
  scale_ok M -> (3 <= length pts)%nat -> (Z.of_nat (length pts) <= 2 ^ 40)%Z ->
  (forall q, In q pts -> is_finite (f q) = true /\ Rabs (B2R (f q)) <= M) ->
  (forall q, In q pts -> is_finite (g q) = true /\ Rabs (B2R (g q)) <= M) ->
  is_finite n = true -> B2R n = INR (length pts) ->
  running (fun p => B2R (f p)) M pts mx -> running (fun p => B2R (g p)) M pts my ->
  running (fun p => rnd (B2R (f p) * B2R (g p))) (2 * (M * M)) pts o ->
  near (32 * u64 * (M * M) * (INR (length pts) + 1))
    (Bmult mode_NE (Bminus mode_NE o (Bmult mode_NE mx my)) (Bdiv mode_NE n (Bminus mode_NE n (b64_of 1 0))))
    (sample_cov (fun p => B2R (f p)) (fun p => B2R (g p)) pts).
Proof.
  intros S H3 Hl Hf Hg Fn En Rx Ry Ro.
  pose proof (scale_pos M S) as M0. pose proof (square_scale M S) as [SL SU].
  assert (Hne : pts <> []) by (destruct pts; [cbn in H3; lia|discriminate]).
  assert (N3 : 3 <= INR (length pts)) by (apply INR_ge_3; exact H3).
  assert (Nb : INR (length pts) <= 1099511627776) by (apply (INR_bound _ _ Hl)).
  assert (L50 : (Z.of_nat (length pts) <= 2 ^ 50)%Z) by lia.
  destruct (running_value _ M pts mx M0 L50 Hne (fun p Hp => proj2 (Hf p Hp)) Rx) as (Dx & Ax & Bx).
  destruct (running_value _ M pts my M0 L50 Hne (fun p Hp => proj2 (Hg p Hp)) Ry) as (Dy & Ay & By).
  assert (PO : forall p, In p pts -> Rabs (rnd (B2R (f p) * B2R (g p))) <= 2 * (M * M) /\
     Rabs (rnd (B2R (f p) * B2R (g p)) - B2R (f p) * B2R (g p)) <= 1.01 * u64 * (M * M) /\ Rabs (B2R (f p) * B2R (g p)) <= M * M).
  { intros p Hp. destruct (Hf p Hp) as [F1 F2]. destruct (Hg p Hp) as [G1 G2].
    destruct (product_ok M _ _ S F1 G1 F2 G2) as (_ & _ & P1 & P2 & P3). repeat split; assumption. }
  assert (Q0 : 0 < 2 * (M * M)) by nra.
  destruct (running_value _ _ pts o Q0 L50 Hne (fun p Hp => proj1 (PO p Hp)) Ro) as (Do & _ & _).
  set (afg := average (fun p => B2R (f p) * B2R (g p)) pts).
  assert (Da : Rabs (average (fun p => rnd (B2R (f p) * B2R (g p))) pts - afg) <= 1.01 * u64 * (M * M)).
  { apply average_diff; [exact Hne|]. intros p Hp. apply (PO p Hp). }
  assert (Aa : Rabs afg <= M * M).
  { unfold afg. replace (average (fun p => B2R (f p) * B2R (g p)) pts)
      with (average (fun p => B2R (f p) * B2R (g p)) pts - average (fun _ => 0) pts).
    - apply average_diff; [exact Hne|]. intros p Hp. rewrite Rminus_0_r. apply (PO p Hp).
    - unfold average at 2. rewrite sumf_const. field. lra. }
  assert (Do' : Rabs (B2R o - afg) <= 8 * u64 * (M * M) * (INR (length pts) + 1) + 1.01 * u64 * (M * M)).
  { replace (B2R o - afg) with ((B2R o - average (fun p => rnd (B2R (f p) * B2R (g p))) pts) +
       (average (fun p => rnd (B2R (f p) * B2R (g p))) pts - afg)) by ring.
    eapply Rle_trans; [apply Rabs_triang|]. lra. }
  destruct (cov_real M _ _ afg (B2R o) (B2R mx) (B2R my) _ _ _ _ _ S N3 Nb Ax Ay Aa Dx Dy Do' eq_refl eq_refl eq_refl eq_refl)
    as (M1 & M2 & M3 & M4 & M5).
  assert (Big : 5 * (M * M) <= bpow radix2 1023).
  { apply Rle_trans with (3 * bpow radix2 900); [lra|].
    apply Rle_trans with (bpow radix2 2 * bpow radix2 900); [|rewrite <- bpow_plus; apply bpow_le; lia].
    pose proof (bpow_gt_0 radix2 900). change (bpow radix2 2) with 4. lra. }
  assert (Two : 2 <= bpow radix2 1023).
  { replace 2 with (bpow radix2 1) by (cbn; lra). apply bpow_le. lia. }
  destruct Rx as [Fx _]. destruct Ry as [Fy _]. destruct Ro as [Fo _].
  destruct (b64_mul_ok mx my Fx Fy ltac:(nra)) as [V1 F1].
  destruct (b64_sub_ok o (Bmult mode_NE mx my) Fo F1) as [V2 F2]; [rewrite V1; nra|]. rewrite V1 in V2.
  destruct (b64_ofZ 1 ltac:(lia)) as [One FO].
  assert (En' : B2R n = IZR (Z.of_nat (length pts))) by (rewrite En; apply INR_IZR_INZ).
  destruct (b64_sub_ok n (b64_of 1 0) Fn FO) as [V3 F3].
  { rewrite En', One, <- minus_IZR. apply IZR_bpow1023. lia. }
  rewrite En', One, <- minus_IZR, rnd_fmt in V3 by (apply fmt_int; lia).
  rewrite minus_IZR, <- INR_IZR_INZ in V3.
  destruct (b64_div_ok n (Bminus mode_NE n (b64_of 1 0)) Fn) as [V4 F4].
  { rewrite V3. lra. }
  { rewrite V3, En. lra. }
  rewrite V3, En in V4.
  destruct (b64_mul_ok (Bminus mode_NE o (Bmult mode_NE mx my)) (Bdiv mode_NE n (Bminus mode_NE n (b64_of 1 0))) F2 F4) as [V5 F5].
  { rewrite V2, V4. lra. }
  split; [exact F5|]. rewrite V5, V2, V4.
  replace (sample_cov (fun p => B2R (f p)) (fun p => B2R (g p)) pts) with
    ((afg - average (fun p => B2R (f p)) pts * average (fun p => B2R (g p)) pts) * (INR (length pts) / (INR (length pts) - 1))).
  - exact M5.
  - unfold sample_cov. rewrite centred_sum by exact Hne. unfold afg, average. field. lra.
Qed.

Variable eig : mat2 b64 -> b64 * b64.

(** The cell after any history of calls ending in compute. *)
Lemma cell_b64 (M : R) (ops : list (cell_op b64)) :
  let pts := op_points ops in
  scale_ok M -> (3 <= length pts)%nat -> (Z.of_nat (length pts) <= 2 ^ 40)%Z -> Forall (within M) pts ->
  let c := cell_run eig (ops ++ [CCompute]) in
  let n := INR (length pts) in
  let E := 32 * u64 * (M * M) * (n + 1) in
  near 0 (c_n c) n /\
  near (4 * u64 * M * (n + 1)) (px (c_mean c)) (average (fun p => B2R (px p)) pts) /\
  near (4 * u64 * M * (n + 1)) (py (c_mean c)) (average (fun p => B2R (py p)) pts) /\
  near E (m00 (c_cov c)) (sample_cov (fun p => B2R (px p)) (fun p => B2R (px p)) pts) /\
  near E (m01 (c_cov c)) (sample_cov (fun p => B2R (px p)) (fun p => B2R (py p)) pts) /\
  near E (m10 (c_cov c)) (sample_cov (fun p => B2R (py p)) (fun p => B2R (px p)) pts) /\
  near E (m11 (c_cov c)) (sample_cov (fun p => B2R (py p)) (fun p => B2R (py p)) pts) /\
  c_info c = info_of_cov eig (c_cov c) /\ m01 (c_cov c) = m10 (c_cov c).
Proof.
  intros pts S H3 Hl Hw c n E.
  destruct (accumulate_sums M pts S ltac:(lia) Hw) as (Fn & En & Rx & Ry & R00 & R01 & R11 & _).
  assert (N3 : 3 <= INR (length pts)) by (apply INR_ge_3; exact H3).
  assert (C3 : nlt (c_n (accumulate pts)) (nofZ 3) = false).
  { destruct (b64_ofZ 3 ltac:(lia)) as [V3 F3]. change (Bltb (c_n (accumulate pts)) (b64_of 3 0) = false).
    rewrite Bltb_correct by assumption. rewrite En, V3. apply Rlt_bool_false. exact N3. }
  assert (Ec : c = cell_compute eig (mkCell false (c_n (accumulate pts)) (c_mean (accumulate pts))
                                       mat2_zero (c_corr (accumulate pts)) mat2_zero)).
  { unfold c. apply run_compute_canonical. exact C3. }
  unfold cell_compute in Ec. cbn [c_valid orb c_n] in Ec. rewrite C3 in Ec. cbn [c_n c_mean c_corr] in Ec.
  rewrite Forall_forall in Hw.
  assert (WX : forall q, In q pts -> is_finite (px q) = true /\ Rabs (B2R (px q)) <= M).
  { intros q Hq. destruct (Hw q Hq) as ((Q1 & Q2) & Q3 & Q4). split; assumption. }
  assert (WY : forall q, In q pts -> is_finite (py q) = true /\ Rabs (B2R (py q)) <= M).
  { intros q Hq. destruct (Hw q Hq) as ((Q1 & Q2) & Q3 & Q4). split; assumption. }
  pose proof (scale_pos M S) as M0.
  assert (Hne : pts <> []) by (destruct pts; [cbn in H3; lia|discriminate]).
  assert (L50 : (Z.of_nat (length pts) <= 2 ^ 50)%Z) by lia.
  destruct (running_value _ M pts _ M0 L50 Hne (fun p Hp => proj2 (WX p Hp)) Rx) as (Dx & _ & _).
  destruct (running_value _ M pts _ M0 L50 Hne (fun p Hp => proj2 (WY p Hp)) Ry) as (Dy & _ & _).
  pose proof (cov_b64 M pts px px _ _ _ _ S H3 Hl WX WX Fn En Rx Rx R00) as K00.
  pose proof (cov_b64 M pts px py _ _ _ _ S H3 Hl WX WY Fn En Rx Ry R01) as K01.
  pose proof (cov_b64 M pts py py _ _ _ _ S H3 Hl WY WY Fn En Ry Ry R11) as K11.
  rewrite Ec. cbn [c_n c_mean c_cov c_info m00 m01 m10 m11 nadd nsub nmul ndiv nofZ none_ A BA].
  split; [split; [exact Fn|rewrite En; unfold n; rewrite Rminus_diag_eq, Rabs_R0 by reflexivity; lra]|].
  split; [split; [apply Rx|exact Dx]|]. split; [split; [apply Ry|exact Dy]|].
  split; [exact K00|]. split; [exact K01|]. split; [rewrite sample_cov_sym; exact K01|]. split; [exact K11|].
  split; reflexivity.
Qed.

End Cell.
