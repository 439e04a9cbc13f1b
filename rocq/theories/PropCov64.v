(** C141: the position covariance the particle filter reports, in double
    arithmetic. *)

From Coq Require Import ZArith Reals List Bool Lia Lra.
From Flocq Require Import Core BinarySingleNaN.
From Verif Require Import Outcome Arith TypesModel MotionModel FilterModel NdtProofs MatcherProofs FilterProofs FilterProofs2 MotionProofs
  B64Tactics B64Lemmas CellB64 PropGrid64 SpecWeights64 PropWeights64 PropMean64 SpecCov64.
From Verif Require SafeProofs.
Import ListNotations.
Local Open Scope R_scope.

(** The sum of the products, as the loop computes it, and exactly. *)
Definition dot2 (g h : vec3 b64 -> b64) (pw : list (vec3 b64 * b64)) (a : b64) : b64 :=
  fold_left (fun a q => Bplus mode_NE a (Bmult mode_NE (Bmult mode_NE (snd q) (g (fst q))) (h (fst q)))) pw a.
Fixpoint wsum2 (g h : vec3 b64 -> b64) (ps : list (vec3 b64)) (ws : list b64) : R :=
  match ps, ws with
  | p :: ps', w :: ws' => B2R w * B2R (g p) * B2R (h p) + wsum2 g h ps' ws'
  | _, _ => 0
  end.

Lemma dot2_ok (g h : vec3 b64 -> b64) (M : R) : bpow radix2 (-400) <= M <= bpow radix2 400 ->
  forall ps ws (a : b64) (t s : R) (k : nat),
  is_finite a = true -> Rabs (B2R a - t) <= INR k * (4 * (u64 * (M * M))) -> Rabs t <= s * (M * M) -> 0 <= s -> s + total64 ws <= 1.01 ->
  within64 g M ps -> within64 h M ps -> Forall (fun w => is_finite w = true /\ 0 <= B2R w <= 1) ws -> length ws = length ps ->
  (Z.of_nat (k + length ps) <= 2 ^ 40)%Z ->
  is_finite (dot2 g h (combine ps ws) a) = true /\
  Rabs (B2R (dot2 g h (combine ps ws) a) - (t + wsum2 g h ps ws)) <= INR (k + length ps) * (4 * (u64 * (M * M))).
Proof.
  intros HM. assert (M0 : 0 < M) by (eapply Rlt_le_trans; [apply bpow_gt_0|apply HM]).
  pose proof u64_pos as U. pose proof u64_val as UV.
  assert (MM0 : 0 < M * M) by (apply Rmult_lt_0_compat; lra).
  assert (UM : 0 < u64 * M) by (apply Rmult_lt_0_compat; lra).
  assert (UM1 : u64 * M <= M / 1000) by (rewrite UV; lra).
  assert (UMM : 0 < u64 * (M * M)) by (apply Rmult_lt_0_compat; lra).
  assert (UMM1 : u64 * (M * M) <= M * M / 1000) by (rewrite UV; lra).
  assert (ET : eta64 <= u64 * M * / 1000).
  { apply eta_scale. eapply Rle_trans; [|apply HM]. apply bpow_le. lia. }
  assert (ML : bpow radix2 (-800) <= M * M).
  { replace (-800)%Z with (-400 + -400)%Z by lia. rewrite bpow_plus. pose proof (bpow_ge_0 radix2 (-400)). apply Rmult_le_compat; lra. }
  assert (ET2 : eta64 <= u64 * (M * M) * / 1000).
  { apply eta_scale. eapply Rle_trans; [|exact ML]. apply bpow_le. lia. }
  assert (MB : 8 * M <= bpow radix2 1023).
  { apply Rle_trans with (bpow radix2 3 * bpow radix2 400); [change (bpow radix2 3) with 8; lra|]. rewrite <- bpow_plus. apply bpow_le. lia. }
  assert (MB2 : 8 * (M * M) <= bpow radix2 1023).
  { apply Rle_trans with (bpow radix2 3 * (bpow radix2 400 * bpow radix2 400)).
    - change (bpow radix2 3) with 8. apply Rmult_le_compat_l; [lra|]. apply Rmult_le_compat; lra.
    - rewrite <- !bpow_plus. apply bpow_le. lia. }
  induction ps as [|p ps IH]; intros ws a t s k Fa Ea Bt S0 Sm Hp Hq Hw L N.
  - cbn [combine dot2 fold_left wsum2 length]. rewrite Rplus_0_r, Nat.add_0_r. split; [exact Fa|exact Ea].
  - destruct ws as [|w ws]; [discriminate|]. cbn [length] in L, N. injection L as L.
    inversion Hp as [|? ? [Fp Bp] Hp']; subst. inversion Hq as [|? ? [Fq Bq] Hq']; subst. inversion Hw as [|? ? [Fw Bw] Hw']; subst.
    unfold dot2. cbn [combine fold_left wsum2 fst snd].
    fold (dot2 g h (combine ps ws) (Bplus mode_NE a (Bmult mode_NE (Bmult mode_NE w (g p)) (h p)))).
    assert (T0 : 0 <= total64 ws).
    { clear - Hw'. induction Hw' as [|x l [_ Hx] _ IH]; cbn [total64 fold_right]; [lra|]. fold (total64 l). lra. }
    cbn [total64 fold_right] in Sm. fold (total64 ws) in Sm.
    assert (K : INR k * (4 * (u64 * (M * M))) <= M * M / 1000).
    { assert (INR k <= 1099511627776).
      { replace 1099511627776 with (IZR (2 ^ 40)) by (cbn; lra). apply INR_bound. lia. }
      assert (INR k * u64 <= / 4000) by (rewrite UV; lra).
      assert (INR k * u64 * (M * M) <= / 4000 * (M * M)) by (apply Rmult_le_compat_r; lra). lra. }
    assert (PB : Rabs (B2R w * B2R (g p)) <= B2R w * M).
    { rewrite Rabs_mult, (Rabs_pos_eq (B2R w)) by lra. apply Rmult_le_compat_l; lra. }
    assert (PB1 : B2R w * M <= 1 * M) by (apply Rmult_le_compat_r; lra).
    assert (QB : Rabs (B2R w * B2R (g p) * B2R (h p)) <= B2R w * (M * M)).
    { rewrite Rabs_mult. replace (B2R w * (M * M)) with (B2R w * M * M) by ring. apply Rmult_le_compat; try apply Rabs_pos; assumption. }
    assert (QB1 : B2R w * (M * M) <= 1 * (M * M)) by (apply Rmult_le_compat_r; lra).
    assert (SM : (s + B2R w) * (M * M) <= 1.01 * (M * M)) by (apply Rmult_le_compat_r; lra).
    assert (SM1 : s * (M * M) <= 1.01 * (M * M)) by (apply Rmult_le_compat_r; lra).
    destruct (b64_mul_ok w (g p) Fw Fp ltac:(lra)) as [Vm Fm].
    pose proof (rnd_err (B2R w * B2R (g p))) as Em. rewrite <- Vm in Em.
    set (m := Bmult mode_NE w (g p)) in *.
    assert (Em1 : Rabs (B2R m - B2R w * B2R (g p)) <= 1.001 * (u64 * M)).
    { eapply Rle_trans; [exact Em|]. assert (u64 * Rabs (B2R w * B2R (g p)) <= u64 * M) by (apply Rmult_le_compat_l; lra). lra. }
    assert (Em2 : Rabs (B2R m * B2R (h p) - B2R w * B2R (g p) * B2R (h p)) <= 1.001 * (u64 * (M * M))).
    { rewrite <- Rmult_minus_distr_r, Rabs_mult. replace (1.001 * (u64 * (M * M))) with (1.001 * (u64 * M) * M) by ring.
      apply Rmult_le_compat; try apply Rabs_pos; assumption. }
    assert (RB : Rabs (B2R m * B2R (h p)) <= 1.01 * (M * M)).
    { replace (B2R m * B2R (h p)) with ((B2R m * B2R (h p) - B2R w * B2R (g p) * B2R (h p)) + B2R w * B2R (g p) * B2R (h p)) by ring.
      eapply Rle_trans; [apply Rabs_triang|]. lra. }
    destruct (b64_mul_ok m (h p) Fm Fq ltac:(lra)) as [Vr Fr].
    pose proof (rnd_err (B2R m * B2R (h p))) as Er'. rewrite <- Vr in Er'. set (r := Bmult mode_NE m (h p)) in *.
    assert (Er1 : Rabs (B2R r - B2R w * B2R (g p) * B2R (h p)) <= 2.02 * (u64 * (M * M))).
    { replace (B2R r - B2R w * B2R (g p) * B2R (h p)) with ((B2R r - B2R m * B2R (h p)) + (B2R m * B2R (h p) - B2R w * B2R (g p) * B2R (h p))) by ring.
      eapply Rle_trans; [apply Rabs_triang|]. assert (u64 * Rabs (B2R m * B2R (h p)) <= u64 * (1.01 * (M * M))) by (apply Rmult_le_compat_l; lra). lra. }
    assert (AB : Rabs (B2R a + B2R r) <= 1.02 * (M * M)).
    { replace (B2R a + B2R r) with ((B2R a - t) + (B2R r - B2R w * B2R (g p) * B2R (h p)) + (t + B2R w * B2R (g p) * B2R (h p))) by ring.
      eapply Rle_trans; [apply Rabs_triang|]. pose proof (Rabs_triang (B2R a - t) (B2R r - B2R w * B2R (g p) * B2R (h p))).
      pose proof (Rabs_triang t (B2R w * B2R (g p) * B2R (h p))). assert (u64 * (M * M) <= M * M / 1000000) by (rewrite UV; lra). lra. }
    destruct (b64_add_ok a r Fa Fr ltac:(lra)) as [Va Fa'].
    pose proof (rnd_err (B2R a + B2R r)) as Er. rewrite <- Va in Er. set (a' := Bplus mode_NE a r) in *.
    assert (UA : u64 * Rabs (B2R a + B2R r) <= u64 * (1.02 * (M * M))) by (apply Rmult_le_compat_l; lra).
    destruct (IH ws a' (t + B2R w * B2R (g p) * B2R (h p)) (s + B2R w) (S k) Fa') as [F E].
    + rewrite S_INR. replace (B2R a' - (t + B2R w * B2R (g p) * B2R (h p))) with ((B2R a' - (B2R a + B2R r)) + ((B2R a - t) + (B2R r - B2R w * B2R (g p) * B2R (h p)))) by ring.
      eapply Rle_trans; [apply Rabs_triang|]. pose proof (Rabs_triang (B2R a - t) (B2R r - B2R w * B2R (g p) * B2R (h p))).
      replace ((INR k + 1) * (4 * (u64 * (M * M)))) with (INR k * (4 * (u64 * (M * M))) + 4 * (u64 * (M * M))) by ring. lra.
    + eapply Rle_trans; [apply Rabs_triang|]. rewrite Rmult_plus_distr_r. lra.
    + lra.
    + lra.
    + exact Hp'.
    + exact Hq'.
    + exact Hw'.
    + exact L.
    + lia.
    + split; [exact F|]. cbn [length]. rewrite Nat.add_succ_r.
      replace (t + (B2R w * B2R (g p) * B2R (h p) + wsum2 g h ps ws)) with (t + B2R w * B2R (g p) * B2R (h p) + wsum2 g h ps ws) by ring. exact E.
Qed.

(** ** The covariance a filter holds is computed from its particles *)
Section H.
Context (lm : libm).
Let A : Arith b64 := BA lm.
Local Existing Instance A.

Definition products (f : pfilter b64) (g h : vec3 b64 -> b64) : b64 :=
  Bminus mode_NE (dot2 g h (combine (pf_parts f) (pf_wts f)) (b64_of 0 0)) (Bmult mode_NE (g (pf_mean f)) (h (pf_mean f))).
Definition squared (f : pfilter b64) : Prop :=
  a00 (pf_cov f) = products f v0 v0 /\ a01 (pf_cov f) = products f v0 v1 /\
  a10 (pf_cov f) = products f v0 v1 /\ a11 (pf_cov f) = products f v1 v1.

Lemma sums_dot2 : forall pw (s : @sums b64),
  let r := fold_left (fun s q => FilterModel.sums_add s (fst q) (snd q)) pw s in
  su_xx r = dot2 v0 v0 pw (su_xx s) /\ su_xy r = dot2 v0 v1 pw (su_xy s) /\ su_yy r = dot2 v1 v1 pw (su_yy s).
Proof.
  induction pw as [|q pw IH]; intros s; cbv zeta; [repeat split; reflexivity|]. cbn [fold_left].
  destruct (IH (FilterModel.sums_add s (fst q) (snd q))) as (-> & -> & ->). repeat split; reflexivity.
Qed.

Lemma stats_squared (g f : pfilter b64) : update_stats g = Ok f -> squared f.
Proof.
  intros E. unfold update_stats in E. apply bind_ok in E. destruct E as (pw & Hw & E).
  apply with_weights_inv in Hw. destruct Hw as [Hw _]. injection E as <-.
  unfold squared, products. cbn [pf_mean pf_parts pf_wts pf_cov v0 v1 a00 a01 a10 a11].
  destruct (sums_dot2 pw sums0) as (-> & -> & ->). rewrite Hw.
  repeat split; reflexivity.
Qed.

Lemma step_squared (f : pfilter b64) (o : filter_op b64) (f' : pfilter b64) : filter_step f o = Ok f' -> squared f'.
Proof.
  intros E. destruct o as [n x y th sx sy sth|n dx dy dth|s|d e z]; cbn [filter_step] in E.
  - eapply stats_squared. exact E.
  - eapply stats_squared. exact E.
  - unfold filter_measure in E. destruct (_ <? _)%nat; [discriminate|]. apply bind_ok in E. destruct E as (ws & _ & E). eapply stats_squared. exact E.
  - unfold filter_resample in E. destruct (dist_ok _); [|discriminate]. apply bind_ok in E. destruct E as (acc & _ & E). eapply stats_squared. exact E.
Qed.

Lemma run_squared (ops : list (filter_op b64)) : forall f f', squared f -> filter_run f ops = Ok f' -> squared f'.
Proof.
  induction ops as [|o ops IH]; intros f f' S E; cbn in E.
  - injection E as <-. exact S.
  - apply bind_ok in E. destruct E as (g & Hg & E). eapply IH; [exact (step_squared f o g Hg)|exact E].
Qed.
End H.

(** ** Facts about the exact sums *)
Lemma deviations_sum (g h : vec3 b64 -> b64) (a b : R) : forall ps ws, length ws = length ps ->
  deviations g h a b ps ws = wsum2 g h ps ws - a * wsum64 h ps ws - b * wsum64 g ps ws + a * b * total64 ws.
Proof.
  induction ps as [|p ps IH]; intros [|w ws] L; try discriminate; cbn [deviations wsum2 wsum64 total64 fold_right]; [ring|].
  fold (total64 ws). rewrite IH by (injection L as L; exact L). ring.
Qed.

Lemma deviations_square (g : vec3 b64 -> b64) (a : R) : forall ps ws,
  Forall (fun w => is_finite w = true /\ 0 <= B2R w <= 1) ws -> 0 <= deviations g g a a ps ws.
Proof.
  induction ps as [|p ps IH]; intros [|w ws] F; cbn [deviations]; try lra.
  inversion F as [|? ? [_ Bw] F']; subst. specialize (IH ws F').
  assert (0 <= B2R w * ((B2R (g p) - a) * (B2R (g p) - a))) by (apply Rmult_le_pos; [lra|apply Rle_0_sqr]). lra.
Qed.

Lemma wsum_size (g : vec3 b64 -> b64) (M : R) : forall ps ws, length ws = length ps -> within64 g M ps ->
  Forall (fun w => is_finite w = true /\ 0 <= B2R w <= 1) ws -> Rabs (wsum64 g ps ws) <= total64 ws * M.
Proof.
  induction ps as [|p ps IH]; intros [|w ws] L Hp Hw; try discriminate; cbn [wsum64 total64 fold_right]; [rewrite Rabs_R0; lra|].
  fold (total64 ws). inversion Hp as [|? ? [_ Bp] Hp']; subst. inversion Hw as [|? ? [_ Bw] Hw']; subst.
  specialize (IH ws ltac:(injection L as L; exact L) Hp' Hw'). eapply Rle_trans; [apply Rabs_triang|].
  assert (Rabs (B2R w * B2R (g p)) <= B2R w * M) by (rewrite Rabs_mult, (Rabs_pos_eq (B2R w)) by lra; apply Rmult_le_compat_l; lra). lra.
Qed.

Lemma wsum2_size (g h : vec3 b64 -> b64) (M : R) : 0 <= M -> forall ps ws, length ws = length ps -> within64 g M ps -> within64 h M ps ->
  Forall (fun w => is_finite w = true /\ 0 <= B2R w <= 1) ws -> Rabs (wsum2 g h ps ws) <= total64 ws * (M * M).
Proof.
  intro M0. induction ps as [|p ps IH]; intros [|w ws] L Hp Hq Hw; try discriminate; cbn [wsum2 total64 fold_right]; [rewrite Rabs_R0; lra|].
  fold (total64 ws). inversion Hp as [|? ? [_ Bp] Hp']; subst. inversion Hq as [|? ? [_ Bq] Hq']; subst. inversion Hw as [|? ? [_ Bw] Hw']; subst.
  specialize (IH ws ltac:(injection L as L; exact L) Hp' Hq' Hw'). eapply Rle_trans; [apply Rabs_triang|].
  assert (Rabs (B2R w * B2R (g p) * B2R (h p)) <= B2R w * (M * M)).
  { rewrite Rmult_assoc, Rabs_mult, (Rabs_pos_eq (B2R w)) by lra. apply Rmult_le_compat_l; [lra|]. rewrite Rabs_mult.
    apply Rmult_le_compat; try apply Rabs_pos; assumption. }
  lra.
Qed.

(** The error of a product of two approximations of quantities of size [M]. *)
Lemma product_err (M e x y X Y : R) : 0 <= M -> Rabs X <= 1.01 * M -> Rabs Y <= 1.01 * M ->
  Rabs (x - X) <= e * M -> Rabs (y - Y) <= e * M -> 0 <= e <= / 1000 -> Rabs (x * y - X * Y) <= 2.03 * e * (M * M).
Proof.
  intros M0 BX BY Ex Ey He.
  replace (x * y - X * Y) with ((x - X) * (y - Y) + ((x - X) * Y + X * (y - Y))) by ring.
  assert (P : Rabs ((x - X) * (y - Y)) <= e * M * (e * M)) by (rewrite Rabs_mult; apply Rmult_le_compat; try apply Rabs_pos; assumption).
  assert (Q : Rabs ((x - X) * Y) <= e * M * (1.01 * M)) by (rewrite Rabs_mult; apply Rmult_le_compat; try apply Rabs_pos; assumption).
  assert (S : Rabs (X * (y - Y)) <= 1.01 * M * (e * M)) by (rewrite Rabs_mult; apply Rmult_le_compat; try apply Rabs_pos; assumption).
  eapply Rle_trans; [apply Rabs_triang|]. pose proof (Rabs_triang ((x - X) * Y) (X * (y - Y))).
  assert (MM : 0 <= M * M) by (apply Rmult_le_pos; lra).
  assert (EMM : 0 <= e * (M * M)) by (apply Rmult_le_pos; lra).
  assert (e * (e * (M * M)) <= / 1000 * (e * (M * M))) by (apply Rmult_le_compat_r; lra).
  replace (e * M * (e * M)) with (e * (e * (M * M))) in P by ring.
  replace (e * M * (1.01 * M)) with (1.01 * (e * (M * M))) in Q by ring.
  replace (1.01 * M * (e * M)) with (1.01 * (e * (M * M))) in S by ring. lra.
Qed.

(** The three reported entries are the weighted covariances of the particles up
    to [2^-48 (n+2) M^2]. *)
Lemma products_close (lm : libm) (mn mx : Z) (m : motion_params b64) (ops : list (filter_op b64)) (f0 f : pfilter b64) (M : R) (g h : vec3 b64 -> b64) :
  (1 <= mn <= mx)%Z -> (mx <= 2 ^ 40)%Z -> filter_new (A := BA lm) mn mx m = Ok f0 -> ops_ok64 lm f0 ops ->
  filter_run (A := BA lm) f0 ops = Ok f -> g = v0 \/ g = v1 -> h = v0 \/ h = v1 -> bpow radix2 (-400) <= M <= bpow radix2 400 ->
  within64 g M (pf_parts f) -> within64 h M (pf_parts f) ->
  is_finite (products f g h) = true /\
  Rabs (B2R (products f g h) - covariance g h f) <= bpow radix2 (-48) * (INR (length (pf_parts f)) + 2) * (M * M).
Proof.
  intros Hm Hx H O E Hg Hh HM Hp Hq.
  destruct (C129_mean lm mn mx m ops f0 f M g Hm Hx H O E Hg HM Hp) as (Fg & Eg & _).
  destruct (C129_mean lm mn mx m ops f0 f M h Hm Hx H O E Hh HM Hq) as (Fh & Eh & _).
  pose proof (run_good lm ops f0 f (new_good lm mn mx m f0 Hm Hx H) O E) as Gd. destruct Gd as ((L & F & T) & _ & X & N).
  assert (M0 : 0 < M) by (eapply Rlt_le_trans; [apply bpow_gt_0|apply HM]).
  pose proof u64_pos as U. pose proof u64_val as UV.
  set (n := INR (length (pf_parts f))) in *.
  assert (n0 : 0 <= n) by apply pos_INR.
  assert (n1 : n <= 1099511627776).
  { replace 1099511627776 with (IZR (2 ^ 40)) by (cbn; lra). apply INR_bound. apply N. }
  assert (U4 : bpow radix2 (-51) = 4 * u64).
  { unfold u64. change (bpow radix2 (-51)) with (/ IZR (2 ^ 51)). change (bpow radix2 (-53)) with (/ IZR (2 ^ 53)). cbn. lra. }
  assert (U32 : bpow radix2 (-48) = 32 * u64).
  { unfold u64. change (bpow radix2 (-48)) with (/ IZR (2 ^ 48)). change (bpow radix2 (-53)) with (/ IZR (2 ^ 53)). cbn. lra. }
  rewrite U4 in T, Eg, Eh. rewrite U32.
  set (tt := total64 (pf_wts f)) in *.
  assert (nu : n * u64 <= / 8000) by (rewrite UV; lra).
  assert (nu0 : 0 <= n * u64) by (apply Rmult_le_pos; lra).
  assert (u1 : u64 <= / 1000000) by (rewrite UV; lra).
  assert (T1 : Rabs (tt - 1) <= / 500) by lra.
  assert (Tb : Rabs (tt - 1) <= 4 * (n * u64) + 4 * u64) by lra.
  destruct b64_zero as [Z0 FZ].
  assert (MM0 : 0 < M * M) by (apply Rmult_lt_0_compat; lra).
  set (q := u64 * (M * M)).
  assert (q0 : 0 < q) by (apply Rmult_lt_0_compat; lra).
  assert (q1 : q <= / 1000000 * (M * M)) by (apply Rmult_le_compat_r; lra).
  assert (nq0 : 0 <= n * q) by (apply Rmult_le_pos; lra).
  assert (nq : n * q <= / 4000 * (M * M)).
  { unfold q. rewrite <- Rmult_assoc. apply Rmult_le_compat_r; lra. }
  destruct (dot2_ok g h M HM (pf_parts f) (pf_wts f) (b64_of 0 0) 0 0 0%nat FZ) as [Fd Ed].
  - rewrite Z0, Rminus_0_r, Rabs_R0. cbn [INR]. lra.
  - rewrite Rabs_R0. lra.
  - lra.
  - fold tt. apply Rabs_le_inv in T1. lra.
  - exact Hp.
  - exact Hq.
  - exact F.
  - exact L.
  - cbn [plus]. lia.
  - cbn [plus] in Ed. rewrite Rplus_0_l in Ed. fold n in Ed. fold q in Ed.
    unfold products. set (D := dot2 g h _ _) in *.
    pose proof (wsum_size g M _ _ L Hp F) as Bg. pose proof (wsum_size h M _ _ L Hq F) as Bh.
    pose proof (wsum2_size g h M ltac:(lra) _ _ L Hp Hq F) as B2. fold tt in Bg, Bh, B2.
    unfold covariance. rewrite (deviations_sum g h _ _ _ _ L). unfold centre. fold tt.
    set (Sg := wsum64 g (pf_parts f) (pf_wts f)) in *. set (Sh := wsum64 h (pf_parts f) (pf_wts f)) in *.
    set (S2 := wsum2 g h (pf_parts f) (pf_wts f)) in *.
    apply Rabs_le_inv in T1.
    assert (Bg1 : Rabs Sg <= 1.01 * M) by (assert (tt * M <= 1.01 * M) by (apply Rmult_le_compat_r; lra); lra).
    assert (Bh1 : Rabs Sh <= 1.01 * M) by (assert (tt * M <= 1.01 * M) by (apply Rmult_le_compat_r; lra); lra).
    assert (B21 : Rabs S2 <= 1.01 * (M * M)) by (assert (tt * (M * M) <= 1.01 * (M * M)) by (apply Rmult_le_compat_r; lra); lra).
    set (e := 4 * u64 * (n + 2)) in *.
    assert (e0 : 0 <= e <= / 1000) by (unfold e; lra).
    pose proof (product_err M e _ _ Sg Sh ltac:(lra) Bg1 Bh1 Eg Eh e0) as Ep.
    set (mg := g (pf_mean f)) in *. set (mh := h (pf_mean f)) in *.
    assert (EQ : e * (M * M) = 4 * (n * q) + 8 * q) by (unfold e, q; ring).
    assert (Ep1 : Rabs (B2R mg * B2R mh - Sg * Sh) <= 8.12 * (n * q) + 16.24 * q).
    { eapply Rle_trans; [exact Ep|]. replace (2.03 * e * (M * M)) with (2.03 * (e * (M * M))) by ring. rewrite EQ. lra. }
    assert (BSS : Rabs (Sg * Sh) <= 1.0201 * (M * M)).
    { rewrite Rabs_mult. replace (1.0201 * (M * M)) with (1.01 * M * (1.01 * M)) by lra. apply Rmult_le_compat; try apply Rabs_pos; assumption. }
    assert (Bm : Rabs (B2R mg * B2R mh) <= 1.03 * (M * M)).
    { replace (B2R mg * B2R mh) with ((B2R mg * B2R mh - Sg * Sh) + Sg * Sh) by ring. eapply Rle_trans; [apply Rabs_triang|]. lra. }
    assert (MB2 : 8 * (M * M) <= bpow radix2 1023).
    { apply Rle_trans with (bpow radix2 3 * (bpow radix2 400 * bpow radix2 400)).
      - change (bpow radix2 3) with 8. apply Rmult_le_compat_l; [lra|]. apply Rmult_le_compat; lra.
      - rewrite <- !bpow_plus. apply bpow_le. lia. }
    assert (ML : bpow radix2 (-800) <= M * M).
    { replace (-800)%Z with (-400 + -400)%Z by lia. rewrite bpow_plus. pose proof (bpow_ge_0 radix2 (-400)). apply Rmult_le_compat; lra. }
    assert (ET2 : eta64 <= q * / 1000).
    { unfold q. apply eta_scale. eapply Rle_trans; [|exact ML]. apply bpow_le. lia. }
    destruct (b64_mul_ok mg mh Fg Fh ltac:(lra)) as [Vm Fm].
    pose proof (rnd_err (B2R mg * B2R mh)) as Em. rewrite <- Vm in Em. set (mm := Bmult mode_NE mg mh) in *.
    assert (Em1 : Rabs (B2R mm - B2R mg * B2R mh) <= 1.04 * q).
    { eapply Rle_trans; [exact Em|]. assert (u64 * Rabs (B2R mg * B2R mh) <= u64 * (1.03 * (M * M))) by (apply Rmult_le_compat_l; lra).
      replace (u64 * (1.03 * (M * M))) with (1.03 * q) in H0 by (unfold q; ring). lra. }
    assert (BD : Rabs (B2R D - B2R mm) <= 2.1 * (M * M)).
    { replace (B2R D - B2R mm) with ((B2R D - S2) + S2 - ((B2R mm - B2R mg * B2R mh) + B2R mg * B2R mh)) by ring.
      eapply Rle_trans; [apply Rabs_triang|]. rewrite Rabs_Ropp. pose proof (Rabs_triang (B2R D - S2) S2).
      pose proof (Rabs_triang (B2R mm - B2R mg * B2R mh) (B2R mg * B2R mh)). lra. }
    destruct (b64_sub_ok D mm Fd Fm ltac:(lra)) as [Vs Fs].
    pose proof (rnd_err (B2R D - B2R mm)) as Es. rewrite <- Vs in Es. set (c := Bminus mode_NE D mm) in *.
    split; [exact Fs|].
    assert (Es1 : Rabs (B2R c - (B2R D - B2R mm)) <= 2.11 * q).
    { eapply Rle_trans; [exact Es|]. assert (u64 * Rabs (B2R D - B2R mm) <= u64 * (2.1 * (M * M))) by (apply Rmult_le_compat_l; lra).
      replace (u64 * (2.1 * (M * M))) with (2.1 * q) in H0 by (unfold q; ring). lra. }
    set (z := / tt).
    assert (zt : z * tt = 1) by (unfold z; field; lra).
    assert (z1 : 0.99 <= z <= 1.01).
    { assert (z = (z * tt) / tt) by (field; lra). split.
      - apply Rmult_le_reg_r with tt; [lra|]. rewrite zt. lra.
      - apply Rmult_le_reg_r with tt; [lra|]. rewrite zt. lra. }
    assert (zb : Rabs (1 - z) <= 4.04 * (n * u64) + 4.04 * u64).
    { replace (1 - z) with (z * (tt - 1)) by (rewrite Rmult_minus_distr_l, zt; ring). rewrite Rabs_mult, (Rabs_pos_eq z) by lra.
      apply Rle_trans with (1.01 * (4 * (n * u64) + 4 * u64)); [|lra].
      apply Rmult_le_compat; try apply Rabs_pos; lra. }
    replace ((S2 - Sg / tt * Sh - Sh / tt * Sg + Sg / tt * (Sh / tt) * tt) / tt) with (S2 * z - Sg * Sh * (z * z))
      by (unfold z; field; lra).
    assert (C2 : Rabs (S2 * (1 - z)) <= 4.1 * (n * q) + 4.1 * q).
    { rewrite Rabs_mult. apply Rle_trans with (1.01 * (M * M) * (4.04 * (n * u64) + 4.04 * u64)).
      - apply Rmult_le_compat; try apply Rabs_pos; assumption.
      - replace (1.01 * (M * M) * (4.04 * (n * u64) + 4.04 * u64)) with (1.01 * 4.04 * (n * q) + 1.01 * 4.04 * q) by (unfold q; ring). lra. }
    assert (CS : Rabs (Sg * Sh * (1 - z * z)) <= 8.4 * (n * q) + 8.4 * q).
    { rewrite Rabs_mult. replace (1 - z * z) with ((1 - z) * (1 + z)) by ring. rewrite (Rabs_mult (1 - z) (1 + z)), (Rabs_pos_eq (1 + z)) by lra.
      apply Rle_trans with (1.0201 * (M * M) * ((4.04 * (n * u64) + 4.04 * u64) * 2.01)).
      - apply Rmult_le_compat; [apply Rabs_pos| |exact BSS|]; [apply Rmult_le_pos; [apply Rabs_pos|lra]|].
        apply Rmult_le_compat; [apply Rabs_pos|lra|exact zb|lra].
      - replace (1.0201 * (M * M) * ((4.04 * (n * u64) + 4.04 * u64) * 2.01)) with (1.0201 * 4.04 * 2.01 * (n * q) + 1.0201 * 4.04 * 2.01 * q) by (unfold q; ring). lra. }
    replace (B2R c - (S2 * z - Sg * Sh * (z * z))) with
      ((B2R c - (B2R D - B2R mm)) + ((B2R D - S2) + (S2 * (1 - z) + (- (B2R mm - B2R mg * B2R mh) + (- (B2R mg * B2R mh - Sg * Sh) + - (Sg * Sh * (1 - z * z))))))) by ring.
    replace (32 * u64 * (n + 2) * (M * M)) with (32 * (n * q) + 64 * q) by (unfold q; ring).
    rewrite <- (Rabs_Ropp (B2R mm - B2R mg * B2R mh)) in Em1. rewrite <- (Rabs_Ropp (B2R mg * B2R mh - Sg * Sh)) in Ep1.
    rewrite <- (Rabs_Ropp (Sg * Sh * (1 - z * z))) in CS.
    apply Rabs_le_inv in Em1. apply Rabs_le_inv in Ep1. apply Rabs_le_inv in CS. apply Rabs_le_inv in C2. apply Rabs_le_inv in Es1. apply Rabs_le_inv in Ed.
    replace (n * (4 * q)) with (4 * (n * q)) in Ed by ring.
    apply Rabs_le. lra.
Qed.

(** C141 as far as it is true: the position covariance is symmetric and each of
    its entries is the weighted covariance of the particles up to
    [2^-48 (n+2) M^2]; so the variances are not below zero by more than that. *)
Theorem C141_covariance_partial : forall (lm : libm) (mn mx : Z) (m : motion_params b64) (ops : list (filter_op b64)) (f0 f : pfilter b64) (M : R),
  (1 <= mn <= mx)%Z -> (mx <= 2 ^ 40)%Z -> filter_new (A := BA lm) mn mx m = Ok f0 -> ops_ok64 lm f0 ops ->
  filter_run (A := BA lm) f0 ops = Ok f -> bpow radix2 (-400) <= M <= bpow radix2 400 ->
  within64 v0 M (pf_parts f) -> within64 v1 M (pf_parts f) ->
  let err := bpow radix2 (-48) * (INR (length (pf_parts f)) + 2) * (M * M) in
  let c := pf_cov f in
  is_finite (a00 c) = true /\ is_finite (a01 c) = true /\ is_finite (a11 c) = true /\ a10 c = a01 c /\
  Rabs (B2R (a00 c) - covariance v0 v0 f) <= err /\ Rabs (B2R (a01 c) - covariance v0 v1 f) <= err /\
  Rabs (B2R (a11 c) - covariance v1 v1 f) <= err /\
  - err <= B2R (a00 c) /\ - err <= B2R (a11 c).
Proof.
  intros lm mn mx m ops f0 f M Hm Hx H O E HM H0 H1 err c.
  assert (Sq : squared f) by (eapply run_squared; [|exact E]; eapply stats_squared; exact H).
  destruct Sq as (E00 & E01 & E10 & E11).
  destruct (products_close lm mn mx m ops f0 f M v0 v0) as [F00 B00]; try assumption; try (left; reflexivity).
  destruct (products_close lm mn mx m ops f0 f M v0 v1) as [F01 B01]; try assumption; [left; reflexivity|right; reflexivity|].
  destruct (products_close lm mn mx m ops f0 f M v1 v1) as [F11 B11]; try assumption; try (right; reflexivity).
  rewrite <- E00 in F00, B00. rewrite <- E01 in F01, B01. rewrite <- E11 in F11, B11.
  pose proof (run_good lm ops f0 f (new_good lm mn mx m f0 Hm Hx H) O E) as Gd. pose proof (good_total f Gd) as Tp.
  destruct Gd as ((L & F & T) & _).
  assert (V : forall g, 0 <= covariance g g f).
  { intro g. unfold covariance. apply Rmult_le_pos; [apply deviations_square; exact F|]. left. apply Rinv_0_lt_compat. exact Tp. }
  pose proof (V v0) as V0. pose proof (V v1) as V1.
  split; [exact F00|]. split; [exact F01|]. split; [exact F11|]. split; [unfold c; rewrite E10, E01; reflexivity|].
  split; [exact B00|]. split; [exact B01|]. split; [exact B11|].
  apply Rabs_le_inv in B00. apply Rabs_le_inv in B11. fold err in B00, B11. unfold c. lra.
Qed.
Print Assumptions C141_covariance_partial.

(** ** Three particles in one place *)
Definition five : b64 := b64_of 5 0.
Definition gather : list (filter_op b64) :=
  [FInit (fun _ _ _ => five) five five (b64_of 0 0) (b64_of 0 0) (b64_of 0 0) (b64_of 0 0)].

Definition third : b64 := Bdiv mode_NE (b64_of 1 0) (b64_of 3 0).
Lemma weights_thirds (lm : libm) (f f' : pfilter b64) : pf_wts f = [third; third; third] -> update_stats (A := BA lm) f = Ok f' ->
  pf_wts f' = map (fun w => Bdiv mode_NE w (fold_left (Bplus mode_NE) [third; third; third] (b64_of 0 0))) [third; third; third].
Proof.
  intros W E. unfold update_stats in E. apply bind_ok in E. destruct E as (pw & _ & E). injection E as <-.
  cbn [pf_wts]. rewrite W. reflexivity.
Qed.

Lemma negative : forall p q r : vec3 b64, v0 p = five -> v0 q = five -> v0 r = five ->
  let ws := map (fun w => Bdiv mode_NE w (fold_left (Bplus mode_NE) [third; third; third] (b64_of 0 0))) [third; third; third] in
  let pw := combine [p; q; r] ws in
  let mean := dot64 v0 pw (b64_of 0 0) in
  Bltb (Bminus mode_NE (dot2 v0 v0 pw (b64_of 0 0)) (Bmult mode_NE mean mean)) (b64_of 0 0) = true.
Proof.
  intros p q r Hp Hq Hr. cbv zeta. unfold dot2, dot64. cbn [combine map fold_left fst snd]. rewrite Hp, Hq, Hr. vm_compute. reflexivity.
Qed.

Lemma gather_x (lm : libm) (m : motion_params b64) : exists f0 f,
  filter_new (A := BA lm) 3 3 m = Ok f0 /\ ops_ok64 lm f0 gather /\ filter_run (A := BA lm) f0 gather = Ok f /\
  Forall (fun p => v0 p = five /\ v1 p = five) (pf_parts f) /\ length (pf_parts f) = 3%nat /\
  Bltb (a00 (pf_cov f)) (b64_of 0 0) = true.
Proof.
  assert (N : exists f0, filter_new (A := BA lm) 3 3 m = Ok f0 /\ length (pf_parts f0) = 3%nat).
  { unfold filter_new. match goal with |- context [update_stats ?g] => destruct (SafeProofs.update_stats_ok (A := BA lm) g eq_refl) as (f0 & E & _ & P & _) end.
    exists f0. split; [exact E|]. rewrite P. reflexivity. }
  destruct N as (f0 & E0 & L0).
  set (st := filter_init (A := BA lm) (fun _ _ _ => five) five five (b64_of 0 0) (b64_of 0 0) (b64_of 0 0) (b64_of 0 0) f0).
  assert (I : exists f, st = Ok f /\ squared f /\ summed f /\ Forall (fun p => v0 p = five /\ v1 p = five) (pf_parts f) /\ length (pf_parts f) = 3%nat /\
    pf_wts f = map (fun w => Bdiv mode_NE w (fold_left (Bplus mode_NE) [third; third; third] (b64_of 0 0))) [third; third; third]).
  { unfold st, filter_init. destruct (pf_parts f0) as [|p [|q [|r [|? ?]]]]; try discriminate L0. cbn [map_i length].
    match goal with |- context [update_stats ?g] => destruct (SafeProofs.update_stats_ok (A := BA lm) g eq_refl) as (f & E & _ & P & _); set (g0 := g) in * end.
    exists f. split; [exact E|]. split; [exact (stats_squared lm g0 f E)|]. split; [exact (stats_summed lm g0 f E)|].
    rewrite P. unfold g0 at 1 2, with_parts. cbn [pf_parts length].
    split; [repeat (constructor; [split; reflexivity|]); constructor|]. split; [reflexivity|].
    apply (weights_thirds lm g0 f); [reflexivity|exact E]. }
  destruct I as (f & Ef & Sq & Sm & Ps & L & W).
  exists f0, f. split; [exact E0|]. split; [split; [exact I|intros; exact I]|]. split.
  { change (bind st (fun g => Ok g) = Ok f). rewrite Ef. reflexivity. }
  split; [exact Ps|]. split; [exact L|].
  destruct Sq as (-> & _). unfold products. destruct Sm as [-> _]. rewrite W.
  destruct (pf_parts f) as [|p [|q [|r [|? ?]]]]; try discriminate L.
  inversion Ps as [|? ? [Hp _] Ps1]; subst. inversion Ps1 as [|? ? [Hq _] Ps2]; subst. inversion Ps2 as [|? ? [Hr _] _]; subst.
  exact (negative p q r Hp Hq Hr).
Qed.

Lemma five_ok : is_finite five = true /\ B2R five = 5.
Proof. destruct (b64_ofZ 5 ltac:(lia)) as [V F]. split; [exact F|exact V]. Qed.

(** C141 is false: three particles at the same place, which have no variance at
    all, are reported with a negative one. *)
Theorem C141_variance_refuted : forall (lm : libm) (m : motion_params b64), exists ops f0 f,
  filter_new (A := BA lm) 3 3 m = Ok f0 /\ ops_ok64 lm f0 ops /\ filter_run (A := BA lm) f0 ops = Ok f /\
  within64 v0 5 (pf_parts f) /\ within64 v1 5 (pf_parts f) /\ covariance v0 v0 f = 0 /\ B2R (a00 (pf_cov f)) < 0.
Proof.
  intros lm m. destruct (gather_x lm m) as (f0 & f & E0 & O & E & Ps & L & Neg). exists gather, f0, f.
  destruct five_ok as [F5 V5].
  assert (W : forall g, (forall p, In p (pf_parts f) -> g p = five) -> within64 g 5 (pf_parts f)).
  { intros g H. apply Forall_forall. intros p Ip. rewrite (H p Ip). split; [exact F5|]. rewrite V5, Rabs_pos_eq; lra. }
  rewrite Forall_forall in Ps.
  assert (W0 : within64 v0 5 (pf_parts f)) by (apply W; intros p Ip; apply Ps; exact Ip).
  assert (W1 : within64 v1 5 (pf_parts f)) by (apply W; intros p Ip; apply Ps; exact Ip).
  split; [exact E0|]. split; [exact O|]. split; [exact E|]. split; [exact W0|]. split; [exact W1|].
  pose proof (run_good lm gather f0 f (new_good lm 3 3 m f0 ltac:(lia) ltac:(lia) E0) O E) as Gd. pose proof (good_total f Gd) as Tp.
  destruct Gd as ((Lw & _) & _). split.
  - assert (C : forall ps ws a, (forall p, In p ps -> v0 p = five) -> deviations v0 v0 a a ps ws = (5 - a) * (5 - a) * fold_right Rplus 0 (map B2R (firstn (length ps) ws))).
    { induction ps as [|p ps IH]; intros [|w ws] a H; cbn [deviations length firstn map fold_right]; try ring.
      rewrite IH by (intros; apply H; right; assumption). rewrite (H p (or_introl eq_refl)), V5. ring. }
    assert (S : forall ps ws, length ws = length ps -> (forall p, In p ps -> v0 p = five) -> wsum64 v0 ps ws = 5 * total64 ws).
    { induction ps as [|p ps IH]; intros [|w ws] Hl H; try discriminate; cbn [wsum64 total64 fold_right]; [ring|]. fold (total64 ws).
      rewrite IH by (try (injection Hl as Hl; exact Hl); intros; apply H; right; assumption). rewrite (H p (or_introl eq_refl)), V5. ring. }
    unfold covariance, centre. rewrite (S _ _ Lw) by (intros p Ip; apply Ps; exact Ip).
    replace (5 * total64 (pf_wts f) / total64 (pf_wts f)) with 5 by (field; lra).
    rewrite C by (intros p Ip; apply Ps; exact Ip). field. lra.
  - destruct (C141_covariance_partial lm 3 3 m gather f0 f 5 ltac:(lia) ltac:(lia) E0 O E) as (Fc & _).
    + split; [apply Rle_trans with (bpow radix2 0); [apply bpow_le; lia|cbn; lra]|].
      apply Rle_trans with (bpow radix2 3); [cbn; lra|apply bpow_le; lia].
    + exact W0.
    + exact W1.
    + destruct b64_zero as [Z0 FZ]. rewrite Bltb_correct in Neg by assumption.
      revert Neg. case Rlt_bool_spec; [|discriminate]. intros Neg _. rewrite Z0 in Neg. exact Neg.
Qed.
Print Assumptions C141_variance_refuted.

(** Non-vacuity of the guarded theorem: the same run; its variance is not below
    [-2^-39]. *)
Example C141_nonvacuous (lm : libm) (m : motion_params b64) : exists ops f0 f,
  filter_new (A := BA lm) 3 3 m = Ok f0 /\ ops_ok64 lm f0 ops /\ filter_run (A := BA lm) f0 ops = Ok f /\
  within64 v0 5 (pf_parts f) /\ within64 v1 5 (pf_parts f) /\ - bpow radix2 (-39) <= B2R (a00 (pf_cov f)).
Proof.
  destruct (gather_x lm m) as (f0 & f & E0 & O & E & Ps & L & _). exists gather, f0, f.
  destruct five_ok as [F5 V5]. rewrite Forall_forall in Ps.
  assert (W0 : within64 v0 5 (pf_parts f)) by (apply Forall_forall; intros p Ip; rewrite (proj1 (Ps p Ip)); split; [exact F5|rewrite V5, Rabs_pos_eq; lra]).
  assert (W1 : within64 v1 5 (pf_parts f)) by (apply Forall_forall; intros p Ip; rewrite (proj2 (Ps p Ip)); split; [exact F5|rewrite V5, Rabs_pos_eq; lra]).
  split; [exact E0|]. split; [exact O|]. split; [exact E|]. split; [exact W0|]. split; [exact W1|].
  destruct (C141_covariance_partial lm 3 3 m gather f0 f 5 ltac:(lia) ltac:(lia) E0 O E) as (_ & _ & _ & _ & _ & _ & _ & B & _).
  - split; [apply Rle_trans with (bpow radix2 0); [apply bpow_le; lia|cbn; lra]|].
    apply Rle_trans with (bpow radix2 3); [cbn; lra|apply bpow_le; lia].
  - exact W0.
  - exact W1.
  - rewrite L in B. eapply Rle_trans; [|exact B]. apply Ropp_le_contravar. cbn [INR].
    change (bpow radix2 (-48)) with (/ IZR (2 ^ 48)). change (bpow radix2 (-39)) with (/ IZR (2 ^ 39)). cbn. lra.
Qed.
