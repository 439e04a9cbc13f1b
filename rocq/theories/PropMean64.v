(** C129: the mean the particle filter reports, in double arithmetic. *)

From Coq Require Import ZArith Reals List Bool Lia Lra.
From Flocq Require Import Core BinarySingleNaN.
From Verif Require Import Outcome Arith TypesModel MotionModel FilterModel NdtProofs MatcherProofs FilterProofs FilterProofs2 MotionProofs
  B64Tactics B64Lemmas CellB64 PropGrid64 SpecWeights64 PropWeights64.
Import ListNotations.
Local Open Scope R_scope.

Definition dot64 (g : vec3 b64 -> b64) (pw : list (vec3 b64 * b64)) (a : b64) : b64 :=
  fold_left (fun a q => Bplus mode_NE a (Bmult mode_NE (snd q) (g (fst q)))) pw a.

Lemma dot64_ok (g : vec3 b64 -> b64) (M : R) : bpow radix2 (-400) <= M <= bpow radix2 400 ->
  forall ps ws (a : b64) (t s : R) (k : nat),
  is_finite a = true -> Rabs (B2R a - t) <= INR k * (3 * u64 * M) -> Rabs t <= s * M -> 0 <= s -> s + total64 ws <= 1.01 ->
  within64 g M ps -> Forall (fun w => is_finite w = true /\ 0 <= B2R w <= 1) ws -> length ws = length ps ->
  (Z.of_nat (k + length ps) <= 2 ^ 40)%Z ->
  is_finite (dot64 g (combine ps ws) a) = true /\
  Rabs (B2R (dot64 g (combine ps ws) a) - (t + wsum64 g ps ws)) <= INR (k + length ps) * (3 * u64 * M).
Proof.
  intros HM. assert (M0 : 0 < M) by (eapply Rlt_le_trans; [apply bpow_gt_0|apply HM]).
  pose proof u64_pos as U. pose proof u64_val as UV.
  assert (UM : 0 < u64 * M) by (apply Rmult_lt_0_compat; lra).
  assert (UM1 : u64 * M <= M / 1000) by (rewrite UV; lra).
  assert (ET : eta64 <= u64 * M * / 1000).
  { apply eta_scale. eapply Rle_trans; [|apply HM]. apply bpow_le. lia. }
  assert (MB : 8 * M <= bpow radix2 1023).
  { apply Rle_trans with (bpow radix2 3 * bpow radix2 400); [change (bpow radix2 3) with 8; lra|]. rewrite <- bpow_plus. apply bpow_le. lia. }
  induction ps as [|p ps IH]; intros ws a t s k Fa Ea Bt S0 Sm Hp Hw L N.
  - cbn [combine dot64 fold_left wsum64 length]. rewrite Rplus_0_r, Nat.add_0_r. split; [exact Fa|exact Ea].
  - destruct ws as [|w ws]; [discriminate|]. cbn [length] in L, N. injection L as L.
    inversion Hp as [|? ? [Fp Bp] Hp']; subst. inversion Hw as [|? ? [Fw Bw] Hw']; subst.
    unfold dot64. cbn [combine fold_left wsum64 fst snd]. fold (dot64 g (combine ps ws) (Bplus mode_NE a (Bmult mode_NE w (g p)))).
    assert (T0 : 0 <= total64 ws).
    { clear - Hw'. induction Hw' as [|x l [_ Hx] _ IH]; cbn [total64 fold_right]; [lra|]. fold (total64 l). lra. }
    cbn [total64 fold_right] in Sm. fold (total64 ws) in Sm.
    assert (K : INR k * (3 * u64 * M) <= M / 1000).
    { assert (INR k <= 1099511627776).
      { replace 1099511627776 with (IZR (2 ^ 40)) by (cbn; lra). apply INR_bound. lia. }
      assert (INR k * u64 <= / 4000) by (rewrite UV; lra).
      assert (INR k * u64 * M <= / 4000 * M) by (apply Rmult_le_compat_r; lra). lra. }
    assert (PB : Rabs (B2R w * B2R (g p)) <= B2R w * M).
    { rewrite Rabs_mult, (Rabs_pos_eq (B2R w)) by lra. apply Rmult_le_compat_l; lra. }
    assert (PB1 : B2R w * M <= 1 * M) by (apply Rmult_le_compat_r; lra).
    assert (SM : (s + B2R w) * M <= 1.01 * M) by (apply Rmult_le_compat_r; lra).
    assert (SM1 : s * M <= 1.01 * M) by (apply Rmult_le_compat_r; lra).
    destruct (b64_mul_ok w (g p) Fw Fp ltac:(lra)) as [Vm Fm].
    pose proof (rnd_err (B2R w * B2R (g p))) as Em. rewrite <- Vm in Em.
    set (m := Bmult mode_NE w (g p)) in *.
    assert (Em1 : Rabs (B2R m - B2R w * B2R (g p)) <= 1.001 * (u64 * M)).
    { eapply Rle_trans; [exact Em|]. assert (u64 * Rabs (B2R w * B2R (g p)) <= u64 * M) by (apply Rmult_le_compat_l; lra). lra. }
    assert (AB : Rabs (B2R a + B2R m) <= 1.02 * M).
    { replace (B2R a + B2R m) with ((B2R a - t) + (B2R m - B2R w * B2R (g p)) + (t + B2R w * B2R (g p))) by ring.
      eapply Rle_trans; [apply Rabs_triang|]. pose proof (Rabs_triang (B2R a - t) (B2R m - B2R w * B2R (g p))).
      pose proof (Rabs_triang t (B2R w * B2R (g p))). lra. }
    destruct (b64_add_ok a m Fa Fm ltac:(lra)) as [Va Fa'].
    pose proof (rnd_err (B2R a + B2R m)) as Er. rewrite <- Va in Er. set (a' := Bplus mode_NE a m) in *.
    assert (UA : u64 * Rabs (B2R a + B2R m) <= u64 * (1.02 * M)) by (apply Rmult_le_compat_l; lra).
    destruct (IH ws a' (t + B2R w * B2R (g p)) (s + B2R w) (S k) Fa') as [F E].
    + rewrite S_INR. replace (B2R a' - (t + B2R w * B2R (g p))) with ((B2R a' - (B2R a + B2R m)) + ((B2R a - t) + (B2R m - B2R w * B2R (g p)))) by ring.
      eapply Rle_trans; [apply Rabs_triang|]. pose proof (Rabs_triang (B2R a - t) (B2R m - B2R w * B2R (g p))).
      replace ((INR k + 1) * (3 * u64 * M)) with (INR k * (3 * u64 * M) + 3 * (u64 * M)) by ring. lra.
    + eapply Rle_trans; [apply Rabs_triang|]. rewrite Rmult_plus_distr_r. lra.
    + lra.
    + lra.
    + exact Hp'.
    + exact Hw'.
    + exact L.
    + lia.
    + split; [exact F|]. cbn [length]. rewrite Nat.add_succ_r. replace (t + (B2R w * B2R (g p) + wsum64 g ps ws)) with (t + B2R w * B2R (g p) + wsum64 g ps ws) by ring. exact E.
Qed.

(** ** The mean a filter holds is the sum over its particles *)
Section H.
Context (lm : libm).
Let A : Arith b64 := BA lm.
Local Existing Instance A.

Definition summed (f : pfilter b64) : Prop :=
  v0 (pf_mean f) = dot64 v0 (combine (pf_parts f) (pf_wts f)) (b64_of 0 0) /\
  v1 (pf_mean f) = dot64 v1 (combine (pf_parts f) (pf_wts f)) (b64_of 0 0).

Lemma sums_dot : forall pw (s : @sums b64),
  v0 (su_mean (fold_left (fun s q => FilterModel.sums_add s (fst q) (snd q)) pw s)) = dot64 v0 pw (v0 (su_mean s)) /\
  v1 (su_mean (fold_left (fun s q => FilterModel.sums_add s (fst q) (snd q)) pw s)) = dot64 v1 pw (v1 (su_mean s)).
Proof.
  induction pw as [|q pw IH]; intros s; [split; reflexivity|]. cbn [fold_left]. destruct (IH (FilterModel.sums_add s (fst q) (snd q))) as [-> ->]. split; reflexivity.
Qed.

Lemma stats_summed (g f : pfilter b64) : update_stats g = Ok f -> summed f.
Proof.
  intros E. unfold update_stats in E. apply bind_ok in E. destruct E as (pw & Hw & E).
  apply with_weights_inv in Hw. destruct Hw as [Hw _]. subst pw. injection E as <-. unfold summed. cbn [pf_mean pf_parts pf_wts v0 v1].
  apply sums_dot.
Qed.

Lemma step_summed (f : pfilter b64) (o : filter_op b64) (f' : pfilter b64) : filter_step f o = Ok f' -> summed f'.
Proof.
  intros E. destruct o as [n x y th sx sy sth|n dx dy dth|s|d e z]; cbn [filter_step] in E.
  - eapply stats_summed. exact E.
  - eapply stats_summed. exact E.
  - unfold filter_measure in E. destruct (_ <? _)%nat; [discriminate|]. apply bind_ok in E. destruct E as (ws & _ & E). eapply stats_summed. exact E.
  - unfold filter_resample in E. destruct (dist_ok _); [|discriminate]. apply bind_ok in E. destruct E as (acc & _ & E). eapply stats_summed. exact E.
Qed.

Lemma run_summed (ops : list (filter_op b64)) : forall f f', summed f -> filter_run f ops = Ok f' -> summed f'.
Proof.
  induction ops as [|o ops IH]; intros f f' S E; cbn in E.
  - injection E as <-. exact S.
  - apply bind_ok in E. destruct E as (g & Hg & E). eapply IH; [exact (step_summed f o g Hg)|exact E].
Qed.
End H.

Lemma wsum64_hull (g : vec3 b64 -> b64) (lo hi : R) : forall ps ws, length ws = length ps ->
  Forall (fun p => lo <= B2R (g p) <= hi) ps -> Forall (fun w => is_finite w = true /\ 0 <= B2R w <= 1) ws ->
  lo * total64 ws <= wsum64 g ps ws <= hi * total64 ws.
Proof.
  induction ps as [|p ps IH]; intros [|w ws] L Hp Hw; try discriminate; cbn [wsum64 total64 fold_right]; [lra|].
  fold (total64 ws). inversion Hp as [|? ? Bp Hp']; subst. inversion Hw as [|? ? [_ Bw] Hw']; subst.
  specialize (IH ws ltac:(injection L as L; exact L) Hp' Hw'). rewrite !Rmult_plus_distr_l.
  assert (B2R w * lo <= B2R w * B2R (g p)) by (apply Rmult_le_compat_l; lra).
  assert (B2R w * B2R (g p) <= B2R w * hi) by (apply Rmult_le_compat_l; lra). lra.
Qed.

(** The reported position is the weighted mean of the particles up to
    [2^-51 (n+2) M], and not outside their bounding box by more than twice
    that. *)
Theorem C129_mean (lm : libm) (mn mx : Z) (m : motion_params b64) (ops : list (filter_op b64)) (f0 f : pfilter b64) (M : R) (g : vec3 b64 -> b64) :
  (1 <= mn <= mx)%Z -> (mx <= 2 ^ 40)%Z -> filter_new (A := BA lm) mn mx m = Ok f0 -> ops_ok64 lm f0 ops ->
  filter_run (A := BA lm) f0 ops = Ok f -> g = v0 \/ g = v1 -> bpow radix2 (-400) <= M <= bpow radix2 400 -> within64 g M (pf_parts f) ->
  let err := bpow radix2 (-51) * (INR (length (pf_parts f)) + 2) * M in
  is_finite (g (pf_mean f)) = true /\ Rabs (B2R (g (pf_mean f)) - wsum64 g (pf_parts f) (pf_wts f)) <= err /\
  forall lo hi, Forall (fun p => lo <= B2R (g p) <= hi) (pf_parts f) -> -M <= lo -> hi <= M ->
    lo - 2 * err <= B2R (g (pf_mean f)) <= hi + 2 * err.
Proof.
  intros Hm Hx H O E Hg HM Hp err.
  pose proof (run_good lm ops f0 f (new_good lm mn mx m f0 Hm Hx H) O E) as Gd. destruct Gd as ((L & F & T) & _ & X & N).
  assert (Sd : summed f).
  { eapply run_summed; [|exact E]. eapply stats_summed. exact H. }
  assert (Vg : g (pf_mean f) = dot64 g (combine (pf_parts f) (pf_wts f)) (b64_of 0 0)) by (destruct Hg as [-> | ->]; apply Sd).
  assert (M0 : 0 < M) by (eapply Rlt_le_trans; [apply bpow_gt_0|apply HM]).
  set (n := INR (length (pf_parts f))) in *.
  assert (n0 : 0 <= n) by apply pos_INR.
  assert (n1 : n <= 1099511627776).
  { replace 1099511627776 with (IZR (2 ^ 40)) by (cbn; lra). apply INR_bound. apply N. }
  assert (T1 : Rabs (total64 (pf_wts f) - 1) <= / 1000).
  { eapply Rle_trans; [exact T|]. change (bpow radix2 (-51)) with (/ IZR (2 ^ 51)). cbn. lra. }
  destruct b64_zero as [Z0 FZ].
  destruct (dot64_ok g M HM (pf_parts f) (pf_wts f) (b64_of 0 0) 0 0 0%nat FZ) as [Fd Ed].
  - rewrite Z0, Rminus_0_r, Rabs_R0. cbn [INR]. lra.
  - rewrite Rabs_R0. lra.
  - lra.
  - apply Rabs_le_inv in T1. lra.
  - exact Hp.
  - exact F.
  - exact L.
  - cbn [plus]. lia.
  - cbn [plus] in Ed. rewrite Rplus_0_l in Ed. rewrite <- Vg in Fd, Ed. fold n in Ed.
    assert (U4 : bpow radix2 (-51) = 4 * u64).
    { unfold u64. change (bpow radix2 (-51)) with (/ IZR (2 ^ 51)). change (bpow radix2 (-53)) with (/ IZR (2 ^ 53)). cbn. lra. }
    pose proof u64_pos as U.
    assert (UM : 0 < u64 * M) by (apply Rmult_lt_0_compat; lra).
    assert (NUM : 0 <= n * (u64 * M)) by (apply Rmult_le_pos; lra).
    assert (EV : err = 4 * (n * (u64 * M)) + 8 * (u64 * M)) by (unfold err; rewrite U4; ring).
    assert (E1 : Rabs (B2R (g (pf_mean f)) - wsum64 g (pf_parts f) (pf_wts f)) <= err).
    { eapply Rle_trans; [exact Ed|]. rewrite EV. replace (n * (3 * u64 * M)) with (3 * (n * (u64 * M))) by ring. lra. }
    split; [exact Fd|]. split; [exact E1|].
    intros lo hi Hh Hlo Hhi. destruct (wsum64_hull g lo hi _ _ L Hh F) as [W1 W2].
    set (W := wsum64 g (pf_parts f) (pf_wts f)) in *. set (tt := total64 (pf_wts f)) in *.
    assert (LH : lo <= hi).
    { destruct (pf_parts f) as [|p ps]; [cbn in N; lia|]. inversion Hh; subst. lra. }
    assert (D : Rabs (tt - 1) * M <= err).
    { assert (Rabs (tt - 1) * M <= bpow radix2 (-51) * (n + 1) * M) by (apply Rmult_le_compat_r; lra).
      rewrite U4 in H0. replace (4 * u64 * (n + 1) * M) with (4 * (n * (u64 * M)) + 4 * (u64 * M)) in H0 by ring. lra. }
    assert (Z : forall c, -M <= c <= M -> Rabs (c * (tt - 1)) <= err).
    { intros c Hc. rewrite Rabs_mult. assert (Rabs c <= M) by (apply Rabs_le; lra).
      assert (Rabs c * Rabs (tt - 1) <= M * Rabs (tt - 1)) by (apply Rmult_le_compat_r; [apply Rabs_pos|exact H0]). lra. }
    pose proof (Z lo ltac:(lra)) as Zl. pose proof (Z hi ltac:(lra)) as Zh.
    apply Rabs_le_inv in Zl. apply Rabs_le_inv in Zh. apply Rabs_le_inv in E1.
    replace (lo * (tt - 1)) with (lo * tt - lo) in Zl by ring. replace (hi * (tt - 1)) with (hi * tt - hi) in Zh by ring. lra.
Qed.
Print Assumptions C129_mean.

Lemma measured_parts (lm : libm) (f : pfilter b64) (sc : pose b64 -> outcome b64) (f' : pfilter b64) :
  filter_step (A := BA lm) f (FMeasure sc) = Ok f' -> pf_parts f' = pf_parts f.
Proof.
  intros E. cbn [filter_step] in E. unfold filter_measure in E. destruct (_ <? _)%nat; [discriminate|].
  apply bind_ok in E. destruct E as (ws & _ & E). apply update_stats_parts in E. destruct E as [E _]. exact E.
Qed.

(** Non-vacuity: the filter of [C128_nonvacuous] holds two particles at the
    origin, so the mean it reports is at most [2^-448] away from it. *)
Lemma C129_nonvacuous (lm : libm) (m : motion_params b64) : exists f0 f,
  filter_new (A := BA lm) 2 2 m = Ok f0 /\ ops_ok64 lm f0 weigh_ops /\ filter_run (A := BA lm) f0 weigh_ops = Ok f /\
  length (pf_parts f) = 2%nat /\ within64 v0 (bpow radix2 (-400)) (pf_parts f) /\ Rabs (B2R (v0 (pf_mean f))) <= bpow radix2 (-448).
Proof.
  destruct (C128_nonvacuous lm m) as (f0 & f & E0 & O & E & _).
  assert (P0 : pf_parts f0 = [vec3_zero (A := BA lm); vec3_zero (A := BA lm)]).
  { pose proof E0 as E0'. unfold filter_new in E0'. apply update_stats_parts in E0'. destruct E0' as [-> _]. reflexivity. }
  assert (P : pf_parts f = [vec3_zero (A := BA lm); vec3_zero (A := BA lm)]).
  { pose proof E as E'. unfold weigh_ops in E'.
    change (bind (filter_step (A := BA lm) f0 (FMeasure (fun _ => Ok minus1))) (fun g =>
      bind (filter_step (A := BA lm) g (FMeasure (fun _ => Ok minus1))) (fun h => Ok h)) = Ok f) in E'.
    apply bind_ok in E'. destruct E' as (g & Eg & E'). apply bind_ok in E'. destruct E' as (h & Eh & E'). injection E' as <-.
    apply measured_parts in Eg. apply measured_parts in Eh. rewrite Eh, Eg. exact P0. }
  destruct b64_zero as [Z0 FZ].
  assert (V0 : B2R (v0 (vec3_zero (A := BA lm))) = 0) by exact Z0.
  assert (Wi : within64 v0 (bpow radix2 (-400)) (pf_parts f)).
  { rewrite P. assert (Q : is_finite (v0 (vec3_zero (A := BA lm))) = true /\ Rabs (B2R (v0 (vec3_zero (A := BA lm)))) <= bpow radix2 (-400))
      by (split; [exact FZ|rewrite V0, Rabs_R0; apply bpow_ge_0]).
    constructor; [exact Q|constructor; [exact Q|constructor]]. }
  exists f0, f. split; [exact E0|]. split; [exact O|]. split; [exact E|]. split; [rewrite P; reflexivity|]. split; [exact Wi|].
  destruct (C129_mean lm 2 2 m weigh_ops f0 f (bpow radix2 (-400)) v0) as (_ & B & _);
    [lia|lia|exact E0|exact O|exact E|left; reflexivity|split; [lra|apply bpow_le; lia]|exact Wi|].
  assert (W0 : wsum64 v0 (pf_parts f) (pf_wts f) = 0).
  { rewrite P. destruct (pf_wts f) as [|a [|b l]]; cbn [wsum64]; rewrite ?V0; ring. }
  rewrite W0, Rminus_0_r in B. eapply Rle_trans; [exact B|]. rewrite P. cbn [length INR].
  apply Rle_trans with (bpow radix2 (-51) * bpow radix2 2 * bpow radix2 (-400)).
  - apply Rmult_le_compat_r; [apply bpow_ge_0|]. apply Rmult_le_compat_l; [apply bpow_ge_0|]. cbn. lra.
  - rewrite <- !bpow_plus. apply bpow_le. lia.
Qed.
