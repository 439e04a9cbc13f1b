(** Properties C39 and C171 in double arithmetic: the values of the cells for given
    numbers of hits and passes. *)

From Coq Require Import ZArith Reals List Bool Lia Lra Psatz.
From Flocq Require Import Core BinarySingleNaN.
From Verif Require Import Outcome Arith TypesModel OccGridModel SpecEvidence B64Lemmas PropOcc.
Import ListNotations.
Local Open Scope R_scope.

Lemma share_hits h f a : (0 < h + f)%nat -> INR h / INR (h + f) <= INR (h + a) / INR (h + a + f).
Proof.
  intro N. rewrite !plus_INR. assert (P : 0 < INR h + INR f) by (rewrite <- plus_INR; apply lt_0_INR; exact N).
  pose proof (pos_INR h). pose proof (pos_INR f). pose proof (pos_INR a).
  apply (Rmult_le_reg_r (INR h + INR f)); [exact P|]. unfold Rdiv. rewrite Rmult_assoc, Rinv_l, Rmult_1_r by lra.
  apply (Rmult_le_reg_r (INR h + INR a + INR f)); [lra|]. replace ((INR h + INR a) * / (INR h + INR a + INR f) * (INR h + INR f) * (INR h + INR a + INR f))
    with ((INR h + INR a) * (INR h + INR f)) by (field; lra). nra.
Qed.
Lemma share_frees h f a : (0 < h + f)%nat -> INR h / INR (h + (f + a)) <= INR h / INR (h + f).
Proof.
  intro N. rewrite !plus_INR. assert (P : 0 < INR h + INR f) by (rewrite <- plus_INR; apply lt_0_INR; exact N).
  pose proof (pos_INR h). pose proof (pos_INR f). pose proof (pos_INR a).
  apply Rmult_le_compat_l; [assumption|]. apply Rinv_le_contravar; lra.
Qed.

(** C171: further hits never make an occupied cell free, further passes never make a
    free cell occupied, and a known cell stays known. *)
Theorem C171_counts_doubles (lm : libm) (thresh : b64) (h f a : nat) : is_finite thresh = true -> (Z.of_nat (h + f + a) <= 2 ^ 53)%Z ->
  let value hits frees := cell_value (A := BA lm) thresh (Z.of_nat hits) (Z.of_nat frees) in
  (value h f = occupied -> value (h + a)%nat f = occupied) /\
  (value h f = free -> value h (f + a)%nat = free) /\
  (value h f <> unknown -> value (h + a)%nat f <> unknown /\ value h (f + a)%nat <> unknown).
Proof.
  intros Ft B value.
  destruct (C39_cell_values_b64 lm thresh h f Ft ltac:(lia)) as (V0 & U0 & O0).
  destruct (C39_cell_values_b64 lm thresh (h + a) f Ft ltac:(lia)) as (V1 & U1 & O1).
  destruct (C39_cell_values_b64 lm thresh h (f + a) Ft ltac:(lia)) as (V2 & U2 & O2).
  fold (value h f) in *. fold (value (h + a)%nat f) in *. fold (value h (f + a)%nat) in *. clearbody value.
  unfold occupied, free, unknown. split; [|split].
  - intro E. apply O0 in E. destruct E as [N L]. apply O1. split; [lia|]. eapply Rlt_le_trans; [exact L|]. apply rnd_le. apply share_hits. exact N.
  - intro E. assert (N : (0 < h + f)%nat) by (destruct (Nat.eq_dec (h + f) 0) as [Q|Q]; [apply U0 in Q; rewrite Q in E; discriminate E|lia]).
    destruct V2 as [Q|[Q|Q]]; [apply U2 in Q; lia|exact Q|]. exfalso. apply O2 in Q. destruct Q as [_ L].
    assert (X : value h f = 100%Z); [|rewrite X in E; discriminate E]. apply O0. split; [exact N|]. eapply Rlt_le_trans; [exact L|]. apply rnd_le. apply share_frees. exact N.
  - intro K. split; intro Q; [apply U1 in Q|apply U2 in Q]; apply K; apply U0; lia.
Qed.
Print Assumptions C171_counts_doubles.

Lemma quarter : B2R (b64_of 1 (-2)) = / 4 /\ is_finite (b64_of 1 (-2)) = true.
Proof. split; [|reflexivity]. vm_compute. lra. Qed.

(** C39 for the default threshold of a quarter (ndt_mapper.cpp:103): doubles decide
    exactly. *)
Theorem C39_default_threshold_b64 (lm : libm) (h f : nat) : (Z.of_nat (h + f) <= 2 ^ 52)%Z ->
  cell_value (A := BA lm) (b64_of 1 (-2)) (Z.of_nat h) (Z.of_nat f) = 100%Z <-> (h + f < 4 * h)%nat.
Proof.
  intro B. destruct quarter as [Q Fq]. destruct (C39_cell_values_b64 lm (b64_of 1 (-2)) h f Fq ltac:(lia)) as (_ & _ & O). rewrite O, Q. clear O.
  split.
  - intros [N L]. destruct (Nat.lt_ge_cases (h + f) (4 * h)) as [G|G]; [exact G|]. exfalso. apply Rlt_not_le in L. apply L.
    apply rnd_ub; [rewrite <- Q; apply fmt_b64|]. assert (P : 0 < INR (h + f)) by (apply lt_0_INR; exact N).
    apply (Rmult_le_reg_r (INR (h + f))); [exact P|]. unfold Rdiv. rewrite Rmult_assoc, Rinv_l by lra. apply le_INR in G. rewrite mult_INR in G. cbn [INR] in G. lra.
  - intro G. split; [lia|]. assert (P : 0 < INR (h + f)) by (apply lt_0_INR; lia).
    apply Rlt_le_trans with (/ 4 + bpow radix2 (-54)); [pose proof (bpow_gt_0 radix2 (-54)); lra|]. apply rnd_lb.
    + replace (/ 4 + bpow radix2 (-54)) with (IZR (2 ^ 52 + 1) * bpow radix2 (-54)) by (cbn; lra). apply fmt_dyadic; lia.
    + apply (Rmult_le_reg_r (INR (h + f))); [exact P|]. unfold Rdiv. rewrite Rmult_assoc, Rinv_l by lra.
      assert (U : INR (h + f) <= bpow radix2 52).
      { rewrite INR_IZR_INZ. apply IZR_le in B. replace (bpow radix2 52) with (IZR (2 ^ 52)) by (cbn; lra). exact B. }
      assert (G' : (h + f + 1 <= 4 * h)%nat) by lia. apply le_INR in G'. rewrite mult_INR, plus_INR in G'. cbn [INR] in G'.
      assert (X : bpow radix2 (-54) * INR (h + f) <= bpow radix2 (-54) * bpow radix2 52) by (apply Rmult_le_compat_l; [apply bpow_ge_0|exact U]).
      rewrite <- bpow_plus in X. change (bpow radix2 (-54 + 52)) with (/ 4) in X. lra.
Qed.
Print Assumptions C39_default_threshold_b64.

(** One hit among three touches makes a cell occupied, one among four does not. *)
Example C39_default_nonvacuous (lm : libm) :
  cell_value (A := BA lm) (b64_of 1 (-2)) 1 2 = 100%Z /\ cell_value (A := BA lm) (b64_of 1 (-2)) 1 3 = 0%Z.
Proof. split; vm_compute; reflexivity. Qed.
