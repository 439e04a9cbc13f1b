(** A libm with correctly rounded sine and cosine: the contract [accurate_trig]
    can be met. *)

From Coq Require Import ZArith Reals List Lia Lra.
From Flocq Require Import Core BinarySingleNaN.
From Verif Require Import Outcome Arith B64Lemmas CellB64 SpecPlace64.
Local Open Scope R_scope.

(** The double nearest to a real number. *)
Definition nearest64 (x : R) : b64 := b64_of (ZnearestE (scaled_mantissa radix2 fexp64 x)) (cexp radix2 fexp64 x).

Lemma nearest64_ok (x : R) : Rabs x <= bpow radix2 1023 -> is_finite (nearest64 x) = true /\ B2R (nearest64 x) = rnd x.
Proof.
  intros B. unfold nearest64, b64_of.
  set (m := ZnearestE (scaled_mantissa radix2 fexp64 x)). set (e := cexp radix2 fexp64 x).
  assert (V : F2R (Float radix2 m e) = rnd x) by reflexivity.
  pose proof (binary_normalize_correct 53 1024 prec64_gt_0 prec64_lt_emax mode_NE m e false) as C. cbv zeta in C.
  rewrite V in C. change (round radix2 (SpecFloat.fexp 53 1024) (round_mode mode_NE) (rnd x)) with (rnd (rnd x)) in C.
  rewrite (rnd_fmt (rnd x)) in C by (apply generic_format_round; typeclasses eauto).
  rewrite Rlt_bool_true in C by (apply rnd_bounded; exact B). destruct C as (C1 & C2 & _). split; [exact C2|exact C1].
Qed.

(** Any library, with correctly rounded sine and cosine. *)
Definition with_nearest (lm : libm) : libm :=
  {| lm_cos := fun x => nearest64 (cos (B2R x)); lm_sin := fun x => nearest64 (sin (B2R x));
     lm_exp := lm_exp lm; lm_atan2 := lm_atan2 lm; lm_hypot := lm_hypot lm; lm_fmod := lm_fmod lm |}.

Lemma nearest_unit (x : R) : Rabs x <= 1 -> is_finite (nearest64 x) = true /\ Rabs (B2R (nearest64 x) - x) <= bpow radix2 (-52).
Proof.
  intros B. destruct (nearest64_ok x) as [F V].
  { eapply Rle_trans; [exact B|]. change 1 with (bpow radix2 0). apply bpow_le. lia. }
  split; [exact F|]. rewrite V. eapply Rle_trans; [apply rnd_err|].
  assert (E : eta64 <= u64 * 1 * / 1000) by (apply eta_scale; change 1 with (bpow radix2 0); apply bpow_le; lia).
  pose proof u64_pos as U. assert (u64 * Rabs x <= u64 * 1) by (apply Rmult_le_compat_l; lra).
  replace (bpow radix2 (-52)) with (2 * u64) by (unfold u64; change 2 with (bpow radix2 1); rewrite <- bpow_plus; reflexivity). lra.
Qed.

Lemma nearest_accurate (lm : libm) : accurate_trig (with_nearest lm).
Proof.
  intros x _. split; apply nearest_unit; apply Rabs_le; [apply COS_bound|apply SIN_bound].
Qed.
