(** Facts about binary64 arithmetic used by the properties stated in it. *)

From Coq Require Import ZArith Reals List Bool Lia Lra Psatz.
From Flocq Require Import Core BinarySingleNaN Relative.
From Verif Require Import Outcome Arith.
Local Open Scope R_scope.

Definition fexp64 : Z -> Z := SpecFloat.fexp 53 1024.
Definition fmt (x : R) : Prop := generic_format radix2 fexp64 x.
Definition rnd (x : R) : R := round radix2 fexp64 ZnearestE x.

#[global] Instance fexp64_valid : Valid_exp fexp64 := @fexp_correct 53 1024 prec64_gt_0.
#[global] Instance fexp64_mono : Monotone_exp fexp64 := @fexp_monotone 53 1024.

Lemma fexp64_FLT : fexp64 = FLT_exp (-1074) 53.
Proof. reflexivity. Qed.

Lemma fmt_b64 (x : b64) : fmt (B2R x).
Proof. apply generic_format_B2R. Qed.

Lemma fmt_dyadic (m e : Z) : (Z.abs m < 2 ^ 53)%Z -> (-1074 <= e)%Z -> fmt (IZR m * bpow radix2 e).
Proof.
  intros Hm He. unfold fmt. rewrite fexp64_FLT. apply generic_format_FLT.
  exists (Float radix2 m e); [reflexivity|exact Hm|exact He].
Qed.

Lemma fmt_int (z : Z) : (Z.abs z <= 2 ^ 53)%Z -> fmt (IZR z).
Proof.
  intros Hz. destruct (Z.eq_dec (Z.abs z) (2 ^ 53)) as [E|E].
  - assert (z = 2 ^ 53 \/ z = - 2 ^ 53)%Z as [->| ->] by lia.
    + replace (IZR (2 ^ 53)) with (IZR 1 * bpow radix2 53) by (cbn; lra). apply fmt_dyadic; cbn; lia.
    + replace (IZR (- 2 ^ 53)) with (IZR (-1) * bpow radix2 53) by (cbn; lra). apply fmt_dyadic; cbn; lia.
  - replace (IZR z) with (IZR z * bpow radix2 0) by (cbn; lra). apply fmt_dyadic; lia.
Qed.

Lemma fmt_half (z : Z) : (Z.abs z < 2 ^ 53)%Z -> fmt (IZR z / 2).
Proof.
  intros Hz. replace (IZR z / 2) with (IZR z * bpow radix2 (-1)) by (cbn; lra). apply fmt_dyadic; [exact Hz|lia].
Qed.

Lemma fmt_bpow (e : Z) : (-1074 <= e)%Z -> fmt (bpow radix2 e).
Proof. intros H. rewrite <- (Rmult_1_l (bpow radix2 e)). apply (fmt_dyadic 1); [cbn; lia|exact H]. Qed.

Lemma fmt_opp (x : R) : fmt x -> fmt (- x).
Proof. apply generic_format_opp. Qed.

Lemma rnd_le (x y : R) : x <= y -> rnd x <= rnd y.
Proof. apply round_le; typeclasses eauto. Qed.
Lemma rnd_fmt (x : R) : fmt x -> rnd x = x.
Proof. apply round_generic. typeclasses eauto. Qed.
Lemma rnd_ub (x y : R) : fmt y -> x <= y -> rnd x <= y.
Proof. intros F H. rewrite <- (rnd_fmt y F). apply rnd_le. exact H. Qed.
Lemma rnd_lb (x y : R) : fmt x -> x <= y -> x <= rnd y.
Proof. intros F H. rewrite <- (rnd_fmt x F). apply rnd_le. exact H. Qed.

(** No overflow below 2^1023. *)
Lemma rnd_bounded (x : R) : Rabs x <= bpow radix2 1023 -> Rabs (rnd x) < bpow radix2 1024.
Proof.
  intros H. apply Rle_lt_trans with (bpow radix2 1023); [|apply bpow_lt; lia].
  apply Rabs_le_inv in H. apply Rabs_le.
  split; [apply rnd_lb|apply rnd_ub]; try lra; [apply fmt_opp|]; apply fmt_bpow; lia.
Qed.

Lemma b64_add_ok (x y : b64) :
  is_finite x = true -> is_finite y = true -> Rabs (B2R x + B2R y) <= bpow radix2 1023 ->
  B2R (Bplus mode_NE x y) = rnd (B2R x + B2R y) /\ is_finite (Bplus mode_NE x y) = true.
Proof.
  intros Hx Hy Hb. pose proof (Bplus_correct 53 1024 _ _ mode_NE x y Hx Hy) as H.
  rewrite Rlt_bool_true in H by (apply rnd_bounded; exact Hb). destruct H as (H1 & H2 & _). split; assumption.
Qed.

Lemma b64_sub_ok (x y : b64) :
  is_finite x = true -> is_finite y = true -> Rabs (B2R x - B2R y) <= bpow radix2 1023 ->
  B2R (Bminus mode_NE x y) = rnd (B2R x - B2R y) /\ is_finite (Bminus mode_NE x y) = true.
Proof.
  intros Hx Hy Hb. pose proof (Bminus_correct 53 1024 _ _ mode_NE x y Hx Hy) as H.
  rewrite Rlt_bool_true in H by (apply rnd_bounded; exact Hb). destruct H as (H1 & H2 & _). split; assumption.
Qed.

Lemma b64_mul_ok (x y : b64) :
  is_finite x = true -> is_finite y = true -> Rabs (B2R x * B2R y) <= bpow radix2 1023 ->
  B2R (Bmult mode_NE x y) = rnd (B2R x * B2R y) /\ is_finite (Bmult mode_NE x y) = true.
Proof.
  intros Hx Hy Hb. pose proof (Bmult_correct 53 1024 _ _ mode_NE x y) as H.
  rewrite Rlt_bool_true in H by (apply rnd_bounded; exact Hb). destruct H as (H1 & H2 & _).
  split; [exact H1|]. rewrite H2, Hx, Hy. reflexivity.
Qed.

Lemma b64_div_ok (x y : b64) :
  is_finite x = true -> B2R y <> 0 -> Rabs (B2R x / B2R y) <= bpow radix2 1023 ->
  B2R (Bdiv mode_NE x y) = rnd (B2R x / B2R y) /\ is_finite (Bdiv mode_NE x y) = true.
Proof.
  intros Hx Hy Hb. pose proof (Bdiv_correct 53 1024 _ _ mode_NE x y Hy) as H.
  rewrite Rlt_bool_true in H by (apply rnd_bounded; exact Hb). destruct H as (H1 & H2 & _).
  split; [exact H1|]. rewrite H2. exact Hx.
Qed.

Lemma b64_ofZ (z : Z) : (Z.abs z <= 2 ^ 53)%Z -> B2R (b64_of z 0) = IZR z /\ is_finite (b64_of z 0) = true.
Proof.
  intros Hz. unfold b64_of.
  pose proof (binary_normalize_correct 53 1024 prec64_gt_0 prec64_lt_emax mode_NE z 0 false) as H. cbv zeta in H.
  assert (E : F2R (Float radix2 z 0) = IZR z) by (unfold F2R; cbn; lra).
  rewrite E in H.
  change (round radix2 (SpecFloat.fexp 53 1024) (round_mode mode_NE) (IZR z)) with (rnd (IZR z)) in H.
  rewrite (rnd_fmt _ (fmt_int z Hz)) in H.
  rewrite Rlt_bool_true in H.
  - destruct H as (H1 & H2 & _). split; assumption.
  - rewrite <- abs_IZR. apply Rle_lt_trans with (IZR (2 ^ 53)); [apply IZR_le; exact Hz|].
    replace (IZR (2 ^ 53)) with (bpow radix2 53) by (cbn; lra). apply bpow_lt. lia.
Qed.

Lemma b64_trunc_ok (x : b64) : is_finite x = true -> b64_trunc x = Some (Ztrunc (B2R x)).
Proof.
  intros H. unfold b64_trunc. rewrite H. f_equal. apply eq_IZR. rewrite Btrunc_correct by typeclasses eauto.
  unfold round, F2R, scaled_mantissa, cexp, FIX_exp. cbn. rewrite !Rmult_1_r. reflexivity.
Qed.

Lemma IZR_bpow1023 (z : Z) : (Z.abs z <= 2 ^ 200)%Z -> Rabs (IZR z) <= bpow radix2 1023.
Proof.
  intros H. rewrite <- abs_IZR. apply Rle_trans with (IZR (2 ^ 200)); [apply IZR_le; exact H|].
  replace (IZR (2 ^ 200)) with (bpow radix2 200) by (cbn; lra). apply bpow_le. lia.
Qed.

(** Rounding error of a sum: half an ulp, at most 2^-53 relative or half the
    smallest subnormal. *)
Lemma rnd_error (x : R) : Rabs (rnd x - x) <= Rmax (bpow radix2 (-1075)) (bpow radix2 (-53) * Rabs x).
Proof.
  pose proof (error_le_half_ulp radix2 fexp64 (fun x => negb (Z.even x)) x) as H. fold (rnd x) in H.
  change (round radix2 fexp64 ZnearestE x) with (rnd x) in H.
  eapply Rle_trans; [exact H|]. rewrite fexp64_FLT.
  destruct (Rlt_le_dec (Rabs x) (bpow radix2 (-1074 + 53))) as [Hs|Hl].
  - rewrite ulp_FLT_small by (typeclasses eauto || exact Hs).
    eapply Rle_trans; [|apply Rmax_l]. replace (-1074)%Z with (1 + -1075)%Z by lia. rewrite bpow_plus.
    change (bpow radix2 1) with 2. lra.
  - eapply Rle_trans; [|apply Rmax_r].
    pose proof (ulp_FLT_le radix2 (-1074) 53 x) as Hu.
    assert (ulp radix2 (FLT_exp (-1074) 53) x <= Rabs x * bpow radix2 (1 - 53)).
    { apply Hu. eapply Rle_trans; [|exact Hl]. apply bpow_le. lia. }
    replace (bpow radix2 (-53)) with (/ 2 * bpow radix2 (1 - 53)).
    + lra.
    + replace (1 - 53)%Z with (1 + -53)%Z by lia. rewrite bpow_plus. change (bpow radix2 1) with 2. lra.
Qed.
