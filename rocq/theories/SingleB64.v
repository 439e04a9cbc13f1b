(** Rounding to single precision, and the directions of the readings. *)

From Coq Require Import ZArith Reals List Lia Lra.
From Flocq Require Import Core Relative BinarySingleNaN.
From Verif Require Import Outcome Arith TypesModel LaserModel B64Tactics B64Lemmas CellB64 SpecPlace64 SpecLaser64.
Local Open Scope R_scope.

Lemma b64_of_exact (m e : Z) : fmt (F2R (Float radix2 m e)) -> Rabs (F2R (Float radix2 m e)) <= bpow radix2 1023 ->
  B2R (b64_of m e) = F2R (Float radix2 m e) /\ is_finite (b64_of m e) = true.
Proof.
  intros F B. unfold b64_of.
  pose proof (binary_normalize_correct 53 1024 prec64_gt_0 prec64_lt_emax mode_NE m e false) as H. cbv zeta in H.
  change (round radix2 (SpecFloat.fexp 53 1024) (round_mode mode_NE) (F2R (Float radix2 m e))) with (rnd (F2R (Float radix2 m e))) in H.
  rewrite rnd_fmt in H by exact F. rewrite Rlt_bool_true in H; [split; apply H|].
  eapply Rle_lt_trans; [exact B|]. apply bpow_lt. lia.
Qed.

Definition u32s : R := bpow radix2 (-24).
Definition eta32 : R := bpow radix2 (-150).

Lemma single_err (x : b64) : is_finite x = true -> Rabs (B2R x) <= bpow radix2 126 ->
  is_finite (b64_single x) = true /\ Rabs (B2R (b64_single x) - B2R x) <= u32s * Rabs (B2R x) + eta32.
Proof.
  intros F B. destruct x as [s|s| |s m e W]; try discriminate F.
  - split; [reflexivity|]. cbn [b64_single B2R]. rewrite Rminus_0_r, Rabs_R0, Rmult_0_r. unfold eta32. pose proof (bpow_gt_0 radix2 (-150)). lra.
  - unfold b64_single.
    pose proof (binary_normalize_correct 24 128 prec32_gt_0 prec32_lt_emax mode_NE (SpecFloat.cond_Zopp s (Zpos m)) e s) as C.
    cbv zeta in C.
    set (f32 := SpecFloat.fexp 24 128) in *.
    set (rd := round radix2 f32 (round_mode mode_NE)) in *.
    set (v := F2R (Float radix2 (SpecFloat.cond_Zopp s (Zpos m)) e)) in *.
    assert (Ev : B2R (B754_finite s m e W : b64) = v) by reflexivity. rewrite Ev in *.
    assert (V32 : Valid_exp f32) by (apply (fexp_correct 24 128); reflexivity).
    assert (G : generic_format radix2 f32 (bpow radix2 126)).
    { apply generic_format_bpow'; [exact V32|]. unfold f32, SpecFloat.fexp, SpecFloat.emin. lia. }
    assert (Br : Rabs (rd v) <= bpow radix2 126).
    { apply Rabs_le. apply Rabs_le_inv in B. split.
      - apply round_ge_generic; [exact V32|apply valid_rnd_round_mode|apply generic_format_opp; exact G|lra].
      - apply round_le_generic; [exact V32|apply valid_rnd_round_mode|exact G|lra]. }
    rewrite Rlt_bool_true in C.
    2:{ eapply Rle_lt_trans; [exact Br|]. apply bpow_lt. lia. }
    assert (Er : Rabs (rd v - v) <= u32s * Rabs v + eta32).
    { destruct (error_N_FLT radix2 (-149) 24 ltac:(lia) (fun x => negb (Z.even x)) v) as (eps & eta & H1 & H2 & _ & H3).
      assert (H4 : rd v = v * (1 + eps) + eta) by exact H3. rewrite H4.
      replace (v * (1 + eps) + eta - v) with (v * eps + eta) by ring. eapply Rle_trans; [apply Rabs_triang|]. rewrite Rabs_mult.
      assert (E1 : / 2 * bpow radix2 (-24 + 1) = u32s) by (unfold u32s; rewrite bpow_plus; change (bpow radix2 1) with 2; lra).
      assert (E2 : / 2 * bpow radix2 (-149) = eta32) by (unfold eta32; change (-149)%Z with (-150 + 1)%Z; rewrite bpow_plus; change (bpow radix2 1) with 2; lra).
      change (- (24) + 1)%Z with (-24 + 1)%Z in H1. rewrite E1 in H1. rewrite E2 in H2. rewrite (Rmult_comm u32s).
      apply Rplus_le_compat; [|exact H2]. apply Rmult_le_compat_l; [apply Rabs_pos|exact H1]. }
    assert (Gr : fmt (rd v)).
    { apply generic_inclusion_mag with f32.
      - intros _. unfold f32, SpecFloat.fexp, fexp64, SpecFloat.fexp, SpecFloat.emin. lia.
      - apply generic_format_round; [exact V32|apply valid_rnd_round_mode]. }
    destruct C as (V & Fb & _). 
    destruct (binary_normalize 24 128 prec32_gt_0 prec32_lt_emax mode_NE (SpecFloat.cond_Zopp s (Zpos m)) e s)
      as [s'|s'| |s' m' e' W'] eqn:N; try discriminate Fb.
    + split; [reflexivity|]. cbn [B2R] in *. rewrite V. exact Er.
    + change (B2R (B754_finite s' m' e' W')) with (F2R (Float radix2 (SpecFloat.cond_Zopp s' (Zpos m')) e')) in V.
      destruct (b64_of_exact (SpecFloat.cond_Zopp s' (Zpos m')) e') as [Vo Fo].
      * rewrite V. exact Gr.
      * rewrite V. eapply Rle_trans; [exact Br|]. apply bpow_le. lia.
      * split; [exact Fo|]. rewrite Vo, V. exact Er.
Qed.

Lemma beam_direction (lm : libm) (m : laser_msg b64) (i : nat) : upto (bpow radix2 60) (lr_angle_min m) -> upto (bpow radix2 20) (lr_angle_inc m) ->
  (Z.of_nat i <= 2 ^ 40)%Z ->
  is_finite (beam_angle (A := BA lm) m i) = true /\ direction m i (B2R (beam_angle (A := BA lm) m i)).
Proof.
  intros [FA BAm] [FI BI] Hi. unfold beam_angle, direction. cbn [nsingle nadd nmul nofZ BA].
  destruct (b64_ofZ (Z.of_nat i) ltac:(lia)) as [Vi Fi]. rewrite <- INR_IZR_INZ in Vi.
  set (n := INR i) in *.
  assert (n0 : 0 <= n) by apply pos_INR.
  assert (nB : n <= 1099511627776) by (unfold n; rewrite INR_IZR_INZ; apply (IZR_le _ 1099511627776); lia).
  set (am := B2R (lr_angle_min m)) in *. set (ai := B2R (lr_angle_inc m)) in *.
  assert (U : u32s = / 16777216) by reflexivity. assert (D : u64 <= / 1000000000000000) by (rewrite u64_val; lra). pose proof u64_pos as D0.
  assert (T0 : 0 < eta32) by apply bpow_gt_0.
  assert (T1 : eta32 <= / 1000000000000). { apply Rle_trans with (bpow radix2 (-40)); [apply bpow_le; lia|cbn; lra]. }
  assert (T2 : eta64 <= eta32) by (apply bpow_le; lia). pose proof eta64_pos as T3.
  assert (T4 : 16 * eta32 <= bpow radix2 (-22) * bpow radix2 (-120)).
  { rewrite <- bpow_plus. change 16 with (bpow radix2 4). unfold eta32. rewrite <- bpow_plus. apply bpow_le. lia. }
  assert (P126 : bpow radix2 126 = 85070591730234615865843651857942052864) by (cbn; lra).
  assert (P60 : bpow radix2 60 = 1152921504606846976) by (cbn; lra).
  assert (P20 : bpow radix2 20 = 1048576) by (cbn; lra).
  assert (P22 : bpow radix2 (-22) = / 4194304) by (cbn; lra).
  assert (BIG : bpow radix2 126 <= bpow radix2 1023) by (apply bpow_le; lia).
  rewrite P60 in BAm. rewrite P20 in BI.
  assert (X0 : 0 <= Rabs ai) by apply Rabs_pos. set (X := n * Rabs ai).
  assert (XP : 0 <= X) by (apply Rmult_le_pos; lra).
  assert (XB : X <= 1152921504606846976).
  { unfold X. apply Rle_trans with (1099511627776 * 1048576); [apply Rmult_le_compat; lra|lra]. }
  destruct (single_err (b64_of (Z.of_nat i) 0) Fi) as [F1 E1].
  { rewrite Vi, Rabs_pos_eq by exact n0. lra. }
  set (s1 := b64_single (b64_of (Z.of_nat i) 0)) in *. rewrite Vi in E1. rewrite (Rabs_pos_eq n) in E1 by exact n0.
  assert (E1' : Rabs (B2R s1 - n) <= (u32s + eta32) * n).
  { destruct i as [|i].
    - unfold s1, n. cbn. rewrite Rminus_0_r, Rabs_R0. lra.
    - assert (1 <= n) by (unfold n; rewrite S_INR; pose proof (pos_INR i); lra).
      assert (eta32 * 1 <= eta32 * n) by (apply Rmult_le_compat_l; lra). lra. }
  assert (E2 : Rabs (B2R s1 * ai - n * ai) <= (u32s + eta32) * X).
  { replace (B2R s1 * ai - n * ai) with ((B2R s1 - n) * ai) by ring. rewrite Rabs_mult. unfold X. rewrite <- Rmult_assoc.
    apply Rmult_le_compat_r; assumption. }
  assert (AX : Rabs (n * ai) = X) by (rewrite Rabs_mult, (Rabs_pos_eq n) by exact n0; reflexivity).
  assert (E2b : (u32s + eta32) * X <= / 8388608 * X) by (apply Rmult_le_compat_r; lra).
  assert (E2c : (u32s + eta32) * X <= u32s * X + / 1000000000000 * X).
  { rewrite <- Rmult_plus_distr_r. apply Rmult_le_compat_r; lra. }
  assert (S2 : Rabs (B2R s1 * ai) <= 1.01 * X).
  { replace (B2R s1 * ai) with ((B2R s1 * ai - n * ai) + n * ai) by ring. eapply Rle_trans; [apply Rabs_triang|]. lra. }
  destruct (b64_mul_ok s1 (lr_angle_inc m) F1 FI) as [V3 F3].
  { fold ai. lra. }
  set (p := Bmult mode_NE s1 (lr_angle_inc m)) in *. fold ai in V3.
  assert (E3 : Rabs (B2R p - B2R s1 * ai) <= / 100000000000000 * X + eta64).
  { rewrite V3. eapply Rle_trans; [apply rnd_err|]. apply Rplus_le_compat_r.
    apply Rle_trans with (/ 1000000000000000 * (1.01 * X)); [apply Rmult_le_compat; try apply Rabs_pos; lra|lra]. }
  assert (S3 : Rabs (B2R p) <= 1.02 * X + eta64).
  { replace (B2R p) with ((B2R p - B2R s1 * ai) + B2R s1 * ai) by ring. eapply Rle_trans; [apply Rabs_triang|]. lra. }
  destruct (single_err p F3) as [F4 E4]; [lra|].
  set (p32 := b64_single p) in *.
  assert (S4 : Rabs (B2R p32) <= 1.03 * X + 4 * eta32).
  { replace (B2R p32) with ((B2R p32 - B2R p) + B2R p) by ring. eapply Rle_trans; [apply Rabs_triang|]. rewrite U in E4. lra. }
  assert (Y0 : 0 <= Rabs am) by apply Rabs_pos.
  assert (S5 : Rabs (am + B2R p32) <= Rabs am + 1.03 * X + 4 * eta32).
  { eapply Rle_trans; [apply Rabs_triang|]. lra. }
  destruct (b64_add_ok (lr_angle_min m) p32 FA F4) as [V5 F5].
  { fold am. lra. }
  set (q := Bplus mode_NE (lr_angle_min m) p32) in *. fold am in V5.
  assert (E5 : Rabs (B2R q - (am + B2R p32)) <= / 100000000000000 * (Rabs am + X) + 2 * eta32).
  { rewrite V5. eapply Rle_trans; [apply rnd_err|].
    assert (u64 * Rabs (am + B2R p32) <= / 1000000000000000 * (Rabs am + 1.03 * X + 4 * eta32)) by (apply Rmult_le_compat; try apply Rabs_pos; lra). lra. }
  assert (S6 : Rabs (B2R q) <= 1.01 * Rabs am + 1.04 * X + 8 * eta32).
  { replace (B2R q) with ((B2R q - (am + B2R p32)) + (am + B2R p32)) by ring. eapply Rle_trans; [apply Rabs_triang|]. lra. }
  destruct (single_err q F5) as [F6 E6]; [lra|]. split; [exact F6|].
  set (q32 := b64_single q) in *.
  replace (B2R q32 - (am + n * ai)) with ((B2R q32 - B2R q) + ((B2R q - (am + B2R p32)) + ((B2R p32 - B2R p) + ((B2R p - B2R s1 * ai) + (B2R s1 * ai - n * ai))))) by ring.
  eapply Rle_trans; [apply Rabs_triang|]. eapply Rle_trans; [apply Rplus_le_compat_l, Rabs_triang|].
  eapply Rle_trans; [apply Rplus_le_compat_l, Rplus_le_compat_l, Rabs_triang|].
  eapply Rle_trans; [apply Rplus_le_compat_l, Rplus_le_compat_l, Rplus_le_compat_l, Rabs_triang|].
  rewrite Rmult_plus_distr_l. fold X. rewrite U in *. rewrite P22 in *. lra.
Qed.
