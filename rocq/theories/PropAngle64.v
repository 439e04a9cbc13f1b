(** C125: angles in double arithmetic. *)

From Coq Require Import ZArith Reals List Bool Lia Lra Machin.
From Flocq Require Import Core BinarySingleNaN.
From Verif Require Import Outcome Arith TypesModel MotionModel ConstraintModel B64Tactics B64Lemmas CellB64 PropGrid64 MapperWitness2 SpecAngle64.
Local Open Scope R_scope.

(** ** M_PI *)
Definition pi_q : R := 884279719003555 / 281474976710656.

Lemma pi_low : pi_q < PI.
Proof.
  unfold pi_q. pose proof (PI_2_3_7_ineq 9) as [H _].
  cbv [sum_f_R0 tg_alt PI_2_3_7_tg Ratan_seq Nat.mul Nat.add INR pow] in H. lra.
Qed.
Lemma pi_high : PI < pi_q + 2 * u64.
Proof.
  rewrite u64_val. unfold pi_q. pose proof (PI_2_3_7_ineq 9) as [_ H].
  cbv [sum_f_R0 tg_alt PI_2_3_7_tg Ratan_seq Nat.mul Nat.add INR pow] in H. lra.
Qed.

Lemma pi64 : B2R b64_pi = pi_q /\ is_finite b64_pi = true.
Proof.
  destruct (b64_dy 884279719003555 (-48)) as [V F]; [cbn; lia|lia|]. fold b64_pi in V, F.
  split; [|exact F]. rewrite V. unfold pi_q. cbn. lra.
Qed.

(** The model's M_PI is the double nearest to pi. *)
Theorem C125_pi : B2R b64_pi < PI < B2R b64_pi + bpow radix2 (-52) /\
  forall x : b64, Rabs (B2R b64_pi - PI) <= Rabs (B2R x - PI).
Proof.
  destruct pi64 as [V _]. rewrite V. pose proof pi_low as L. pose proof pi_high as H.
  assert (U : 2 * u64 = bpow radix2 (-52)) by (unfold u64; change (bpow radix2 (-52)) with (/ IZR (2 ^ 52)); change (bpow radix2 (-53)) with (/ IZR (2 ^ 53)); cbn; lra).
  rewrite U in H. split; [lra|]. intros x.
  assert (N : rnd PI = pi_q).
  { assert (F1 : fmt pi_q) by (rewrite <- V; apply fmt_b64).
    set (c := pi_q + bpow radix2 (-52)).
    apply Rle_antisym.
    - apply (round_N_le_midp radix2 fexp64 (fun t => negb (Z.even t)) pi_q PI F1).
      assert (S : succ radix2 fexp64 pi_q = pi_q + bpow radix2 (-51)).
      { rewrite succ_eq_pos by (unfold pi_q; lra). f_equal. rewrite ulp_neq_0 by (unfold pi_q; lra).
        unfold cexp. rewrite (mag_unique radix2 pi_q 2).
        - reflexivity.
        - unfold pi_q. rewrite Rabs_pos_eq by lra. cbn. lra. }
      rewrite S. replace (bpow radix2 (-51)) with (2 * bpow radix2 (-52)) by (cbn; lra). lra.
    - apply rnd_lb; [exact F1|lra]. }
  rewrite <- N. exact (proj2 (round_N_pt radix2 fexp64 (fun t => negb (Z.even t)) PI) (B2R x) (fmt_b64 x)).
Qed.
Print Assumptions C125_pi.

(** ** normalize_angle *)
Lemma two_pi64 (lm : libm) : B2R (nmul (Arith := BA lm) (nofZ (Arith := BA lm) 2) (npi (Arith := BA lm))) = 2 * pi_q /\
  is_finite (nmul (Arith := BA lm) (nofZ (Arith := BA lm) 2) (npi (Arith := BA lm))) = true.
Proof.
  cbn [nmul nofZ npi BA]. destruct pi64 as [V F]. destruct (b64_ofZ 2) as [V2 F2]; [cbn; lia|].
  assert (P : B2R (b64_of 2 0) * B2R b64_pi = 2 * pi_q) by (rewrite V, V2; lra).
  destruct (b64_mul_ok (b64_of 2 0) b64_pi F2 F) as [M G].
  - rewrite P. apply Rle_trans with 8; [unfold pi_q; rewrite Rabs_pos_eq; lra|].
    change 8 with (bpow radix2 3). apply bpow_le. lia.
  - split; [|exact G]. rewrite M, P. apply rnd_fmt.
    replace (2 * pi_q) with (IZR 884279719003555 * bpow radix2 (-47)) by (unfold pi_q; cbn; lra).
    apply fmt_dyadic; cbn; lia.
Qed.

Lemma eta_tiny : eta64 <= u64 * / 1000.
Proof.
  pose proof (eta_scale 1) as H. rewrite Rmult_1_r in H. apply H. change 1 with (bpow radix2 0). apply bpow_le. lia.
Qed.

Lemma add_pi (a : b64) : is_finite a = true -> Rabs (B2R a) <= bpow radix2 1000 ->
  is_finite (Bplus mode_NE a b64_pi) = true /\
  Rabs (B2R (Bplus mode_NE a b64_pi) - (B2R a + pi_q)) <= u64 * (Rabs (B2R a) + 3.2).
Proof.
  intros F B. destruct pi64 as [V FP].
  assert (T : Rabs (B2R a + pi_q) <= Rabs (B2R a) + pi_q).
  { eapply Rle_trans; [apply Rabs_triang|]. rewrite (Rabs_pos_eq pi_q); unfold pi_q; lra. }
  destruct (b64_add_ok a b64_pi F FP) as [W G].
  - rewrite V. apply (Rle_trans _ _ _ T). apply Rle_trans with (bpow radix2 1000 + bpow radix2 1000).
    + apply Rplus_le_compat; [exact B|]. apply Rle_trans with (bpow radix2 2); [cbn; unfold pi_q; lra|apply bpow_le; lia].
    + rewrite <- (Rmult_1_l (bpow radix2 1000)) at 1 2. rewrite <- Rmult_plus_distr_r. change (1 + 1) with (bpow radix2 1).
      rewrite <- bpow_plus. apply bpow_le. lia.
  - split; [exact G|]. rewrite W, V. pose proof (rnd_err (B2R a + pi_q)) as E. pose proof eta_tiny. pose proof u64_pos.
    eapply Rle_trans; [exact E|].
    assert (u64 * Rabs (B2R a + pi_q) <= u64 * (Rabs (B2R a) + pi_q)) by (apply Rmult_le_compat_l; [lra|exact T]).
    unfold pi_q in *. rewrite !Rmult_plus_distr_l in *. lra.
Qed.

(** Turning [k] times by twice M_PI is turning [k] times by twice pi. *)
Lemma turns (k : Z) (m : R) : Rabs (IZR k) <= m -> Rabs (2 * pi_q * IZR k - 2 * PI * IZR k) <= 4 * u64 * m.
Proof.
  intros H. replace (2 * pi_q * IZR k - 2 * PI * IZR k) with (2 * (pi_q - PI) * IZR k) by ring.
  rewrite Rabs_mult. pose proof pi_low. pose proof pi_high. pose proof u64_pos.
  apply Rmult_le_compat; [apply Rabs_pos|apply Rabs_pos| |exact H].
  apply Rabs_le. lra.
Qed.

Lemma error_val (a : R) : angle_error a = 4 * u64 * (Rabs a + 8).
Proof. unfold angle_error, u64. change (bpow radix2 (-51)) with (/ IZR (2 ^ 51)). change (bpow radix2 (-53)) with (/ IZR (2 ^ 53)). cbn. lra. Qed.

Theorem C125_normalize_angle (lm : libm) (a : b64) : exact_fmod lm ->
  is_finite a = true -> Rabs (B2R a) <= bpow radix2 1000 ->
  heading_within (angle_error (B2R a)) (normalize_angle (A := BA lm) a) (B2R a) /\
  Rabs (B2R (normalize_angle (A := BA lm) a)) <= B2R b64_pi.
Proof.
  intros X F B. destruct (add_pi a F B) as [Fs Es]. destruct pi64 as [V FP]. destruct (two_pi64 lm) as [V2 F2].
  unfold normalize_angle.
  set (y := nmul (Arith := BA lm) (nofZ (Arith := BA lm) 2) (npi (Arith := BA lm))) in *.
  change (nadd (Arith := BA lm) a (npi (Arith := BA lm))) with (Bplus mode_NE a b64_pi).
  set (s := Bplus mode_NE a b64_pi) in *.
  assert (Y0 : B2R y <> 0) by (rewrite V2; unfold pi_q; lra).
  destruct (X s y Fs F2 Y0) as (Fr & (n & En) & Lt & Sg).
  change (nfmod (Arith := BA lm) s y) with (lm_fmod lm s y).
  set (r := lm_fmod lm s y) in *. rewrite V2 in En, Lt.
  rewrite (Rabs_pos_eq (2 * pi_q)) in Lt by (unfold pi_q; lra).
  pose proof u64_pos as U. pose proof u64_small as US. pose proof eta_tiny as ET.
  assert (Hn : Rabs (IZR n) <= (Rabs (B2R a) + 3.2) / 6 + 1.1).
  { assert (Q : Rabs (IZR n) * (2 * pi_q) <= Rabs (B2R s) + 2 * pi_q).
    { rewrite <- (Rabs_pos_eq (2 * pi_q)) at 1 by (unfold pi_q; lra). rewrite <- Rabs_mult.
      replace (IZR n * (2 * pi_q)) with (B2R s - B2R r) by (rewrite En; ring).
      eapply Rle_trans; [apply Rabs_triang|]. rewrite Rabs_Ropp. lra. }
    assert (Q2 : Rabs (B2R s) <= Rabs (B2R a) + pi_q + u64 * (Rabs (B2R a) + 3.2)).
    { replace (B2R s) with ((B2R a + pi_q) + (B2R s - (B2R a + pi_q))) by ring.
      eapply Rle_trans; [apply Rabs_triang|]. apply Rplus_le_compat; [|exact Es].
      eapply Rle_trans; [apply Rabs_triang|]. rewrite (Rabs_pos_eq pi_q); unfold pi_q; lra. }
    assert (Q3 : u64 * (Rabs (B2R a) + 3.2) <= / 1000000000000000 * (Rabs (B2R a) + 3.2)).
    { apply Rmult_le_compat_r; [pose proof (Rabs_pos (B2R a)); lra|exact US]. }
    pose proof (Rabs_pos (B2R a)). pose proof (Rabs_pos (IZR n)).
    unfold pi_q in Q, Q2. lra. }
  assert (Core : forall (t : R) (j : Z), Rabs (B2R r + t) <= pi_q -> t = pi_q \/ t = - pi_q ->
            t + pi_q = 2 * pi_q * IZR j -> Rabs (IZR j) <= 1 ->
            Rabs (rnd (B2R r + t) - (B2R a + 2 * PI * IZR (j - n))) <= angle_error (B2R a)).
  { intros t j Ht _ Ej Hj. rewrite error_val.
    pose proof (rnd_err (B2R r + t)) as E3.
    assert (E3' : Rabs (rnd (B2R r + t) - (B2R r + t)) <= u64 * 3.2).
    { eapply Rle_trans; [exact E3|].
      assert (u64 * Rabs (B2R r + t) <= u64 * pi_q) by (apply Rmult_le_compat_l; lra). unfold pi_q in *. lra. }
    assert (T : Rabs (2 * pi_q * IZR (j - n) - 2 * PI * IZR (j - n)) <= 4 * u64 * ((Rabs (B2R a) + 3.2) / 6 + 2.1)).
    { apply turns. rewrite minus_IZR. eapply Rle_trans; [apply Rabs_triang|]. rewrite Rabs_Ropp. lra. }
    replace (rnd (B2R r + t) - (B2R a + 2 * PI * IZR (j - n))) with
      ((rnd (B2R r + t) - (B2R r + t)) + (B2R s - (B2R a + pi_q)) + (2 * pi_q * IZR (j - n) - 2 * PI * IZR (j - n)))
      by (rewrite minus_IZR, En; nra).
    eapply Rle_trans; [apply Rabs_triang|]. eapply Rle_trans; [apply Rplus_le_compat_r, Rabs_triang|].
    assert (A0 : 0 <= u64 * Rabs (B2R a)) by (apply Rmult_le_pos; [lra|apply Rabs_pos]).
    unfold Rdiv in *. rewrite !Rmult_plus_distr_l in *. rewrite !Rmult_plus_distr_r in *. rewrite !Rmult_plus_distr_l in *.
    lra. }
  apply Rabs_def2 in Lt.
  change (nle (Arith := BA lm) r (nzero (A := BA lm))) with (Bleb r (b64_of 0 0)).
  change (nadd (Arith := BA lm) r (npi (Arith := BA lm))) with (Bplus mode_NE r b64_pi).
  change (nsub (Arith := BA lm) r (npi (Arith := BA lm))) with (Bminus mode_NE r b64_pi).
  assert (Big : pi_q <= bpow radix2 1023).
  { apply Rle_trans with (bpow radix2 2); [cbn; unfold pi_q; lra|apply bpow_le; lia]. }
  assert (FQ : fmt pi_q) by (rewrite <- V; apply fmt_b64).
  assert (Rng : forall z, Rabs z <= pi_q -> Rabs (rnd z) <= pi_q).
  { intros z Hz. apply Rabs_le_inv in Hz. apply Rabs_le. split; [apply rnd_lb; [apply fmt_opp; exact FQ|lra]|apply rnd_ub; [exact FQ|lra]]. }
  destruct b64_zero as [Z0 FZ].
  rewrite (Bleb_correct _ _ _ _ Fr FZ), Z0. rewrite V.
  destruct (Rle_bool_spec (B2R r) 0) as [L|L].
  - assert (Ht : Rabs (B2R r + pi_q) <= pi_q) by (apply Rabs_le; unfold pi_q in *; lra).
    destruct (b64_add_ok r b64_pi Fr FP) as [W G]; [rewrite V; lra|].
    rewrite V in W. split; [split; [exact G|]|rewrite W; apply Rng; exact Ht].
    exists (1 - n)%Z. rewrite W. apply Core; [exact Ht|left; reflexivity|cbn; lra|rewrite Rabs_R1; lra].
  - assert (Ht : Rabs (B2R r + - pi_q) <= pi_q) by (apply Rabs_le; unfold pi_q in *; lra).
    destruct (b64_sub_ok r b64_pi Fr FP) as [W G]; [rewrite V; unfold Rminus; lra|].
    rewrite V in W. split; [split; [exact G|]|rewrite W; apply Rng; exact Ht].
    exists (0 - n)%Z. rewrite W. apply Core; [exact Ht|right; reflexivity|cbn; lra|rewrite Rabs_R0; lra].
Qed.
Print Assumptions C125_normalize_angle.

(** ** NormalizeAngle of the residual *)
Lemma floor64 (x : b64) : is_finite x = true ->
  B2R (Bnearbyint mode_DN x) = IZR (Zfloor (B2R x)) /\ is_finite (Bnearbyint mode_DN x) = true.
Proof.
  intros F. destruct (Bnearbyint_correct 53 1024 prec64_lt_emax mode_DN x) as (V & G & _).
  split; [|rewrite G; exact F]. rewrite V.
  unfold round, F2R, scaled_mantissa, cexp, FIX_exp. cbn. rewrite !Rmult_1_r. reflexivity.
Qed.

Theorem C125_residual_angle (lm : libm) (a : b64) : is_finite a = true -> Rabs (B2R a) <= bpow radix2 1000 ->
  heading_within (angle_error (B2R a)) (ceres_normalize (A := BA lm) a) (B2R a) /\
  Rabs (B2R (ceres_normalize (A := BA lm) a)) <= PI + angle_error (B2R a).
Proof.
  intros F B. destruct (add_pi a F B) as [Fs Es]. destruct pi64 as [V FP]. destruct (two_pi64 lm) as [V2 F2].
  unfold ceres_normalize, two_pi.
  set (y := nmul (Arith := BA lm) (nofZ (Arith := BA lm) 2) (npi (Arith := BA lm))) in *.
  cbn [nadd nsub nmul ndiv nfloor npi BA].
  set (s := Bplus mode_NE a b64_pi) in *.
  assert (Y0 : B2R y <> 0) by (rewrite V2; unfold pi_q; lra).
  pose proof u64_pos as U. pose proof u64_small as US. pose proof eta_tiny as ET. pose proof eta64_pos as EP.
  pose proof (Rabs_pos (B2R a)) as A0.
  set (m := Rabs (B2R a)) in *.
  assert (UM : u64 * m <= / 1000000000000000 * m) by (apply Rmult_le_compat_r; [exact A0|exact US]).
  assert (UM0 : 0 <= u64 * m) by (apply Rmult_le_pos; lra).
  assert (UUM : u64 * (u64 * m) <= / 1000000000000000 * (u64 * m)) by (apply Rmult_le_compat_r; [exact UM0|exact US]).
  assert (UU : u64 * u64 <= / 1000000000000000 * u64) by (apply Rmult_le_compat_r; [lra|exact US]).
  assert (Bs : Rabs (B2R s) <= m + 3.2 + u64 * (m + 3.2)).
  { replace (B2R s) with ((B2R a + pi_q) + (B2R s - (B2R a + pi_q))) by ring.
    eapply Rle_trans; [apply Rabs_triang|]. apply Rplus_le_compat; [|exact Es].
    eapply Rle_trans; [apply Rabs_triang|]. rewrite (Rabs_pos_eq pi_q) by (unfold pi_q; lra). fold m. unfold pi_q. lra. }
  assert (BsM : Rabs (B2R s) <= 2 * m + 4) by (rewrite Rmult_plus_distr_l in Bs; lra).
  (* the quotient *)
  assert (Qa : Rabs (B2R s / B2R y) <= Rabs (B2R s) / 6).
  { rewrite V2. unfold Rdiv. rewrite Rabs_mult. apply Rmult_le_compat_l; [apply Rabs_pos|].
    rewrite Rabs_inv, Rabs_pos_eq by (unfold pi_q; lra). apply Rinv_le; unfold pi_q; lra. }
  assert (Bm : m <= bpow radix2 1000) by exact B.
  assert (Lim : forall t, t <= 2 * m + 100 -> t <= bpow radix2 1023).
  { intros t Ht. apply Rle_trans with (4 * bpow radix2 1000).
    - assert (100 <= bpow radix2 1000) by (apply Rle_trans with (bpow radix2 7); [cbn; lra|apply bpow_le; lia]). lra.
    - change 4 with (bpow radix2 2). rewrite <- bpow_plus. apply bpow_le. lia. }
  destruct (b64_div_ok s y Fs Y0) as [Vq Fq]; [apply Lim; lra|].
  set (q := Bdiv mode_NE s y) in *.
  assert (Eq : Rabs (B2R q - B2R s / B2R y) <= u64 * ((1.01 * m + 3.3) / 6) + u64 * / 1000).
  { rewrite Vq. eapply Rle_trans; [apply rnd_err|].
    assert (u64 * Rabs (B2R s / B2R y) <= u64 * ((m + 3.2) / 6 + (u64 * (m + 3.2)) / 6)).
    { apply Rmult_le_compat_l; lra. }
    assert (eta64 <= u64 * / 10000).
    { pose proof (eta_scale (bpow radix2 (-10))) as P. eapply Rle_trans; [apply P; apply bpow_le; lia|].
      rewrite Rmult_assoc. apply Rmult_le_compat_l; [lra|]. cbn. lra. }
    unfold Rdiv in *. rewrite !Rmult_plus_distr_l, !Rmult_plus_distr_r, !Rmult_plus_distr_l in *. rewrite <- !Rmult_assoc in *. lra. }
  destruct (floor64 q Fq) as [Vf Ff]. set (f := Bnearbyint mode_DN q) in *.
  pose proof (Zfloor_lb (B2R q)) as Lb. pose proof (Zfloor_ub (B2R q)) as Ub.
  set (n := Zfloor (B2R q)) in *.
  (* a + pi - n * 2 pi lies in [0, 2 pi] up to rounding *)
  set (d := u64 * (2.2 * m + 8)).
  assert (QS : Rabs (B2R q * (2 * pi_q) - (B2R a + pi_q)) <= d).
  { replace (B2R q * (2 * pi_q) - (B2R a + pi_q)) with
      ((B2R q - B2R s / B2R y) * (2 * pi_q) + (B2R s - (B2R a + pi_q))) by (rewrite V2; field; unfold pi_q; lra).
    eapply Rle_trans; [apply Rabs_triang|]. rewrite Rabs_mult, (Rabs_pos_eq (2 * pi_q)) by (unfold pi_q; lra).
    assert (Rabs (B2R q - B2R s / B2R y) * (2 * pi_q) <= (u64 * ((1.01 * m + 3.3) / 6) + u64 * / 1000) * 6.29).
    { apply Rmult_le_compat; [apply Rabs_pos|unfold pi_q; lra|exact Eq|unfold pi_q; lra]. }
    unfold d. unfold Rdiv in *. rewrite !Rmult_plus_distr_l in *. rewrite !Rmult_plus_distr_r in *. rewrite !Rmult_plus_distr_l in *. lra. }
  apply Rabs_le_inv in QS.
  assert (NB : - d <= B2R a + pi_q - IZR n * (2 * pi_q) <= 2 * pi_q + d).
  { split.
    - assert (IZR n * (2 * pi_q) <= B2R q * (2 * pi_q)) by (apply Rmult_le_compat_r; [unfold pi_q|]; lra). lra.
    - assert (B2R q * (2 * pi_q) <= (IZR n + 1) * (2 * pi_q)) by (apply Rmult_le_compat_r; [unfold pi_q|]; lra). lra. }
  assert (D0 : 0 <= d <= / 1000000000000 * m + / 1000000000000).
  { unfold d. rewrite Rmult_plus_distr_l. lra. }
  assert (Nn : Rabs (IZR n) <= (m + 9.5) / 6).
  { assert (Rabs (IZR n) * (2 * pi_q) <= m + 3.2 + 6.3 + d).
    { rewrite <- (Rabs_pos_eq (2 * pi_q)) by (unfold pi_q; lra). rewrite <- Rabs_mult.
      replace (IZR n * (2 * pi_q)) with (B2R a + pi_q - (B2R a + pi_q - IZR n * (2 * pi_q))) by ring.
      assert (Ha : - m <= B2R a <= m) by (apply Rabs_le_inv; unfold m; lra).
      apply Rabs_le. unfold pi_q in *. lra. }
    pose proof (Rabs_pos (IZR n)). unfold pi_q in *. lra. }
  (* the product *)
  assert (Pr : Rabs (B2R y * B2R f) <= 1.05 * m + 10).
  { rewrite V2, Vf. rewrite Rabs_mult, (Rabs_pos_eq (2 * pi_q)) by (unfold pi_q; lra).
    assert (2 * pi_q * Rabs (IZR n) <= 6.29 * ((m + 9.5) / 6)).
    { apply Rmult_le_compat; [unfold pi_q; lra|apply Rabs_pos|unfold pi_q; lra|exact Nn]. }
    lra. }
  destruct (b64_mul_ok y f F2 Ff) as [Vp Fp]; [apply Lim; lra|].
  set (p := Bmult mode_NE y f) in *.
  assert (Ep : Rabs (B2R p - 2 * pi_q * IZR n) <= u64 * (1.05 * m + 10.1)).
  { rewrite Vp. eapply Rle_trans.
    - replace (2 * pi_q * IZR n) with (B2R y * B2R f) by (rewrite V2, Vf; reflexivity). apply rnd_err.
    - assert (u64 * Rabs (B2R y * B2R f) <= u64 * (1.05 * m + 10)) by (apply Rmult_le_compat_l; lra).
      rewrite !Rmult_plus_distr_l in *. lra. }
  assert (Dd : Rabs (B2R a - B2R p) <= pi_q + d + u64 * (1.05 * m + 10.1)).
  { replace (B2R a - B2R p) with ((B2R a - 2 * pi_q * IZR n) - (B2R p - 2 * pi_q * IZR n)) by ring.
    eapply Rle_trans; [apply Rabs_triang|]. rewrite Rabs_Ropp. apply Rplus_le_compat; [|exact Ep].
    apply Rabs_le. lra. }
  assert (E9 : u64 * (1.05 * m + 10.1) <= / 1000000000000 * m + / 1000000000000) by (rewrite Rmult_plus_distr_l; lra).
  destruct (b64_sub_ok a p F Fp) as [Vr Fr]; [apply Lim; unfold pi_q in *; lra|].
  assert (Er : Rabs (B2R (Bminus mode_NE a p) - (B2R a - B2R p)) <= u64 * (/ 100000000 * m + 3.2)).
  { rewrite Vr. eapply Rle_trans; [apply rnd_err|].
    assert (u64 * Rabs (B2R a - B2R p) <= u64 * (3.15 + / 100000000 * m)).
    { apply Rmult_le_compat_l; [lra|]. unfold pi_q in *. lra. }
    rewrite !Rmult_plus_distr_l in *. lra. }
  rewrite error_val. fold m.
  split; [split; [exact Fr|]|].
  - exists (- n)%Z.
    pose proof (turns (- n) ((m + 9.5) / 6)) as T. rewrite opp_IZR, Rabs_Ropp in T. specialize (T Nn).
    replace (B2R (Bminus mode_NE a p) - (B2R a + 2 * PI * IZR (- n))) with
      ((B2R (Bminus mode_NE a p) - (B2R a - B2R p)) + - (B2R p - 2 * pi_q * IZR n) + (2 * pi_q * - IZR n - 2 * PI * - IZR n))
      by (rewrite opp_IZR; ring).
    eapply Rle_trans; [apply Rabs_triang|]. eapply Rle_trans; [apply Rplus_le_compat_r, Rabs_triang|]. rewrite Rabs_Ropp.
    unfold Rdiv in *. rewrite !Rmult_plus_distr_l in *. rewrite !Rmult_plus_distr_r in *. rewrite !Rmult_plus_distr_l in *. lra.
  - pose proof pi_low.
    replace (B2R (Bminus mode_NE a p)) with ((B2R (Bminus mode_NE a p) - (B2R a - B2R p)) + (B2R a - B2R p)) by ring.
    eapply Rle_trans; [apply Rabs_triang|]. unfold d in *.
    rewrite !Rmult_plus_distr_l in *. lra.
Qed.
Print Assumptions C125_residual_angle.

(** ** A mathematical library whose fmod is the one of the standard *)
Definition fmod64 (x y : b64) : b64 :=
  match x, y with
  | B754_finite sx mx ex _, B754_finite sy my ey _ =>
    let e := Z.min ex ey in
    b64_of (Z.rem (cond_Zopp sx (Zpos mx) * 2 ^ (ex - e)) (cond_Zopp sy (Zpos my) * 2 ^ (ey - e))) e
  | _, _ => x
  end.

Lemma shift_val (m : Z) (ex e : Z) : (e <= ex)%Z -> IZR m * bpow radix2 ex = IZR (m * 2 ^ (ex - e)) * bpow radix2 e.
Proof.
  intros H. rewrite mult_IZR, Rmult_assoc. f_equal.
  replace (IZR (2 ^ (ex - e))) with (bpow radix2 (ex - e)).
  - rewrite <- bpow_plus. f_equal. lia.
  - symmetry. apply (IZR_Zpower radix2). lia.
Qed.

Lemma cond_abs (s : bool) (m : positive) : Z.abs (cond_Zopp s (Zpos m)) = Zpos m.
Proof. destruct s; reflexivity. Qed.

Lemma bounded_mant (m : positive) (e : Z) : SpecFloat.bounded 53 1024 m e = true -> (Zpos m < 2 ^ 53)%Z /\ (-1074 <= e <= 971)%Z.
Proof.
  intros H. unfold SpecFloat.bounded in H. apply andb_prop in H. destruct H as [C L].
  apply Zle_bool_imp_le in L. unfold SpecFloat.canonical_mantissa in C. apply Zeq_bool_eq in C.
  unfold SpecFloat.fexp, SpecFloat.emin in C. change (3 - 1024 - 53)%Z with (-1074)%Z in C.
  assert (D : (Zpos (SpecFloat.digits2_pos m) <= 53)%Z) by lia.
  split; [|split; lia].
  rewrite Digits.Zpos_digits2_pos in D. pose proof (Digits.Zdigits_correct radix2 (Zpos m)) as [_ Q]. rewrite Z.abs_eq in Q by lia.
  eapply Z.lt_le_trans; [exact Q|]. change (radix_val radix2) with 2%Z. apply Z.pow_le_mono_r; lia.
Qed.

Lemma fmod64_exact (x y : b64) : is_finite x = true -> is_finite y = true -> B2R y <> 0 ->
  is_finite (fmod64 x y) = true /\ (exists n : Z, B2R (fmod64 x y) = B2R x - IZR n * B2R y) /\
  Rabs (B2R (fmod64 x y)) < Rabs (B2R y) /\ 0 <= B2R (fmod64 x y) * B2R x.
Proof.
  intros Fx Fy Hy.
  destruct y as [sy|sy| |sy my ey Py]; try discriminate Fy; [exfalso; apply Hy; reflexivity|].
  destruct x as [sx|sx| |sx mx ex Px]; try discriminate Fx.
  - split; [reflexivity|]. cbn [fmod64]. change (B2R (B754_zero sx)) with 0.
    split; [exists 0%Z; lra|]. split; [rewrite Rabs_R0; apply Rabs_pos_lt; exact Hy|lra].
  - destruct (bounded_mant _ _ Px) as [Mx Ex]. destruct (bounded_mant _ _ Py) as [My Ey].
    cbn [fmod64]. set (e := Z.min ex ey).
    set (X := (cond_Zopp sx (Zpos mx) * 2 ^ (ex - e))%Z). set (Y := (cond_Zopp sy (Zpos my) * 2 ^ (ey - e))%Z).
    assert (VX : B2R (B754_finite sx mx ex Px) = IZR X * bpow radix2 e).
    { unfold B2R, F2R. cbn [Defs.Fnum Defs.Fexp]. apply shift_val. unfold e. lia. }
    assert (VY : B2R (B754_finite sy my ey Py) = IZR Y * bpow radix2 e).
    { unfold B2R, F2R. cbn [Defs.Fnum Defs.Fexp]. apply shift_val. unfold e. lia. }
    assert (Y0 : Y <> 0%Z).
    { intro E. apply Hy. rewrite VY, E. lra. }
    pose proof (Z.quot_rem X Y Y0) as QR. pose proof (Z.rem_bound_abs X Y Y0) as RB.
    pose proof (Z.rem_sign_nz X Y Y0) as RS.
    set (m := Z.rem X Y) in *.
    assert (Lx : (Z.abs m <= Z.abs X)%Z).
    { unfold m. rewrite <- Z.rem_abs by exact Y0. apply Z.rem_le; lia. }
    assert (Lm : (Z.abs m < 2 ^ 53)%Z).
    { destruct (Z.le_ge_cases ex ey) as [L|L].
      - assert (E : e = ex) by (unfold e; lia). unfold X in Lx. rewrite E, Z.sub_diag, Z.mul_1_r, cond_abs in Lx. lia.
      - assert (E : e = ey) by (unfold e; lia). unfold Y in RB. rewrite E, Z.sub_diag, Z.mul_1_r, cond_abs in RB. lia. }
    assert (V : B2R (b64_of m e) = IZR m * bpow radix2 e /\ is_finite (b64_of m e) = true).
    { unfold b64_of.
      pose proof (binary_normalize_correct 53 1024 prec64_gt_0 prec64_lt_emax mode_NE m e false) as C. cbv zeta in C.
      assert (E : F2R (Float radix2 m e) = (IZR m * bpow radix2 e)%R) by reflexivity. rewrite E in C.
      change (round radix2 (SpecFloat.fexp 53 1024) (round_mode mode_NE) (IZR m * bpow radix2 e)%R) with (rnd (IZR m * bpow radix2 e)) in C.
      rewrite (rnd_fmt _ (fmt_dyadic m e Lm ltac:(unfold e; lia))) in C.
      rewrite Rlt_bool_true in C; [destruct C as (V & F & _); split; assumption|].
      rewrite Rabs_mult, (Rabs_right (bpow radix2 e)) by (apply Rle_ge, bpow_ge_0). rewrite <- abs_IZR.
      apply Rlt_le_trans with (IZR (2 ^ 53) * bpow radix2 e).
      - apply Rmult_lt_compat_r; [apply bpow_gt_0|apply IZR_lt; exact Lm].
      - change (IZR (2 ^ 53)) with (bpow radix2 53). rewrite <- bpow_plus. apply bpow_le. unfold e. lia. }
    destruct V as [V F]. split; [exact F|]. rewrite V, VX, VY.
    pose proof (bpow_gt_0 radix2 e) as P. repeat split.
    + exists (Z.quot X Y). rewrite QR at 1. rewrite plus_IZR, mult_IZR. ring.
    + rewrite !Rabs_mult. apply Rmult_lt_compat_r; [apply Rabs_pos_lt; lra|]. rewrite <- !abs_IZR. apply IZR_lt. exact RB.
    + replace (IZR m * bpow radix2 e * (IZR X * bpow radix2 e)) with (IZR (m * X) * (bpow radix2 e * bpow radix2 e)) by (rewrite mult_IZR; ring).
      apply Rmult_le_pos; [|apply Rmult_le_pos; lra]. apply IZR_le.
      destruct (Z.eq_dec m 0) as [->|N]; [lia|]. specialize (RS N).
      clear - RS. revert RS. generalize m X. intros [|u|u] [|v|v]; cbn; intros; try discriminate; lia.
Qed.

(** Any library, with this fmod. *)
Definition with_fmod (lm : libm) : libm :=
  {| lm_cos := lm_cos lm; lm_sin := lm_sin lm; lm_exp := lm_exp lm; lm_atan2 := lm_atan2 lm; lm_hypot := lm_hypot lm; lm_fmod := fmod64 |}.

Example C125_nonvacuous (lm : libm) : exact_fmod (with_fmod lm) /\
  Bltb (normalize_angle (A := BA (with_fmod lm)) (b64_of 4 0)) (b64_of 0 0) = true /\
  normalize_angle (A := BA (with_fmod lm)) (b64_of 0 0) = b64_of 0 0.
Proof.
  split; [intros x y; apply fmod64_exact|]. split; [vm_compute; reflexivity|]. apply b64_eq. vm_compute. reflexivity.
Qed.
