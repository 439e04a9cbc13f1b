(** Property C140: the noise-free motion update in double arithmetic. *)

From Coq Require Import ZArith Reals List Lia Lra.
From Flocq Require Import Core BinarySingleNaN.
From Verif Require Import Outcome Arith TypesModel MotionModel SpecPose SpecPlace64 SpecAngle64 SpecMotion64 SpecSample64
  B64Tactics B64Lemmas CellB64 AngleProofs PropGrid64 PropAngle64 PropMotion64 NearB64 NearestB64 PropPlace64 PropRigid64 SingleB64 MotionProofs PropFilter.
Import ListNotations.
Local Open Scope R_scope.

Lemma u32_val : u32s = / 16777216. Proof. reflexivity. Qed.
Lemma p52 : bpow radix2 (-52) = 2 * u64. Proof. apply (uk 1). Qed.
Lemma p51 : bpow radix2 (-51) = 4 * u64. Proof. apply (uk 2). Qed.
Lemma eta32_small : 0 < eta32 <= / 1000000000000000.
Proof.
  unfold eta32. split; [apply bpow_gt_0|]. apply Rle_trans with (bpow radix2 (-60)); [apply bpow_le; lia|].
  change (bpow radix2 (-60)) with (/ IZR (2 ^ 60)). cbn. lra.
Qed.
Lemma tiny_small : 0 < bpow radix2 (-1074) <= / 1000000000000000.
Proof.
  split; [apply bpow_gt_0|]. apply Rle_trans with (bpow radix2 (-60)); [apply bpow_le; lia|].
  change (bpow radix2 (-60)) with (/ IZR (2 ^ 60)). cbn. lra.
Qed.

Lemma hundredth (lm : libm) : is_finite (nlit (A := BA lm) 1 100) = true /\ B2R (nlit (A := BA lm) 1 100) <= / 100 + / 10000000000000.
Proof.
  split; [reflexivity|].
  replace (nlit (A := BA lm) 1 100) with (b64_of 5764607523034235 (-59)) by (apply b64_eq; vm_compute; reflexivity).
  assert (V : B2R (b64_of 5764607523034235 (-59)) = IZR 5764607523034235 * bpow radix2 (-59)) by (vm_compute; lra).
  rewrite V. change (bpow radix2 (-59)) with (/ IZR (2 ^ 59)). cbn. lra.
Qed.

(** One sum of numbers of ordinary size. *)
Lemma plain_sum (x y : b64) (b c : R) : upto b x -> upto c y -> b <= 100 -> c <= 100 ->
  is_finite (Bplus mode_NE x y) = true /\ Rabs (B2R (Bplus mode_NE x y) - (B2R x + B2R y)) <= u64 * (b + c + 1).
Proof.
  intros [Fx Bx] [Fy By] Hb Hc. pose proof (Rabs_pos (B2R x)). pose proof (Rabs_pos (B2R y)).
  assert (S : Rabs (B2R x + B2R y) <= b + c) by (eapply Rle_trans; [apply Rabs_triang|]; lra).
  destruct (b64_add_ok x y Fx Fy) as [V F].
  { eapply Rle_trans; [exact S|]. apply Rle_trans with (bpow radix2 10); [change (bpow radix2 10) with 1024; lra|apply bpow_le; lia]. }
  split; [exact F|]. rewrite V. eapply Rle_trans; [apply rnd_err|]. pose proof u64_pos. pose proof eta_tiny.
  assert (u64 * Rabs (B2R x + B2R y) <= u64 * (b + c)) by (apply Rmult_le_compat_l; lra). lra.
Qed.

Lemma upto_single (b : R) (x : b64) : upto b x -> b <= 100 -> is_finite (b64_single x) = true /\
  Rabs (B2R (b64_single x) - B2R x) <= u32s * b + eta32 /\ upto (b + / 100) (b64_single x).
Proof.
  intros [F B] H. pose proof (Rabs_pos (B2R x)). destruct (single_err x F) as [Fs Es].
  { eapply Rle_trans; [exact B|]. apply Rle_trans with (bpow radix2 10); [change (bpow radix2 10) with 1024; lra|apply bpow_le; lia]. }
  rewrite u32_val in *. pose proof eta32_small.
  assert (E : Rabs (B2R (b64_single x) - B2R x) <= / 16777216 * b + eta32) by lra.
  split; [exact Fs|]. split; [exact E|]. split; [exact Fs|].
  replace (B2R (b64_single x)) with ((B2R (b64_single x) - B2R x) + B2R x) by ring. eapply Rle_trans; [apply Rabs_triang|]. lra.
Qed.

Section One.
Context (lm : libm) (X : exact_fmod lm) (T : accurate_trig lm) (H : accurate_hypot lm) (N : accurate_atan2 lm).
Context (M : R) (M1 : 1 <= M) (M2 : M <= bpow radix2 100).
Context (dx dy dth : b64) (Bx : upto M dx) (By : upto M dy) (Bt : upto 8 dth).
Context (L1 : / 100 + bpow radix2 (-39) <= dist0 dx dy) (L2 : dist0 dx dy <= M).

Let rho := dist0 dx dy.
Let trans := lm_hypot lm dx dy.
Let rot1 := lm_atan2 lm dy dx.
Let rot2 := angle_diff (A := BA lm) rot1 dth.

Lemma size_M : usual_size M.
Proof.
  split; [apply Rle_trans with (bpow radix2 0); [apply bpow_le; lia|exact M1]|].
  eapply Rle_trans; [exact M2|apply bpow_le; lia].
Qed.

Lemma hypot_close : is_finite trans = true /\ Rabs (B2R trans - rho) <= 3 * u64 * rho.
Proof.
  assert (Up : forall v, upto M v -> upto (bpow radix2 400) v).
  { intros v [F B]. split; [exact F|]. eapply Rle_trans; [exact B|]. eapply Rle_trans; [exact M2|]. apply bpow_le. lia. }
  destruct (H dx dy (Up _ Bx) (Up _ By)) as [F E]. split; [exact F|]. fold rho in E. eapply Rle_trans; [exact E|].
  rewrite p52. assert (bpow radix2 (-1074) <= u64 * rho); [|lra].
  assert (R0 : / 100 <= rho) by (unfold rho; pose proof (bpow_gt_0 radix2 (-39)); lra).
  apply Rle_trans with (u64 * / 100); [|apply Rmult_le_compat_l; [pose proof u64_pos; lra|exact R0]].
  rewrite u64_val. apply Rle_trans with (bpow radix2 (-70)); [apply bpow_le; lia|].
  change (bpow radix2 (-70)) with (/ IZR (2 ^ 70)). cbn. lra.
Qed.

Lemma mean_is : motion_mean (A := BA lm) dx dy dth = (trans, rot1, rot2).
Proof.
  unfold motion_mean. change (nhypot (Arith := BA lm) dx dy) with trans. change (natan2 (Arith := BA lm) dy dx) with rot1.
  destruct hypot_close as [F E]. destruct (hundredth lm) as [F1 V1].
  assert (G : nlt (Arith := BA lm) (nlit (A := BA lm) 1 100) trans = true).
  { cbn [nlt BA]. rewrite Bltb_correct by assumption. apply Rlt_bool_true.
    unfold rho in E. apply Rabs_le_inv in E. pose proof u64_small as U. pose proof u64_pos.
    assert (P : / 1000000000000 <= bpow radix2 (-39)) by (change (bpow radix2 (-39)) with (/ IZR (2 ^ 39)); cbn; lra).
    fold rho in L1, E. 
    assert (3 * u64 * rho <= / 100000000000000 * rho).
    { apply Rmult_le_compat_r; [|lra]. lra. }
    lra. }
  rewrite G. reflexivity.
Qed.

Lemma sample_follows (p : vec3 b64) : particle_upto M p ->
  follows (bpow radix2 (-21) * rho + bpow radix2 (-49) * M) (bpow radix2 (-20)) dx dy dth p
    (mkVec3 (Bplus mode_NE (v0 p) (Bmult mode_NE (b64_single trans) (lm_cos lm (Bplus mode_NE (v2 p) (b64_single rot1)))))
            (Bplus mode_NE (v1 p) (Bmult mode_NE (b64_single trans) (lm_sin lm (Bplus mode_NE (v2 p) (b64_single rot1)))))
            (normalize_angle (A := BA lm) (Bplus mode_NE (Bplus mode_NE (v2 p) (b64_single rot1)) (b64_single rot2)))).
Proof.
  intros (P0 & P1 & P2).
  pose proof u64_pos as U. pose proof u64_small as US. pose proof eta32_small as E32.
  destruct hypot_close as [Ft Et].
  assert (R0 : / 100 <= rho) by (pose proof (bpow_gt_0 radix2 (-39)); unfold rho; lra).
  assert (Bt' : Rabs (B2R trans) <= (1 + / 1000000000) * rho).
  { replace (B2R trans) with ((B2R trans - rho) + rho) by ring. eapply Rle_trans; [apply Rabs_triang|].
    rewrite (Rabs_pos_eq rho) by lra.
    assert (3 * u64 * rho <= / 1000000000 * rho) by (apply Rmult_le_compat_r; lra). lra. }
  destruct (single_err trans Ft) as [Fts Ets].
  { eapply Rle_trans; [exact Bt'|]. apply Rle_trans with (2 * M).
    - assert ((1 + / 1000000000) * rho <= 2 * rho) by (apply Rmult_le_compat_r; lra). unfold rho in *. lra.
    - apply Rle_trans with (2 * bpow radix2 100); [lra|]. change 2 with (bpow radix2 1). rewrite <- bpow_plus. apply bpow_le. lia. }
  rewrite u32_val in Ets.
  assert (Es : Rabs (B2R (b64_single trans) - rho) <= / 16000000 * rho).
  { replace (B2R (b64_single trans) - rho) with ((B2R (b64_single trans) - B2R trans) + (B2R trans - rho)) by ring.
    eapply Rle_trans; [apply Rabs_triang|].
    assert (3 * u64 * rho <= / 1000000000000 * rho) by (apply Rmult_le_compat_r; lra).
    assert (/ 16777216 * Rabs (B2R trans) <= / 16777216 * ((1 + / 1000000000) * rho)) by (apply Rmult_le_compat_l; lra).
    lra. }
  assert (Bs : Rabs (B2R (b64_single trans)) <= 1.01 * M).
  { replace (B2R (b64_single trans)) with ((B2R (b64_single trans) - rho) + rho) by ring. eapply Rle_trans; [apply Rabs_triang|].
    rewrite (Rabs_pos_eq rho) by lra. unfold rho in *. lra. }
  destruct Bx as [Fdx _]. destruct By as [Fdy _].
  destruct (N dy dx Fdx Fdy) as (A4 & phi & HX & HY & Ea). fold rho in HX, HY. fold rot1 in A4, Ea.
  destruct (upto_single 4 rot1 A4 ltac:(lra)) as (Fr1 & Er1 & Ur1).
  destruct (plain_sum (v2 p) (b64_single rot1) 8 (4 + / 100) P2 Ur1 ltac:(lra) ltac:(lra)) as [Fa Es1].
  set (a := Bplus mode_NE (v2 p) (b64_single rot1)) in *.
  rewrite u32_val in Er1.
  assert (Ang : Rabs (B2R a - (B2R (v2 p) + phi)) <= / 4100000).
  { replace (B2R a - (B2R (v2 p) + phi)) with ((B2R a - (B2R (v2 p) + B2R (b64_single rot1))) + ((B2R (b64_single rot1) - B2R rot1) + (B2R rot1 - phi))) by ring.
    eapply Rle_trans; [apply Rabs_triang|]. pose proof (Rabs_triang (B2R (b64_single rot1) - B2R rot1) (B2R rot1 - phi)).
    rewrite p51 in Ea. lra. }
  assert (HM := size_M).
  assert (Pt : near M 0 1.01 (b64_single trans) (B2R (b64_single trans))) by (apply near_exact; [exact Fts|exact Bs]).
  assert (Ev : bpow radix2 (-21) * rho = / 2097152 * rho) by reflexivity.
  assert (Q49 : bpow radix2 (-49) * M = 16 * (u64 * M)) by (rewrite <- u16; ring).
  assert (UM : 0 < u64 * M) by (apply Rmult_lt_0_compat; lra).
  assert (Dir : forall c C, unit_near c (C (B2R a)) -> (forall u v, Rabs (C u - C v) <= Rabs (u - v)) -> (forall u, Rabs (C u) <= 1) ->
    forall x, upto M x -> close (bpow radix2 (-21) * rho + bpow radix2 (-49) * M)
      (Bplus mode_NE x (Bmult mode_NE (b64_single trans) c)) (B2R x + rho * C (B2R (v2 p) + phi))).
  { intros c C Uc Lip C1 x Ux.
    pose proof (near_mul_r M HM 0 1.01 c (b64_single trans) (C (B2R a)) (B2R (b64_single trans)) ltac:(lra) ltac:(lra) Uc Pt) as Pm.
    pose proof (near_upto M x Ux) as Px. near_op near_add M HM Px Pm Ps.
    destruct Ps as (Fs & Ess & _). split; [exact Fs|].
    replace (B2R (Bplus mode_NE x (Bmult mode_NE (b64_single trans) c)) - (B2R x + rho * C (B2R (v2 p) + phi))) with
      ((B2R (Bplus mode_NE x (Bmult mode_NE (b64_single trans) c)) - (B2R x + B2R (b64_single trans) * C (B2R a)))
       + ((B2R (b64_single trans) - rho) * C (B2R a) + rho * (C (B2R a) - C (B2R (v2 p) + phi)))) by ring.
    eapply Rle_trans; [apply Rabs_triang|].
    pose proof (Rabs_triang ((B2R (b64_single trans) - rho) * C (B2R a)) (rho * (C (B2R a) - C (B2R (v2 p) + phi)))) as Tr.
    rewrite !Rabs_mult in Tr. rewrite (Rabs_pos_eq rho) in Tr by lra.
    assert (Z1 : Rabs (B2R (b64_single trans) - rho) * Rabs (C (B2R a)) <= / 16000000 * rho * 1).
    { apply Rmult_le_compat; [apply Rabs_pos|apply Rabs_pos|exact Es|apply C1]. }
    assert (Z2 : rho * Rabs (C (B2R a) - C (B2R (v2 p) + phi)) <= rho * / 4100000).
    { apply Rmult_le_compat_l; [lra|]. eapply Rle_trans; [apply Lip|exact Ang]. }
    rewrite Ev, Q49. lra. }
  assert (CB : forall u, Rabs (cos u) <= 1) by (intro u; apply Rabs_le; apply COS_bound).
  assert (SB : forall u, Rabs (sin u) <= 1) by (intro u; apply Rabs_le; apply SIN_bound).
  unfold follows. cbn [v0 v1 v2 px py act particle_pose pox poy poth].
  split; [|split].
  - replace (B2R (v0 p) + (cos (B2R (v2 p)) * B2R dx - sin (B2R (v2 p)) * B2R dy)) with (B2R (v0 p) + rho * cos (B2R (v2 p) + phi)).
    + apply (Dir _ cos); [apply cos_unit; assumption|apply cos_lip|exact CB|exact P0].
    + rewrite <- HX, <- HY, cos_plus. ring.
  - replace (B2R (v1 p) + (sin (B2R (v2 p)) * B2R dx + cos (B2R (v2 p)) * B2R dy)) with (B2R (v1 p) + rho * sin (B2R (v2 p) + phi)).
    + apply (Dir _ sin); [apply sin_unit; assumption|apply sin_lip|exact SB|exact P1].
    + rewrite <- HX, <- HY, sin_plus. ring.
  - assert (Mo : forall b v, upto b v -> b <= 100 -> moderate v).
    { intros b v [Fv Bv] Hb. split; [exact Fv|]. eapply Rle_trans; [exact Bv|].
      apply Rle_trans with (bpow radix2 10); [change (bpow radix2 10) with 1024; lra|apply bpow_le; lia]. }
    destruct (angle_diff_within lm rot1 dth X (Mo _ _ A4 ltac:(lra)) (Mo _ _ Bt ltac:(lra))) as [[Fd [k Hk]] Rd].
    fold rot2 in Fd, Hk, Rd. pose proof pi_low as PL. destruct pi64 as [PV _]. rewrite PV in Rd. pose proof PI_4 as P4.
    assert (R4 : upto 4 rot2) by (split; [exact Fd|lra]).
    destruct (upto_single 4 rot2 R4 ltac:(lra)) as (Fr2 & Er2 & Ur2). rewrite u32_val in Er2.
    assert (Ua : upto 13 a).
    { split; [exact Fa|]. destruct P2 as [_ P2]. destruct Ur1 as [_ Ur1].
      replace (B2R a) with ((B2R a - (B2R (v2 p) + B2R (b64_single rot1))) + (B2R (v2 p) + B2R (b64_single rot1))) by ring.
      eapply Rle_trans; [apply Rabs_triang|]. pose proof (Rabs_triang (B2R (v2 p)) (B2R (b64_single rot1))). lra. }
    destruct (plain_sum a (b64_single rot2) 13 (4 + / 100) Ua Ur2 ltac:(lra) ltac:(lra)) as [Fb Es2].
    set (b := Bplus mode_NE a (b64_single rot2)) in *.
    assert (Bb : Rabs (B2R b) <= 18).
    { destruct Ua as [_ Ua]. destruct Ur2 as [_ Ur2].
      replace (B2R b) with ((B2R b - (B2R a + B2R (b64_single rot2))) + (B2R a + B2R (b64_single rot2))) by ring.
      eapply Rle_trans; [apply Rabs_triang|]. pose proof (Rabs_triang (B2R a) (B2R (b64_single rot2))). lra. }
    destruct (C125_normalize_angle lm b X Fb) as [[Fn [j Hj]] _].
    { eapply Rle_trans; [exact Bb|]. apply Rle_trans with (bpow radix2 10); [change (bpow radix2 10) with 1024; lra|apply bpow_le; lia]. }
    split; [exact Fn|]. exists (k + j)%Z. rewrite plus_IZR. rewrite error_val in Hj.
    destruct A4 as [_ A4]. destruct Bt as [_ Bt8]. change (bpow radix2 (-20)) with (/ 1048576).
    assert (W1 : 8 * u64 * (Rabs (B2R rot1) + Rabs (B2R dth) + 8) <= 8 * u64 * 20) by (apply Rmult_le_compat_l; lra).
    assert (W2 : 4 * u64 * (Rabs (B2R b) + 8) <= 4 * u64 * 26) by (apply Rmult_le_compat_l; lra).
    set (q := normalize_angle (A := BA lm) b) in *.
    replace (B2R q - (B2R (v2 p) + B2R dth + 2 * PI * (IZR k + IZR j))) with
      ((B2R q - (B2R b + 2 * PI * IZR j)) + ((B2R b - (B2R a + B2R (b64_single rot2))) +
       ((B2R a - (B2R (v2 p) + B2R (b64_single rot1))) + ((B2R (b64_single rot1) - B2R rot1) +
        ((B2R (b64_single rot2) - B2R rot2) + (B2R rot2 - (B2R dth - B2R rot1 + 2 * PI * IZR k))))))) by ring.
    eapply Rle_trans; [apply Rabs_triang|].
    eapply Rle_trans; [apply Rplus_le_compat_l; apply Rabs_triang|].
    eapply Rle_trans; [apply Rplus_le_compat_l; apply Rplus_le_compat_l; apply Rabs_triang|].
    eapply Rle_trans; [do 3 apply Rplus_le_compat_l; apply Rabs_triang|].
    eapply Rle_trans; [do 4 apply Rplus_le_compat_l; apply Rabs_triang|]. lra.
Qed.

End One.

Lemma map_i_Forall2 {X Y : Type} (P : X -> Prop) (Q : X -> Y -> Prop) (f : nat -> X -> Y) :
  (forall i x, P x -> Q x (f i x)) -> forall l i, Forall P l -> Forall2 Q l (map_i f i l).
Proof. intros H l. induction l as [|x l IH]; intros i F; cbn; [constructor|]. inversion F; subst. constructor; auto. Qed.

(** Without noise, every particle follows the odometry: half a millionth of the
    distance driven (the random numbers are single precision) and the rounding
    of the coordinates; a millionth of a radian. *)
Theorem C140_noise_free_motion : forall (lm : libm) (normal : normal_source b64) (m : motion_params b64) (M : R) (dx dy dth : b64) (ps : list (vec3 b64)),
  exact_fmod lm -> accurate_trig lm -> accurate_hypot lm -> accurate_atan2 lm ->
  (forall i mean sigma, normal i mean sigma = mean) ->
  1 <= M <= bpow radix2 100 -> upto M dx -> upto M dy -> upto 8 dth ->
  / 100 + bpow radix2 (-39) <= dist0 dx dy <= M -> Forall (particle_upto M) ps ->
  Forall2 (follows (bpow radix2 (-21) * dist0 dx dy + bpow radix2 (-49) * M) (bpow radix2 (-20)) dx dy dth)
    ps (motion_sample (A := BA lm) normal m dx dy dth ps).
Proof.
  intros lm normal m M dx dy dth ps X T H N Z [M1 M2] Bx By Bt [L1 L2] F.
  unfold motion_sample. apply map_i_Forall2 with (P := particle_upto M); [|exact F].
  intros i p P. rewrite (mean_is lm H M M2 dx dy dth Bx By L1).
  unfold sample_one. destruct (motion_sigmas (A := BA lm) m dx dy dth) as [[s1 s2] s3]. rewrite !Z.
  exact (sample_follows lm X T H N M M1 M2 dx dy dth Bx By Bt L1 L2 p P).
Qed.
Print Assumptions C140_noise_free_motion.

(** Headings stay within half a turn whatever the noise. *)
Theorem C140_headings_normalised : forall (lm : libm) (normal : normal_source b64) (m : motion_params b64) (dx dy dth : b64) (ps : list (vec3 b64)),
  exact_fmod lm -> (forall i mean sigma, upto (bpow radix2 100) (normal i mean sigma)) ->
  Forall (fun p => upto (bpow radix2 100) (v2 p)) ps ->
  Forall (fun q => is_finite (v2 q) = true /\ Rabs (B2R (v2 q)) <= B2R b64_pi) (motion_sample (A := BA lm) normal m dx dy dth ps).
Proof.
  intros lm normal m dx dy dth ps X Z F.
  unfold motion_sample. generalize 0%nat as i. induction F as [|p ps P F IH]; intro i; cbn [map_i]; constructor; [|apply IH].
  unfold sample_one. destruct (motion_mean (A := BA lm) dx dy dth) as [[mt m1] m2].
  destruct (motion_sigmas (A := BA lm) m dx dy dth) as [[s1 s2] s3]. cbn [v2].
  set (r1 := normal (3 * i)%nat _ _). set (r2 := normal (3 * i + 2)%nat _ _).
  assert (U1 : upto (bpow radix2 100) r1) by apply Z. assert (U2 : upto (bpow radix2 100) r2) by apply Z.
  change (nadd (Arith := BA lm)) with (Bplus mode_NE (prec := 53) (emax := 1024) (prec_gt_0_ := prec64_gt_0) (prec_lt_emax_ := prec64_lt_emax)).
  assert (Sum : forall e x y, (100 <= e <= 200)%Z -> upto (bpow radix2 e) x -> upto (bpow radix2 100) y -> upto (bpow radix2 (e + 1)) (Bplus mode_NE x y)).
  { intros e x y He [Fx Bx] [Fy By].
    assert (S : Rabs (B2R x + B2R y) <= bpow radix2 (e + 1)).
    { eapply Rle_trans; [apply Rabs_triang|]. rewrite bpow_plus. change (bpow radix2 1) with 2.
      assert (bpow radix2 100 <= bpow radix2 e) by (apply bpow_le; lia). lra. }
    destruct (b64_add_ok x y Fx Fy) as [V Fv]; [eapply Rle_trans; [exact S|apply bpow_le; lia]|].
    split; [exact Fv|]. rewrite V. apply Rabs_le. apply Rabs_le_inv in S.
    split; [apply rnd_lb; [apply fmt_opp, fmt_bpow; lia|lra]|apply rnd_ub; [apply fmt_bpow; lia|lra]]. }
  pose proof (Sum 100%Z _ _ ltac:(lia) P U1) as S1. pose proof (Sum 101%Z _ _ ltac:(lia) S1 U2) as [S2 S3].
  destruct (C125_normalize_angle lm _ X S2) as [[F1 _] R1]; [eapply Rle_trans; [exact S3|apply bpow_le; lia]|].
  split; [exact F1|exact R1].
Qed.
Print Assumptions C140_headings_normalised.

(** A library with correctly rounded functions meets the contracts. *)
Definition with_polar (lm : libm) : libm :=
  {| lm_cos := lm_cos lm; lm_sin := lm_sin lm; lm_exp := lm_exp lm; lm_fmod := lm_fmod lm;
     lm_atan2 := fun y x => nearest64 (Ratan2 (B2R y) (B2R x)); lm_hypot := fun x y => nearest64 (dist0 x y) |}.
Lemma polar_hypot (lm : libm) : accurate_hypot (with_polar lm).
Proof.
  intros x y [Fx Bx] [Fy By]. cbn [lm_hypot with_polar].
  assert (D0 : 0 <= dist0 x y) by apply sqrt_pos.
  assert (D : dist0 x y <= 2 * bpow radix2 400).
  { unfold dist0. rewrite <- (sqrt_square (2 * bpow radix2 400)) by (pose proof (bpow_gt_0 radix2 400); lra).
    apply sqrt_le_1_alt. pose proof (bpow_gt_0 radix2 400).
    assert (forall v, Rabs v <= bpow radix2 400 -> v * v <= bpow radix2 400 * bpow radix2 400).
    { intros v Hv. replace (v * v) with (Rabs v * Rabs v) by (rewrite <- Rabs_mult; apply Rabs_pos_eq; apply Rle_0_sqr).
      apply Rmult_le_compat; try apply Rabs_pos; exact Hv. }
    pose proof (H0 _ Bx). pose proof (H0 _ By).
    assert (0 <= bpow radix2 400 * bpow radix2 400) by (apply Rmult_le_pos; lra). lra. }
  destruct (nearest64_ok (dist0 x y)) as [F V].
  { rewrite Rabs_pos_eq by exact D0. eapply Rle_trans; [exact D|]. change 2 with (bpow radix2 1). rewrite <- bpow_plus. apply bpow_le. lia. }
  split; [exact F|]. rewrite V. eapply Rle_trans; [apply rnd_err|]. rewrite (Rabs_pos_eq _ D0). rewrite p52.
  pose proof u64_pos. assert (0 <= u64 * dist0 x y) by (apply Rmult_le_pos; lra).
  assert (eta64 <= bpow radix2 (-1074)) by (unfold eta64; apply bpow_le; lia). lra.
Qed.
Lemma polar_atan2 (lm : libm) : accurate_atan2 (with_polar lm).
Proof.
  intros y x Fx Fy. cbn [lm_atan2 with_polar].
  pose proof (Ratan2_range (B2R y) (B2R x)) as [G1 G2]. pose proof PI_4 as P4.
  set (a := Ratan2 (B2R y) (B2R x)) in *.
  assert (Ba : Rabs a <= 4) by (apply Rabs_le; lra).
  destruct (nearest64_ok a) as [F V].
  { eapply Rle_trans; [exact Ba|]. change 4 with (bpow radix2 2). apply bpow_le. lia. }
  split.
  - split; [exact F|]. rewrite V. apply Rabs_le_inv in Ba. change 4 with (bpow radix2 2) in *. apply Rabs_le.
    split; [apply rnd_lb; [apply fmt_opp, fmt_bpow; lia|lra]|apply rnd_ub; [apply fmt_bpow; lia|lra]].
  - exists a. destruct (Ratan2_polar (B2R y) (B2R x)) as [H1 H2]. split; [exact H1|]. split; [exact H2|].
    rewrite V. eapply Rle_trans; [apply rnd_err|]. rewrite p51. pose proof u64_pos. pose proof eta_tiny.
    assert (P3 : PI <= 32 / 10) by (pose proof pi_high as Ph; pose proof u64_small; unfold pi_q in Ph; lra).
    assert (A3 : Rabs a <= 32 / 10) by (apply Rabs_le; lra).
    assert (u64 * Rabs a <= u64 * (32 / 10)) by (apply Rmult_le_compat_l; lra). lra.
Qed.

(** A particle at (3, 4) heading 1, the odometry reports (1, 0) and a turn of 1. *)
Example C140_nonvacuous (lm : libm) : let lm' := with_polar (with_nearest (with_fmod lm)) in
  let one := b64_of 1 0 in let z := b64_of 0 0 in
  exact_fmod lm' /\ accurate_trig lm' /\ accurate_hypot lm' /\ accurate_atan2 lm' /\
  upto 8 one /\ upto 8 z /\ / 100 + bpow radix2 (-39) <= dist0 one z <= 8 /\
  Forall (particle_upto 8) [mkVec3 (b64_of 3 0) (b64_of 4 0) one].
Proof.
  cbv zeta. split; [|split; [|split; [apply polar_hypot|split; [apply polar_atan2|]]]].
  - intros x y. exact (nearest_fmod (with_fmod lm) (proj1 (C125_nonvacuous lm)) x y).
  - intros x. exact (nearest_accurate (with_fmod lm) x).
  - split; [apply b64_of_small; lia|]. split; [apply b64_of_small; lia|]. split.
    + unfold dist0. rewrite !(fun z H => proj1 (b64_ofZ z H)) by lia.
      replace (1 * 1 + 0 * 0) with (1 * 1) by ring. rewrite sqrt_square by lra.
      change (bpow radix2 (-39)) with (/ IZR (2 ^ 39)). cbn. lra.
    + constructor; [|constructor]. split; [apply b64_of_small; lia|]. split; apply b64_of_small; lia.
Qed.
