(** Relative poses, predicted poses and the published transform, in double
    arithmetic. *)

From Coq Require Import ZArith Reals List Lia Lra.
From Flocq Require Import Core BinarySingleNaN.
From Verif Require Import Outcome Arith TypesModel ScanModel ConstraintModel MotionModel LaserModel SpecPose SpecLaser
  B64Tactics B64Lemmas CellB64 ConstraintProofs AngleProofs LaserProofs PropLaser SpecAngle64 PropAngle64 SpecMotion64 PropMotion64
  SpecPlace64 NearB64 NearestB64 PropPlace64 SpecRigid64 GraphModel FilterModel MapperModel MapperSteps SpecMapper RTactics MapperProofs.
Import ListNotations.
Local Open Scope R_scope.

Lemma uk (k : Z) : bpow radix2 (k - 53) = bpow radix2 k * u64.
Proof. unfold Z.sub. rewrite bpow_plus. reflexivity. Qed.
Lemma u32 : bpow radix2 (-48) = 32 * u64. Proof. apply (uk 5). Qed.
Lemma u64x : bpow radix2 (-47) = 64 * u64. Proof. apply (uk 6). Qed.
Lemma u128 : bpow radix2 (-46) = 128 * u64. Proof. apply (uk 7). Qed.

Lemma sq_le1 (c s : R) : Rabs c <= 1 -> Rabs s <= 1 -> forall a b e, Rabs a <= e -> Rabs b <= e -> Rabs (c * a - s * b) <= 2 * e /\ Rabs (s * a + c * b) <= 2 * e.
Proof.
  intros C S a b e A B.
  assert (P : forall x y, Rabs x <= 1 -> Rabs y <= e -> Rabs (x * y) <= e).
  { intros x y X Y. rewrite Rabs_mult. apply Rle_trans with (1 * e); [apply Rmult_le_compat; try apply Rabs_pos; assumption|lra]. }
  split.
  - unfold Rminus. eapply Rle_trans; [apply Rabs_triang|]. rewrite Rabs_Ropp. pose proof (P c a C A). pose proof (P s b S B). lra.
  - eapply Rle_trans; [apply Rabs_triang|]. pose proof (P s a S A). pose proof (P c b C B). lra.
Qed.

(** ** Constraints *)
Theorem C131_constraint (lm : libm) (M : R) (from to : scan b64) (cov : mat3 b64) : accurate_trig lm -> usual_size M ->
  pose_upto M (s_pose from) -> pose_upto M (s_pose to) ->
  Rabs (B2R (poth (s_pose to)) - B2R (poth (s_pose from))) <= bpow radix2 1000 ->
  let q := compose (real_pose (s_pose from)) (real_transform (c_transform (make_constraint (A := BA lm) from to cov))) in
  beside (bpow radix2 (-47) * M) (position q) (position (real_pose (s_pose to))) /\
  Rabs (poth q - B2R (poth (s_pose to))) <= bpow radix2 (-53) * Rabs (B2R (poth (s_pose to)) - B2R (poth (s_pose from))) + bpow radix2 (-1075) /\
  is_finite (v0 (c_transform (make_constraint (A := BA lm) from to cov))) = true /\
  is_finite (v1 (c_transform (make_constraint (A := BA lm) from to cov))) = true /\
  is_finite (v2 (c_transform (make_constraint (A := BA lm) from to cov))) = true.
Proof.
  intros T HM (AX & AY & AT) (BX & BY & BT) HB q.
  pose proof (cos_unit lm _ T AT) as HC. pose proof (sin_unit lm _ T AT) as HS. pose proof (unit_opp _ _ HS) as HN.
  pose proof (near_upto M _ AX) as NAX. pose proof (near_upto M _ AY) as NAY.
  pose proof (near_upto M _ BX) as NBX. pose proof (near_upto M _ BY) as NBY.
  near_op near_sub M HM NBX NAX DX. near_op near_sub M HM NBY NAY DY.
  pose proof (fun a b => near_mul M HM _ _ _ _ _ _ a b HC DX) as C1. specialize (C1 ltac:(lra) ltac:(lra)).
  pose proof (fun a b => near_mul M HM _ _ _ _ _ _ a b HS DY) as C2. specialize (C2 ltac:(lra) ltac:(lra)).
  pose proof (fun a b => near_mul M HM _ _ _ _ _ _ a b HN DX) as C3. specialize (C3 ltac:(lra) ltac:(lra)).
  pose proof (fun a b => near_mul M HM _ _ _ _ _ _ a b HC DY) as C4. specialize (C4 ltac:(lra) ltac:(lra)).
  near_op near_add M HM C1 C2 Ex. near_op near_add M HM C3 C4 Ey.
  destruct (b64_sub_ok (poth (s_pose to)) (poth (s_pose from)) BT AT) as [V2 F2].
  { eapply Rle_trans; [exact HB|apply bpow_le; lia]. }
  destruct Ex as (F0 & Ex & _). destruct Ey as (F1 & Ey & _).
  pose proof (uM_pos M HM) as U.
  assert (Ex' : Rabs (B2R (v0 (c_transform (make_constraint (A := BA lm) from to cov))) -
    (cos (B2R (poth (s_pose from))) * (B2R (pox (s_pose to)) - B2R (pox (s_pose from))) +
     sin (B2R (poth (s_pose from))) * (B2R (poy (s_pose to)) - B2R (poy (s_pose from))))) <= 32 * (u64 * M)).
  { eapply Rle_trans; [exact Ex|]. apply Rmult_le_compat_r; lra. }
  assert (Ey' : Rabs (B2R (v1 (c_transform (make_constraint (A := BA lm) from to cov))) -
    (- sin (B2R (poth (s_pose from))) * (B2R (pox (s_pose to)) - B2R (pox (s_pose from))) +
     cos (B2R (poth (s_pose from))) * (B2R (poy (s_pose to)) - B2R (poy (s_pose from))))) <= 32 * (u64 * M)).
  { eapply Rle_trans; [exact Ey|]. apply Rmult_le_compat_r; lra. }
  split; [|split; [|repeat split; assumption]].
  - set (t := c_transform (make_constraint (A := BA lm) from to cov)) in *. unfold q. fold t. unfold beside, position, compose, act, real_pose, real_transform. cbn [px py pox poy poth].
    set (C := cos (B2R (poth (s_pose from)))) in *. set (S := sin (B2R (poth (s_pose from)))) in *.
    assert (CS : C * C + S * S = 1) by (pose proof (sin2_cos2 (B2R (poth (s_pose from)))) as H; unfold Rsqr in H; unfold C, S; lra).
    destruct HC as (_ & _ & BC). destruct HS as (_ & _ & BS). fold C in BC. fold S in BS.
    set (dx := B2R (pox (s_pose to)) - B2R (pox (s_pose from))) in *. set (dy := B2R (poy (s_pose to)) - B2R (poy (s_pose from))) in *.
    destruct (sq_le1 C S BC BS _ _ _ Ex' Ey') as [H1 H2]. rewrite u64x. split.
    + replace (B2R (pox (s_pose from)) + (C * B2R (v0 t) - S * B2R (v1 t)) - B2R (pox (s_pose to)))
        with (C * (B2R (v0 t) - (C * dx + S * dy)) - S * (B2R (v1 t) - (- S * dx + C * dy)) + ((C * C + S * S) * dx - dx)) by (unfold dx; ring).
      rewrite CS. replace (1 * dx - dx) with 0 by ring. rewrite Rplus_0_r. lra.
    + replace (B2R (poy (s_pose from)) + (S * B2R (v0 t) + C * B2R (v1 t)) - B2R (poy (s_pose to)))
        with (S * (B2R (v0 t) - (C * dx + S * dy)) + C * (B2R (v1 t) - (- S * dx + C * dy)) + ((C * C + S * S) * dy - dy)) by (unfold dy; ring).
      rewrite CS. replace (1 * dy - dy) with 0 by ring. rewrite Rplus_0_r. lra.
  - unfold q, compose, real_pose, real_transform. cbn [poth].
    change (v2 (c_transform (make_constraint (A := BA lm) from to cov))) with (Bminus mode_NE (poth (s_pose to)) (poth (s_pose from))).
    rewrite V2. set (d := B2R (poth (s_pose to)) - B2R (poth (s_pose from))).
    replace (B2R (poth (s_pose from)) + rnd d - B2R (poth (s_pose to))) with (rnd d - d) by (unfold d; ring). apply rnd_err.
Qed.
Print Assumptions C131_constraint.

Example C131_nonvacuous (lm : libm) : let s0 := place_scan in let s1 := mkScan 1 true (mkPose (b64_of 5 0) (b64_of 4 0) (b64_of 2 0)) place_pose [] in
  accurate_trig (with_nearest lm) /\ usual_size 8 /\ pose_upto 8 (s_pose s0) /\ pose_upto 8 (s_pose s1) /\
  Rabs (B2R (poth (s_pose s1)) - B2R (poth (s_pose s0))) <= bpow radix2 1000.
Proof.
  cbn [s_pose place_scan place_pose poth]. split; [apply nearest_accurate|]. split; [apply size8|].
  split; [repeat split; try reflexivity; apply b64_of_small; lia|]. split; [repeat split; try reflexivity; apply b64_of_small; lia|].
  rewrite !(fun z H => proj1 (b64_ofZ z H)) by lia. replace (2 - 1) with 1 by ring. rewrite Rabs_R1. change 1 with (bpow radix2 0). apply bpow_le. lia.
Qed.

(** ** Predicted poses *)
Lemma angle_diff_within (lm : libm) (a b : b64) : exact_fmod lm -> moderate a -> moderate b ->
  heading_within (8 * u64 * (Rabs (B2R a) + Rabs (B2R b) + 8)) (angle_diff (A := BA lm) a b) (B2R b - B2R a) /\
  Rabs (B2R (angle_diff (A := BA lm) a b)) <= B2R b64_pi.
Proof.
  intros X Ma Mb. destruct (sub_moderate _ _ Mb Ma) as (V & F & B).
  unfold angle_diff. change (nsub (Arith := BA lm) b a) with (Bminus mode_NE b a).
  set (s := Bminus mode_NE b a) in *.
  assert (Bs : Rabs (B2R s) <= bpow radix2 1000).
  { rewrite V. apply Rabs_le_inv in B. apply Rle_trans with (bpow radix2 401); [|apply bpow_le; lia].
    apply Rabs_le. split; [apply rnd_lb; [apply fmt_opp, fmt_bpow; lia|lra]|apply rnd_ub; [apply fmt_bpow; lia|lra]]. }
  destruct (C125_normalize_angle lm s X F Bs) as [[Fr [k Hk]] Rg].
  set (r := normalize_angle (A := BA lm) s) in *. split; [|exact Rg]. split; [exact Fr|]. exists k.
  set (x := B2R a) in *. set (y := B2R b) in *.
  pose proof (rnd_err (y - x)) as Es. rewrite <- V in Es.
  pose proof u64_pos as U. pose proof u64_small as US. pose proof eta_tiny as ET.
  assert (AB : Rabs (y - x) <= Rabs x + Rabs y).
  { eapply Rle_trans; [apply Rabs_triang|]. rewrite Rabs_Ropp. lra. }
  replace (B2R r - (y - x + 2 * PI * IZR k)) with ((B2R r - (B2R s + 2 * PI * IZR k)) + (B2R s - (y - x))) by ring.
  eapply Rle_trans; [apply Rabs_triang|]. rewrite error_val in Hk.
  pose proof (Rabs_pos x). pose proof (Rabs_pos y).
  assert (Q1 : u64 * Rabs (y - x) <= u64 * (Rabs x + Rabs y)) by (apply Rmult_le_compat_l; lra).
  assert (Q2 : u64 * (Rabs x + Rabs y) <= / 1000000000000000 * (Rabs x + Rabs y)) by (apply Rmult_le_compat_r; lra).
  assert (Q3 : Rabs (B2R s) <= 1.1 * (Rabs x + Rabs y) + 1).
  { replace (B2R s) with ((B2R s - (y - x)) + (y - x)) by ring. eapply Rle_trans; [apply Rabs_triang|]. lra. }
  assert (Q4 : 4 * u64 * (Rabs (B2R s) + 8) <= 4 * u64 * (1.1 * (Rabs x + Rabs y) + 9)) by (apply Rmult_le_compat_l; lra).
  assert (0 <= u64 * Rabs x) by (apply Rmult_le_pos; lra). assert (0 <= u64 * Rabs y) by (apply Rmult_le_pos; lra).
  rewrite !Rmult_plus_distr_l in *. lra.
Qed.

Lemma cos_turns (x : R) (k : Z) : cos (x + 2 * PI * IZR k) = cos x.
Proof. apply cos_turn. Qed.
Lemma sin_turns (x : R) (k : Z) : sin (x + 2 * PI * IZR k) = sin x.
Proof. apply sin_turn. Qed.

Theorem C132_guess (lm : libm) (M : R) (robot odom0 odom1 d : _) : accurate_trig lm -> exact_fmod lm -> usual_size M ->
  pose_upto M robot -> pose_upto M odom0 -> pose_upto M odom1 ->
  moderate (poth robot) -> moderate (poth odom0) -> moderate (poth odom1) ->
  same_pose (compose (real_pose odom0) d) (real_pose odom1) ->
  let g := odom_guess (A := BA lm) robot odom0 odom1 in
  beside (bpow radix2 (-48) * M * (Rabs (B2R (poth robot)) + Rabs (B2R (poth odom0)) + 9))
    (position (real_pose g)) (position (compose (real_pose robot) d)) /\
  heading_within (guess_error robot odom0 odom1) (poth g) (B2R (poth robot) + poth d) /\
  Rabs (B2R (poth g)) <= B2R b64_pi /\ is_finite (pox g) = true /\ is_finite (poy g) = true.
Proof.
  intros T X HM (RX & RY & RT) (OX & OY & OT) (NX & NY & NT) MR MO MN SP g.
  pose proof (odom_guess_rigid (real_pose robot) (real_pose odom0) (real_pose odom1) d SP) as (GX & GY & [kg GT]).
  destruct (angle_diff_within lm _ _ X MO MR) as [[FH [kh EH]] BH].
  destruct (angle_diff_within lm _ _ X MO MN) as [[FD [kd ED]] BD].
  set (h := angle_diff (A := BA lm) (poth odom0) (poth robot)) in *.
  set (dth := angle_diff (A := BA lm) (poth odom0) (poth odom1)) in *.
  set (H := B2R (poth robot) - B2R (poth odom0)) in *.
  set (eps := 8 * u64 * (Rabs (B2R (poth odom0)) + Rabs (B2R (poth robot)) + 8)) in *.
  assert (LC : Rabs (cos (B2R h) - cos H) <= eps).
  { rewrite <- (cos_turns H kh). eapply Rle_trans; [apply cos_lip|exact EH]. }
  assert (LS : Rabs (sin (B2R h) - sin H) <= eps).
  { rewrite <- (sin_turns H kh). eapply Rle_trans; [apply sin_lip|exact EH]. }
  pose proof (cos_unit lm h T FH) as HC. pose proof (sin_unit lm h T FH) as HS.
  pose proof (near_upto M _ RX) as NRX. pose proof (near_upto M _ RY) as NRY.
  pose proof (near_upto M _ OX) as NOX. pose proof (near_upto M _ OY) as NOY.
  pose proof (near_upto M _ NX) as NNX. pose proof (near_upto M _ NY) as NNY.
  near_op near_sub M HM NNX NOX DX. near_op near_sub M HM NNY NOY DY.
  pose proof (fun a b => near_mul_r M HM _ _ _ _ _ _ a b HC DX) as C1. specialize (C1 ltac:(lra) ltac:(lra)).
  pose proof (fun a b => near_mul_r M HM _ _ _ _ _ _ a b HS DY) as C2. specialize (C2 ltac:(lra) ltac:(lra)).
  pose proof (fun a b => near_mul_r M HM _ _ _ _ _ _ a b HS DX) as C3. specialize (C3 ltac:(lra) ltac:(lra)).
  pose proof (fun a b => near_mul_r M HM _ _ _ _ _ _ a b HC DY) as C4. specialize (C4 ltac:(lra) ltac:(lra)).
  destruct DX as (_ & _ & BDX). destruct DY as (_ & _ & BDY).
  near_op near_add M HM NRX C1 nx1. near_op near_sub M HM nx1 C2 nx2.
  near_op near_add M HM NRY C3 ny1. near_op near_add M HM ny1 C4 ny2.
  clear nx1 ny1 C1 C2 C3 C4. destruct nx2 as (FA & EA & _). destruct ny2 as (FB & EB & _).
  pose proof (uM_pos M HM) as U. pose proof (M_pos M HM) as MP.
  assert (RG : forall z : pose R, z = odom_guess (A := RA) (real_pose robot) (real_pose odom0) (real_pose odom1) ->
    pox z = B2R (pox robot) + (B2R (pox odom1) - B2R (pox odom0)) * cos H - (B2R (poy odom1) - B2R (poy odom0)) * sin H /\
    poy z = B2R (poy robot) + (B2R (pox odom1) - B2R (pox odom0)) * sin H + (B2R (poy odom1) - B2R (poy odom0)) * cos H).
  { intros z ->. unfold odom_guess, angle_diff, real_pose. cbn [pox poy poth]. unfold H.
    rewrite <- (normalize_angle_cos (B2R (poth robot) - B2R (poth odom0))), <- (normalize_angle_sin (B2R (poth robot) - B2R (poth odom0))). split; reflexivity. }
  destruct (RG _ eq_refl) as [GX' GY']. rewrite GX' in GX. rewrite GY' in GY. clear RG GX' GY'.
  set (dx := B2R (pox odom1) - B2R (pox odom0)) in *. set (dy := B2R (poy odom1) - B2R (poy odom0)) in *.
  assert (PR : forall x y : R, Rabs x <= (1 + 1) * M -> Rabs y <= eps -> Rabs (x * y) <= 2 * M * eps).
  { intros x y Hx Hy. rewrite Rabs_mult. apply Rmult_le_compat; [apply Rabs_pos|apply Rabs_pos|lra|exact Hy]. }
  assert (TOT : 24.1 * (u64 * M) + (2 * M * eps + 2 * M * eps) <= bpow radix2 (-48) * M * (Rabs (B2R (poth robot)) + Rabs (B2R (poth odom0)) + 9)).
  { rewrite u32. unfold eps. pose proof (Rabs_pos (B2R (poth robot))) as P1. pose proof (Rabs_pos (B2R (poth odom0))) as P2.
    assert (0 <= u64 * M * Rabs (B2R (poth robot))) by (apply Rmult_le_pos; lra).
    assert (0 <= u64 * M * Rabs (B2R (poth odom0))) by (apply Rmult_le_pos; lra). lra. }
  assert (TR : forall a b c e1 e2 e3 E : R, Rabs a <= e1 -> Rabs b <= e2 -> Rabs c <= e3 -> e1 + (e2 + e3) <= E -> Rabs (a + (b + c)) <= E).
  { intros. eapply Rle_trans; [apply Rabs_triang|]. pose proof (Rabs_triang b c). lra. }
  split; [split|].
  - cbn [position px]. rewrite GX. change (pox (real_pose g)) with (B2R (pox g)).
    replace (B2R (pox g) - (B2R (pox robot) + dx * cos H - dy * sin H))
      with ((B2R (pox g) - (B2R (pox robot) + dx * cos (B2R h) - dy * sin (B2R h))) + (dx * (cos (B2R h) - cos H) + (- dy) * (sin (B2R h) - sin H))) by ring.
    eapply TR; [exact EA|apply PR; [exact BDX|exact LC]|apply PR; [rewrite Rabs_Ropp; exact BDY|exact LS]|].
    eapply Rle_trans; [|exact TOT]. apply Rplus_le_compat_r, Rmult_le_compat_r; lra.
  - cbn [position py]. rewrite GY. change (poy (real_pose g)) with (B2R (poy g)).
    replace (B2R (poy g) - (B2R (poy robot) + dx * sin H + dy * cos H))
      with ((B2R (poy g) - (B2R (poy robot) + dx * sin (B2R h) + dy * cos (B2R h))) + (dx * (sin (B2R h) - sin H) + dy * (cos (B2R h) - cos H))) by ring.
    eapply TR; [exact EB|apply PR; [exact BDX|exact LS]|apply PR; [exact BDY|exact LC]|].
    eapply Rle_trans; [|exact TOT]. apply Rplus_le_compat_r, Rmult_le_compat_r; lra.
  - (* the heading *)
    pose proof (proj1 (proj1 C125_pi)) as PL. pose proof PI_4 as P4.
    assert (SB : Rabs (B2R (poth robot) + B2R dth) <= Rabs (B2R (poth robot)) + 4).
    { eapply Rle_trans; [apply Rabs_triang|]. lra. }
    destruct MR as [_ BR].
    destruct (b64_add_ok (poth robot) dth RT FD) as [VS FS].
    { eapply Rle_trans; [exact SB|]. apply Rle_trans with (bpow radix2 400 + bpow radix2 400); [|replace (bpow radix2 400 + bpow radix2 400) with (bpow radix2 401) by (change 401%Z with (1 + 400)%Z; rewrite bpow_plus; change (bpow radix2 1) with 2; ring); apply bpow_le; lia].
      apply Rplus_le_compat; [exact BR|]. change 4 with (bpow radix2 2). apply bpow_le. lia. }
    change (poth g) with (normalize_angle (A := BA lm) (Bplus mode_NE (poth robot) dth)).
    set (s := Bplus mode_NE (poth robot) dth) in *.
    pose proof (rnd_err (B2R (poth robot) + B2R dth)) as Es. rewrite <- VS in Es.
    pose proof u64_pos as UP. pose proof u64_small as US. pose proof eta_tiny as ET.
    set (r := Rabs (B2R (poth robot))) in *. assert (R0 : 0 <= r) by apply Rabs_pos.
    assert (Q1 : u64 * Rabs (B2R (poth robot) + B2R dth) <= u64 * (r + 4)) by (apply Rmult_le_compat_l; lra).
    assert (Q2 : u64 * (r + 4) <= / 1000000000000000 * (r + 4)) by (apply Rmult_le_compat_r; lra).
    assert (Q3 : Rabs (B2R s) <= 1.1 * r + 5).
    { replace (B2R s) with ((B2R s - (B2R (poth robot) + B2R dth)) + (B2R (poth robot) + B2R dth)) by ring. eapply Rle_trans; [apply Rabs_triang|]. lra. }
    destruct (C125_normalize_angle lm s X FS) as [[Fr [k Hk]] Rg].
    { eapply Rle_trans; [exact Q3|]. apply Rle_trans with (bpow radix2 403); [|apply bpow_le; lia].
      assert (1 <= bpow radix2 400) by (change 1 with (bpow radix2 0); apply bpow_le; lia).
      change 403%Z with (3 + 400)%Z. rewrite bpow_plus. change (bpow radix2 3) with 8. lra. }
    split; [|split; [exact Rg|split; assumption]].
    split; [exact Fr|].
    (* the turn of [d] is the turn of the odometry *)
    destruct SP as (_ & _ & [kp SP]). cbn [compose poth real_pose] in SP.
    exists (k + kd - kp)%Z.
    replace (B2R (normalize_angle (A := BA lm) s) - (B2R (poth robot) + poth d + 2 * PI * IZR (k + kd - kp)))
      with ((B2R (normalize_angle (A := BA lm) s) - (B2R s + 2 * PI * IZR k)) +
            ((B2R s - (B2R (poth robot) + B2R dth)) + (B2R dth - (B2R (poth odom1) - B2R (poth odom0) + 2 * PI * IZR kd))))
      by (rewrite minus_IZR, plus_IZR; lra).
    eapply TR; [exact Hk|exact Es|exact ED|].
    rewrite error_val. assert (GE : guess_error robot odom0 odom1 = 16 * u64 * (r + Rabs (B2R (poth odom0)) + Rabs (B2R (poth odom1)) + 9)).
    { unfold guess_error. rewrite <- u16. reflexivity. }
    rewrite GE. pose proof (Rabs_pos (B2R (poth odom0))) as P1. pose proof (Rabs_pos (B2R (poth odom1))) as P2.
    assert (Q4 : 4 * u64 * (Rabs (B2R s) + 8) <= 4 * u64 * (1.1 * r + 13)) by (apply Rmult_le_compat_l; lra).
    assert (0 <= u64 * r) by (apply Rmult_le_pos; lra).
    assert (0 <= u64 * Rabs (B2R (poth odom0))) by (apply Rmult_le_pos; lra).
    assert (0 <= u64 * Rabs (B2R (poth odom1))) by (apply Rmult_le_pos; lra). lra.
Qed.
Print Assumptions C132_guess.

(** The pose a processed scan starts from. *)
Theorem C132_scan (lm : libm) (M : R) (cf : config b64) s sp e s' sp' : accurate_trig lm -> exact_fmod lm -> usual_size M ->
  sp_pc sp = SIdle -> sh_scans s <> [] -> laser_begin (A := BA lm) cf s sp e = Ok (s', sp') -> busy sp' ->
  pose_upto M (sh_robot s) -> pose_upto M (sh_odom s) -> moderate (poth (sh_robot s)) -> moderate (poth (sh_odom s)) ->
  exists start sc, le_start e = Some start /\ sh_heap s' = sh_heap s ++ [sc] /\
    (pose_upto M (from_msg (A := BA lm) start) -> moderate (poth (from_msg (A := BA lm) start)) ->
     forall d, same_pose (compose (real_pose (sh_odom s)) d) (real_pose (from_msg (A := BA lm) start)) ->
       beside (bpow radix2 (-48) * M * (Rabs (B2R (poth (sh_robot s))) + Rabs (B2R (poth (sh_odom s))) + 9))
         (position (real_pose (s_pose sc))) (position (compose (real_pose (sh_robot s)) d)) /\
       heading_within (guess_error (sh_robot s) (sh_odom s) (from_msg (A := BA lm) start)) (poth (s_pose sc))
         (B2R (poth (sh_robot s)) + poth d)).
Proof.
  intros T X HM I N H B PR PO MR MO. apply (laser_begin_cases (A := BA lm)) in H; [|exact I].
  destruct H as [(P & _)|(start & end_ & guess & pts & sc & s1 & sp1 & _ & _ & _ & Es & _ & Hg & _ & -> & -> & _)].
  - exfalso. apply B. exact P.
  - exists start. eexists. split; [exact Es|]. split; [reflexivity|]. cbn.
    intros PN MN d Hd. unfold guess_pose in Hg. destruct (sh_scans s); [contradiction|].
    destruct (small_motion _ _ _ _); [discriminate Hg|]. injection Hg as <-.
    destruct (C132_guess lm M _ _ _ d T X HM PR PO PN MR MO MN Hd) as (Q1 & Q2 & _). split; assumption.
Qed.
Print Assumptions C132_scan.

Lemma nearest_fmod (lm : libm) : exact_fmod lm -> exact_fmod (with_nearest lm).
Proof. intros H x y. exact (H x y). Qed.

(** Odometry from (1, 0) to (3, 0), the robot at (2, 5): the motion is (2, 0). *)
Example C132_nonvacuous (lm : libm) : let lm' := with_nearest (with_fmod lm) in
  let z := b64_of 0 0 in
  let robot := mkPose (b64_of 2 0) (b64_of 5 0) z in let odom0 := mkPose (b64_of 1 0) z z in let odom1 := mkPose (b64_of 3 0) z z in
  accurate_trig lm' /\ exact_fmod lm' /\ usual_size 8 /\ pose_upto 8 robot /\ pose_upto 8 odom0 /\ pose_upto 8 odom1 /\
  moderate (poth robot) /\ same_pose (compose (real_pose odom0) (mkPose 2 0 0)) (real_pose odom1).
Proof.
  cbv zeta. split; [apply nearest_accurate|]. split; [apply nearest_fmod; exact (proj1 (C125_nonvacuous lm))|]. split; [apply size8|].
  split; [repeat split; try reflexivity; apply b64_of_small; lia|]. split; [repeat split; try reflexivity; apply b64_of_small; lia|].
  split; [repeat split; try reflexivity; apply b64_of_small; lia|].
  split; [split; [reflexivity|cbn; rewrite Rabs_R0; lra]|].
  unfold same_pose, compose, act, real_pose. cbn [pox poy poth px py]. rewrite !(fun z H => proj1 (b64_ofZ z H)) by lia.
  rewrite cos_0, sin_0. split; [ring|]. split; [ring|]. exists 0%Z. ring.
Qed.

(** ** The published transform *)
Lemma size1 : usual_size 1.
Proof. split; change 1 with (bpow radix2 0); apply bpow_le; lia. Qed.
Lemma unit_is_near (c : b64) (C : R) : unit_near c C -> near 1 2 1 c C.
Proof. intros (F & E & B). split; [exact F|]. lra. Qed.

Lemma entry (a b c d : b64) (A B C D : R) : unit_near a A -> unit_near b B -> unit_near c C -> unit_near d D ->
  near 1 (1205 / 100) 2 (Bplus mode_NE (Bmult mode_NE a b) (Bmult mode_NE c d)) (A * B + C * D).
Proof.
  intros HA HB HC HD. pose proof (unit_is_near _ _ HB) as NB. pose proof (unit_is_near _ _ HD) as ND.
  pose proof (fun x y => near_mul 1 size1 _ _ _ _ _ _ x y HA NB) as m1. specialize (m1 ltac:(lra) ltac:(lra)).
  pose proof (fun x y => near_mul 1 size1 _ _ _ _ _ _ x y HC ND) as m2. specialize (m2 ltac:(lra) ltac:(lra)).
  near_op near_add 1 size1 m1 m2 nx1. eapply near_weaken; [exact size1| | |exact nx1]; lra.
Qed.

Lemma shift (M k1 k2 b1 b2 : R) (a b x y t : b64) (A B X Y : R) : usual_size M -> unit_near a A -> unit_near b B ->
  0 <= k1 <= 10 -> 0 <= k2 <= 10 -> 0 <= b1 <= 2 -> 0 <= b2 <= 2 -> near M k1 b1 x X -> near M k2 b2 y Y -> upto M t ->
  near M (k1 + k2 + 5 * b1 + 5 * b2 + 2) 10 (Bplus mode_NE (Bplus mode_NE (Bmult mode_NE a x) (Bmult mode_NE b y)) t) (A * X + B * Y + B2R t).
Proof.
  intros HM HA HB K1 K2 HB1 HB2 NX NY Ht. pose proof (near_upto M _ Ht) as NT.
  pose proof (fun u v => near_mul M HM _ _ _ _ _ _ u v HA NX) as m1. specialize (m1 ltac:(lra) ltac:(lra)).
  pose proof (fun u v => near_mul M HM _ _ _ _ _ _ u v HB NY) as m2. specialize (m2 ltac:(lra) ltac:(lra)).
  near_op near_add M HM m1 m2 nx1. near_op near_add M HM nx1 NT nx2. eapply near_weaken; [exact HM| | |exact nx2]; lra.
Qed.

Lemma rot2 (M : R) (a b x y : b64) (A B : R) : usual_size M -> unit_near a A -> unit_near b B -> upto M x -> upto M y ->
  near M (805 / 100) 2 (Bplus mode_NE (Bmult mode_NE a x) (Bmult mode_NE b y)) (A * B2R x + B * B2R y).
Proof.
  intros HM HA HB HX HY. pose proof (near_upto M _ HX) as NX. pose proof (near_upto M _ HY) as NY.
  pose proof (fun u v => near_mul M HM _ _ _ _ _ _ u v HA NX) as m1. specialize (m1 ltac:(lra) ltac:(lra)).
  pose proof (fun u v => near_mul M HM _ _ _ _ _ _ u v HB NY) as m2. specialize (m2 ltac:(lra) ltac:(lra)).
  near_op near_add M HM m1 m2 nx1. eapply near_weaken; [exact HM| | |exact nx1]; lra.
Qed.

(** Applying a transform whose entries are known up to errors. *)
Lemma apply_near (M : R) (a b t : b64) (A B T x y : R) : usual_size M -> near 1 (1205 / 100) 2 a A -> near 1 (1205 / 100) 2 b B ->
  near M 40 10 t T -> Rabs x <= 3 * M -> Rabs y <= 3 * M ->
  Rabs (B2R a * x + B2R b * y + B2R t - (A * x + B * y + T)) <= bpow radix2 (-46) * M.
Proof.
  intros HM (_ & EA & _) (_ & EB & _) (_ & ET & _) HX HY. pose proof (uM_pos M HM) as U. pose proof (M_pos M HM) as MP. pose proof u64_pos as U0.
  assert (PR : forall d z, Rabs d <= 1205 / 100 * (u64 * 1) -> Rabs z <= 3 * M -> Rabs (d * z) <= 3615 / 100 * (u64 * M)).
  { intros d z Hd Hz. rewrite Rabs_mult. apply Rle_trans with (1205 / 100 * (u64 * 1) * (3 * M)); [|lra].
    apply Rmult_le_compat; [apply Rabs_pos|apply Rabs_pos|exact Hd|exact Hz]. }
  pose proof (PR _ _ EA HX) as P1. pose proof (PR _ _ EB HY) as P2.
  replace (B2R a * x + B2R b * y + B2R t - (A * x + B * y + T)) with ((B2R t - T) + ((B2R a - A) * x + (B2R b - B) * y)) by ring.
  eapply Rle_trans; [apply Rabs_triang|]. pose proof (Rabs_triang ((B2R a - A) * x) ((B2R b - B) * y)). rewrite u128. lra.
Qed.

Lemma act_size (M : R) (p : pose R) (q : point R) : Rabs (pox p) <= M -> Rabs (poy p) <= M -> Rabs (px q) <= M -> Rabs (py q) <= M ->
  Rabs (px (act p q)) <= 3 * M /\ Rabs (py (act p q)) <= 3 * M.
Proof.
  intros X Y QX QY. destruct (sq_le1 (cos (poth p)) (sin (poth p)) ltac:(apply Rabs_le; apply COS_bound) ltac:(apply Rabs_le; apply SIN_bound) _ _ _ QX QY) as [H1 H2].
  unfold act. cbn [px py]. split; (eapply Rle_trans; [apply Rabs_triang|lra]).
Qed.

Theorem C133_transform (lm : libm) (M : R) (robot odom : pose b64) (q : point R) : accurate_trig lm -> usual_size M ->
  pose_upto M robot -> pose_upto M odom -> Rabs (px q) <= M -> Rabs (py q) <= M ->
  finite_iso (map_to_odom (A := BA lm) robot odom) /\
  beside (bpow radix2 (-46) * M) (iso_act (real_iso (map_to_odom (A := BA lm) robot odom)) (act (real_pose odom) q)) (act (real_pose robot) q).
Proof.
  intros T HM (RX & RY & RT) (OX & OY & OT) QX QY.
  pose proof (cos_unit lm _ T RT) as C1. pose proof (sin_unit lm _ T RT) as S1.
  pose proof (cos_unit lm _ T OT) as C2. pose proof (sin_unit lm _ T OT) as S2.
  set (z := nzero (A := BA lm)). assert (FZ : is_finite z = true) by reflexivity. assert (VZ : B2R z = 0) by reflexivity.
  pose proof (unit_zero_minus z _ _ FZ VZ S1) as M1. pose proof (unit_zero_plus z _ _ FZ VZ S1) as P1.
  pose proof (unit_zero_minus z _ _ FZ VZ S2) as M2. pose proof (unit_zero_plus z _ _ FZ VZ S2) as P2.
  pose proof (unit_opp _ _ C2) as NC2. pose proof (unit_opp _ _ P2) as NP2. pose proof (unit_opp _ _ M2) as NM2.
  pose proof (entry _ _ _ _ _ _ _ _ C1 C2 M1 M2) as e00. pose proof (entry _ _ _ _ _ _ _ _ C1 P2 M1 C2) as e01.
  pose proof (entry _ _ _ _ _ _ _ _ P1 C2 C1 M2) as e10. pose proof (entry _ _ _ _ _ _ _ _ P1 P2 C1 C2) as e11.
  pose proof (rot2 M _ _ _ _ _ _ HM NC2 NP2 OX OY) as ix. pose proof (rot2 M _ _ _ _ _ _ HM NM2 NC2 OX OY) as iy.
  pose proof (shift M (805 / 100) (805 / 100) 2 2 _ _ _ _ _ _ _ _ _ HM C1 M1 ltac:(lra) ltac:(lra) ltac:(lra) ltac:(lra) ix iy RX) as tx.
  pose proof (shift M (805 / 100) (805 / 100) 2 2 _ _ _ _ _ _ _ _ _ HM P1 C1 ltac:(lra) ltac:(lra) ltac:(lra) ltac:(lra) ix iy RY) as ty.
  apply (near_weaken M HM _ 40 _ 10) in tx; [|lra|lra]. apply (near_weaken M HM _ 40 _ 10) in ty; [|lra|lra].
  split. { repeat split; [apply e00|apply e01|apply e10|apply e11|apply tx|apply ty]. }
  destruct (act_size M (real_pose odom) q (proj2 OX) (proj2 OY) QX QY) as [AX AY].
  pose proof (map_to_odom_act (real_pose robot) (real_pose odom) q) as XX. rewrite <- XX.
  set (w := act (real_pose odom) q) in *.
  pose proof (apply_near M _ _ _ _ _ _ _ _ HM e00 e01 tx AX AY) as HX. pose proof (apply_near M _ _ _ _ _ _ _ _ HM e10 e11 ty AX AY) as HY.
  split.
  - eapply Rle_trans; [|exact HX]. right. f_equal. unfold iso_act, map_to_odom, iso_mul, iso_inverse, to_iso, real_iso, real_pose.
    cbn [px py i00 i01 i10 i11 itx ity pox poy poth]. ra. unfold Rminus. f_equal. f_equal. ring.
  - eapply Rle_trans; [|exact HY]. right. f_equal. unfold iso_act, map_to_odom, iso_mul, iso_inverse, to_iso, real_iso, real_pose.
    cbn [px py i00 i01 i10 i11 itx ity pox poy poth]. ra. unfold Rminus. f_equal. f_equal. ring.
Qed.
Print Assumptions C133_transform.
