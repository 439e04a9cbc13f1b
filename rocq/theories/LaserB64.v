(** Binary64 facts about the conversion of readings (C60, C61). *)

From Coq Require Import ZArith Reals List Bool Lia Lra.
From Flocq Require Import Core BinarySingleNaN.
From Verif Require Import Outcome Arith TypesModel ScanModel MotionModel LaserModel
  SpecPose SpecLaser B64Tactics B64Lemmas NdtProofs LaserProofs.
Import ListNotations.

(** ** Numbers that are not finite stay so *)
Lemma nf_mul_r : forall c x : b64, is_finite x = false -> is_finite (Bmult mode_NE c x) = false.
Proof. intros [s|s| |s m e H] [s'|s'| |s' m' e' H'] F; try discriminate F; reflexivity. Qed.
Lemma nf_add_l : forall x y : b64, is_finite x = false -> is_finite (Bplus mode_NE x y) = false.
Proof. intros [s|s| |s m e H] [s'|s'| |s' m' e' H'] F; try discriminate F; try reflexivity; destruct s, s'; reflexivity. Qed.
Lemma nf_sub_l : forall x y : b64, is_finite x = false -> is_finite (Bminus mode_NE x y) = false.
Proof. intros [s|s| |s m e H] [s'|s'| |s' m' e' H'] F; try discriminate F; try reflexivity; destruct s, s'; reflexivity. Qed.

Lemma skipped_b64 : forall (lm : libm) (rm r : b64), is_nan rm = false ->
  skipped (A := BA lm) rm r = negb (Bleb r rm).
Proof.
  intros lm rm r N. unfold skipped. cbn [nisnan nlt BA].
  destruct (is_nan r) eqn:R.
  - destruct r; try discriminate R. destruct rm; reflexivity.
  - cbn [orb]. unfold Bltb, Bleb, SpecFloat.SFltb, SpecFloat.SFleb.
    change (SpecFloat.SFcompare (B2SF rm) (B2SF r)) with (Bcompare rm r).
    change (SpecFloat.SFcompare (B2SF r) (B2SF rm)) with (Bcompare r rm).
    rewrite (Bcompare_swap _ _ r rm). destruct (Bcompare r rm) as [[| |]|] eqn:E; try reflexivity.
    exfalso. destruct r, rm; try discriminate; unfold Bcompare in E; cbn in E;
      repeat match type of E with context [match ?b with _ => _ end] => destruct b end; discriminate E.
Qed.

Section B.
Context (lm : libm).
Let A : Arith b64 := BA lm.
Existing Instance A.

(** A reading of minus infinity is not skipped and gives a point that is not
    finite, whatever the mathematical library computes. *)
Lemma ninf_not_skipped : forall rm : b64, skipped rm b64_ninf = false.
Proof. intros [s|s| |s m e H]; try destruct s; reflexivity. Qed.

Lemma ninf_point : forall shift laser angle, is_finite (px (move_point shift (to_robot laser angle b64_ninf))) = false.
Proof.
  intros shift laser angle. unfold move_point, to_robot. cbn [px py nadd nsub nmul A BA].
  apply nf_add_l, nf_sub_l, nf_mul_r, nf_add_l, nf_sub_l, nf_mul_r, nf_mul_r. reflexivity.
Qed.

(** ** Bounds *)
Definition bnd (x : b64) (e : Z) : Prop := is_finite x = true /\ (Rabs (B2R x) <= bpow radix2 e)%R.

Lemma bnd_weaken : forall x a b, bnd x a -> (a <= b)%Z -> bnd x b.
Proof. intros x a b [F B] H. split; [exact F|]. eapply Rle_trans; [exact B|]. apply bpow_le. exact H. Qed.

Lemma rnd_abs : forall x e, (-1074 <= e)%Z -> (Rabs x <= bpow radix2 e)%R -> (Rabs (rnd x) <= bpow radix2 e)%R.
Proof.
  intros x e E H. apply Rabs_le. apply Rabs_le_inv in H.
  split; [apply rnd_lb; [apply fmt_opp|lra]|apply rnd_ub; [|lra]]; apply fmt_bpow; exact E.
Qed.

Lemma bnd_mul : forall x y a b, bnd x a -> bnd y b -> (-1074 <= a + b <= 1023)%Z -> bnd (Bmult mode_NE x y) (a + b).
Proof.
  intros x y a b [Fx Bx] [Fy By] H.
  assert (P : (Rabs (B2R x * B2R y) <= bpow radix2 (a + b))%R).
  { rewrite Rabs_mult, bpow_plus. apply Rmult_le_compat; (apply Rabs_pos || assumption). }
  destruct (b64_mul_ok x y Fx Fy) as [V F].
  { eapply Rle_trans; [exact P|]. apply bpow_le. lia. }
  split; [exact F|]. rewrite V. apply rnd_abs; [lia|exact P].
Qed.

Lemma two_bpow : forall e, (bpow radix2 e + bpow radix2 e = bpow radix2 (e + 1))%R.
Proof. intro e. rewrite bpow_plus. cbn. lra. Qed.

Lemma bnd_add : forall x y a, bnd x a -> bnd y a -> (-1075 <= a <= 1022)%Z -> bnd (Bplus mode_NE x y) (a + 1).
Proof.
  intros x y a [Fx Bx] [Fy By] H.
  assert (P : (Rabs (B2R x + B2R y) <= bpow radix2 (a + 1))%R).
  { rewrite <- two_bpow. eapply Rle_trans; [apply Rabs_triang|]. lra. }
  destruct (b64_add_ok x y Fx Fy) as [V F].
  { eapply Rle_trans; [exact P|]. apply bpow_le. lia. }
  split; [exact F|]. rewrite V. apply rnd_abs; [lia|exact P].
Qed.
Lemma bnd_sub : forall x y a, bnd x a -> bnd y a -> (-1075 <= a <= 1022)%Z -> bnd (Bminus mode_NE x y) (a + 1).
Proof.
  intros x y a [Fx Bx] [Fy By] H.
  assert (P : (Rabs (B2R x - B2R y) <= bpow radix2 (a + 1))%R).
  { rewrite <- two_bpow. unfold Rminus. eapply Rle_trans; [apply Rabs_triang|]. rewrite Rabs_Ropp. lra. }
  destruct (b64_sub_ok x y Fx Fy) as [V F].
  { eapply Rle_trans; [exact P|]. apply bpow_le. lia. }
  split; [exact F|]. rewrite V. apply rnd_abs; [lia|exact P].
Qed.

Lemma bnd_ofZ : forall z, (Z.abs z <= 2 ^ 53)%Z -> bnd (b64_of z 0) 53.
Proof.
  intros z H. destruct (b64_ofZ z H) as [V F]. split; [exact F|]. rewrite V, <- abs_IZR.
  replace (bpow radix2 53) with (IZR (2 ^ 53)) by (cbn; lra). apply IZR_le. exact H.
Qed.

Lemma bnd_div_pos : forall x z a, bnd x a -> (0 < z <= 2 ^ 53)%Z -> (-1074 <= a <= 1023)%Z ->
  bnd (Bdiv mode_NE x (b64_of z 0)) a.
Proof.
  intros x z a [Fx Bx] Hz H.
  destruct (b64_ofZ z ltac:(lia)) as [V F].
  assert (Z1 : (1 <= IZR z)%R) by (apply IZR_le; lia).
  assert (P : (Rabs (B2R x / B2R (b64_of z 0)) <= bpow radix2 a)%R).
  { rewrite V. unfold Rdiv. rewrite Rabs_mult, Rabs_inv, (Rabs_pos_eq (IZR z)) by lra.
    rewrite <- (Rmult_1_r (bpow radix2 a)). apply Rmult_le_compat; [apply Rabs_pos| |exact Bx|].
    - apply Rlt_le, Rinv_0_lt_compat. lra.
    - rewrite <- Rinv_1. apply Rinv_le; lra. }
  destruct (b64_div_ok x (b64_of z 0) Fx) as [V' F'].
  { rewrite V. lra. }
  { eapply Rle_trans; [exact P|]. apply bpow_le. lia. }
  split; [exact F'|]. rewrite V'. apply rnd_abs; [lia|exact P].
Qed.

Lemma bnd_opp : forall x a, bnd x a -> bnd (Bopp x) a.
Proof.
  intros x a [F B]. split; [rewrite is_finite_Bopp; exact F|]. rewrite B2R_Bopp, Rabs_Ropp. exact B.
Qed.

Lemma b64_of_bnd : forall m e a, (Rabs (IZR m * bpow radix2 e) <= bpow radix2 a)%R -> (-1074 <= a <= 1023)%Z -> bnd (b64_of m e) a.
Proof.
  intros m e a B H. unfold b64_of.
  pose proof (binary_normalize_correct 53 1024 prec64_gt_0 prec64_lt_emax mode_NE m e false) as C. cbv zeta in C.
  assert (E : F2R (Float radix2 m e) = (IZR m * bpow radix2 e)%R) by reflexivity. rewrite E in C.
  change (round radix2 (SpecFloat.fexp 53 1024) (round_mode mode_NE) (IZR m * bpow radix2 e)%R) with (rnd (IZR m * bpow radix2 e)) in C.
  rewrite Rlt_bool_true in C.
  - destruct C as (V & F & _). split; [exact F|]. rewrite V. apply rnd_abs; [lia|exact B].
  - apply rnd_bounded. eapply Rle_trans; [exact B|]. apply bpow_le. lia.
Qed.

Lemma bnd_single : forall x a, bnd x a -> (0 <= a <= 127)%Z -> bnd (b64_single x) a.
Proof.
  intros x a [F B] H. destruct x as [s|s| |s m e W]; try discriminate F.
  - split; [reflexivity|exact B].
  - unfold b64_single.
    pose proof (binary_normalize_correct 24 128 prec32_gt_0 prec32_lt_emax mode_NE (SpecFloat.cond_Zopp s (Zpos m)) e s) as C.
    cbv zeta in C.
    set (f32 := SpecFloat.fexp 24 128) in *.
    set (rd := round radix2 f32 (round_mode mode_NE)) in *.
    set (v := F2R (Float radix2 (SpecFloat.cond_Zopp s (Zpos m)) e)) in *.
    assert (Bv : (Rabs v <= bpow radix2 a)%R) by exact B.
    assert (V32 : Valid_exp f32) by (apply (fexp_correct 24 128); reflexivity).
    assert (G : generic_format radix2 f32 (bpow radix2 a)).
    { apply generic_format_bpow'; [exact V32|]. unfold f32, SpecFloat.fexp, SpecFloat.emin. lia. }
    assert (Br : (Rabs (rd v) <= bpow radix2 a)%R).
    { apply Rabs_le. apply Rabs_le_inv in Bv. split.
      - apply round_ge_generic; [exact V32|apply valid_rnd_round_mode|apply generic_format_opp; exact G|lra].
      - apply round_le_generic; [exact V32|apply valid_rnd_round_mode|exact G|lra]. }
    rewrite Rlt_bool_true in C.
    2:{ eapply Rle_lt_trans; [exact Br|]. apply bpow_lt. lia. }
    destruct C as (V & Fb & _).
    destruct (binary_normalize 24 128 prec32_gt_0 prec32_lt_emax mode_NE (SpecFloat.cond_Zopp s (Zpos m)) e s)
      as [s'|s'| |s' m' e' W'] eqn:N; try discriminate Fb.
    + split; [reflexivity|]. cbn. rewrite Rabs_R0. apply bpow_ge_0.
    + apply b64_of_bnd; [|lia]. rewrite <- V in Br. exact Br.
Qed.

(** The mathematical library: cosine and sine of finite numbers are finite and
    at most 1 in magnitude. *)
Definition trig_ok : Prop := forall x : b64, is_finite x = true -> bnd (lm_cos lm x) 0 /\ bnd (lm_sin lm x) 0.

Lemma rotate_bnd : forall c s x y t a, bnd c 0 -> bnd s 0 -> bnd x a -> bnd y a -> bnd t (a + 1) ->
  (0 <= a <= 1000)%Z ->
  bnd (Bplus mode_NE (Bminus mode_NE (Bmult mode_NE c x) (Bmult mode_NE s y)) t) (a + 2) /\
  bnd (Bplus mode_NE (Bplus mode_NE (Bmult mode_NE s x) (Bmult mode_NE c y)) t) (a + 2).
Proof.
  intros c s x y t a Hc Hs Hx Hy Ht H.
  pose proof (bnd_mul _ _ _ _ Hc Hx ltac:(lia)) as CX.
  pose proof (bnd_mul _ _ _ _ Hs Hy ltac:(lia)) as SY.
  pose proof (bnd_mul _ _ _ _ Hs Hx ltac:(lia)) as SX.
  pose proof (bnd_mul _ _ _ _ Hc Hy ltac:(lia)) as CY.
  rewrite Z.add_0_l in *.
  replace (a + 2)%Z with (a + 1 + 1)%Z by lia.
  split; apply bnd_add; try exact Ht; try lia; [apply bnd_sub|apply bnd_add]; (assumption || lia).
Qed.

Lemma to_robot_bnd : forall (laser : pose b64) angle r, trig_ok -> is_finite angle = true ->
  bnd r 128 -> bnd (pox laser) 129 -> bnd (poy laser) 129 -> is_finite (poth laser) = true ->
  bnd (px (to_robot laser angle r)) 130 /\ bnd (py (to_robot laser angle r)) 130.
Proof.
  intros laser angle r L Fa Br Bx By Ft. unfold to_robot. cbn [px py nadd nsub nmul ncos nsin A BA].
  destruct (L angle Fa) as [Ca Sa]. destruct (L _ Ft) as [Cl Sl].
  pose proof (bnd_mul _ _ _ _ Ca Br ltac:(lia)) as LX. pose proof (bnd_mul _ _ _ _ Sa Br ltac:(lia)) as LY.
  split; [eapply (proj1 (rotate_bnd _ _ _ _ _ 128 Cl Sl LX LY Bx ltac:(lia)))|
          eapply (proj2 (rotate_bnd _ _ _ _ _ 128 Cl Sl LX LY By ltac:(lia)))].
Qed.

Lemma move_point_bnd : forall (sh : pose b64) p, trig_ok -> bnd (px p) 200 -> bnd (py p) 200 ->
  bnd (pox sh) 201 -> bnd (poy sh) 201 -> is_finite (poth sh) = true ->
  is_finite (px (move_point sh p)) = true /\ is_finite (py (move_point sh p)) = true.
Proof.
  intros sh p L Bx By Tx Ty Ft. unfold move_point. cbn [px py nadd nsub nmul ncos nsin A BA].
  destruct (L _ Ft) as [C S].
  split; [eapply (proj1 (proj1 (rotate_bnd _ _ _ _ _ 200 C S Bx By Tx ltac:(lia))))|
          eapply (proj1 (proj2 (rotate_bnd _ _ _ _ _ 200 C S Bx By Ty ltac:(lia))))].
Qed.

Definition pose_bnd (p : pose b64) (e : Z) : Prop := bnd (pox p) e /\ bnd (poy p) e /\ bnd (poth p) e.

Lemma shift_bnd : forall (o e : pose b64) n i, pose_bnd o 100 -> pose_bnd e 100 ->
  (0 < Z.of_nat n <= 2 ^ 53)%Z -> (i < n)%nat ->
  pose_bnd (upright_shift (per_measurement (sweep_translation o e) n) i) 201 /\
  pose_bnd (inverted_shift (sweep_translation o e) (per_measurement (sweep_translation o e) n) i) 201.
Proof.
  intros o e n i (Ox & Oy & Ot) (Ex & Ey & Et) Hn Hi.
  assert (K : bnd (b64_of (Z.of_nat i) 0) 53) by (apply bnd_ofZ; lia).
  assert (one : forall x y, bnd x 100 -> bnd y 100 ->
    bnd (Bmult mode_NE (Bdiv mode_NE (Bminus mode_NE x y) (b64_of (Z.of_nat n) 0)) (b64_of (Z.of_nat i) 0)) 201 /\
    bnd (Bminus mode_NE (Bminus mode_NE x y)
           (Bmult mode_NE (Bdiv mode_NE (Bminus mode_NE x y) (b64_of (Z.of_nat n) 0)) (b64_of (Z.of_nat i) 0))) 201).
  { intros x y Bx By.
    pose proof (bnd_sub x y 100 Bx By ltac:(lia)) as D.
    pose proof (bnd_div_pos _ (Z.of_nat n) (100 + 1) D Hn ltac:(lia)) as Q.
    pose proof (bnd_mul _ _ _ _ Q K ltac:(lia)) as P.
    split; [eapply bnd_weaken; [exact P|lia]|].
    eapply bnd_weaken; [apply bnd_sub with (a := 160%Z); [eapply bnd_weaken; [exact D|lia]|eapply bnd_weaken; [exact P|lia]|lia]|lia]. }
  destruct (one _ _ Ex Ox) as [X1 X2]. destruct (one _ _ Ey Oy) as [Y1 Y2]. destruct (one _ _ Et Ot) as [T1 T2].
  split; (split; [|split]); cbn [pox poy poth upright_shift inverted_shift per_measurement sweep_translation nsub nmul ndiv nofZ A BA]; assumption.
Qed.

Lemma beam_angle_bnd : forall (m : laser_msg b64) i, bnd (lr_angle_min m) 64 -> bnd (lr_angle_inc m) 10 ->
  (Z.of_nat i <= 2 ^ 53)%Z -> bnd (beam_angle m i) 65.
Proof.
  intros m i B1 B2 H. unfold beam_angle. cbn [nsingle nadd nmul nofZ A BA].
  pose proof (bnd_single _ 53 (bnd_ofZ (Z.of_nat i) ltac:(lia)) ltac:(lia)) as K.
  pose proof (bnd_single _ _ (bnd_mul _ _ _ _ K B2 ltac:(lia)) ltac:(lia)) as P.
  apply bnd_single; [|lia]. apply (bnd_add _ _ 64); [exact B1|eapply bnd_weaken; [exact P|lia]|lia].
Qed.

(** Finite points when no accepted reading is minus infinity. *)
Lemma points_finite : forall (inv : bool) (rm : b64) (laser o e : pose b64) (m : laser_msg b64) pts,
  trig_ok -> is_finite rm = true ->
  bnd (lr_angle_min m) 64 -> bnd (lr_angle_inc m) 10 -> (Z.of_nat (length (lr_ranges m)) <= 2 ^ 53)%Z ->
  pose_bnd laser 100 -> pose_bnd o 100 -> pose_bnd e 100 ->
  (forall r, In r (lr_ranges m) -> is_finite r = true -> (Rabs (B2R r) <= bpow radix2 128)%R) ->
  ~ In b64_ninf (lr_ranges m) ->
  scan_points inv rm laser o e m = Ok pts ->
  Forall (fun p => is_finite (px p) = true /\ is_finite (py p) = true) pts.
Proof.
  intros inv rm laser o e m pts L Frm Bmin Binc Hn Bl Bo Be Hr Hni E.
  assert (acc : forall r, In r (lr_ranges m) -> skipped rm r = false -> bnd r 128).
  { intros r I S. assert (F : is_finite r = true).
    { destruct r as [s|s| |s mm ee W]; try reflexivity.
      - destruct s; [exfalso; apply Hni; exact I|]. exfalso. destruct rm as [s|s| |s mm ee W]; try discriminate Frm; try destruct s; discriminate S.
      - discriminate S. }
    split; [exact F|]. apply Hr; assumption. }
  assert (pt : forall r sh ang, In r (lr_ranges m) -> skipped rm r = false ->
    bnd ang 65 -> pose_bnd sh 201 ->
    is_finite (px (move_point sh (to_robot laser ang r))) = true /\ is_finite (py (move_point sh (to_robot laser ang r))) = true).
  { intros r sh ang I S Ba (Sx & Sy & St).
    destruct Bl as (Lx & Ly & Lt).
    destruct (to_robot_bnd laser ang r L (proj1 Ba) (acc r I S)) as [Rx Ry].
    - eapply bnd_weaken; [exact Lx|lia].
    - eapply bnd_weaken; [exact Ly|lia].
    - apply Lt.
    - apply move_point_bnd; [exact L|eapply bnd_weaken; [exact Rx|lia]|eapply bnd_weaken; [exact Ry|lia]|exact Sx|exact Sy|apply St]. }
  assert (IX : forall i r, In (i, r) (combine (seq 0 (length (lr_ranges m))) (lr_ranges m)) ->
              (i < length (lr_ranges m))%nat /\ In r (lr_ranges m)).
  { intros i r I. split; [|eapply in_combine_r; exact I]. apply in_combine_l in I. apply in_seq in I. lia. }
  unfold scan_points in E.
  destruct inv.
  - destruct (length (lr_ranges m)) as [|k] eqn:Ln; [discriminate E|].
    rewrite inverted_points_filter in E by lia. injection E as <-.
    apply Forall_forall. intros p I. apply in_map_iff in I. destruct I as ([i r] & <- & I). cbn [fst snd].
    apply filter_In in I. destruct I as [I S]. cbn [snd] in S. apply negb_true_iff in S.
    apply in_rev in I. rewrite Ln in I.
    assert (I' : In (i, r) (combine (seq 0 (Datatypes.S k)) (lr_ranges m))).
    { assert (G : forall X (l : list X) x a b, In x (skipn a (firstn b l)) -> In x l).
      { intros X l x a b J. rewrite <- (firstn_skipn b l). apply in_or_app. left.
        rewrite <- (firstn_skipn a (firstn b l)). apply in_or_app. right. exact J. }
      apply (G _ _ _ 1%nat (Datatypes.S k)). exact I. }
    destruct (IX i r I') as [Hi Ir].
    apply pt; [exact Ir|exact S| |].
    + apply bnd_opp, beam_angle_bnd; [exact Bmin|exact Binc|lia].
    + apply (shift_bnd o e (Datatypes.S k) i Bo Be); lia.
  - injection E as <-. rewrite upright_points_filter.
    apply Forall_forall. intros p I. apply in_map_iff in I. destruct I as ([i r] & <- & I). cbn [fst snd].
    apply filter_In in I. destruct I as [I S]. cbn [snd] in S. apply negb_true_iff in S.
    destruct (IX i r I) as [Hi Ir].
    apply pt; [exact Ir|exact S| |].
    + apply beam_angle_bnd; [exact Bmin|exact Binc|lia].
    + apply (shift_bnd o e (length (lr_ranges m)) i Bo Be); lia.
Qed.

End B.
