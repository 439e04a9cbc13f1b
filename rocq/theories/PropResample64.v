(** Property C147: measuring and resampling particles is well defined in double
    arithmetic. *)

From Coq Require Import ZArith Reals List Bool Lia Lra Psatz.
From Flocq Require Import Core BinarySingleNaN.
From Verif Require Import Outcome Arith TypesModel ScanModel CellModel NdtModel MatcherModel KdModel MotionModel FilterModel
  B64Lemmas SpecPlace64 SpecMapSafe64 SpecWeights64 SpecResample64 NearB64 NdtProofs KdProofs FilterProofs FilterProofs2 MatcherB64 MatcherB64b SingleB64
  NearestB64 PropPlace64 PropMapSafe64 PropWeights64 PropFilter.
Import ListNotations.
Local Open Scope R_scope.

(** Finite, in [0, 2^a]. *)
Definition within (a : Z) (x : b64) : Prop := is_finite x = true /\ 0 <= B2R x <= bpow radix2 a.

Lemma fmt_pow (i : Z) : (-1000 <= i <= 1000)%Z -> fmt (bpow radix2 i).
Proof. intros Hi. apply generic_format_bpow. unfold fexp64, SpecFloat.fexp, SpecFloat.emin. lia. Qed.

Lemma rnd_within (x : R) (a : Z) : (-1000 <= a <= 1000)%Z -> 0 <= x <= bpow radix2 a -> 0 <= rnd x <= bpow radix2 a.
Proof. intros Ha [L U]. split; [apply rnd_lb; [apply (fmt_int 0); cbn; lia|exact L]|apply rnd_ub; [apply fmt_pow; exact Ha|exact U]]. Qed.

Lemma pow_big (x : R) (a : Z) : (a <= 1000)%Z -> 0 <= x <= bpow radix2 a -> Rabs x <= bpow radix2 1023.
Proof. intros Ha [L U]. rewrite Rabs_pos_eq by exact L. eapply Rle_trans; [exact U|]. apply bpow_le. lia. Qed.

Lemma within_mul (a b : Z) (x y : b64) : (-1000 <= a + b <= 1000)%Z -> within a x -> within b y -> within (a + b) (Bmult mode_NE x y).
Proof.
  intros H [Fx [X0 X1]] [Fy [Y0 Y1]].
  assert (P : 0 <= B2R x * B2R y <= bpow radix2 (a + b)) by (rewrite bpow_plus; split; [apply Rmult_le_pos; assumption|apply Rmult_le_compat; assumption]).
  destruct (b64_mul_ok x y Fx Fy) as [E F]; [apply (pow_big _ (a + b)); [lia|exact P]|].
  split; [exact F|]. rewrite E. apply rnd_within; assumption.
Qed.

Lemma kld64 (lm : libm) (err z : b64) (p e q : Z) (k : nat) : (0 <= p <= 40)%Z -> (-100 <= e)%Z -> (1 <= q)%Z -> (p + e + 3 * q <= 64)%Z ->
  is_finite err = true -> bpow radix2 (- e) <= B2R err <= bpow radix2 900 -> is_finite z = true -> 0 <= B2R z <= bpow radix2 q ->
  (1 < k)%nat -> (Z.of_nat k <= 2 ^ p)%Z -> exists m, kld_bound (A := BA lm) err z k = Ok m.
Proof.
  intros Hp He Hq Hs Fe Be Fz Bz Hk Kp.
  assert (P53 : (2 ^ p <= 2 ^ 40)%Z) by (apply Z.pow_le_mono_r; lia).
  destruct (b64_ofZ (Z.of_nat k - 1) ltac:(lia)) as [Ek Fk]. destruct (b64_ofZ 2 ltac:(lia)) as [E2 F2]. destruct (b64_ofZ 9 ltac:(lia)) as [E9 F9].
  destruct (b64_ofZ 1 ltac:(lia)) as [E1 F1].
  set (k1 := b64_of (Z.of_nat k - 1) 0) in *.
  assert (K1 : 1 <= B2R k1) by (rewrite Ek; apply IZR_le; lia).
  assert (K2 : B2R k1 <= bpow radix2 p) by (rewrite Ek, <- (IZR_Zpower radix2 p) by lia; apply IZR_le; cbn [radix_val radix2]; lia).
  pose proof (bpow_gt_0 radix2 (- e)) as Pe.
  (* 2 err *)
  set (d := Bmult mode_NE (b64_of 2 0) err).
  assert (D : is_finite d = true /\ bpow radix2 (1 - e) <= B2R d).
  { destruct (b64_mul_ok (b64_of 2 0) err F2 Fe) as [E F].
    { rewrite E2. apply (pow_big _ 901); [lia|]. replace (bpow radix2 901) with (2 * bpow radix2 900) by (change 2 with (bpow radix2 1); rewrite <- bpow_plus; reflexivity). lra. }
    split; [exact F|]. unfold d. rewrite E, E2. apply rnd_lb; [apply fmt_pow; lia|].
    replace (1 - e)%Z with (1 + - e)%Z by ring. rewrite bpow_plus. change (bpow radix2 1) with 2. lra. }
  destruct D as [Fd Bd]. pose proof (bpow_gt_0 radix2 (1 - e)) as Pd.
  (* a *)
  set (a := Bdiv mode_NE k1 d).
  assert (Wa : within (p + e - 1) a).
  { assert (P : 0 <= B2R k1 / B2R d <= bpow radix2 (p + e - 1)).
    { assert (I : 0 < / B2R d <= bpow radix2 (e - 1)).
      { split; [apply Rinv_0_lt_compat; lra|]. replace (e - 1)%Z with (- (1 - e))%Z by ring. rewrite bpow_opp. apply Rinv_le_contravar; lra. }
      replace (p + e - 1)%Z with (p + (e - 1))%Z by ring. rewrite bpow_plus. unfold Rdiv.
      split; [apply Rmult_le_pos; lra|apply Rmult_le_compat; lra]. }
    destruct (b64_div_ok k1 d Fk ltac:(lra)) as [E F]; [apply (pow_big _ (p + e - 1)); [lia|exact P]|].
    split; [exact F|]. unfold a. rewrite E. apply rnd_within; [lia|exact P]. }
  (* b *)
  set (n9 := Bmult mode_NE (b64_of 9 0) k1).
  assert (W9 : is_finite n9 = true /\ 9 <= B2R n9).
  { destruct (b64_mul_ok (b64_of 9 0) k1 F9 Fk) as [E F].
    { rewrite E9. apply (pow_big _ (4 + p)); [lia|]. rewrite bpow_plus. change (bpow radix2 4) with 16. pose proof (bpow_gt_0 radix2 p). split; nra. }
    split; [exact F|]. unfold n9. rewrite E, E9. apply (rnd_lb 9); [apply (fmt_int 9); lia|lra]. }
  destruct W9 as [Fn Bn].
  set (b := Bdiv mode_NE (b64_of 2 0) n9).
  assert (Wb : within (-2) b).
  { assert (P : 0 <= B2R (b64_of 2 0) / B2R n9 <= bpow radix2 (-2)).
    { rewrite E2. assert (I : 0 < / B2R n9 <= / 9) by (split; [apply Rinv_0_lt_compat; lra|apply Rinv_le_contravar; lra]).
      change (bpow radix2 (-2)) with (/ 4). unfold Rdiv. lra. }
    destruct (b64_div_ok (b64_of 2 0) n9 F2 ltac:(lra)) as [E F]; [apply (pow_big _ (-2)); [lia|exact P]|].
    split; [exact F|]. unfold b. rewrite E. apply rnd_within; [lia|exact P]. }
  (* 1 - b *)
  destruct Wb as [Fb Bb]. change (bpow radix2 (-2)) with (/ 4) in Bb.
  set (om := Bminus mode_NE (b64_of 1 0) b).
  assert (Wo : within 0 om /\ / 2 <= B2R om).
  { destruct (b64_sub_ok (b64_of 1 0) b F1 Fb) as [E F].
    { rewrite E1. apply (pow_big _ 0); [lia|]. change (bpow radix2 0) with 1. lra. }
    split; [split; [exact F|]|]; unfold om; rewrite E, E1.
    - apply rnd_within; [lia|]. change (bpow radix2 0) with 1. lra.
    - change (/ 2) with (bpow radix2 (-1)). apply rnd_lb; [apply fmt_pow; lia|]. change (bpow radix2 (-1)) with (/ 2). lra. }
  destruct Wo as [[Fo Bo] Lo]. change (bpow radix2 0) with 1 in Bo.
  (* sqrt b *)
  set (sq := Bsqrt mode_NE b).
  assert (Ws : within (-1) sq).
  { destruct (Bsqrt_correct 53 1024 prec64_gt_0 prec64_lt_emax mode_NE b) as (V & FS & _). split.
    - unfold sq. rewrite FS. destruct b as [s|s| |s mm ee Hb]; try discriminate Fb; try reflexivity. destruct s; [|reflexivity].
      exfalso. destruct Bb as [Bb _]. unfold B2R in Bb. pose proof (Float_prop.F2R_lt_0 radix2 (Float radix2 (cond_Zopp true (Zpos mm)) ee)) as N. cbn [cond_Zopp] in *.
      specialize (N eq_refl). lra.
    - unfold sq. rewrite V. apply (rnd_within (sqrt (B2R b)) (-1)); [lia|]. split; [apply sqrt_pos|].
      change (bpow radix2 (-1)) with (/ 2). rewrite <- (sqrt_square (/ 2)) by lra. apply sqrt_le_1; lra. }
  (* c *)
  assert (Wz : within q z) by (split; assumption).
  pose proof (within_mul (-1) q sq z ltac:(lia) Ws Wz) as [Ft Bt]. set (t := Bmult mode_NE sq z) in *.
  assert (Q1 : bpow radix2 q = 2 * bpow radix2 (-1 + q)) by (change 2 with (bpow radix2 1); rewrite <- bpow_plus; f_equal; lia).
  assert (Q2 : 1 <= bpow radix2 (-1 + q)) by (change 1 with (bpow radix2 0); apply bpow_le; lia).
  set (c := Bplus mode_NE om t).
  assert (Wc : within q c).
  { assert (P : 0 <= B2R om + B2R t <= bpow radix2 q) by lra.
    destruct (b64_add_ok om t Fo Ft) as [E F]; [apply (pow_big _ q); [lia|exact P]|].
    split; [exact F|]. unfold c. rewrite E. apply rnd_within; [lia|exact P]. }
  pose proof (within_mul (p + e - 1) q a c ltac:(lia) Wa Wc) as W1. pose proof (within_mul (p + e - 1 + q) q _ c ltac:(lia) W1 Wc) as W2.
  pose proof (within_mul (p + e - 1 + q + q) q _ c ltac:(lia) W2 Wc) as [Fr Br].
  unfold kld_bound. fold (k1).
  assert (U : exists m, cast_unsigned (A := BA lm) 64 (Bmult mode_NE (Bmult mode_NE (Bmult mode_NE a c) c) c) = Ok m).
  { destruct (cast_ok lm 64 (Bmult mode_NE (Bmult mode_NE (Bmult mode_NE a c) c) c) (2 ^ 63) Fr) as (m & E & _); [|lia|exists m; exact E].
    split; [apply Br|]. eapply Rle_trans; [apply Br|]. change (IZR (2 ^ 63)) with (bpow radix2 63). apply bpow_le. lia. }
  exact U.
Qed.

(** ** The tree *)
Definition kd_small64 (t : @kd b64) : Prop := match fst t with None => True | Some r => Forall small_key (leaves r) end.

Lemma kd_add_total64 (lm : libm) (size : vec3 b64) (t : @kd b64) c v k : kd_small64 t -> kd_key (A := BA lm) size c = Ok k -> small_key k ->
  exists t', kd_add (A := BA lm) size t c v = Ok t' /\ kd_small64 t' /\ (kd_leaf_count t' <= S (kd_leaf_count t))%nat.
Proof.
  intros S K SK. unfold kd_add. rewrite K. cbn [bind]. unfold kd_small64 in S.
  destruct t as ([root|] & n); cbn [fst snd] in *.
  - destruct (insert_total (A := BA lm) root k v S SK) as (root' & b & E & I). rewrite E. cbn [bind].
    eexists. split; [reflexivity|]. split.
    + unfold kd_small64. cbn [fst]. apply Forall_forall. intros k' Hk'. apply I in Hk'.
      destruct Hk' as [->|Hk']; [exact SK|]. rewrite Forall_forall in S. apply S. exact Hk'.
    + unfold kd_leaf_count. cbn [snd]. destruct b; lia.
  - eexists. split; [reflexivity|]. split; [|unfold kd_leaf_count; cbn; lia].
    unfold kd_small64. cbn [fst leaves]. constructor; [exact SK|constructor].
Qed.

Lemma key_coord (lm : libm) (x s : b64) (c : R) (a : Z) : upto c x -> is_finite s = true -> bpow radix2 a <= B2R s -> (-2 <= a <= 0)%Z -> c <= bpow radix2 (29 + a) ->
  exists n, cast_int32 (A := BA lm) (Bdiv mode_NE x s) = Ok n /\ (Z.abs n < 2 ^ 30)%Z.
Proof.
  intros [Fx Bx] Fs Bs Ha Hc. pose proof (bpow_gt_0 radix2 a) as Pa.
  assert (Q : Rabs (B2R x / B2R s) <= bpow radix2 29).
  { unfold Rdiv. rewrite Rabs_mult, Rabs_inv, (Rabs_pos_eq (B2R s)) by lra.
    apply Rmult_le_reg_r with (B2R s); [lra|]. rewrite Rmult_assoc, Rinv_l, Rmult_1_r by lra.
    apply Rle_trans with (bpow radix2 29 * bpow radix2 a); [rewrite <- bpow_plus; lra|]. apply Rmult_le_compat_l; [apply bpow_ge_0|exact Bs]. }
  destruct (b64_div_ok x s Fx ltac:(lra)) as [E F]; [eapply Rle_trans; [exact Q|apply bpow_le; lia]|].
  assert (R : Rabs (rnd (B2R x / B2R s)) <= bpow radix2 29).
  { apply Rabs_le. apply Rabs_le_inv in Q. split; [apply rnd_lb; [apply fmt_opp, fmt_pow; lia|apply Q]|apply rnd_ub; [apply fmt_pow; lia|apply Q]]. }
  unfold cast_int32. cbn [ntrunc BA]. rewrite b64_trunc_ok by exact F. rewrite E.
  assert (L : (Z.abs (Ztrunc (rnd (B2R x / B2R s))) <= 2 ^ 29)%Z).
  { apply le_IZR. rewrite abs_IZR. change (IZR (2 ^ 29)) with (bpow radix2 29). apply Rle_trans with (2 := R).
    rewrite <- abs_IZR, <- Ztrunc_abs, Ztrunc_floor by apply Rabs_pos. apply Zfloor_lb. }
  exists (Ztrunc (rnd (B2R x / B2R s))).
  destruct (Z.leb_spec (- 2 ^ 31) (Ztrunc (rnd (B2R x / B2R s)))); [|lia]. destruct (Z.ltb_spec (Ztrunc (rnd (B2R x / B2R s))) (2 ^ 31)); [|lia].
  split; [reflexivity|lia].
Qed.

Lemma particle_key64 (lm : libm) (p : vec3 b64) : particle_upto (bpow radix2 28) p ->
  exists k, kd_key (A := BA lm) (bin_size (A := BA lm)) p = Ok k /\ small_key k.
Proof.
  intros (H0 & H1 & H2).
  destruct (lit_range lm 1 2 (-1) (-1)) as [Fh Bh]; try lia; [change (bpow radix2 (-1)) with (/ 2); lra|].
  destruct (lit_range lm 2671 10000 (-2) (-1)) as [Ft Bt]; try lia; [change (bpow radix2 (-1)) with (/ 2); change (bpow radix2 (-2)) with (/ 4); lra|].
  destruct (key_coord lm (v0 p) _ _ (-1) H0 Fh (proj1 Bh)) as (a & Ea & Ba); [lia|apply Rle_refl|].
  destruct (key_coord lm (v1 p) _ _ (-1) H1 Fh (proj1 Bh)) as (b & Eb & Bb); [lia|apply Rle_refl|].
  destruct (key_coord lm (v2 p) _ _ (-2) H2 Ft (proj1 Bt)) as (c & Ec & Bc); [lia|apply Rle_trans with (bpow radix2 2); [cbn; lra|apply bpow_le; lia]|].
  exists (mkVec3 a b c). split.
  - unfold kd_key, bin_size. cbn [v0 v1 v2].
    change (ndiv (Arith := BA lm) (v0 p) (nlit (A := BA lm) 1 2)) with (Bdiv mode_NE (v0 p) (nlit (A := BA lm) 1 2)). rewrite Ea. cbn [bind].
    change (ndiv (Arith := BA lm) (v1 p) (nlit (A := BA lm) 1 2)) with (Bdiv mode_NE (v1 p) (nlit (A := BA lm) 1 2)). rewrite Eb. cbn [bind].
    change (ndiv (Arith := BA lm) (v2 p) (nlit (A := BA lm) 2671 10000)) with (Bdiv mode_NE (v2 p) (nlit (A := BA lm) 2671 10000)). rewrite Ec. reflexivity.
  - intro i. destruct i as [|[|i]]; cbn [kget v0 v1 v2]; assumption.
Qed.

Lemma resample_loop_total64 (lm : libm) (mx : Z) (err z : b64) : sane_kld mx err z -> forall draws ps ws mn acc (tree : @kd b64) m,
  length ps = length ws -> Forall (fun i => 0 <= i < Z.of_nat (length ps))%Z draws ->
  Forall (particle_upto (bpow radix2 28)) ps ->
  (mn <= mx)%Z -> (Z.of_nat (length acc) < mx)%Z -> (mx <= Z.of_nat (length acc) + Z.of_nat (length draws))%Z ->
  kd_small64 tree -> (kd_leaf_count tree <= length acc)%nat ->
  exists r, resample_loop (A := BA lm) draws ps ws mn mx err z acc tree m = Ok r.
Proof.
  intros (p & e & q & Mp & Hp & He & Hq & Hs & Fe & Be & Fz & Bz) draws.
  induction draws as [|i draws IH]; intros ps ws mn acc tree m L F K M LA LD S C; simpl.
  - simpl in LD. lia.
  - destruct (_ <? _)%Z; [|eexists; reflexivity].
    inversion F as [|? ? Fi F']; subst.
    destruct (vec_get_ok ps i Fi) as (x & Hx & Nx). destruct (vec_get_ok ws i) as (w & Hw & _); [lia|].
    rewrite Hx, Hw. cbn [bind].
    assert (Kp : exists k, kd_key (A := BA lm) (bin_size (A := BA lm)) x = Ok k /\ small_key k).
    { rewrite Forall_forall in K. apply particle_key64, K. apply nth_error_In in Nx. exact Nx. }
    destruct Kp as (k & Kk & Sk). destruct (kd_add_total64 lm (bin_size (A := BA lm)) tree x w k S Kk Sk) as (t' & -> & S' & C'). cbn [bind].
    assert (X : exists m', (if (1 <? kd_leaf_count t')%nat then kld_bound (A := BA lm) err z (kd_leaf_count t') else Ok m) = Ok m').
    { destruct (Nat.ltb_spec 1 (kd_leaf_count t')) as [D|D]; [|eexists; reflexivity].
      apply (kld64 lm err z p e q); try assumption. lia. }
    destruct X as (m' & ->). cbn [bind].
    destruct (Z.leb_spec mx (Z.of_nat (length (acc ++ [(x, w)])))) as [D|D]; [eexists; reflexivity|].
    apply IH; try assumption.
    + rewrite app_length. simpl length in *. lia.
    + rewrite app_length. simpl. lia.
Qed.

(** resample returns. *)
Theorem C147_resample (lm : libm) (draws : list Z) (err z : b64) (f : pfilter b64) :
  dist_ok (A := BA lm) (pf_wts f) = true -> length (pf_wts f) = length (pf_parts f) ->
  (0 <= pf_min f <= pf_max f)%Z -> (1 <= pf_max f)%Z -> sane_kld (pf_max f) err z ->
  Forall (particle_upto (bpow radix2 28)) (pf_parts f) ->
  Forall (fun i => 0 <= i < Z.of_nat (length (pf_parts f)))%Z draws -> (pf_max f <= Z.of_nat (length draws))%Z ->
  exists f', filter_resample (A := BA lm) draws err z f = Ok f' /\ (pf_min f <= Z.of_nat (length (pf_parts f')) <= pf_max f)%Z.
Proof.
  intros D L M X S P F N.
  assert (E : exists f', filter_resample (A := BA lm) draws err z f = Ok f').
  { unfold filter_resample. rewrite D.
    destruct (resample_loop_total64 lm (pf_max f) err z S draws (pf_parts f) (pf_wts f) (pf_min f) [] kd_empty (pf_max f)) as (r & ->);
      try assumption; try (simpl; lia).
    - exact I.
    - cbn [bind]. apply update_stats_total. cbn. rewrite !map_length. lia. }
  destruct E as (f' & E). exists f'. split; [exact E|].
  pose proof (C45_resample_size (A := BA lm) draws err z f M X (eq_sym L) F N) as H. rewrite E in H. apply H.
Qed.

Lemma mapM_all {X Y : Type} (h : X -> outcome Y) (l : list X) : (forall x, In x l -> exists y, h x = Ok y) -> exists ys, mapM h l = Ok ys.
Proof.
  induction l as [|x l IH]; intros H; cbn [mapM]; [eexists; reflexivity|].
  destruct (H x (or_introl eq_refl)) as (y & ->). cbn [bind]. destruct IH as (ys & ->); [intros z Hz; apply H; right; exact Hz|]. eexists. reflexivity.
Qed.

Lemma measure_total (lm : libm) (score : pose b64 -> outcome b64) (f : pfilter b64) :
  length (pf_wts f) = length (pf_parts f) -> (forall p, In p (pf_parts f) -> exists v, score (mkPose (v0 p) (v1 p) (v2 p)) = Ok v) ->
  exists f', filter_measure (A := BA lm) score f = Ok f'.
Proof.
  intros W H. unfold filter_measure. rewrite W, Nat.ltb_irrefl.
  destruct (mapM_all (fun p => score (mkPose (v0 p) (v1 p) (v2 p))) (pf_parts f) H) as (ws & Ews).
  rewrite Ews. cbn [bind]. apply update_stats_total. cbn [with_parts pf_parts pf_wts]. rewrite app_length.
  assert (Z : length ws = length (pf_parts f)); [|lia].
  clear - Ews. revert ws Ews. induction (pf_parts f) as [|p ps IH]; intros ws H; cbn [mapM] in H; [injection H as <-; reflexivity|].
  apply bind_ok in H. destruct H as (y & _ & H). apply bind_ok in H. destruct H as (ys & H & E). injection E as <-. cbn. rewrite (IH ys H). reflexivity.
Qed.

(** measure returns, on a map built from scans. *)
Theorem C147_measure (lm : libm) (M : R) (eig : mat2 b64 -> b64 * b64) (m m' : matcher b64) (scans : list (scan b64))
  (pts : list (point b64)) (f : pfilter b64) :
  accurate_trig lm -> usual_size M -> fits_map M m -> scans <> [] -> Forall (scan_upto M) scans ->
  add_scans (A := BA lm) eig m scans = Ok m' ->
  Forall (point_upto M) pts -> (0 <= k_beams m)%Z -> (Z.of_nat (length pts) <= 2 ^ 52)%Z ->
  Forall (particle_upto M) (pf_parts f) -> length (pf_wts f) = length (pf_parts f) ->
  (forall p, In p (pf_parts f) -> exists v, score_points (A := BA lm) m' pts (mkPose (v0 p) (v1 p) (v2 p)) = Ok v) /\
  exists f', filter_measure (A := BA lm) (score_points (A := BA lm) m' pts) f = Ok f'.
Proof.
  intros T HM S N F E Q B L P W.
  assert (X : forall p, In p (pf_parts f) -> exists v, score_points (A := BA lm) m' pts (mkPose (v0 p) (v1 p) (v2 p)) = Ok v).
  { intros p Hp. rewrite Forall_forall in P. destruct (P p Hp) as (P0 & P1 & P2).
    apply (C145_score lm M eig m m' scans pts _ T HM S N F E); try assumption. split; [exact P0|]. split; [exact P1|apply P2]. }
  split; [exact X|apply measure_total; assumption].
Qed.

(** A filter step after the motion update: measure, then resample. *)
Theorem C147_step (lm : libm) (score : pose b64 -> outcome b64) (draws : list Z) (err z : b64) (f : pfilter b64) :
  (forall p, In p (pf_parts f) -> exists v, score (mkPose (v0 p) (v1 p) (v2 p)) = Ok v) -> op_ok64 f (FMeasure score) ->
  distribution64 f -> (1 <= pf_min f <= pf_max f)%Z -> (1 <= Z.of_nat (length (pf_parts f)) <= 2 ^ 40)%Z ->
  Forall (particle_upto (bpow radix2 28)) (pf_parts f) -> sane_kld (pf_max f) err z ->
  Forall (fun i => 0 <= i < Z.of_nat (length (pf_parts f)))%Z draws -> (pf_max f <= Z.of_nat (length draws))%Z ->
  exists f1 f2, filter_measure (A := BA lm) score f = Ok f1 /\
    filter_resample (A := BA lm) draws err z f1 = Ok f2 /\ (pf_min f <= Z.of_nat (length (pf_parts f2)) <= pf_max f)%Z.
Proof.
  intros H O D Mm Np P K Dr Ln.
  destruct (measure_total lm score f (proj1 D) H) as (f1 & E1).
  assert (Mx : (pf_max f <= 2 ^ 40)%Z).
  { destruct K as (p & e & q & K1 & K2 & _). apply Z.le_trans with (1 := K1). apply Z.pow_le_mono_r; lia. }
  assert (G : good f) by (split; [exact D|split; [exact Mm|split; [exact Mx|exact Np]]]).
  pose proof (step_good lm f (FMeasure score) f1 G O E1) as G1.
  assert (X : pf_parts f1 = pf_parts f /\ pf_min f1 = pf_min f /\ pf_max f1 = pf_max f).
  { unfold filter_measure in E1. destruct (_ <? _)%nat; [discriminate E1|]. apply bind_ok in E1. destruct E1 as (ws & _ & E1).
    unfold update_stats in E1. apply bind_ok in E1. destruct E1 as (pw & _ & E1). injection E1 as <-. repeat split. }
  destruct X as (X1 & X2 & X3).
  destruct (C147_resample lm draws err z f1) as (f2 & E2 & R).
  - apply good_dist_ok. exact G1.
  - apply G1.
  - rewrite X2, X3. lia.
  - rewrite X3. lia.
  - rewrite X3. exact K.
  - rewrite X1. exact P.
  - rewrite X1. exact Dr.
  - rewrite X3. exact Ln.
  - exists f1, f2. rewrite X2, X3 in R. split; [exact E1|]. split; [exact E2|exact R].
Qed.
Print Assumptions C147_step.

(** The default parameters (500 particles, an error of 0.01, a quantile of 2.3) are
    sane. *)
Lemma C147_default (lm : libm) : sane_kld 500 (nlit (A := BA lm) 1 100) (nlit (A := BA lm) 23 10).
Proof.
  destruct (lit_range lm 1 100 (-7) (-6)) as [Fh Bh]; try lia; [change (bpow radix2 (-7)) with (/ 128); change (bpow radix2 (-6)) with (/ 64); lra|].
  destruct (lit_range lm 23 10 1 2) as [Ft Bt]; try lia; [change (bpow radix2 1) with 2; change (bpow radix2 2) with 4; lra|].
  exists 9%Z, 7%Z, 2%Z. repeat (split; [lia|]). split; [exact Fh|]. split; [split; [apply Bh|]|].
  - apply Rle_trans with (1 := proj2 Bh). apply bpow_le. lia.
  - split; [exact Ft|]. change (bpow radix2 1) with 2 in Bt. lra.
Qed.

Example C147_nonvacuous (lm : libm) (mo : motion_params b64) : exists f f1 f2,
  distribution64 f /\ Forall (particle_upto (bpow radix2 28)) (pf_parts f) /\
  filter_measure (A := BA lm) (fun _ => Ok minus1) f = Ok f1 /\
  filter_resample (A := BA lm) [0; 1; 1]%Z (nlit (A := BA lm) 1 100) (nlit (A := BA lm) 23 10) f1 = Ok f2 /\
  (2 <= Z.of_nat (length (pf_parts f2)) <= 3)%Z.
Proof.
  destruct (b64_ofZ 0 ltac:(lia)) as [V0 F0]. destruct (b64_ofZ 1 ltac:(lia)) as [V1 F1].
  set (z := b64_of 0 0) in *. set (o := b64_of 1 0) in *.
  set (f := mkFilter 2 3 mo [mkVec3 z z z; mkVec3 o z o] [o; z] (mkVec3 z z z) (mat3_zero (A := BA lm))).
  assert (D : distribution64 f).
  { split; [reflexivity|]. split.
    - constructor; [split; [exact F1|rewrite V1; lra]|constructor; [split; [exact F0|rewrite V0; lra]|constructor]].
    - cbn [total64 fold_right pf_wts f]. rewrite V0, V1. replace (1 + (0 + 0) - 1) with 0 by ring. rewrite Rabs_R0. apply Rmult_le_pos; [apply bpow_ge_0|].
      pose proof (pos_INR (length (pf_parts f))). lra. }
  assert (B28 : 1 <= bpow radix2 28) by (change 1 with (bpow radix2 0); apply bpow_le; lia).
  assert (Z0 : forall c, 0 <= c -> upto c z) by (intros c Hc; split; [exact F0|rewrite V0, Rabs_R0; exact Hc]).
  assert (O1 : forall c, 1 <= c -> upto c o) by (intros c Hc; split; [exact F1|rewrite V1, Rabs_R1; exact Hc]).
  assert (P : Forall (particle_upto (bpow radix2 28)) (pf_parts f)).
  { constructor; [split; [apply Z0; lra|split; apply Z0; lra]|]. constructor; [split; [apply O1; lra|split; [apply Z0; lra|apply O1; lra]]|constructor]. }
  destruct (C147_step lm (fun _ => Ok minus1) [0; 1; 1]%Z (nlit (A := BA lm) 1 100) (nlit (A := BA lm) 23 10) f) as (f1 & f2 & E1 & E2 & N); try assumption.
  - intros p _. eexists. reflexivity.
  - destruct minus1_ok as [Fm Vm]. split.
    + intros x s _ H. injection H as <-. split; [exact Fm|]. rewrite Vm. split; [|lra].
      assert (1 <= bpow radix2 900) by (change 1 with (bpow radix2 0); apply bpow_le; lia). lra.
    + exists (mkVec3 z z z), minus1. split; [left; reflexivity|]. split; [reflexivity|]. rewrite Vm. lra.
  - cbn. lia.
  - cbn. lia.
  - cbn [pf_max f]. destruct (C147_default lm) as (p & e & q & K & R). exists p, e, q. split; [lia|exact R].
  - repeat constructor; cbn; lia.
  - cbn. lia.
  - exists f, f1, f2. split; [exact D|]. split; [exact P|]. split; [exact E1|]. split; [exact E2|exact N].
Qed.
