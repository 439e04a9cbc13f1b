(** C24: when the covariance matchScan returns is finite.  IEEE doubles. *)

From Coq Require Import ZArith Reals List Bool Lia Lra Psatz.
From Flocq Require Import Core BinarySingleNaN.
From Verif Require Import Outcome Arith TypesModel CellModel ScanModel NdtModel MatcherModel
  B64Tactics B64Lemmas NdtProofs MatcherProofs MatcherB64 MatcherB64b SingleB64 MapperWitness2 PropCell64 PropScore64.
Import ListNotations.
Local Open Scope R_scope.

(** A finite double of magnitude at most 2^k. *)
Definition upto (k : Z) (x : b64) : Prop := is_finite x = true /\ Rabs (B2R x) <= bpow radix2 k.
Definition upto3 (k : Z) (m : mat3 b64) : Prop :=
  upto k (a00 m) /\ upto k (a01 m) /\ upto k (a02 m) /\ upto k (a10 m) /\ upto k (a11 m) /\ upto k (a12 m) /\
  upto k (a20 m) /\ upto k (a21 m) /\ upto k (a22 m).

Lemma rnd_abs (x : R) (k : Z) : (-1074 <= k)%Z -> Rabs x <= bpow radix2 k -> Rabs (rnd x) <= bpow radix2 k.
Proof.
  intros Hk H. apply Rabs_le_inv in H. apply Rabs_le. split.
  - apply rnd_lb; [apply fmt_opp; apply fmt_bpow; exact Hk|lra].
  - apply rnd_ub; [apply fmt_bpow; exact Hk|lra].
Qed.

Lemma upto_mul (j k : Z) (x y : b64) : (-1074 <= j + k <= 1023)%Z -> upto j x -> upto k y ->
  upto (j + k) (Bmult mode_NE x y) /\ B2R (Bmult mode_NE x y) = rnd (B2R x * B2R y).
Proof.
  intros Hk [Fx Bx] [Fy By].
  assert (B : Rabs (B2R x * B2R y) <= bpow radix2 (j + k)).
  { rewrite Rabs_mult, bpow_plus. apply Rmult_le_compat; try apply Rabs_pos; assumption. }
  destruct (b64_mul_ok x y Fx Fy) as [E F]; [eapply Rle_trans; [exact B|apply bpow_le; lia]|].
  split; [split; [exact F|]|exact E]. rewrite E. apply rnd_abs; [lia|exact B].
Qed.

Lemma rnd_opp (x : R) : rnd (- x) = - rnd x.
Proof. apply round_NE_opp. Qed.

(** Adding small numbers cannot push a sum above 2^54 times their size: there
    the rounding absorbs them. *)
Lemma rnd_absorb (a b : R) (k : Z) : (-1000 <= k <= 900)%Z -> a <= bpow radix2 (k + 54) -> b <= bpow radix2 k ->
  rnd (a + b) <= bpow radix2 (k + 54).
Proof.
  intros Hk Ha Hb.
  pose proof (round_N_le_midp radix2 fexp64 (fun z => negb (Z.even z)) (bpow radix2 (k + 54)) (a + b)) as Hm.
  apply Hm; [apply fmt_bpow; lia|].
  rewrite succ_eq_pos by apply bpow_ge_0. rewrite ulp_bpow.
  replace (fexp64 (k + 54 + 1)) with (k + 2)%Z by (rewrite fexp64_FLT; unfold FLT_exp; lia).
  rewrite (bpow_plus radix2 k 2). change (bpow radix2 2) with 4. pose proof (bpow_gt_0 radix2 k). lra.
Qed.

Lemma upto_add (k : Z) (x y : b64) : (-1000 <= k <= 900)%Z -> upto (k + 54) x -> upto k y ->
  upto (k + 54) (Bplus mode_NE x y) /\ B2R (Bplus mode_NE x y) = rnd (B2R x + B2R y).
Proof.
  intros Hk [Fx Bx] [Fy By]. apply Rabs_le_inv in Bx. apply Rabs_le_inv in By.
  assert (Hle : bpow radix2 k <= bpow radix2 (k + 54)) by (apply bpow_le; lia).
  assert (H2 : 2 * bpow radix2 (k + 54) <= bpow radix2 1023).
  { change 2 with (bpow radix2 1). rewrite <- bpow_plus. apply bpow_le. lia. }
  destruct (b64_add_ok x y Fx Fy) as [E F]; [apply Rabs_le; lra|]. split; [split; [exact F|]|exact E].
  rewrite E. apply Rabs_le. split.
  - assert (G : rnd (- (B2R x + B2R y)) <= bpow radix2 (k + 54)).
    { rewrite Ropp_plus_distr. apply rnd_absorb; [exact Hk|lra|lra]. }
    rewrite rnd_opp in G. lra.
  - apply rnd_absorb; [exact Hk|lra|lra].
Qed.

Lemma upto_weak (j k : Z) (x : b64) : (j <= k)%Z -> upto j x -> upto k x.
Proof. intros H [F B]. split; [exact F|]. eapply Rle_trans; [exact B|apply bpow_le; exact H]. Qed.

Section B.
Context (lm : libm).
Let A : Arith b64 := BA lm.
Existing Instance A.

(** The loop values lie in the window. *)
Lemma loop_values_window (size res : b64) :
  upto 100 size -> is_finite res = true -> 0 <= B2R res <= bpow radix2 1000 ->
  forall fuel d l, loop_values fuel d size res = Ok l -> is_finite d = true -> - B2R size <= B2R d ->
  Forall (upto 100) l.
Proof.
  intros [Fs Bs] Fr Hr. apply Rabs_le_inv in Bs.
  induction fuel as [|f IH]; intros d l H Fd Hd; cbn [loop_values] in H; [discriminate|].
  destruct (nlt d size) eqn:E; [|injection H as <-; constructor].
  cbn [nlt A BA] in E. rewrite Bltb_correct in E by assumption.
  destruct (Rlt_bool_spec (B2R d) (B2R size)) as [Hlt|?]; [|discriminate].
  apply bind_ok in H. destruct H as (ds & Hds & H). injection H as <-.
  assert (H2 : bpow radix2 1000 + bpow radix2 100 <= bpow radix2 1023).
  { apply Rle_trans with (2 * bpow radix2 1000); [pose proof (bpow_le radix2 100 1000 ltac:(lia)); lra|].
    change 2 with (bpow radix2 1). rewrite <- bpow_plus. apply bpow_le. lia. }
  constructor; [split; [exact Fd|apply Rabs_le; lra]|].
  cbn [nadd A BA] in Hds. destruct (b64_add_ok d res Fd Fr) as [Ea Fa]; [apply Rabs_le; lra|].
  apply (IH _ _ Hds); [exact Fa|]. rewrite Ea. apply Rle_trans with (B2R d); [exact Hd|]. apply rnd_lb; [apply fmt_b64|lra].
Qed.

(** What holds of the sums after any number of candidates. *)
Definition sums_ok (w : mstate b64) : Prop :=
  upto3 306 (w_k w) /\ upto 206 (v0 (w_u w)) /\ upto 206 (v1 (w_u w)) /\ upto 206 (v2 (w_u w)) /\
  upto 106 (w_s w) /\ upto 52 (w_best w) /\ B2R (w_s w) <= B2R (w_best w) <= 0 /\
  B2R (a00 (w_k w)) <= 0 /\ B2R (a11 (w_k w)) <= 0 /\ B2R (a22 (w_k w)) <= 0.

Lemma term_ok (x y sc : b64) : upto 100 x -> upto 100 y -> upto 52 sc -> upto 252 (Bmult mode_NE (Bmult mode_NE x y) sc).
Proof.
  intros Hx Hy Hs. destruct (upto_mul 100 100 x y ltac:(lia) Hx Hy) as [H1 _].
  destruct (upto_mul 200 52 _ sc ltac:(lia) H1 Hs) as [H2 _]. exact H2.
Qed.

Lemma square_term_neg (x sc : b64) : upto 100 x -> upto 52 sc -> B2R sc <= 0 ->
  B2R (Bmult mode_NE (Bmult mode_NE x x) sc) <= 0.
Proof.
  intros Hx Hs Hn. destruct (upto_mul 100 100 x x ltac:(lia) Hx Hx) as [H1 E1].
  destruct (upto_mul 200 52 _ sc ltac:(lia) H1 Hs) as [_ E2]. rewrite E2.
  apply rnd_ub; [apply (fmt_int 0); cbn; lia|].
  assert (0 <= B2R (Bmult mode_NE x x)).
  { rewrite E1. apply rnd_lb; [apply (fmt_int 0); cbn; lia|]. apply Rle_0_sqr. }
  nra.
Qed.

Lemma add_neg (a b : b64) (k : Z) : (-1000 <= k <= 900)%Z -> upto (k + 54) a -> upto k b -> B2R a <= 0 -> B2R b <= 0 ->
  B2R (Bplus mode_NE a b) <= 0.
Proof.
  intros Hk Ha Hb Na Nb. destruct (upto_add k a b Hk Ha Hb) as [_ E]. rewrite E.
  apply rnd_ub; [apply (fmt_int 0); cbn; lia|lra].
Qed.

Lemma zero_upto (k : Z) : upto k nzero.
Proof.
  destruct (b64_ofZ 0 ltac:(cbn; lia)) as [E0 F0]. unfold nzero. cbn [nofZ A BA]. split; [exact F0|].
  rewrite E0, Rabs_R0. apply bpow_ge_0.
Qed.

Lemma step_sums (g : ndt b64) (outer : list (point b64)) (dth dx dy : b64) (w w' : mstate b64) :
  unit_likelihoods lm g -> (Z.of_nat (length outer) <= 2 ^ 52)%Z ->
  upto 100 dth -> upto 100 dx -> upto 100 dy -> sums_ok w ->
  match_step g outer dth dx w dy = Ok w' -> sums_ok w'.
Proof.
  intros Hu Hl Ht Hx Hy ((K00 & K01 & K02 & K10 & K11 & K12 & K20 & K21 & K22) & U0 & U1 & U2 & S & Fb & (B1 & B2) & N0 & N1 & N2) H.
  unfold match_step in H. apply bind_ok in H. destruct H as (lk & Hlk & H). injection H as <-.
  assert (HL : (Z.of_nat (length (inner_points dx dy outer)) <= 2 ^ 52)%Z) by (unfold inner_points; rewrite map_length; exact Hl).
  destruct (likelihood_points_b64 lm g _ Hu HL lk Hlk) as [Fl Bl].
  assert (Hsc : upto 52 (Bopp lk) /\ B2R (Bopp lk) <= 0).
  { unfold upto. rewrite is_finite_Bopp, B2R_Bopp, Rabs_Ropp, Rabs_pos_eq by lra. split; [split; [exact Fl|]|lra].
    apply Rle_trans with (IZR (Z.of_nat (length (inner_points dx dy outer)))); [lra|].
    change (bpow radix2 52) with (IZR (2 ^ 52)). apply IZR_le. exact HL. }
  destruct Hsc as [Hsc Hneg]. set (sc := Bopp lk) in *.
  assert (Tk : forall x y a, upto 100 x -> upto 100 y -> upto 306 a ->
    upto 306 (Bplus mode_NE a (Bmult mode_NE (Bmult mode_NE x y) sc))).
  { intros x y a X Y Ha. destruct (upto_add 252 a _ ltac:(lia) Ha (term_ok x y sc X Y Hsc)) as [G _]. exact G. }
  assert (Tu : forall x a, upto 100 x -> upto 206 a -> upto 206 (Bplus mode_NE a (Bmult mode_NE x sc))).
  { intros x a X Ha. destruct (upto_mul 100 52 x sc ltac:(lia) X Hsc) as [G _].
    destruct (upto_add 152 a _ ltac:(lia) Ha G) as [G' _]. exact G'. }
  assert (Tn : forall x a, upto 100 x -> upto 306 a -> B2R a <= 0 -> B2R (Bplus mode_NE a (Bmult mode_NE (Bmult mode_NE x x) sc)) <= 0).
  { intros x a X Ha Na. apply (add_neg a _ 252); [lia|exact Ha|apply term_ok; assumption|exact Na|apply square_term_neg; assumption]. }
  destruct (upto_add 52 (w_s w) sc ltac:(lia) S Hsc) as [S' ES].
  assert (Sle : B2R (Bplus mode_NE (w_s w) sc) <= B2R (w_s w) /\ B2R (Bplus mode_NE (w_s w) sc) <= B2R sc).
  { rewrite ES. split; (apply rnd_ub; [apply fmt_b64|]).
    - rewrite <- (Rplus_0_r (B2R (w_s w))) at 2. apply Rplus_le_compat_l. exact Hneg.
    - rewrite <- (Rplus_0_l (B2R sc)) at 2. apply Rplus_le_compat_r. exact (Rle_trans _ _ _ B1 B2). }
  unfold sums_ok. cbn [w_k w_u w_s w_best w_pose mat3_add mat3_map2 mat3_scale outer3 vec3_add vec3_scale a00 a01 a02 a10 a11 a12 a20 a21 a22 v0 v1 v2
    nadd nmul nopp A BA]. fold sc.
  split; [unfold upto3; cbn [a00 a01 a02 a10 a11 a12 a20 a21 a22]; repeat split; apply Tk; assumption|].
  split; [apply Tu; assumption|]. split; [apply Tu; assumption|]. split; [apply Tu; assumption|].
  split; [exact S'|].
  split; [destruct (Bltb sc (w_best w)); [exact Hsc|exact Fb]|].
  split; [destruct (Bltb sc (w_best w)); [exact (conj (proj2 Sle) Hneg)|exact (conj (Rle_trans _ _ _ (proj1 Sle) B1) B2)]|].
  split; [apply Tn; assumption|]. split; apply Tn; assumption.
Qed.

(** The final formula. *)
Lemma covariance_ok (w : mstate b64) : sums_ok w -> B2R (w_s w) <= - bpow radix2 (-200) ->
  let c := match_covariance w in
  upto3 900 c /\ 0 <= B2R (a00 c) /\ 0 <= B2R (a11 c) /\ 0 <= B2R (a22 c).
Proof.
  intros ((K00 & K01 & K02 & K10 & K11 & K12 & K20 & K21 & K22) & U0 & U1 & U2 & S & _ & _ & N0 & N1 & N2) Hs c.
  set (s := w_s w) in *. pose proof (bpow_gt_0 radix2 (-200)) as P200.
  assert (Z0 : fmt 0) by (apply (fmt_int 0); cbn; lia).
  destruct (b64_ofZ 1 ltac:(cbn; lia)) as [E1 F1].
  destruct S as [Fs Bs].
  assert (Q1 : - bpow radix2 200 <= 1 / B2R s < 0).
  { assert (0 < 1 / - B2R s <= bpow radix2 200).
    { split; [apply Rdiv_lt_0_compat; lra|]. unfold Rdiv. rewrite Rmult_1_l. rewrite <- (Rinv_inv (bpow radix2 200)).
      apply Rinv_le; [apply Rinv_0_lt_compat; apply bpow_gt_0|]. rewrite <- bpow_opp. change (- (200))%Z with (-200)%Z. lra. }
    replace (1 / B2R s) with (- (1 / - B2R s)) by (field; lra). lra. }
  destruct (b64_div_ok (b64_of 1 0) s F1) as [Ei Fi]; [lra|rewrite E1; apply Rle_trans with (bpow radix2 200); [apply Rabs_le; lra|apply bpow_le; lia]|].
  rewrite E1 in Ei. set (i1 := Bdiv mode_NE (b64_of 1 0) s) in *.
  assert (I1 : upto 200 i1) by (split; [exact Fi|rewrite Ei; apply rnd_abs; [lia|apply Rabs_le; lra]]).
  assert (I1n : B2R i1 <= 0) by (rewrite Ei; apply rnd_ub; [exact Z0|lra]).
  assert (Bs' : - bpow radix2 106 <= B2R s) by (apply Rabs_le_inv in Bs; lra).
  assert (SS : bpow radix2 (-400) <= B2R s * B2R s <= bpow radix2 212).
  { change (-400)%Z with (-200 + -200)%Z. change 212%Z with (106 + 106)%Z. rewrite !bpow_plus. pose proof (bpow_gt_0 radix2 106). split; nra. }
  destruct (b64_mul_ok s s Fs Fs) as [Ess Fss]; [rewrite Rabs_pos_eq by (apply Rle_0_sqr); apply Rle_trans with (bpow radix2 212); [lra|apply bpow_le; lia]|].
  set (ss := Bmult mode_NE s s) in *.
  assert (SSr : bpow radix2 (-400) <= B2R ss) by (rewrite Ess; apply rnd_lb; [apply fmt_bpow; lia|lra]).
  pose proof (bpow_gt_0 radix2 (-400)) as P400.
  assert (Q2 : 0 < 1 / B2R ss <= bpow radix2 400).
  { split; [apply Rdiv_lt_0_compat; lra|]. unfold Rdiv. rewrite Rmult_1_l. rewrite <- (Rinv_inv (bpow radix2 400)).
    apply Rinv_le; [apply Rinv_0_lt_compat; apply bpow_gt_0|]. rewrite <- bpow_opp. exact SSr. }
  destruct (b64_div_ok (b64_of 1 0) ss F1) as [Ej Fj]; [lra|rewrite E1; apply Rle_trans with (bpow radix2 400); [apply Rabs_le; lra|apply bpow_le; lia]|].
  rewrite E1 in Ej. set (i2 := Bdiv mode_NE (b64_of 1 0) ss) in *.
  assert (I2 : upto 400 i2) by (split; [exact Fj|rewrite Ej; apply rnd_abs; [lia|apply Rabs_le; lra]]).
  assert (I2p : 0 <= B2R i2) by (rewrite Ej; apply rnd_lb; [exact Z0|lra]).
  assert (G : forall k u v, upto 306 k -> upto 206 u -> upto 206 v ->
    upto 900 (Bplus mode_NE (Bmult mode_NE k i1) (Bmult mode_NE (Bmult mode_NE u i2) v)) /\
    (B2R k <= 0 -> u = v -> 0 <= B2R (Bplus mode_NE (Bmult mode_NE k i1) (Bmult mode_NE (Bmult mode_NE u i2) v)))).
  { intros k u v Hk Hu Hv.
    destruct (upto_mul 306 200 k i1 ltac:(lia) Hk I1) as [M1 EM1].
    destruct (upto_mul 206 400 u i2 ltac:(lia) Hu I2) as [M2 EM2].
    destruct (upto_mul 606 206 _ v ltac:(lia) M2 Hv) as [M3 EM3]. cbn [Z.add] in *.
    destruct (upto_add 812 (Bmult mode_NE k i1) (Bmult mode_NE (Bmult mode_NE u i2) v) ltac:(lia)) as [G1 E2];
      [eapply upto_weak; [|exact M1]; lia|exact M3|].
    split; [eapply upto_weak; [|exact G1]; lia|].
    intros Nk ->. rewrite E2. apply rnd_lb; [exact Z0|].
    assert (0 <= B2R (Bmult mode_NE k i1)) by (rewrite EM1; apply rnd_lb; [exact Z0|nra]).
    assert (0 <= B2R (Bmult mode_NE (Bmult mode_NE v i2) v)).
    { rewrite EM3. apply rnd_lb; [exact Z0|]. rewrite EM2.
      destruct (Rle_or_lt 0 (B2R v)) as [Hp|Hp].
      - assert (0 <= rnd (B2R v * B2R i2)) by (apply rnd_lb; [exact Z0|apply Rmult_le_pos; assumption]). apply Rmult_le_pos; assumption.
      - assert (rnd (B2R v * B2R i2) <= 0) by (apply rnd_ub; [exact Z0|nra]). nra. }
    lra. }
  unfold c, match_covariance. fold s.
  change (nmul s s) with ss. change (ndiv none_ ss) with i2. change (ndiv none_ s) with i1.
  cbn [mat3_add mat3_map2 mat3_scale outer3 vec3_scale a00 a01 a02 a10 a11 a12 a20 a21 a22 v0 v1 v2 nadd nmul A BA].
  split; [unfold upto3; cbn [a00 a01 a02 a10 a11 a12 a20 a21 a22]; repeat split; apply G; assumption|].
  split; [apply G; trivial|]. split; apply G; trivial.
Qed.

End B.

(** C24: the covariance is finite, with a diagonal that is not negative, when the
    score returned is at most -2^-200 (a silent map scores 0). *)
Theorem C24_covariance_partial :
  forall (lm : libm) (fuel : nat) (m : matcher b64) (g : ndt b64) (s : scan b64) (p p' : pose b64) (cov cov' : mat3 b64) (r : b64),
  k_ndt m = Some g ->
  (forall q v, ndt_likelihood (A := BA lm) g q = Ok v -> is_finite v = true /\ 0 <= B2R v <= 1) ->
  (1 <= k_beams m)%Z -> s_pts s <> [] -> (Z.of_nat (length (s_pts s)) <= 2 ^ 52)%Z ->
  upto 100 (k_lin_size m) -> is_finite (k_lin_res m) = true -> 0 <= B2R (k_lin_res m) <= bpow radix2 1000 ->
  upto 100 (k_ang_size m) -> is_finite (k_ang_res m) = true -> 0 <= B2R (k_ang_res m) <= bpow radix2 1000 ->
  match_scan (A := BA lm) fuel m s p cov = Ok (r, p', cov') -> B2R r <= - bpow radix2 (-200) ->
  is_finite (a00 cov') = true /\ is_finite (a01 cov') = true /\ is_finite (a02 cov') = true /\
  is_finite (a10 cov') = true /\ is_finite (a11 cov') = true /\ is_finite (a12 cov') = true /\
  is_finite (a20 cov') = true /\ is_finite (a21 cov') = true /\ is_finite (a22 cov') = true /\
  0 <= B2R (a00 cov') /\ 0 <= B2R (a11 cov') /\ 0 <= B2R (a22 cov').
Proof.
  intros lm fuel m g s p p' cov cov' r Hg Hu Hb Hp Hl Ls Lf Lr As Af Ar H Hr.
  unfold match_scan in H. rewrite Hg in H.
  apply bind_ok in H. destruct H as (dths & Hth & H).
  apply bind_ok in H. destruct H as (ds & Hds & H).
  apply bind_ok in H. destruct H as (w & Hw & H). injection H as Er _ Ec.
  assert (Wt : Forall (upto 100) dths).
  { apply (loop_values_window lm (k_ang_size m) (k_ang_res m) As Af Ar fuel _ _ Hth); cbn [nopp BA];
      [rewrite is_finite_Bopp; apply As|rewrite B2R_Bopp; lra]. }
  assert (Wd : Forall (upto 100) ds).
  { apply (loop_values_window lm (k_lin_size m) (k_lin_res m) Ls Lf Lr fuel _ _ Hds); cbn [nopp BA];
      [rewrite is_finite_Bopp; apply Ls|rewrite B2R_Bopp; lra]. }
  rewrite Forall_forall in Wt, Wd.
  assert (I : sums_ok w).
  { refine (foldM_inv sums_ok _ _ _ _ _ _ Hw).
    - intros w0 dth w1 I0 Hin H1. apply bind_ok in H1. destruct H1 as (bp & Hbp & H1). cbv zeta in H1.
      refine (foldM_inv sums_ok _ _ _ _ _ I0 H1). intros w2 dx w3 I2 Hin2 H3.
      refine (foldM_inv sums_ok _ _ _ _ _ I2 H3). intros w4 dy w5 I4 Hin4 H5.
      refine (step_sums lm g _ dth dx dy w4 w5 Hu _ (Wt _ Hin) (Wd _ Hin2) (Wd _ Hin4) I4 H5).
      unfold outer_points. rewrite map_length, (beam_points_length _ _ _ Hbp). unfold beams_used. lia.
    - destruct (b64_ofZ 0 ltac:(cbn; lia)) as [E0 F0].
      assert (EZ : B2R (nzero (A := BA lm)) = 0) by exact E0.
      unfold sums_ok, upto3, mat3_zero, vec3_zero. cbn [w_k w_u w_s w_best a00 a01 a02 a10 a11 a12 a20 a21 a22 v0 v1 v2].
      rewrite EZ. repeat split; try (apply (zero_upto lm)); try exact F0; try (rewrite EZ); try lra. }
  destruct (covariance_ok lm w I) as ((C00 & C01 & C02 & C10 & C11 & C12 & C20 & C21 & C22) & D0 & D1 & D2).
  - destruct I as (_ & _ & _ & _ & _ & (Fb & Bb) & (B1 & B2) & _). apply Rle_trans with (B2R (w_best w)); [exact B1|].
    set (u := beams_used m (s_pts s)) in *.
    assert (Hu1 : (1 <= u <= 2 ^ 52)%Z) by (unfold u, beams_used; destruct (s_pts s); [congruence|cbn [length] in *; lia]).
    destruct (b64_ofZ u ltac:(lia)) as [Eu Fu].
    assert (U1 : 1 <= IZR u) by (apply IZR_le; lia).
    assert (Hi : 0 < / IZR u <= 1) by (split; [apply Rinv_0_lt_compat; lra|rewrite <- Rinv_1; apply Rinv_le; lra]).
    assert (Q : B2R (w_best w) <= B2R (w_best w) / IZR u <= 0) by (unfold Rdiv; nra).
    destruct (b64_div_ok (w_best w) (b64_of u 0) Fb) as [Ed _]; [rewrite Eu; lra| |].
    { rewrite Eu. apply Rle_trans with (Rabs (B2R (w_best w))); [rewrite !Rabs_left1 by lra; lra|].
      eapply Rle_trans; [exact Bb|apply bpow_le; lia]. }
    cbn [ndiv nofZ BA] in Er. rewrite <- Er in Hr. rewrite Ed, Eu in Hr.
    apply Rle_trans with (rnd (B2R (w_best w) / IZR u)); [|exact Hr]. apply rnd_lb; [apply fmt_b64|apply Q].
  - subst cov'. repeat split; try apply C00; try apply C01; try apply C02; try apply C10; try apply C11; try apply C12;
      try apply C20; try apply C21; try apply C22; assumption.
Qed.
Print Assumptions C24_covariance_partial.

(** A search over the map of the cross that satisfies every hypothesis. *)
Definition cov_run (lm : libm) : bool :=
  match add_scans (A := BA lm) eig_ad matcher64 [cross_scan] with
  | Ok m => match match_scan (A := BA lm) 10 m cross_scan (s_pose cross_scan) (mat3_zero (A := BA lm)) with
    | Ok (r, _, _) => is_finite r && Bleb r (b64_of (-1) (-200))
    | Fault _ => false end
  | Fault _ => false end.
Lemma cov_run_true (lm : libm) : cov_run (easy (step_libm lm)) = true.
Proof. vm_compute. reflexivity. Qed.

Example C24_covariance_nonvacuous (lm : libm) :
  let lm := easy (step_libm lm) in
  exists m g r p' cov', k_ndt m = Some g /\
    (forall q v, ndt_likelihood (A := BA lm) g q = Ok v -> is_finite v = true /\ 0 <= B2R v <= 1) /\
    (1 <= k_beams m)%Z /\ s_pts cross_scan <> [] /\ (Z.of_nat (length (s_pts cross_scan)) <= 2 ^ 52)%Z /\
    upto 100 (k_lin_size m) /\ is_finite (k_lin_res m) = true /\ 0 <= B2R (k_lin_res m) <= bpow radix2 1000 /\
    upto 100 (k_ang_size m) /\ is_finite (k_ang_res m) = true /\ 0 <= B2R (k_ang_res m) <= bpow radix2 1000 /\
    match_scan (A := BA lm) 10 m cross_scan (s_pose cross_scan) (mat3_zero (A := BA lm)) = Ok (r, p', cov') /\
    B2R r <= - bpow radix2 (-200).
Proof.
  intros lm'. destruct (C120_nonvacuous lm) as (Hx & He & m & g & Ad & Hg & Hn & Hmod & Hw & Hsp & Hlen).
  pose proof (cov_run_true lm) as H. fold lm' in Hx, Ad, Hw, Hsp, Hlen, H. clearbody lm'. unfold cov_run in H. rewrite Ad in H.
  destruct (match_scan (A := BA lm') 10 m cross_scan (s_pose cross_scan) (mat3_zero (A := BA lm'))) as [[[r p'] cov']|] eqn:Hm; [|discriminate H].
  apply andb_true_iff in H. destruct H as [Fr Hr].
  assert (B1 : 1 <= bpow radix2 80) by (apply (bpow_le radix2 0 80); lia).
  assert (B2 : bpow radix2 (-80) <= 1) by (apply (bpow_le radix2 (-80) 0); lia).
  pose proof (built_unit lm' eig_ad matcher64 m g [cross_scan] 1 He Hx Ad Hg Hn Hmod (conj B2 B1) Hlen Hw Hsp) as Hu.
  assert (K : k_ang_size m = half64 /\ k_ang_res m = z64 1 /\ k_lin_size m = half64 /\ k_lin_res m = z64 1 /\ k_beams m = 100%Z).
  { unfold add_scans in Ad. apply bind_ok in Ad. destruct Ad as (g0 & _ & Ad). cbv zeta in Ad.
    repeat (apply bind_ok in Ad; destruct Ad as (? & _ & Ad)). injection Ad as <-. repeat split. }
  exists m, g, r, p', cov'. destruct K as (-> & -> & -> & -> & ->).
  assert (Zh : 0 <= B2R half64 <= 1).
  { cbn. unfold F2R. cbn. lra. }
  assert (B3 : 1 <= bpow radix2 100) by (apply (bpow_le radix2 0 100); lia).
  assert (B4 : 1 <= bpow radix2 1000) by (apply (bpow_le radix2 0 1000); lia).
  assert (Z1 : B2R (z64 1) = 1) by (unfold z64; exact (proj1 (b64_ofZ 1 ltac:(lia)))).
  assert (Uh : upto 100 half64) by (split; [reflexivity|apply Rabs_le; lra]).
  split; [exact Hg|]. split; [exact Hu|]. split; [lia|]. split; [discriminate|]. split; [cbn; lia|].
  split; [exact Uh|]. split; [reflexivity|]. split; [rewrite Z1; lra|].
  split; [exact Uh|]. split; [reflexivity|]. split; [rewrite Z1; lra|]. split; [exact Hm|].
  assert (F1 : is_finite (b64_of (-1) (-200)) = true) by reflexivity.
  rewrite Bleb_correct in Hr by assumption. revert Hr. case Rle_bool_spec; [|discriminate]. intros Hr _.
  eapply Rle_trans; [exact Hr|]. apply Req_le.
  assert (E : F2R (Float radix2 (-1) (-200)) = - bpow radix2 (-200)) by (unfold F2R; cbn [Fnum Fexp]; lra).
  destruct (b64_of_exact (-1) (-200)) as [Ev _].
  - rewrite E. apply fmt_opp, fmt_bpow. lia.
  - rewrite E, Rabs_Ropp, Rabs_pos_eq by apply bpow_ge_0. apply bpow_le. lia.
  - rewrite Ev. exact E.
Qed.
